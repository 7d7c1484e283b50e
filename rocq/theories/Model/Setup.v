From Verif Require Import Model.Base Model.Boundary Model.Layout.

(* ---- include/MMSP.grid.cpp:141-327: grid<dim,T>::setup ---- *)

(* global box of one axis *)
Record gaxis := mkG { gx_0 : Z; gx_1 : Z }.
Definition glen (g : gaxis) : Z := gx_1 g - gx_0 g.

(* :172-182: integral factors of np *)
Definition factors (np : Z) : list Z :=
  filter (fun i => Z.quot np i * i =? np) (zrange 1 (np + 1)).

(* :185-190: area[i] = product of the other axes' lengths *)
Definition area (gs : list gaxis) (i : nat) : Z :=
  prodZ (map (fun j => if Nat.eqb i j then 1 else
                        match nth_error gs j with Some g => glen g | None => 1 end)
             (seq 0 (length gs))).

(* :201-209: combination number [total] as [d] digits in base nfac *)
Fixpoint combo (d : nat) (nfac total : Z) : list Z :=
  match d with
  | O => []
  | S d' =>
      let slice := nfac ^ Z.of_nat d' in
      let c := Z.quot total slice in
      c :: combo d' nfac (total - c * slice)
  end.

(* :218-220: ghost area of a candidate processor grid *)
Fixpoint ghost_area (gs : list gaxis) (i : nat) (p : list Z) : Z :=
  match p with
  | [] => 0
  | q :: p' => area gs i * (1 + q) + ghost_area gs (S i) p'
  end.

(* :200-228: one iteration of the search; state = (minarea, p1) *)
Definition search_step (np : Z) (gs : list gaxis) (fs : list Z)
    (st : Z * list Z) (i : Z) : option (Z * list Z) :=
  do p <- map_opt (get fs) (combo (length gs) (zlen fs) i);
  if prodZ p =? np then
    let test := ghost_area gs 0 p in
    if (test <? fst st) || (fst st <? 0) then Some (test, p) else Some st
  else Some st.

(* :192-228: chosen p1 (initially all ones, :155) *)
Definition choose_p1 (np : Z) (gs : list gaxis) : option (list Z) :=
  let fs := factors np in
  let ncom := zlen fs ^ zlen gs in
  do st <- fold_opt (search_step np gs fs) (zrange 0 ncom) (-1, map (fun _ => 1) gs);
  Some (snd st).

(* :237-241: sp[i] = product of the later p1 *)
Fixpoint slices (p1 : list Z) : list Z :=
  match p1 with [] => [] | _ :: t => prodZ t :: slices t end.

(* :246-250: position of [rank] in the processor grid *)
Fixpoint rank_pos (sp : list Z) (total : Z) : list Z :=
  match sp with
  | [] => []
  | s :: t => let p := Z.quot total s in p :: rank_pos t (total - p * s)
  end.

(* :252-271: local limits on one axis *)
Definition local_limits (g : gaxis) (p1 pos : Z) : Z * Z :=
  let nom := Z.quot (glen g) p1 in
  let rem := glen g - p1 * nom in
  let x0 := gx_0 g + pos * nom in
  if 0 <? rem then
    if pos <? rem then (x0 + pos, x0 + pos + nom + 1)
    else if pos =? rem then (x0 + pos, x0 + pos + nom)
    else (x0 + rem, x0 + rem + nom)
  else (x0, x0 + nom).

Fixpoint dotZ (a b : list Z) : Z :=
  match a, b with x :: a', y :: b' => x * y + dotZ a' b' | _, _ => 0 end.

(* :275-291: neighbouring ranks below and above on axis i *)
Definition neighbor_below (p1 sp pos : list Z) (i : nat) : Z :=
  let pi := nth i pos 0 in let ni := nth i p1 0 in
  dotZ sp (set_nth i pos (Z.rem (pi - 1 + ni) ni)).
Definition neighbor_above (p1 sp pos : list Z) (i : nat) : Z :=
  let pi := nth i pos 0 in let ni := nth i p1 0 in
  dotZ sp (set_nth i pos (Z.rem (pi + 1) ni)).

(* :294-297: flags of one axis; the default is periodic (:149-150) *)
Definition axis_limits (g : gaxis) (p1 pos : Z) : limits :=
  let (x0, x1) := local_limits g p1 pos in
  mkLim (gx_0 g) (gx_1 g) x0 x1
        (if x0 =? gx_0 g then periodic else parallel)
        (if x1 =? gx_1 g then periodic else parallel).

Fixpoint zip_limits (gs : list gaxis) (p1 pos : list Z) : list limits :=
  match gs, p1, pos with
  | g :: gs', p :: p1', q :: pos' => axis_limits g p q :: zip_limits gs' p1' pos'
  | _, _, _ => []
  end.

(* Result of setup on one rank: layout and the processor members. *)
Record geom := mkGeom {
  ge_axes : list axis;
  ge_ghosts : Z;
  ge_p1 : list Z;
  ge_sp : list Z;
  ge_pos : list Z;
  ge_n0 : list Z;
  ge_n1 : list Z
}.

(* setup(SINGLE=false), MPI build *)
Definition setup_mpi (np : Z) (gs : list gaxis) (ghosts : Z) (rank : Z) : option geom :=
  do p1 <- choose_p1 np gs;
  let sp := slices p1 in
  let pos := rank_pos sp rank in
  let dims := seq 0 (length gs) in
  Some (mkGeom (lay ghosts (zip_limits gs p1 pos)) ghosts p1 sp pos
               (map (neighbor_below p1 sp pos) dims)
               (map (neighbor_above p1 sp pos) dims)).

(* setup in the serial build, and setup(SINGLE=true) in the MPI build (:145-160 only) *)
Definition serial_limits (g : gaxis) : limits :=
  mkLim (gx_0 g) (gx_1 g) (gx_0 g) (gx_1 g) periodic periodic.
Definition setup_single (gs : list gaxis) (ghosts : Z) : geom :=
  mkGeom (lay ghosts (map serial_limits gs)) ghosts
         (map (fun _ => 1) gs) (map (fun _ => 1) gs) (map (fun _ => 0) gs)
         (map (fun _ => 0) gs) (map (fun _ => 0) gs).
