(* utility/mmsp2topo.cpp: the grains of a microstructure and their topology.
   Modelled: everything between reading the file and the table written to it, on the grid as read (serial build: the storage has no
   ghosts).  Floats are modelled by rational numbers with exact arithmetic.  Not modelled: the text of the numbers of the table.
   The report on the screen is in Model/Report.v. *)
From Coq Require Import QArith.QArith QArith.Qcanon.
From Verif Require Import Model.Base Model.Num Model.Layout Model.Access Model.Sparse Model.Evolve Model.Stencil Model.Spin Model.Topology Model.Tessellate.
Local Open Scope Z_scope.

(* conversion to id_type = unsigned short *)
Definition short (n : Z) : Z := Z.modulo n 65536.
(* grains.insert(make_pair(i, Grain(i))).first->second, updated with f: a grain already there is kept *)
Definition grains := list (Z * grain).
Definition insert_grain (i : Z) (f : grain -> grain) (m : grains) : grains := oupdate Z.ltb (grain_new i) f i m.
(* grains.find(i)->second, updated with f; None: the iterator is grains.end() *)
Definition find_grain (i : Z) (f : grain -> grain) (m : grains) : option grains :=
  do _ <- guard (existsb (fun it => fst it =? i) m); Some (insert_grain i f m).
(* :147, :162, :200, :215: Point<int>(x[0], x[1]) and Point<int>(x[0], x[1], x[2]) *)
Definition point_of (x : list Z) : list Z := match x with [a; b] => [a; b; 0] | _ => x end.

Section Topo.
Context (axs : list axis) (data : list (sobj Qc)).
Definition dimension : Z := zlen axs.

(* :38, :40, :48: the limits tested in the loops *)
Fixpoint inside_local (axs : list axis) (x : list Z) : bool :=
  match axs, x with
  | a :: axs', c :: x' => negb ((c <? a_x0 a) || (a_x1 a <=? c)) && inside_local axs' x'
  | _, _ => true
  end.
(* :32-60: check_neighbors(me, v, data, adjacent); the loops run over v + o for the offsets o.  The grain at v is passed as an
   id_type, compared with an unsigned int *)
Definition check_neighbors (m : Z) (v : list Z) : option idset :=
  fold_opt (fun adjacent o =>
    let x := vadd v o in
    if negb (inside_local axs x) then Some adjacent
    else if forallb (fun d => d =? 0) o then Some adjacent
    else
      do c <- grid_read false axs data x;
      do i <- grain_id num_Qc c;
      if i =? m then Some adjacent
      else if (dimension =? 3) && forallb (fun d => negb (d =? 0)) o then Some adjacent
      else Some (oinsert Z.ltb (short i) adjacent)) (offsets (length axs)) [].

(* :144-145, :197-198 *)
Definition span_of (s : Qc * Qc) (phi : Qc) : Qc * Qc :=
  if qgt (fst s) phi then (phi, snd s) else if qgt phi (snd s) then (fst s, phi) else s.
(* :146-155, :199-208: the mass of the major phase, then of the others *)
Definition add_masses (c : sobj Qc) (major : Z) (phi : Qc) (x : list Z) (m : grains) : option grains :=
  let p := map q_of (point_of x) in
  fold_opt (fun m h =>
    do k <- sindex c h;
    let minor := short k in
    if minor =? major then Some m
    else
      do v <- sread num_Qc c minor;
      Some (insert_grain minor (add_mass v p) m)) (zrange 0 (zlen c)) (insert_grain major (add_mass phi p) m).
(* :159-169 and :212-219 *)
Definition add_boundary (major : Z) (neighbors : idset) (x : list Z) (m : grains) : option grains :=
  if zlen neighbors =? dimension - 1 then
    do m <- find_grain major (update_edges neighbors (point_of x)) m;
    if dimension =? 3 then fold_opt (fun m j => find_grain major (add_neighbor j) m) neighbors m else Some m
  else if (dimension =? 2) && (zlen neighbors =? dimension) then
    fold_opt (fun m j => find_grain j (update_vertices neighbors) m) neighbors m
  else Some m.
(* :140-170, :193-220: one pass of the loop over the nodes *)
Definition visit (st : grains * (Qc * Qc)) (i : Z) : option (grains * (Qc * Qc)) :=
  let (m, s) := st in
  let x := position axs i in
  do c <- grid_read_int false axs data i;
  do g <- grain_id num_Qc c;
  let major := short g in
  do phi <- sread num_Qc c major;
  do m <- add_masses c major phi x m;
  do neighbors <- check_neighbors major x;
  do m <- add_boundary major neighbors x m;
  Some (m, span_of s phi).
(* :106: min_phi = 1, max_phi = 0 *)
Definition scan : option (grains * (Qc * Qc)) := fold_opt visit (zrange 0 (nodes axs)) ([], (1%Qc, 0%Qc)).

(* :233-246: small grains are excluded *)
Definition exclude_small (m : grains) : grains :=
  map (fun it => (fst it, if negb (excluded (snd it)) && qgt 1%Qc (volume (snd it)) then set_exclusion true (snd it) else snd it)) m.
(* :295-338: the topology of every grain, and the lengths of the longest p-vector and list of neighbours *)
Definition analyse (m : grains) : option (grains * Z * Z) :=
  fold_opt (fun '(done, maxp, maxN) it =>
    do r <- compute_topology dimension (snd it);
    let '(g, stats) := r in
    do s0 <- get stats 0; do s2 <- get stats 2; do s3 <- get stats 3;
    let g := if s0 =? -1 then set_exclusion true g else g in
    let g := if num_edges g =? 0 then set_exclusion true g else g in
    Some (done ++ [(fst it, g)], if maxp <? s2 then s2 else maxp, if maxN <? s3 then s3 else maxN)) m ([], 0, 0).

(* a field of the table between commas: a number, or nothing *)
Inductive cell := Num (q : Qc) | Blank.
Definition num_of (z : Z) : cell := Num (q_of z).
(* Point<int> x = g.getCentroid(): outside the range of int the conversion is undefined *)
Definition centre (g : grain) : option (list Z) :=
  do c <- get_centroid g;
  map_opt (fun q => let z := truncZ q in do _ <- guard ((- 2147483648 <=? z) && (z <=? 2147483647)); Some z) c.
(* algorithms/topology/topology.cpp:205-264: printCSV; an empty result: nothing is written *)
Definition print_csv (g : grain) (p N : Z) : option (list (list cell)) :=
  let blanks n := map (fun _ => Blank) (zrange n N) in
  let zeros n := map (fun _ => num_of 0) (zrange n p) in
  if dimension =? 2 then
    let ends := do es <- map_opt (fun e => get (fst e) 0) (edges g); Some (map num_of es ++ blanks (num_edges g)) in
    if excluded g then
      do x <- centre g;
      do _ <- guard (1 <? zlen (pvector g));
      do es <- ends;
      Some [num_of (me g) :: map num_of (firstn 2 x) ++ [Num (volume g); num_of 0; num_of 1; num_of 0; num_of 0] ++ zeros 2 ++ es]
    else if (num_verts g <? 1) || (num_edges g <? 2) then Some []
    else
      do x <- centre g;
      do _ <- guard (1 <? zlen (pvector g));
      do es <- ends;
      Some [num_of (me g) :: map num_of (firstn 2 x) ++
            [num_of 0; Num (volume g); num_of (num_verts g); num_of (num_faces g); num_of (num_edges g); num_of (get_euler g)] ++
            map num_of (skipn 2 (pvector g)) ++ zeros (zlen (pvector g)) ++ es]
  else
    let ends := map num_of (faces g) ++ blanks (num_faces g) in
    if excluded g && (0 <? num_faces g) then
      do x <- centre g;
      do _ <- guard (1 <? zlen (pvector g));
      Some [num_of (me g) :: map num_of (firstn 3 x) ++ [Num (volume g); num_of 0; num_of (num_faces g); num_of 0; num_of 0] ++ zeros 2 ++ ends]
    else if (num_verts g <? 2) || (num_edges g <? 3) || (num_faces g <? 3) then Some []
    else
      do x <- centre g;
      do _ <- guard (1 <? zlen (pvector g));
      Some [num_of (me g) :: map num_of (firstn 3 x) ++
            [Num (volume g); num_of (num_verts g); num_of (num_faces g); num_of (num_edges g); num_of (get_euler g)] ++
            map num_of (skipn 2 (pvector g)) ++ zeros (zlen (pvector g)) ++ ends].
(* :348-351: the titles of the columns: the nine fixed ones, p2.. and N0.. *)
Inductive title := Fixed (n : Z) | Pcol (i : Z) | Ncol (i : Z).
Definition titles (maxp maxN : Z) : list title := map Fixed (zrange 0 9) ++ map Pcol (zrange 2 maxp) ++ map Ncol (zrange 0 maxN).
(* :352-377: the grains that are not excluded, an empty line, the others *)
Definition table (m : grains) (maxp maxN : Z) : option (list (list cell) * list (list cell)) :=
  do bulk <- map_opt (fun it => if excluded (snd it) then Some [] else print_csv (snd it) maxp maxN) m;
  do rest <- map_opt (fun it => if excluded (snd it) then do g <- estimate_centroid dimension (snd it); print_csv g maxp maxN else Some []) m;
  Some (concat bulk, concat rest).
(* :106-377 *)
Definition mmsp2topo : option (list title * list (list cell) * list (list cell) * (Qc * Qc)) :=
  do r <- scan;
  let (m, s) := r in
  do r <- analyse (exclude_small m);
  let '(m, maxp, maxN) := r in
  do t <- table m maxp maxN;
  Some (titles maxp maxN, fst t, snd t, s).
End Topo.
