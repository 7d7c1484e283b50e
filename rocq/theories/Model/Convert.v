(* utility/MC2PF.cpp, PF2MC.cpp, MC2sPF.cpp, sPF2MC.cpp, PF2sPF.cpp, sPF2PF.cpp, MC2vox.cpp, vox2MC.cpp: converters between
   grids of integers (MC), of vectors (PF) and of sparse objects (sPF), and voxel text.  Serial build.
   double is modelled by Qc.  Checks of the command line, of the type and of the file system are left out. *)
From Coq Require Import String QArith Qcanon.
From Verif Require Import Model.Base Model.Text Model.Num Model.Boundary Model.Layout Model.Setup Model.Sparse Model.Evolve.
Local Open Scope string_scope.
Local Open Scope list_scope.
Local Open Scope Z_scope.

(* a grid object of the serial build: fields, layout, spacing, cells *)
Record sgrid (T : Type) := mkS { sg_fields : Z; sg_axes : list axis; sg_dx : list Qc; sg_data : list T }.
Arguments mkS {T}. Arguments sg_fields {T}. Arguments sg_axes {T}. Arguments sg_dx {T}. Arguments sg_data {T}.

(* include/MMSP.grid.cpp:44-69: grid(fields, x0, x1, ...): fresh is a cell as left by the constructor and resize *)
Definition new_grid {T} (fresh : T) (fields : Z) (gs : list gaxis) : sgrid T :=
  let axs := ge_axes (setup_single gs 0) in
  mkS fields axs (map (fun _ => 1%Qc) gs) (repeat fresh (Z.to_nat (cells axs))).
(* x0(grid), x1(grid), y0(grid), ... *)
Definition box_of (axs : list axis) : list gaxis := map (fun a => mkG (a_x0 a) (a_x1 a)) axs.

(* for (int i = 0; i < nodes(grid1); i++) with grid1(i) read and grid2(i) changed *)
Definition each {T U} (src : list T) (n : Z) (f : T -> U -> option U) (dst : list U) : option (list U) :=
  fold_opt (fun dst i => do v <- get src i; do r <- get dst i; do r <- f v r; put dst i r) (zrange 0 n) dst.
(* grid2 is filled node by node *)
Definition fill_from {T U} (g1 : sgrid T) (g2 : sgrid U) (f : T -> U -> option U) : option (sgrid U) :=
  do d <- each (sg_data g1) (nodes (sg_axes g1)) f (sg_data g2);
  Some (mkS (sg_fields g2) (sg_axes g2) (sg_dx g2) d).

(* MC2PF.cpp:93-97, 116-120, 141-145 *)
Definition max_id (g : sgrid Z) : option Z :=
  fold_opt (fun fields i => do v <- get (sg_data g) i; Some (if v >? fields then v else fields)) (zrange 0 (nodes (sg_axes g))) 0.
(* MC2PF.cpp:88-155.  junk: the value of an element of vector<double> that was never assigned *)
Definition MC2PF (junk : Qc) (g : sgrid Z) : option (sgrid (list Qc)) :=
  do m <- max_id g;
  let fields := m + 1 in
  fill_from g (new_grid (repeat junk (Z.to_nat fields)) fields (box_of (sg_axes g)))
    (fun index row =>
       do row <- fold_opt (fun row j => put row j 0%Qc) (zrange 0 fields) row;
       put row index 1%Qc).

(* PF2MC.cpp:87-157 *)
Definition PF2MC (junk : Z) (g : sgrid (list Qc)) : option (sgrid Z) :=
  fill_from g (new_grid junk 1 (box_of (sg_axes g)))
    (fun row _ =>
       do m <- get row 0;
       do r <- fold_opt (fun (st : Z * Qc) j => do value <- get row j; Some (if qgt value (snd st) then (j, value) else st))
                 (zrange 0 (sg_fields g)) (0, m);
       Some (fst r)).

(* MC2sPF.cpp:96-139 *)
Definition MC2sPF (g : sgrid Z) : option (sgrid (sobj Qc)) :=
  fill_from g (new_grid [] 0 (box_of (sg_axes g))) (fun index o => sset_op num_Qc o index (fun _ => 1%Qc)).

(* sPF2MC.cpp:87-157 *)
Definition sPF2MC (junk : Z) (g : sgrid (sobj Qc)) : option (sgrid Z) :=
  fill_from g (new_grid junk 1 (box_of (sg_axes g)))
    (fun o _ =>
       do r <- fold_opt (fun (st : Z * Qc) j =>
                 do value <- svalue o j;
                 if qgt value (snd st) then do k <- sindex o j; Some (k, value) else Some st)
               (zrange 0 (zlen o)) (0, 0%Qc);
       Some (fst r)).

(* PF2sPF.cpp:87-136 *)
Definition epsilon : Qc := Q2Qc (1 # 100000000).
Definition PF2sPF (g : sgrid (list Qc)) : option (sgrid (sobj Qc)) :=
  fill_from g (new_grid [] 0 (box_of (sg_axes g)))
    (fun row o =>
       fold_opt (fun o j => do v <- get row j; if qgt v epsilon then sset_op num_Qc o j (fun _ => v) else Some o)
         (zrange 0 (sg_fields g)) o).

(* sPF2PF.cpp:92-100, 123-131, 156-164 *)
Definition max_index (g : sgrid (sobj Qc)) : option Z :=
  fold_opt (fun fields i =>
    do o <- get (sg_data g) i;
    fold_opt (fun fields j => do k <- sindex o j; Some (if k >? fields then k else fields)) (zrange 0 (zlen o)) fields)
    (zrange 0 (nodes (sg_axes g))) 0.
(* sPF2PF.cpp:87-178; :166: for dim == 3 grid2 is a grid<2, ...>, which takes the limits of the first two axes *)
Definition sPF2PF (junk : Qc) (g : sgrid (sobj Qc)) : option (sgrid (list Qc)) :=
  do m <- max_index g;
  let fields := m + 1 in
  let gs := box_of (sg_axes g) in
  let gs := if (List.length gs =? 3)%nat then firstn 2 gs else gs in
  fill_from g (new_grid (repeat junk (Z.to_nat fields)) fields gs)
    (fun o row =>
       do row <- fold_opt (fun row j => put row j 0%Qc) (zrange 0 fields) row;
       fold_opt (fun row j => do k <- sindex o j; do v <- svalue o j; put row k v) (zrange 0 (zlen o)) row).

(* MC2vox.cpp:101-102: the number of different values *)
Definition distinct (l : list Z) : Z := zlen (nodup Z.eq_dec l).
(* MC2vox.cpp:112-120: the text of the cells; count: number of cells in the current line *)
Fixpoint vox_text (count : Z) (data : list Z) : list byte :=
  match data with
  | [] => []
  | v :: t => let count := count + 1 in
              show_int v ++ [32] ++ (if count =? 20 then 10 :: vox_text 0 t else vox_text count t)
  end.
(* MC2vox.cpp:96-121: the contents of the voxel file; 9 is the tab character *)
Definition MC2vox (g : sgrid Z) : option (list byte) :=
  match map (fun a => a_x1 a - a_x0 a) (sg_axes g) with
  | [nx; ny; nz] =>
      do cs <- map_opt (get (sg_data g)) (zrange 0 (nodes (sg_axes g)));
      Some (show_int nx ++ [32] ++ show_int ny ++ [32] ++ show_int nz ++ [10] ++
            bytes "'grwXXX'" ++ [9; 9; 9; 9] ++ bytes "52.00 1.000 1.0" ++ [9; 9] ++ show_int (distinct cs) ++ [10] ++
            bytes "3.000 0.000 0.000" ++ [9; 9; 9] ++ bytes "0" ++ [10] ++ vox_text 0 cs)
  | _ => None
  end.
(* vox2MC.cpp:36-50: the grid; a failed extraction sets the variable to zero (and the next ones fail too) *)
Definition read_int0 (s : list byte) : Z * list byte := match read_int s with Some r => r | None => (0, []) end.
Definition vox2MC (junk : Z) (file : list byte) : option (sgrid Z) :=
  let (nx, s) := read_int0 file in
  let (ny, s) := read_int0 s in
  let (nz, s) := read_int0 s in
  let (_, s) := getline s in
  let (_, s) := getline s in
  let (_, s) := getline s in
  let g := new_grid junk 1 [mkG 0 nx; mkG 0 ny; mkG 0 nz] in
  do r <- fold_opt (fun (st : list Z * list byte) i =>
            let (v, s) := read_int0 (snd st) in do d <- put (fst st) i v; Some (d, s))
          (zrange 0 (nodes (sg_axes g))) (sg_data g, s);
  Some (mkS (sg_fields g) (sg_axes g) (sg_dx g) (fst r)).
