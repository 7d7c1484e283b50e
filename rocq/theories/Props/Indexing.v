(* C01-C05: what a coordinate or index addresses. *)
From Verif Require Import Model.Base Model.Boundary Model.Layout Model.Access Spec.Box Spec.Fold Spec.Access
  Proof.BaseL Proof.LayoutL Proof.AccessL.

(* C01: writing at an in-range coordinate changes the value read at that coordinate and at no other,
   in every build, for every box, ghost width and boundary conditions; it never leaves the storage. *)
Theorem C01_inrange_access : forall T mpi g ls (data : list T) x v,
  0 <= g -> Forall (fun l => l_x0 l <= l_x1 l) ls -> zlen data = cells (lay g ls) ->
  in_box (map l_x0 ls) (map l_x1 ls) x ->
  exists data',
    grid_write mpi (lay g ls) data x v = Some data' /\
    zlen data' = zlen data /\
    grid_read mpi (lay g ls) data' x = Some v /\
    (forall y, in_box (map l_x0 ls) (map l_x1 ls) y -> y <> x ->
       grid_read mpi (lay g ls) data' y = grid_read mpi (lay g ls) data y /\
       grid_read mpi (lay g ls) data y <> None).
Proof. exact @inrange_access. Qed.
Print Assumptions C01_inrange_access.

(* C01, second half: the addressed cell does not depend on the boundary conditions. *)
Theorem C01_bc_independent : forall mpi x x0 x1 b0 b1, x0 <= x < x1 ->
  check_boundary mpi x x0 x1 b0 b1 = x.
Proof. exact check_boundary_in. Qed.
Print Assumptions C01_bc_independent.

Example C01_case :
  let ls := [mkLim 0 8 4 8 parallel periodic; mkLim 0 3 0 3 Neumann mirror] in
  Forall (fun l => l_x0 l <= l_x1 l) ls /\ in_box (map l_x0 ls) (map l_x1 ls) [5; 2] /\
  grid_read true (lay 1 ls) (zrange 100 130) [5; 2] = Some 113 /\ cells (lay 1 ls) = 30.
Proof. repeat constructor; simpl; try lia; discriminate. Qed.

(* C02: serial build; a coordinate within one domain length addresses the cell of its image. *)
Theorem C02_one_fold : forall T g ls (data : list T) x,
  0 <= g -> zlen data = cells (lay g ls) -> Forall2 foldable ls x ->
  exists y, Forall2 image_of ls (combine x y) /\ length y = length x /\
    grid_read false (lay g ls) data x = grid_read false (lay g ls) data y /\
    grid_read false (lay g ls) data x <> None /\
    (forall v, grid_write false (lay g ls) data x v = grid_write false (lay g ls) data y v).
Proof. exact @fold_access. Qed.
Print Assumptions C02_one_fold.

Example C02_case :
  let ls := [mkLim 0 4 0 4 periodic periodic; mkLim 2 5 2 5 mirror Neumann] in
  Forall2 foldable ls [-2; 1] /\ Forall2 foldable ls [5; 6] /\
  grid_read false (lay 0 ls) (zrange 0 12) [-2; 1] = Some 7 /\
  grid_read false (lay 0 ls) (zrange 0 12) [2; 3] = Some 7.
Proof.
  split; [|split; [|split; reflexivity]]; repeat constructor; simpl; unfold periodic, mirror, Neumann; lia.
Qed.

(* C03 is false: a periodic grid accessed two lengths away leaves its storage. *)
Theorem C03_any_coordinate_refuted :
  exists ls (data : list Z) x,
    Forall (fun l => l_x0 l < l_x1 l /\ l_b0 l = periodic /\ l_b1 l = periodic) ls /\
    length x = length ls /\ zlen data = cells (lay 0 ls) /\
    grid_read false (lay 0 ls) data x = None.
Proof.
  exists [mkLim 0 4 0 4 periodic periodic], [0;0;0;0], [8].
  repeat split; try reflexivity. repeat constructor; simpl; lia.
Qed.
Print Assumptions C03_any_coordinate_refuted.

(* C03: the same for a mirror boundary on a domain of one cell, already for the nearest neighbour. *)
Theorem C03_mirror_single_cell_refuted :
  exists ls (data : list Z) x,
    Forall (fun l => l_x0 l < l_x1 l /\ l_b0 l = mirror /\ l_b1 l = mirror) ls /\
    Forall2 (fun l c => l_x0 l - 1 <= c <= l_x1 l) ls x /\ zlen data = cells (lay 0 ls) /\
    grid_read false (lay 0 ls) data x = None.
Proof.
  exists [mkLim 0 1 0 1 mirror mirror], [7], [-1].
  repeat split; try reflexivity; repeat constructor; simpl; lia.
Qed.
Print Assumptions C03_mirror_single_cell_refuted.

(* C04: MPI build; every access into the halo stays in the storage, and for periodic/parallel sides it is
   the storage cell of that very coordinate. *)
Theorem C04_halo_access : forall T g ls (data : list T) x,
  0 <= g -> Forall (fun l => l_x0 l < l_x1 l) ls -> zlen data = cells (lay g ls) ->
  in_box (map (fun l => l_x0 l - g) ls) (map (fun l => l_x1 l + g) ls) x ->
  grid_read true (lay g ls) data x <> None /\
  (Forall2 through ls x -> grid_read true (lay g ls) data x = get data (encode (lay g ls) x)).
Proof. exact @halo_access. Qed.
Print Assumptions C04_halo_access.

(* storage offsets of different storage coordinates differ *)
Theorem C04_storage_injective : forall g axs x y,
  wf_axes g axs -> in_box (map a_s0 axs) (map a_s1 axs) x ->
  in_box (map a_s0 axs) (map a_s1 axs) y -> encode axs x = encode axs y -> x = y.
Proof. exact encode_inj. Qed.
Print Assumptions C04_storage_injective.

Example C04_case :
  let ls := [mkLim 0 8 4 8 parallel periodic; mkLim 0 3 0 3 mirror Dirichlet] in
  Forall (fun l => l_x0 l < l_x1 l) ls /\
  in_box (map (fun l => l_x0 l - 2) ls) (map (fun l => l_x1 l + 2) ls) [2; 1] /\
  Forall2 through ls [2; 1].
Proof.
  split; [repeat constructor; simpl; lia|]. split; [simpl; lia|].
  constructor; [|constructor; [|constructor]]; unfold through, periodic, parallel; simpl; lia.
Qed.

(* C05: the three forms of access agree. *)
Theorem C05_chain_is_vector : forall mpi axs x p,
  length x = length axs -> addr_chain mpi axs 0 p x = addr_vec mpi axs x p.
Proof. exact addr_chain_vec. Qed.
Print Assumptions C05_chain_is_vector.

Theorem C05_index_is_position : forall T mpi g ls (data : list T) i,
  0 <= g -> (mpi = false -> g = 0) -> Forall (fun l => l_x0 l <= l_x1 l) ls ->
  0 <= i < nodes (lay g ls) ->
  grid_read_int mpi (lay g ls) data i = grid_read mpi (lay g ls) data (position (lay g ls) i) /\
  (forall v, grid_write_int mpi (lay g ls) data i v
             = grid_write mpi (lay g ls) data (position (lay g ls) i) v).
Proof. exact @read_int_position. Qed.
Print Assumptions C05_index_is_position.

(* position is a bijection between 0..nodes-1 and the local box ... *)
Theorem C05_position_into : forall g axs i, wf_axes g axs -> 0 <= i < nodes axs ->
  in_box (map a_x0 axs) (map a_x1 axs) (position axs i) /\
  (forall j, 0 <= j < nodes axs -> position axs j = position axs i -> j = i).
Proof. exact position_into. Qed.
Print Assumptions C05_position_into.

Theorem C05_position_onto : forall g axs x, wf_axes g axs ->
  in_box (map a_x0 axs) (map a_x1 axs) x ->
  exists i, 0 <= i < nodes axs /\ position axs i = x.
Proof. exact position_onto. Qed.
Print Assumptions C05_position_onto.

(* ... in row-major order *)
Theorem C05_position_row_major : forall g axs i j, wf_axes g axs ->
  0 <= i < nodes axs -> 0 <= j < nodes axs ->
  (i < j <-> lex_lt (position axs i) (position axs j)).
Proof. exact position_row_major. Qed.
Print Assumptions C05_position_row_major.

(* every grid built by setup is well formed *)
Theorem C05_layout_wf : forall g ls, Forall (fun l => l_x0 l <= l_x1 l) ls ->
  wf_axes g (lay g ls) /\ nodes (lay g ls) = prodZ (map (fun m => l_x1 m - l_x0 m) ls) /\
  cells (lay g ls) = prodZ (map (fun m => (l_x1 m + g) - (l_x0 m - g)) ls).
Proof. exact layout_wf. Qed.
Print Assumptions C05_layout_wf.

Example C05_case :
  let axs := lay 1 [mkLim 0 8 4 8 parallel periodic; mkLim 0 3 0 3 Neumann mirror] in
  nodes axs = 12 /\ map (position axs) (zrange 0 4) = [[4;0];[4;1];[4;2];[5;0]].
Proof. split; reflexivity. Qed.
