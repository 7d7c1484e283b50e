(* C40, C41, C61: Voronoi tessellation, seed exchange, seed files and random seeds. *)
From Coq Require Import QArith Qcanon Permutation.
From Verif Require Import Model.Base Model.Boundary Model.Layout Model.Access Model.Setup Model.Num Model.Sparse Model.Codec Model.MPI Model.Ghostswap Model.Simulate Model.Tessellate
  Spec.Box Spec.Access Spec.Bytes Spec.Decomp Spec.Schedule Spec.Tessellate Proof.BaseL Proof.SetupL Proof.ExecL Proof.TessellateL Proof.TessellateF.
Local Open Scope Z_scope.

(* C40, C41.  local r: seeds contributed by rank r.  Whatever the number of ranks, the decomposition, the boundary conditions and the
   schedule, every rank ends with the seed lists of all ranks in rank order, and every node carries a single label, the number of the
   first seed nearest to it, with value one.  Conditions: the seeds lie in the domain and there is at least one, the squared diagonal of
   the domain and the number of coordinates sent fit an int, the grid is empty before. *)
Theorem C40_nearest_seed : forall T (N : num T) (one : T) np gs gh bs (local : Z -> list seed) (data : Z -> list (sobj T)),
  0 < np -> gs <> [] -> (length gs <= 3)%nat -> Forall (fun g => gx_0 g <= gx_1 g) gs -> 0 <= gh -> length bs = length gs ->
  sumZ (map (fun g => glen g ^ 2) gs) <= int_max ->
  (forall r, 0 <= r < np -> Forall (domain_seed gs) (local r)) ->
  concat (map local (zrange 0 np)) <> [] -> 3 * sumZ (map (fun r => zlen (local r)) (zrange 0 np)) <= int_max ->
  (forall r ge, 0 <= r < np -> setup_mpi np gs gh r = Some ge -> zlen (data r) = cells (ge_axes ge) /\ Forall (fun o => o = []) (data r)) ->
  exists D' f, finished np (fun r => (map local (zrange 0 np), D' r)) f /\
    inevitable (ranks np (fun r => lift (setup_mpi np gs gh r) (fun ge =>
       tessellate_mpi N one (ge_axes (with_bounds set_bounds_axis bs ge)) (local r) (data r))), no_chans) f /\
    forall r ge x, 0 <= r < np -> setup_mpi np gs gh r = Some ge -> owns ge x ->
      exists k, first_nearest (concat (map local (zrange 0 np))) x k /\
        grid_read true (ge_axes (with_bounds set_bounds_axis bs ge)) (D' r) x = Some [Some (k, one)].
Proof. exact @tessellation. Qed.
Print Assumptions C40_nearest_seed.

(* 6 x 3 cells on two ranks, five seeds, ties *)
Definition seeds0 (r : Z) : list seed := if r =? 0 then [[0; 0; 0]; [2; 2; 0]] else [[2; 0; 0]; [5; 1; 0]; [0; 2; 0]].
Definition axes0 (r : Z) : list axis :=
  match setup_mpi 2 [mkG 0 6; mkG 0 3] 0 r with Some ge => ge_axes (with_bounds set_bounds_axis [(periodic, periodic); (Neumann, Neumann)] ge) | None => [] end.
Example C40_case :
  (forall r, 0 <= r < 2 -> Forall (domain_seed [mkG 0 6; mkG 0 3]) (seeds0 r)) /\
  sumZ (map (fun g => glen g ^ 2) [mkG 0 6; mkG 0 3]) <= int_max /\ 3 * sumZ (map (fun r => zlen (seeds0 r)) (zrange 0 2)) <= int_max /\
  (forall r ge, 0 <= r < 2 -> setup_mpi 2 [mkG 0 6; mkG 0 3] 0 r = Some ge -> zlen (repeat ([] : sobj Z) 9) = cells (ge_axes ge)) /\
  exists a b, results (fst (run 1000 (ranks 2 (fun r => tessellate_mpi num_Z 1 (axes0 r) (seeds0 r) (repeat [] 9)), no_chans))) = Some [(map seeds0 [0; 1], a); (map seeds0 [0; 1], b)] /\
    map (map (option_map fst)) a = map (fun k => [Some k]) [0; 0; 4; 0; 0; 1; 2; 1; 1] /\
    map (map (option_map fst)) b = map (fun k => [Some k]) [2; 1; 1; 3; 3; 3; 3; 3; 3].
Proof.
  split; [|split; [|split; [|split]]].
  - intros r Hr. unfold seeds0. destruct (r =? 0); repeat constructor; simpl; cbn; try lia.
  - vm_compute. discriminate.
  - vm_compute. discriminate.
  - intros r ge Hr E. assert (r = 0 \/ r = 1) as [-> | ->] by lia; vm_compute in E; inversion E; reflexivity.
  - do 2 eexists. split; [vm_compute; reflexivity|]. split; vm_compute; reflexivity.
Qed.

(* Distances are not measured across periodic sides, in either build: the source moves a seed "across parallel and periodic boundaries",
   but a seed of the domain is never moved.  Ten cells, periodic; node 9 is one step from the seed at 0 and three from the seed at 6. *)
Theorem C40_periodic_refuted : exists mpi axs (seeds : list seed) data data' x k s t,
  Forall (fun a => a_b0 a = periodic /\ a_b1 a = periodic) axs /\ Forall (seed_in axs) seeds /\
  exact_voronoi num_Z 1 mpi axs [seeds] data = Some data' /\
  grid_read mpi axs data' x = Some [Some (k, 1)] /\ get seeds k = Some s /\ In t seeds /\
  torus_dist2 (map (fun a => a_g1 a - a_g0 a) axs) x t < torus_dist2 (map (fun a => a_g1 a - a_g0 a) axs) x s.
Proof.
  exists true, (ge_axes (setup_single [mkG 0 10] 0)), [[0; 0; 0]; [6; 0; 0]], (repeat [] 10). eexists. exists [9], 1, [6; 0; 0], [0; 0; 0].
  split; [repeat constructor|]. split; [repeat constructor; simpl; lia|]. split; [vm_compute; reflexivity|].
  split; [vm_compute; reflexivity|]. split; [reflexivity|]. split; [simpl; auto|]. vm_compute. reflexivity.
Qed.
Print Assumptions C40_periodic_refuted.

(* With no seed at all the label of every node is -1. *)
Theorem C40_no_seed : forall mpi axs x, nearest mpi axs [] x = Some (-1).
Proof. reflexivity. Qed.
Print Assumptions C40_no_seed.

(* C41: packing and unpacking, at any offset of a larger buffer *)
Theorem C41_pack_unpack : forall vp pre post, Forall (fun s : seed => length s = 3%nat) vp ->
  exists b, seeds_to_buffer vp = Some b /\ zlen b = 3 * zlen vp /\ seeds_from_buffer (pre ++ b ++ post) (zlen pre) (zlen b) = Some vp.
Proof.
  intros vp pre post H. exists (concat vp). pose proof (zlen_concat3 vp H) as Z. split; [now apply to_buffer_concat|]. split; [auto|].
  rewrite Z. now apply from_buffer.
Qed.
Print Assumptions C41_pack_unpack.
Example C41_pack_case : seeds_to_buffer [[1; 2; 3]; [4; 5; 6]] = Some [1; 2; 3; 4; 5; 6] /\ seeds_from_buffer [9; 1; 2; 3; 4; 5; 6; 9] 1 6 = Some [[1; 2; 3]; [4; 5; 6]].
Proof. split; reflexivity. Qed.

(* C41: every rank holds all lists after the exchange; a rank may contribute nothing *)
Theorem C41_all_ranks_hold_all_seeds : forall T (N : num T) (one : T) np gs gh bs (local : Z -> list seed) (data : Z -> list (sobj T)),
  0 < np -> gs <> [] -> (length gs <= 3)%nat -> Forall (fun g => gx_0 g <= gx_1 g) gs -> 0 <= gh -> length bs = length gs ->
  sumZ (map (fun g => glen g ^ 2) gs) <= int_max ->
  (forall r, 0 <= r < np -> Forall (domain_seed gs) (local r)) ->
  concat (map local (zrange 0 np)) <> [] -> 3 * sumZ (map (fun r => zlen (local r)) (zrange 0 np)) <= int_max ->
  (forall r ge, 0 <= r < np -> setup_mpi np gs gh r = Some ge -> zlen (data r) = cells (ge_axes ge) /\ Forall (fun o => o = []) (data r)) ->
  exists D' f, finished np (fun r => (map local (zrange 0 np), D' r)) f /\
    inevitable (ranks np (fun r => lift (setup_mpi np gs gh r) (fun ge =>
       tessellate_mpi N one (ge_axes (with_bounds set_bounds_axis bs ge)) (local r) (data r))), no_chans) f.
Proof. intros. edestruct @tessellation as (D' & f & F1 & F2 & _); eauto. Qed.
Print Assumptions C41_all_ranks_hold_all_seeds.

(* C61: seeds from a file of coordinates in [0,1).  Each line gives the cell that contains the point; each seed is kept by one rank
   only, so that the ranks together hold the seeds of the serial program. *)
Theorem C61_file_seeds_partitioned : forall np gs gh lines, 0 < np -> gs <> [] -> (length gs <= 3)%nat -> Forall (fun g => gx_0 g < gx_1 g) gs ->
  Forall (unit_line (length gs)) lines ->
  exists ss L, seeds_from_file false (ge_axes (setup_single gs gh)) lines = Some ss /\
    (forall r ge, 0 <= r < np -> setup_mpi np gs gh r = Some ge -> seeds_from_file true (ge_axes ge) lines = Some (L r)) /\
    Permutation (concat (map L (zrange 0 np))) ss /\ Forall2 (cell_of gs) lines ss /\
    Forall (fun s => length s = 3%nat /\ in_box (map gx_0 gs) (map gx_1 gs) (firstn (length gs) s) /\ Forall (eq 0) (skipn (length gs) s)) ss.
Proof. exact file_seeds. Qed.
Print Assumptions C61_file_seeds_partitioned.

(* C61 with C40: the tessellation of a seed file on any number of ranks: each node is labelled by a seed of the file nearest to it *)
Theorem C61_file_tessellation : forall T (N : num T) (one : T) np gs gh bs lines (data : Z -> list (sobj T)),
  0 < np -> gs <> [] -> (length gs <= 3)%nat -> Forall (fun g => gx_0 g < gx_1 g /\ int_range (gx_0 g) /\ int_range (gx_1 g)) gs -> 0 <= gh -> length bs = length gs ->
  sumZ (map (fun g => glen g ^ 2) gs) <= int_max ->
  Forall (unit_line (length gs)) lines -> lines <> [] -> 3 * zlen lines <= int_max ->
  (forall r ge, 0 <= r < np -> setup_mpi np gs gh r = Some ge -> zlen (data r) = cells (ge_axes ge) /\ Forall (fun o => o = []) (data r)) ->
  exists ss L D' f, Forall2 (cell_of gs) lines ss /\ Permutation (concat L) ss /\
    finished np (fun r => (L, D' r)) f /\
    inevitable (ranks np (fun r => lift (setup_mpi np gs gh r) (fun ge =>
       tessellate_file N one (ge_axes (with_bounds set_bounds_axis bs ge)) lines (data r))), no_chans) f /\
    forall r ge x, 0 <= r < np -> setup_mpi np gs gh r = Some ge -> owns ge x ->
      exists k s, grid_read true (ge_axes (with_bounds set_bounds_axis bs ge)) (D' r) x = Some [Some (k, one)] /\
        get (concat L) k = Some s /\ In s ss /\ forall t, In t ss -> dist2 x s <= dist2 x t.
Proof. exact @file_tessellation. Qed.
Print Assumptions C61_file_tessellation.
Definition half := Q2Qc (1 # 2). Definition third := Q2Qc (1 # 3). Definition most := Q2Qc (99 # 100).
Example C61_case :
  Forall (unit_line 2) [[third; half]; [most; Q2Qc 0]; [half; third]] /\
  seeds_from_file false (ge_axes (setup_single [mkG (-3) 3; mkG 0 5] 1)) [[third; half]; [most; Q2Qc 0]; [half; third]] = Some [[-1; 2; 0]; [2; 0; 0]; [0; 1; 0]] /\
  map_opt (fun r => do ge <- setup_mpi 2 [mkG (-3) 3; mkG 0 5] 1 r; seeds_from_file true (ge_axes ge) [[third; half]; [most; Q2Qc 0]; [half; third]]) [0; 1]
    = Some [[[-1; 2; 0]]; [[2; 0; 0]; [0; 1; 0]]].
Proof.
  split; [|split; vm_compute; reflexivity]. repeat constructor; unfold Qcle, Qclt, Qle, Qlt; vm_compute; congruence.
Qed.

(* A coordinate of exactly 1 gives a point beyond the last cell: every rank drops that seed. *)
Theorem C61_edge_seed_lost_refuted : exists np gs lines, Forall (Forall (fun x => (0 <= x)%Qc /\ (x <= 1)%Qc)) lines /\ lines <> [] /\ 0 < np /\
  forall r ge, 0 <= r < np -> setup_mpi np gs 0 r = Some ge -> seeds_from_file true (ge_axes ge) lines = Some [].
Proof.
  exists 2, [mkG 0 4], [[Q2Qc 1]]. split; [repeat constructor; unfold Qcle, Qle; vm_compute; congruence|]. split; [discriminate|]. split; [lia|].
  intros r ge Hr E. assert (r = 0 \/ r = 1) as [-> | ->] by lia; vm_compute in E; inversion E; vm_compute; reflexivity.
Qed.
Print Assumptions C61_edge_seed_lost_refuted.

(* Random seeds lie in the domain (in the serial build the bounds are x0, x1, which are the same there), whatever the generator returns
   within the bound it is asked for. *)
Theorem C61_random_seeds_in_domain : forall (mpi : bool) (axs : list axis) n rands, (length axs <= 3)%nat ->
  let lo := map (if mpi then a_g0 else a_x0) axs in let hi := map (if mpi then a_g1 else a_x1) axs in
  draws_ok (zip_with (fun lo hi => hi - lo) lo hi) n rands ->
  exists ss, seeds_from_prng mpi axs n rands = Some ss /\ length ss = n /\
    Forall (fun s => length s = 3%nat /\ in_box lo hi (firstn (length axs) s)) ss.
Proof. exact prng_seeds. Qed.
Print Assumptions C61_random_seeds_in_domain.
Example C61_random_case : let axs := ge_axes (setup_single [mkG (-3) 3; mkG 0 5] 1) in
  draws_ok (zip_with (fun lo hi => hi - lo) (map a_g0 axs) (map a_g1 axs)) 2 [5; 0; 2; 4; 77] /\
  seeds_from_prng true axs 2 [5; 0; 2; 4; 77] = Some [[2; 0; 0]; [-1; 4; 0]].
Proof. split; [|reflexivity]. simpl. repeat split; repeat constructor; lia. Qed.
