(* C96, C97, C98: the older tessellation on several ranks, its seed files and its honeycombs. *)
From Coq Require Import QArith Qcanon Permutation.
From Verif Require Import Model.Base Model.Boundary Model.Layout Model.Access Model.Setup Model.Num Model.Sparse Model.Codec Model.MPI Model.Ghostswap Model.Simulate Model.Tessellate Model.Digits Model.Seedswap
  Spec.Box Spec.Access Spec.Bytes Spec.Decomp Spec.Schedule Spec.Tessellate Spec.Seedswap Proof.BaseL Proof.SetupL Proof.ExecL Proof.TessellateL Proof.TessellateF Proof.SeedswapL Proof.SeedfileL Proof.HoneycombL.
Local Open Scope Z_scope.

(* C96.  local r: the seeds drawn by rank r.  Whatever the number of ranks, the decomposition, the boundary conditions and the schedule, the program
   ends; each rank then holds the seeds of all ranks in rank order, but its own twice, and every node of rank r carries a single label: with k the number
   of the first of all seeds nearest to it, the label is k if this seed was drawn by rank r or a rank below, and otherwise k plus the number of seeds
   drawn by rank r.  (Conditions as for C40.) *)
Theorem C96_labels : forall T (N : num T) (one : T) np gs gh bs (local : Z -> list seed) (data : Z -> list (sobj T)),
  0 < np -> gs <> [] -> (length gs <= 3)%nat -> Forall (fun g => gx_0 g <= gx_1 g) gs -> 0 <= gh -> length bs = length gs ->
  sumZ (map (fun g => glen g ^ 2) gs) <= int_max ->
  (forall r, 0 <= r < np -> Forall (domain_seed gs) (local r)) ->
  concat (map local (zrange 0 np)) <> [] -> 3 * sumZ (map (fun r => zlen (local r)) (zrange 0 np)) <= int_max ->
  (forall r ge, 0 <= r < np -> setup_mpi np gs gh r = Some ge -> zlen (data r) = cells (ge_axes ge) /\ Forall (fun o => o = []) (data r)) ->
  exists D' f, finished np (fun r => (doubled local np r, D' r)) f /\
    inevitable (ranks np (fun r => lift (setup_mpi np gs gh r) (fun ge =>
       gen_tessellate N one r (ge_axes (with_bounds set_bounds_axis bs ge)) (local r) (data r))), no_chans) f /\
    forall r ge x, 0 <= r < np -> setup_mpi np gs gh r = Some ge -> owns ge x ->
      exists k, first_nearest (concat (map local (zrange 0 np))) x k /\
        grid_read true (ge_axes (with_bounds set_bounds_axis bs ge)) (D' r) x =
          Some [Some (if k <? zlen (concat (map local (zrange 0 (r + 1)))) then k else k + zlen (local r), one)].
Proof. exact @gen_tessellation. Qed.
Print Assumptions C96_labels.

(* "A grain has the same label on all ranks, and different grains have different labels" is therefore false in this way: let rank r draw at least one
   seed, let r < q, let x be a node of rank r and y a node of rank q, and let seed k, drawn by a rank above r, be the first nearest to x.  If rank q
   or a rank below drew it and it is the first nearest to y too, x and y, which are in one grain, have different labels; and if the seed that comes
   |local r| places later, drawn by rank q or a rank below, is the first nearest to y, x and y, which are in different grains, have the same label. *)
Theorem C96_labels_refuted : forall T (N : num T) (one : T) np gs gh bs (local : Z -> list seed) (data : Z -> list (sobj T)),
  0 < np -> gs <> [] -> (length gs <= 3)%nat -> Forall (fun g => gx_0 g <= gx_1 g) gs -> 0 <= gh -> length bs = length gs ->
  sumZ (map (fun g => glen g ^ 2) gs) <= int_max ->
  (forall r, 0 <= r < np -> Forall (domain_seed gs) (local r)) ->
  concat (map local (zrange 0 np)) <> [] -> 3 * sumZ (map (fun r => zlen (local r)) (zrange 0 np)) <= int_max ->
  (forall r ge, 0 <= r < np -> setup_mpi np gs gh r = Some ge -> zlen (data r) = cells (ge_axes ge) /\ Forall (fun o => o = []) (data r)) ->
  exists D' f, finished np (fun r => (doubled local np r, D' r)) f /\
    inevitable (ranks np (fun r => lift (setup_mpi np gs gh r) (fun ge =>
       gen_tessellate N one r (ge_axes (with_bounds set_bounds_axis bs ge)) (local r) (data r))), no_chans) f /\
    forall r q ge ge' x y k, 0 <= r -> r < q -> q < np -> setup_mpi np gs gh r = Some ge -> setup_mpi np gs gh q = Some ge' -> owns ge x -> owns ge' y -> local r <> [] ->
      first_nearest (concat (map local (zrange 0 np))) x k -> zlen (concat (map local (zrange 0 (r + 1)))) <= k ->
      (k < zlen (concat (map local (zrange 0 (q + 1)))) -> first_nearest (concat (map local (zrange 0 np))) y k ->
         grid_read true (ge_axes (with_bounds set_bounds_axis bs ge)) (D' r) x <> grid_read true (ge_axes (with_bounds set_bounds_axis bs ge')) (D' q) y) /\
      (k + zlen (local r) < zlen (concat (map local (zrange 0 (q + 1)))) -> first_nearest (concat (map local (zrange 0 np))) y (k + zlen (local r)) ->
         grid_read true (ge_axes (with_bounds set_bounds_axis bs ge)) (D' r) x = grid_read true (ge_axes (with_bounds set_bounds_axis bs ge')) (D' q) y).
Proof.
  intros. edestruct (C96_labels T N one np gs gh bs local data) as (D' & f & F1 & F2 & F3); eauto. exists D', f. split; [exact F1|]. split; [exact F2|].
  intros r q ge ge' x y k Hr Hrq Hq Er Eq Ox Oy Nr Kx Kr. destruct (F3 r ge x ltac:(lia) Er Ox) as (k1 & K1 & ->). destruct (F3 q ge' y ltac:(lia) Eq Oy) as (k2 & K2 & ->).
  pose proof (first_nearest_unique _ _ _ _ K1 Kx) as ->. assert (0 < zlen (local r)) as Pr by (destruct (local r); [congruence|rewrite zlen_cons; pose proof (zlen_nonneg l); lia]).
  assert (k <? zlen (concat (map local (zrange 0 (r + 1)))) = false) as -> by (apply Z.ltb_ge; lia). split; intros L Ky; pose proof (first_nearest_unique _ _ _ _ K2 Ky) as ->.
  - apply Z.ltb_lt in L. rewrite L. intros E. injection E as E. lia.
  - apply Z.ltb_lt in L. rewrite L. reflexivity.
Qed.
Print Assumptions C96_labels_refuted.

(* 6 x 3 cells on two ranks; rank 0 draws seed 0, rank 1 draws seeds 1 and 2.  Node (2,0) of rank 0 is at seed 1 and has label 2; node (3,0) of rank 1,
   nearest to seed 1, has label 1, and node (5,1) of rank 1, at seed 2, has label 2. *)
Definition seeds96 (r : Z) : list seed := if r =? 0 then [[0; 0; 0]] else [[2; 0; 0]; [5; 1; 0]].
Definition axes96 (r : Z) : list axis :=
  match setup_mpi 2 [mkG 0 6; mkG 0 3] 0 r with Some ge => ge_axes (with_bounds set_bounds_axis [(periodic, periodic); (periodic, periodic)] ge) | None => [] end.
Example C96_case :
  (forall r, 0 <= r < 2 -> Forall (domain_seed [mkG 0 6; mkG 0 3]) (seeds96 r)) /\ 3 * sumZ (map (fun r => zlen (seeds96 r)) (zrange 0 2)) <= int_max /\
  first_nearest (concat (map seeds96 (zrange 0 2))) [2; 0] 1 /\ first_nearest (concat (map seeds96 (zrange 0 2))) [3; 0] 1 /\ first_nearest (concat (map seeds96 (zrange 0 2))) [5; 1] 2 /\
  exists a b, results (fst (run 1000 (ranks 2 (fun r => gen_tessellate num_Z 1 r (axes96 r) (seeds96 r) (repeat [] 9)), no_chans))) = Some [(doubled seeds96 2 0, a); (doubled seeds96 2 1, b)] /\
    map (map (option_map fst)) a = map (fun k => [Some k]) [0; 0; 0; 0; 0; 0; 2; 2; 2] /\
    map (map (option_map fst)) b = map (fun k => [Some k]) [1; 1; 1; 2; 2; 2; 2; 2; 2].
Proof.
  split; [intros r Hr; unfold seeds96; destruct (r =? 0); repeat constructor; simpl; cbn; lia|]. split; [vm_compute; discriminate|].
  assert (forall x k s, get (concat (map seeds96 (zrange 0 2))) k = Some s -> (forall j t, In (j, t) [(0, [0; 0; 0]); (1, [2; 0; 0]); (2, [5; 1; 0])] -> dist2 x s <= dist2 x t /\ (j < k -> dist2 x s < dist2 x t)) ->
    first_nearest (concat (map seeds96 (zrange 0 2))) x k) as X.
  { intros x k s Gs H. exists s. split; [auto|]. intros j t Hj. apply H. pose proof (HeapL.get_range _ _ _ Hj) as R. change (zlen (concat (map seeds96 (zrange 0 2)))) with 3 in R.
    assert (j = 0 \/ j = 1 \/ j = 2) as [->|[->| ->]] by lia; vm_compute in Hj; inversion Hj; simpl; auto. }
  split; [|split; [|split]].
  - eapply X; [vm_compute; reflexivity|]. intros j t [E|[E|[E|[]]]]; inversion E; vm_compute; split; congruence.
  - eapply X; [vm_compute; reflexivity|]. intros j t [E|[E|[E|[]]]]; inversion E; vm_compute; split; congruence.
  - eapply X; [vm_compute; reflexivity|]. intros j t [E|[E|[E|[]]]]; inversion E; vm_compute; split; congruence.
  - do 2 eexists. split; [vm_compute; reflexivity|]. split; vm_compute; reflexivity.
Qed.

(* C97: reading a seed file on one process.  rows: the rows of the file, numbers between 0 and 1.  Each row gives one seed in the domain, coordinate
   g0 + (g1-g0-1)*s truncated; if the last number is followed by white space (as a file that ends with a newline does), there is one more seed, all of
   whose coordinates come from the last number of the file. *)
Definition cell_at (g : gaxis) (s : Qc) : Z := truncZ (Zq (gx_0 g) + Zq (glen g - 1) * s)%Qc.
Theorem C97_read : forall gs gh trail rows, gs <> [] -> (length gs <= 3)%nat -> Forall (fun g => gx_0 g < gx_1 g) gs -> Forall (unit_row (length gs)) rows -> rows <> [] ->
  gen_seeds_from_file trail (ge_axes (setup_single gs gh)) (concat rows) =
    Some (map (fun row => zip_with cell_at gs row ++ repeat 0 (3 - length gs)) rows ++ if trail then [map (fun g => cell_at g (last (last rows []) 0%Qc)) gs ++ repeat 0 (3 - length gs)] else []) /\
  forall row, In row rows -> in_box (map gx_0 gs) (map gx_1 gs) (zip_with cell_at gs row).
Proof.
  intros gs gh trail rows Hne H3 Hg F Nr. split; [apply (read_file gs gh Hne H3 Hg trail rows F Nr)|]. intros row Hr. apply (row_in gs); auto. rewrite Forall_forall in F. auto.
Qed.
Print Assumptions C97_read.

(* On several ranks, every rank reads the whole file and keeps the seeds in its own part of the domain: together the ranks keep what one process keeps. *)
Theorem C97_ranks : forall np gs gh trail rows, 0 < np -> gs <> [] -> (length gs <= 3)%nat -> Forall (fun g => gx_0 g < gx_1 g) gs -> Forall (unit_row (length gs)) rows -> rows <> [] ->
  exists all mine, gen_seeds_from_file trail (ge_axes (setup_single gs gh)) (concat rows) = Some all /\
    (forall r ge, 0 <= r < np -> setup_mpi np gs gh r = Some ge ->
       gen_seeds_from_file trail (ge_axes ge) (concat rows) = Some (mine r) /\ Forall (fun s => owns ge (firstn (length gs) s)) (mine r)) /\
    Permutation (concat (map mine (zrange 0 np))) all.
Proof.
  intros np gs gh trail rows Hnp Hne H3 Hg F Nr. destruct (C97_read gs gh trail rows Hne H3 Hg F Nr) as [E _].
  destruct (file_ranks np gs gh trail (concat rows) _ Hnp Hne H3 Hg E) as (mine & A & B). do 2 eexists. split; [exact E|]. eauto.
Qed.
Print Assumptions C97_ranks.

(* Writing seeds and reading them again on one process: one more seed comes back, whatever the seeds ... *)
Theorem C97_round_trip_refuted : forall gs gh seeds, gs <> [] -> (length gs <= 3)%nat -> Forall (fun g => gx_0 g < gx_1 g) gs -> Forall (domain_seed gs) (concat seeds) -> concat seeds <> [] ->
  exists file back, gen_seeds_to_file gs seeds = Some file /\ gen_seeds_from_file true (ge_axes (setup_single gs gh)) file = Some back /\ zlen back = zlen (concat seeds) + 1.
Proof.
  intros gs gh seeds Hne H3 Hg F Ne. set (rows := map (zip_with written gs) (concat seeds)).
  assert (gen_seeds_to_file gs seeds = Some (concat rows)) as E.
  { unfold gen_seeds_to_file. erewrite map_opt_map; [reflexivity|]. intros s Hs. rewrite Forall_forall in F. destruct (F s Hs) as (_ & _ & B). apply (written_row gs s Hg B). }
  exists (concat rows). eexists. split; [exact E|]. split.
  - apply (C97_read gs gh true rows Hne H3 Hg); [|unfold rows; destruct (concat seeds); [congruence|discriminate]]. apply Forall_forall. intros row Hr. apply in_map_iff in Hr as (s & <- & Hs). rewrite Forall_forall in F. destruct (F s Hs) as (_ & _ & B). now apply written_row.
  - unfold rows. rewrite zlen_app, !BaseL.zlen_map. reflexivity.
Qed.
Print Assumptions C97_round_trip_refuted.
(* ... and, up to 1414 cells along an axis, each coordinate that is positive and not on the lower limit is one less than it was; the others come back. *)
Theorem C97_fallen : forall gs gh seeds, gs <> [] -> (length gs <= 3)%nat -> Forall (fun g => gx_0 g < gx_1 g /\ glen g <= 1414) gs -> Forall (domain_seed gs) (concat seeds) -> concat seeds <> [] ->
  Forall (fun s => Forall (eq 0) (skipn (length gs) s)) (concat seeds) ->
  exists file extra, gen_seeds_to_file gs seeds = Some file /\ gen_seeds_from_file true (ge_axes (setup_single gs gh)) file = Some (map (fallen_seed gs) (concat seeds) ++ [extra]).
Proof.
  intros gs gh seeds Hne H3 Hg' F Ne F0. assert (Forall (fun g => gx_0 g < gx_1 g) gs) as Hg by (eapply Forall_impl; [|exact Hg']; simpl; tauto). set (rows := map (zip_with written gs) (concat seeds)).
  assert (gen_seeds_to_file gs seeds = Some (concat rows)) as E.
  { unfold gen_seeds_to_file. erewrite map_opt_map; [reflexivity|]. intros s Hs. rewrite Forall_forall in F. destruct (F s Hs) as (_ & _ & B). apply (written_row gs s Hg B). }
  exists (concat rows). eexists. split; [exact E|]. destruct (C97_read gs gh true rows Hne H3 Hg) as [-> _].
  - apply Forall_forall. intros row Hr. apply in_map_iff in Hr as (s & <- & Hs). rewrite Forall_forall in F. destruct (F s Hs) as (_ & _ & B). now apply written_row.
  - unfold rows. destruct (concat seeds); [congruence|discriminate].
  - cbv iota. do 2 f_equal. unfold rows. rewrite map_map. apply map_ext_in. intros s Hs. rewrite Forall_forall in F, F0. specialize (F0 s Hs). destruct (F s Hs) as (L & _ & B).
    assert (length s = 3%nat) as L3 by exact L. clear - Hg' B F0 L3. assert (repeat 0 (3 - length gs) = map (fun _ => 0) (skipn (length gs) s)) as Z0.
    { rewrite <- L3. clear. revert gs. induction s as [|c s IH]; intros [|g gs]; try reflexivity; [simpl; f_equal; specialize (IH []); simpl in IH; rewrite Nat.sub_0_r in IH; exact IH|simpl; apply IH]. }
    rewrite Z0. clear Z0 L3. revert s B F0. induction Hg' as [|g gs [H1 H2] _ IH]; intros [|c s] B F0; try reflexivity. simpl in B. destruct B as [B1 B2].
    cbn [zip_with fallen_seed app length skipn]. f_equal; [|apply IH; auto]. apply reread; [lia|]. unfold glen in *. unfold M. nia.
Qed.
Print Assumptions C97_fallen.
(* A file without seeds leads to the use of an uninitialised number. *)
Theorem C97_empty_refuted : forall gs gh seeds trail, gs <> [] -> concat seeds = [] -> exists file, gen_seeds_to_file gs seeds = Some file /\ gen_seeds_from_file trail (ge_axes (setup_single gs gh)) file = None.
Proof. intros gs gh seeds trail Hne E. exists []. unfold gen_seeds_to_file. rewrite E. split; [reflexivity|]. destruct gs; [congruence|]. reflexivity. Qed.
Print Assumptions C97_empty_refuted.
Example C97_case : let gs := [mkG (-3) 5; mkG 0 1000] in let seeds := [[[-2; 0; 0]; [4; 999; 0]]; []; [[-3; 500; 0]]] in
  Forall (fun g => gx_0 g < gx_1 g /\ glen g <= 1414) gs /\ Forall (domain_seed gs) (concat seeds) /\ Forall (fun s => Forall (eq 0) (skipn (length gs) s)) (concat seeds) /\
  (exists file, gen_seeds_to_file gs seeds = Some file /\ gen_seeds_from_file true (ge_axes (setup_single gs 1)) file = Some [[-2; 0; 0]; [3; 998; 0]; [-3; 499; 0]; [0; 499; 0]] /\
    gen_seeds_from_file false (ge_axes (setup_single gs 1)) file = Some [[-2; 0; 0]; [3; 998; 0]; [-3; 499; 0]]).
Proof.
  cbv zeta. split; [repeat constructor; vm_compute; congruence|]. split; [repeat constructor; simpl; cbn; lia|]. split; [repeat constructor|].
  eexists. split; [vm_compute; reflexivity|]. split; vm_compute; reflexivity.
Qed.

(* C98: the honeycomb on one process, on a domain that begins at the origin, with an even spacing a = 2h: the seeds are the points of the lattice with
   rows a apart, every other row moved by h, that lie in the domain, each once. *)
Theorem C98_lattice : forall X Y h, 1 <= h -> exists l, honeycomb 0 X 0 Y (2 * h) = Some l /\ NoDup l /\
  forall p, In p l <-> exists i j, 0 <= i /\ 0 <= j /\ p = [2 * h * i + (j mod 2) * h; 2 * h * j; 0] /\ 2 * h * i + (j mod 2) * h < X /\ 2 * h * j < Y.
Proof.
  intros X Y h Hh. destruct (honeycomb_points 0 X 0 Y (2 * h) ltac:(lia)) as (l & E & ND & P). exists l. split; [exact E|]. split; [exact ND|]. intros p. rewrite P.
  assert (Z.rem (0 + 2 * h) (2 * h) = 0) as -> by (rewrite Z.add_0_l; apply Z.rem_same; lia). assert (Z.quot (2 * h) 2 = h) as Q by (rewrite Z.mul_comm; apply Z.quot_mul; lia).
  assert (first_shifted 0 (2 * h) = false) as ->. { unfold first_shifted. rewrite Q, Z.add_0_l, Z.rem_mul by lia. reflexivity. }
  assert (forall j, shift (2 * h) (xorb false (Z.odd j)) = (j mod 2) * h) as S. { intros j. rewrite xorb_false_l. unfold shift. rewrite Q, Zmod_odd. destruct (Z.odd j); lia. }
  split; intros (i & j & Hi & Hj & -> & L1 & L2); exists i, j; rewrite S in *.
  - replace (0 + j mod 2 * h + i * (2 * h)) with (2 * h * i + j mod 2 * h) in * by ring. replace (0 + j * (2 * h)) with (2 * h * j) in * by ring. auto.
  - replace (0 + j mod 2 * h + i * (2 * h)) with (2 * h * i + j mod 2 * h) by ring. replace (0 + j * (2 * h)) with (2 * h * j) by ring. auto.
Qed.
Print Assumptions C98_lattice.
(* On several ranks, "each seed is contributed by one rank" is false: where a rank begins at a positive multiple of the spacing, it contributes all the seeds
   of the ranks before it in its row again. *)
Theorem C98_ranks_refuted : forall m X Y h, 1 <= h -> 1 <= m -> 2 * h * m <= X -> exists l l', honeycomb 0 (2 * h * m) 0 Y (2 * h) = Some l /\ honeycomb (2 * h * m) X 0 Y (2 * h) = Some l' /\ forall p, In p l -> In p l'.
Proof.
  intros m X Y h Hh Hm HX. destruct (honeycomb_points 0 (2 * h * m) 0 Y (2 * h) ltac:(lia)) as (l & E & _ & P). destruct (honeycomb_points (2 * h * m) X 0 Y (2 * h) ltac:(lia)) as (l' & E' & _ & P').
  exists l, l'. split; [exact E|]. split; [exact E'|]. intros p Hp. apply P in Hp as (i & j & Hi & Hj & -> & L1 & L2). apply P'. exists i, j.
  assert (Z.quot (2 * h) 2 = h) as Q by (rewrite Z.mul_comm; apply Z.quot_mul; lia).
  assert (first_shifted (2 * h * m) (2 * h) = first_shifted 0 (2 * h)) as ->.
  { unfold first_shifted. rewrite Q. replace (2 * h * m + 2 * h) with ((2 * m + 2) * h) by ring. rewrite Z.rem_mul, Z.add_0_l, Z.rem_mul by lia. reflexivity. }
  assert (Z.rem (2 * h * m + 2 * h) (2 * h) = Z.rem (0 + 2 * h) (2 * h)) as ->. { replace (2 * h * m + 2 * h) with ((m + 1) * (2 * h)) by ring. rewrite Z.rem_mul, Z.add_0_l, Z.rem_same by lia. reflexivity. }
  repeat split; auto; lia.
Qed.
Print Assumptions C98_ranks_refuted.
(* Where the domain begins below -a, "the honeycomb covers the domain" is false: no seed lies at -a or below. *)
Theorem C98_negative_refuted : forall x0 x1 y0 y1 a l, 2 <= a -> honeycomb x0 x1 y0 y1 a = Some l -> forall p x, In p l -> get p 0 = Some x -> - a < x.
Proof.
  intros x0 x1 y0 y1 a l Ha E p x Hp Gx. destruct (honeycomb_points x0 x1 y0 y1 a Ha) as (l' & E' & _ & P). rewrite E in E'. injection E' as <-. apply P in Hp as (i & j & Hi & Hj & -> & _).
  change (get [Z.rem (x0 + a) a + shift a (xorb (first_shifted x0 a) (Z.odd j)) + i * a; Z.rem (y0 + a) a + j * a; 0] 0) with (Some (Z.rem (x0 + a) a + shift a (xorb (first_shifted x0 a) (Z.odd j)) + i * a)) in Gx. injection Gx as <-.
  pose proof (Z.rem_bound_abs (x0 + a) a ltac:(lia)). assert (0 <= shift a (xorb (first_shifted x0 a) (Z.odd j))) by (unfold shift; destruct (xorb _ _); [apply Z.quot_pos; lia|lia]). assert (0 <= i * a) by nia. rewrite (Z.abs_eq a) in * by lia. set (u := shift _ _) in *. clearbody u. lia.
Qed.
Print Assumptions C98_negative_refuted.
Example C98_case : honeycomb 0 7 0 9 4 = Some [[0; 0; 0]; [4; 0; 0]; [2; 4; 0]; [6; 4; 0]; [0; 8; 0]; [4; 8; 0]] /\ honeycomb 4 7 0 9 4 = honeycomb 0 7 0 9 4 /\
  honeycomb (-20) 7 0 3 4 = Some [[0; 0; 0]; [4; 0; 0]] /\ honeycomb 0 7 0 9 1 = None.
Proof. repeat split. Qed.
