From Coq Require Import QArith Qcanon.
From Verif Require Import Model.Base Model.Boundary Model.Layout Model.Access Model.Setup Model.Num Model.Sparse Model.Codec Model.MPI Model.Ghostswap Model.Tessellate
  Spec.Box Spec.Access Spec.Bytes Spec.Decomp Spec.Schedule Spec.Sparse Spec.Tessellate
  Proof.BaseL Proof.LayoutL Proof.AccessL Proof.CodecL Proof.SparseL Proof.MPIL Proof.SimulateL Proof.GlobalL.
Local Open Scope Z_scope.

Lemma dist2_nonneg x s : 0 <= dist2 x s.
Proof. revert s; induction x as [|a x IH]; intros [|b s]; simpl; try lia. specialize (IH s). nia. Qed.
Lemma square_sum_dist x s : (length x <= length s)%nat -> square_sum (length x) x s = Some (dist2 x s).
Proof.
  revert s; induction x as [|a x IH]; intros [|b s] H; simpl in *; try lia; auto.
  rewrite IH by lia. cbn [bind]. f_equal. nia.
Qed.
Lemma radiussq_dist n x s : length x = n -> (n <= length s)%nat -> dist2 x s <= int_max -> radiussq n x s = Some (dist2 x s).
Proof.
  intros <- H D. unfold radiussq. rewrite square_sum_dist by auto. cbn [bind].
  destruct (Z.leb_spec (dist2 x s) int_max); [reflexivity|lia].
Qed.

(* flags of the boundary conditions on a rank: sides inside the domain are parallel *)
Definition inner_parallel (a : axis) : Prop :=
  a_g0 a <= a_x0 a /\ a_x1 a <= a_g1 a /\ (a_x0 a <> a_g0 a -> a_b0 a = parallel) /\ (a_x1 a <> a_g1 a -> a_b1 a = parallel).
(* a seed of three coordinates inside the global box *)
Definition seed_in (axs : list axis) (s : seed) : Prop :=
  length s = 3%nat /\ in_box (map a_g0 axs) (map a_g1 axs) (firstn (length axs) s).

Lemma stays mpi a c : inner_parallel a -> a_g0 a <= c < a_g1 a -> check_boundary mpi c (a_x0 a) (a_x1 a) (a_b0 a) (a_b1 a) = c.
Proof.
  intros (G0 & G1 & P0 & P1) H. unfold check_boundary. destruct (Z.ltb_spec c (a_x0 a)).
  - rewrite P0 by lia. now rewrite andb_false_r.
  - destruct (Z.leb_spec (a_x1 a) c); [|reflexivity]. rewrite P1 by lia. now rewrite andb_false_r.
Qed.
Lemma moved_same mpi axs s : Forall inner_parallel axs -> in_box (map a_g0 axs) (map a_g1 axs) (firstn (length axs) s) ->
  map_opt (fun k => do c <- get s k; do a <- get axs k;
     Some (check_boundary mpi c (a_x0 a) (a_x1 a) (a_b0 a) (a_b1 a))) (zrange 0 (zlen axs)) = Some (firstn (length axs) s).
Proof.
  intros F B.
  assert (forall (pre : list axis) (ps : list Z) (l : list axis) (t : list Z), length ps = length pre -> Forall inner_parallel l -> in_box (map a_g0 l) (map a_g1 l) (firstn (length l) t) ->
    map_opt (fun k => do c <- get (ps ++ t) k; do a <- get (pre ++ l) k; Some (check_boundary mpi c (a_x0 a) (a_x1 a) (a_b0 a) (a_b1 a)))
      (zrange (zlen pre) (zlen pre + zlen l)) = Some (firstn (length l) t)) as X.
  { clear. intros pre ps l. revert pre ps. induction l as [|a l IH]; intros pre ps t L F B.
    - change (zlen []) with 0. rewrite zrange_nil by lia. reflexivity.
    - inversion F as [|? ? Fa Fl]; subst. destruct t as [|c t]; [destruct B|]. destruct B as [Bc B].
      rewrite zlen_cons. rewrite zrange_cons by (pose proof (zlen_nonneg l); lia). cbn [map_opt].
      assert (get (ps ++ c :: t) (zlen pre) = Some c) as ->.
      { unfold zlen. rewrite SparseL.get_nth. rewrite nth_error_app2 by lia. now rewrite L, Nat.sub_diag. }
      assert (get (pre ++ a :: l) (zlen pre) = Some a) as ->.
      { unfold zlen. rewrite SparseL.get_nth. rewrite nth_error_app2 by lia. now rewrite Nat.sub_diag. }
      cbn [bind]. rewrite stays by auto.
      specialize (IH (pre ++ [a]) (ps ++ [c]) t). rewrite !app_length, <- !app_assoc in IH. simpl in IH.
      rewrite zlen_app in IH. change (zlen [a]) with 1 in IH. replace (zlen pre + (1 + zlen l)) with (zlen pre + 1 + zlen l) by lia.
      rewrite IH by (auto; lia). reflexivity. }
  specialize (X [] [] axs s eq_refl F B). rewrite zlen_nil in X. exact X.
Qed.

Lemma near_step_spec mpi axs x md id mid s : Forall inner_parallel axs -> length x = length axs -> (length axs <= 3)%nat -> seed_in axs s ->
  dist2 x s <= int_max ->
  near_step mpi axs x (md, id, mid) s = Some (if dist2 x s <? md then (dist2 x s, id + 1, id + 1) else (md, id + 1, mid)).
Proof.
  intros F L D [L3 B] Hd. unfold near_step. rewrite radiussq_dist by (auto; lia). cbn [bind].
  rewrite moved_same by auto. destruct (dist2 x s <? md); cbn [bind]; rewrite firstn_skipn; (destruct (list_eq_dec Z.eq_dec s s); [reflexivity|congruence]).
Qed.

Lemma get_app_l {A} (l m : list A) i v : get l i = Some v -> get (l ++ m) i = Some v.
Proof. unfold get. destruct (i <? 0); [discriminate|]. intros H. rewrite nth_error_app1; [exact H|]. apply nth_error_Some. congruence. Qed.
Lemma get_snoc {A} (l : list A) a i v : get (l ++ [a]) i = Some v -> get l i = Some v \/ (i = zlen l /\ v = a).
Proof.
  intros H. pose proof (get_some_iff _ _ _ H) as B. rewrite zlen_app in B. change (zlen [a]) with 1 in B.
  destruct (Z.eq_dec i (zlen l)) as [->|N].
  - right. split; [auto|]. unfold zlen in H. rewrite SparseL.get_nth in H. rewrite nth_error_last in H. congruence.
  - left. destruct (get_ok l i) as [w Hw]; [lia|]. rewrite (get_app_l _ [a] _ _ Hw) in H. congruence.
Qed.

Lemma nearest_fold mpi axs x l : Forall inner_parallel axs -> length x = length axs -> (length axs <= 3)%nat -> Forall (seed_in axs) l ->
  Forall (fun s => dist2 x s < int_max) l ->
  exists md mid, fold_opt (near_step mpi axs x) l (int_max, -1, -1) = Some (md, zlen l - 1, mid) /\
    (l = [] /\ md = int_max /\ mid = -1 \/ exists s, get l mid = Some s /\ md = dist2 x s /\ first_nearest l x mid).
Proof.
  intros F L D. induction l as [|s l IH] using rev_ind; intros S V.
  - exists int_max, (-1). split; [reflexivity|]. left. auto.
  - apply Forall_app in S as [S S1]. apply Forall_app in V as [V V1]. inversion S1 as [|? ? Ss _]; subst. inversion V1 as [|? ? Vs _]; subst.
    destruct (IH S V) as (md & mid & E & C). rewrite fold_opt_app, E. cbn [bind fold_opt]. rewrite near_step_spec by (auto; lia). cbn [bind].
    rewrite zlen_app. change (zlen [s]) with 1.
    assert (get (l ++ [s]) (zlen l) = Some s) as GL by (unfold zlen; rewrite SparseL.get_nth; apply nth_error_last).
    destruct (Z.ltb_spec (dist2 x s) md) as [Lt|Ge].
    + exists (dist2 x s), (zlen l). split; [do 2 f_equal; f_equal; lia|]. right. exists s. split; [exact GL|]. split; [auto|].
      exists s. split; [exact GL|]. intros j t Hj. apply get_snoc in Hj as [Hj|[-> ->]].
      * destruct C as [(-> & _ & _)|(s0 & G0 & -> & (s0' & G0' & C))].
        -- unfold get in Hj. destruct (j <? 0); [discriminate|]. destruct (Z.to_nat j); discriminate.
        -- assert (s0' = s0) as -> by (unfold seed in *; congruence). destruct (C j t Hj) as [C1 _]. lia.
      * split; [lia|]. unfold seed in *. lia.
    + exists md, mid. split; [do 2 f_equal; f_equal; lia|].
      destruct C as [(-> & -> & _)|(s0 & G0 & -> & (s0' & G0' & C))]; [lia|]. assert (s0' = s0) as -> by (unfold seed in *; congruence).
      right. exists s0. split; [now apply get_app_l|]. split; [auto|]. exists s0. split; [now apply get_app_l|].
      intros j t Hj. apply get_snoc in Hj as [Hj|[-> ->]]; [auto|]. split; [auto|].
      intros Hlt. apply get_some_iff in G0. unfold seed in *. lia.
Qed.

Lemma nearest_spec mpi axs seeds x : Forall inner_parallel axs -> length x = length axs -> (length axs <= 3)%nat -> concat seeds <> [] ->
  Forall (seed_in axs) (concat seeds) -> Forall (fun s => dist2 x s < int_max) (concat seeds) ->
  exists k, nearest mpi axs seeds x = Some k /\ first_nearest (concat seeds) x k.
Proof.
  intros F L D NE S V. destruct (nearest_fold mpi axs x _ F L D S V) as (md & mid & E & [(C & _)|(s & _ & _ & C)]); [congruence|].
  exists mid. unfold nearest. rewrite E. auto.
Qed.

(* ---- the loop over the nodes ---- *)
Lemma rmw_fold {C} (f : Z -> C -> option C) (V : Z -> C) (at_ : Z -> Z) n (data : list C) : 0 <= n ->
  (forall i, 0 <= i < n -> 0 <= at_ i < zlen data) ->
  (forall i c, 0 <= i < n -> get data (at_ i) = Some c -> f i c = Some (V i)) ->
  (forall i j, 0 <= i < n -> 0 <= j < n -> at_ i = at_ j -> i = j) ->
  exists d', fold_opt (fun d i => do c <- get d (at_ i); do c <- f i c; put d (at_ i) c) (zrange 0 n) data = Some d' /\ zlen d' = zlen data /\
    (forall i, 0 <= i < n -> get d' (at_ i) = Some (V i)) /\
    forall p, (forall i, 0 <= i < n -> p <> at_ i) -> get d' p = get data p.
Proof.
  intros Hn. pattern n. apply natlike_ind; [| |exact Hn]; clear n Hn.
  - intros _ _ _. exists data. rewrite zrange_nil by lia. cbn [fold_opt]. split; [auto|]. split; [auto|]. split; [intros; lia|auto].
  - intros n Hn IH Ha Hf Hi. rewrite <- Z.add_1_r in *.
    destruct IH as (d & E & L & G & K); [intros; apply Ha; lia|intros; apply Hf; auto; lia|intros; apply Hi; auto; lia|].
    rewrite zrange_snoc by lia. rewrite fold_opt_app, E. cbn [bind fold_opt].
    destruct (get_ok data (at_ n)) as [c Hc]; [apply Ha; lia|].
    rewrite K. 2:{ intros i Hi' e. apply Hi in e; lia. } rewrite Hc. cbn [bind]. rewrite (Hf n c) by (auto; lia). cbn [bind].
    destruct (put d (at_ n) (V n)) as [d'|] eqn:P.
    + exists d'. cbn [bind]. pose proof (put_len _ _ _ _ P). split; [auto|]. split; [congruence|]. split.
      * intros i Hi'. destruct (Z.eq_dec i n) as [->|Ne]; [eapply get_put_eq; eauto|].
        rewrite (get_put_ne _ _ _ _ _ P); [apply G; lia|]. intros e. apply Hi in e; lia.
      * intros p Hp. rewrite (get_put_ne _ _ _ _ _ P); [apply K; intros; apply Hp; lia|]. specialize (Hp n ltac:(lia)). congruence.
    + exfalso. specialize (Ha n ltac:(lia)). rewrite put_ok in P by lia. discriminate.
Qed.

Section Voronoi.
Context {T : Type} (N : num T) (one : T).

Lemma voronoi mpi g ls seeds (data : list (sobj T)) :
  0 <= g -> (mpi = false -> g = 0) -> lims_ok ls -> (length ls <= 3)%nat ->
  Forall inner_parallel (lay g ls) -> zlen data = cells (lay g ls) -> Forall (fun o => exists l, o = map Some l) data ->
  concat seeds <> [] -> Forall (seed_in (lay g ls)) (concat seeds) ->
  (forall x s, in_box (map l_x0 ls) (map l_x1 ls) x -> In s (concat seeds) -> dist2 x s < int_max) ->
  exists data', exact_voronoi N one mpi (lay g ls) seeds data = Some data' /\ zlen data' = zlen data /\
    forall x, in_box (map l_x0 ls) (map l_x1 ls) x ->
      exists k l, first_nearest (concat seeds) x k /\ grid_read mpi (lay g ls) data x = Some (map Some l) /\
        grid_read mpi (lay g ls) data' x = Some (map Some (aset N l k (fun _ => one))).
Proof.
  intros Hg Hs Hl D3 IP Hz Hd NE SI DB. pose proof (wf_lay g ls Hl) as W.
  set (axs := lay g ls) in *.
  assert (forall i, 0 <= i < nodes axs -> in_box (map l_x0 ls) (map l_x1 ls) (position axs i)) as Pin.
  { intros i Hi. destruct (position_spec _ _ _ W Hi) as [P _]. unfold axs in P. rewrite map_x0_lay, map_x1_lay in P. exact P. }
  assert (forall i, 0 <= i < nodes axs -> exists k, nearest mpi axs seeds (position axs i) = Some k /\ first_nearest (concat seeds) (position axs i) k) as Hk.
  { intros i Hi. apply nearest_spec; auto.
    - unfold axs at 2. rewrite length_lay. apply local_len. auto.
    - unfold axs. now rewrite length_lay.
    - apply Forall_forall. intros s Is. apply DB; auto. }
  assert (forall i, 0 <= i < nodes axs -> addr_int mpi axs i = encode axs (position axs i)) as Ai by (intros; apply addr_int_encode; auto).
  assert (forall i, 0 <= i < nodes axs -> in_box (map a_s0 axs) (map a_s1 axs) (position axs i)) as Sin.
  { intros i Hi. apply (local_in_storage g); auto. destruct (position_spec _ _ _ W Hi) as [P _]. exact P. }
  set (kk := fun i => match nearest mpi axs seeds (position axs i) with Some k => k | None => 0 end).
  set (cell := fun i => match get data (encode axs (position axs i)) with Some o => match map_opt (fun c => c) o with Some l => l | None => [] end | None => [] end).
  assert (forall i c, 0 <= i < nodes axs -> get data (addr_int mpi axs i) = Some c -> c = map Some (cell i)) as Cell.
  { intros i c Hi G. rewrite Ai in G by auto. unfold cell. rewrite G. rewrite Forall_forall in Hd.
    destruct (Hd c) as [l ->]; [unfold get in G; destruct (_ <? 0); [discriminate|eapply nth_error_In; eauto]|]. now rewrite SparseL.map_opt_some. }
  destruct (rmw_fold (fun i c => do k <- nearest mpi axs seeds (position axs i); sset_op N c k (fun _ => one))
     (fun i => map Some (aset N (cell i) (kk i) (fun _ => one))) (addr_int mpi axs) (nodes axs) data) as (d' & E & L & G & _).
  - eapply nodes_nonneg; eauto.
  - intros i Hi. rewrite Ai, Hz by auto. apply (encode_bounds g); auto.
  - intros i c Hi Gc. rewrite (Cell i c Hi Gc). destruct (Hk i Hi) as (k & Ek & _). unfold kk. rewrite Ek. cbn [bind]. apply sset_op_map.
  - intros i j Hi Hj. rewrite !Ai by auto. intros e. apply (encode_inj g) in e; auto.
    destruct (position_spec _ _ _ W Hi) as [_ Qi], (position_spec _ _ _ W Hj) as [_ Qj]. congruence.
  - exists d'. split; [|split; [exact L|]].
    + unfold exact_voronoi. rewrite <- E. apply fold_opt_ext. intros d i. unfold grid_read_int, grid_write_int.
      destruct (nearest mpi axs seeds (position axs i)); cbn [bind]; [reflexivity|]. now destruct (get d (addr_int mpi axs i)).
    + intros x Hx. assert (exists i, 0 <= i < nodes axs /\ position axs i = x) as (i & Hi & <-).
      { destruct (position_onto g axs x W) as (i & Hi & e); [|eauto]. unfold axs. rewrite map_x0_lay, map_x1_lay. exact Hx. }
      destruct (Hk i Hi) as (k & Ek & Fk). exists k, (cell i). split; [exact Fk|].
      pose proof (proj1 (read_int_position mpi g ls data i Hg Hs Hl Hi)) as R. pose proof (proj1 (read_int_position mpi g ls d' i Hg Hs Hl Hi)) as R'.
      fold axs in R, R'. rewrite <- R, <- R'. unfold grid_read_int. split.
      * destruct (get_ok data (addr_int mpi axs i)) as [c Hc]; [rewrite Ai, Hz by auto; apply (encode_bounds g); auto|].
        rewrite Hc. f_equal. now apply Cell.
      * rewrite G by auto. unfold kk. now rewrite Ek.
Qed.
End Voronoi.

(* ---- the exchange of the seeds ---- *)
Lemma to_buffer_concat vp : Forall (fun s : seed => length s = 3%nat) vp -> seeds_to_buffer vp = Some (concat vp).
Proof.
  intros H. unfold seeds_to_buffer. rewrite (map_opt_map _ (fun v => v)).
  - rewrite map_id. reflexivity.
  - intros v Hv. rewrite Forall_forall in H. specialize (H v Hv). destruct v as [|a [|b [|c [|? ?]]]]; try discriminate. reflexivity.
Qed.

Lemma from_loop vp : Forall (fun s : seed => length s = 3%nat) vp -> forall pre post fuel, (length vp < fuel)%nat \/ (vp = [] ) ->
  seeds_from_loop (pre ++ concat vp ++ post) (zlen pre + 2) (3 * zlen vp - 2) fuel = Some vp.
Proof.
  induction 1 as [|s vp Hs _ IH]; intros pre post fuel Hf.
  - change (zlen (@nil seed)) with 0. destruct fuel; [reflexivity|]. cbn [seeds_from_loop]. destruct (Z.ltb_spec 0 (3 * 0 - 2)); [lia|reflexivity].
  - destruct Hf as [Hf|Hf]; [|discriminate]. simpl in Hf. destruct fuel as [|fuel]; [lia|]. destruct s as [|a [|b [|c [|? ?]]]]; try discriminate.
    rewrite zlen_cons. pose proof (zlen_nonneg vp). cbn [seeds_from_loop]. destruct (Z.ltb_spec 0 (3 * (1 + zlen vp) - 2)); [|lia].
    cbn [concat]. rewrite <- app_assoc. cbn [app].
    assert (forall k v, nth_error (a :: b :: c :: concat vp ++ post) k = Some v -> get (pre ++ a :: b :: c :: concat vp ++ post) (zlen pre + Z.of_nat k) = Some v) as G.
    { intros k v Hk. unfold zlen. replace (Z.of_nat (length pre) + Z.of_nat k) with (Z.of_nat (length pre + k)) by lia.
      rewrite SparseL.get_nth. rewrite nth_error_app2 by lia. now replace (length pre + k - length pre)%nat with k by lia. }
    replace (zlen pre + 2 - 2) with (zlen pre + Z.of_nat 0) by lia. replace (zlen pre + 2 - 1) with (zlen pre + Z.of_nat 1) by lia.
    rewrite (G 0%nat a eq_refl), (G 1%nat b eq_refl). replace (zlen pre + 2) with (zlen pre + Z.of_nat 2) by lia. rewrite (G 2%nat c eq_refl). cbn [bind].
    specialize (IH (pre ++ [a; b; c]) post fuel). rewrite zlen_app, <- app_assoc in IH. change (zlen [a; b; c]) with 3 in IH. cbn [app] in IH.
    replace (zlen pre + Z.of_nat 2 + 3) with (zlen pre + 3 + 2) by lia. replace (3 * (1 + zlen vp) - 2 - 3) with (3 * zlen vp - 2) by lia.
    rewrite IH by (left; lia). reflexivity.
Qed.
Lemma from_buffer vp pre post : Forall (fun s : seed => length s = 3%nat) vp ->
  seeds_from_buffer (pre ++ concat vp ++ post) (zlen pre) (3 * zlen vp) = Some vp.
Proof.
  intros H. unfold seeds_from_buffer. apply from_loop; [auto|]. destruct vp; [now right|left]. unfold zlen. simpl length. lia.
Qed.

Lemma zlen_concat3 (vp : list seed) : Forall (fun s : seed => length s = 3%nat) vp -> zlen (concat vp) = 3 * zlen vp.
Proof.
  induction 1 as [|s vp Hs _ IH]; [reflexivity|]. cbn [concat]. rewrite zlen_app, IH, zlen_cons. unfold zlen at 1. rewrite Hs. lia.
Qed.

Lemma coll_gsteps {A} (np : Z) kind (m : Z -> msg) (P : Z -> proc A) (K : Z -> list msg -> proc A) (P' : Z -> proc A) n ch s : 0 < np ->
  (forall r, 0 <= r < np -> P r = Coll kind (m r) (K r)) ->
  (forall r, 0 <= r < np -> K r (map m (zrange 0 np)) = P' r) ->
  gsteps n (ranks np P', ch) s -> gsteps (S n) (ranks np P, ch) s.
Proof.
  intros Hnp HP HK G. rewrite (ranks_ext np P _ HP). eapply gsteps_S; [apply all_coll; lia|]. rewrite (ranks_ext np _ P' HK). exact G.
Qed.

Section Exchange.
Context {T : Type} (N : num T) (one : T).
Variables (np : Z) (axs : Z -> list axis) (local : Z -> list seed) (data : Z -> list (sobj T)).
Hypothesis Hnp : 0 < np.
Hypothesis H3 : forall r, 0 <= r < np -> Forall (fun s : seed => length s = 3%nat /\ Forall int_range s) (local r).
Hypothesis Htotal : 3 * sumZ (map (fun r => zlen (local r)) (zrange 0 np)) <= int_max.

Let all := map local (zrange 0 np).
Lemma L3 r : 0 <= r < np -> Forall (fun s : seed => length s = 3%nat) (local r).
Proof. intros Hr. eapply Forall_impl; [|apply H3; auto]. simpl. tauto. Qed.
Lemma ints r : 0 <= r < np -> Forall int_range (concat (local r)).
Proof.
  intros Hr. apply Forall_forall. intros v Hv. apply in_concat in Hv as (s & Hs & Hv). pose proof (H3 r Hr) as H. rewrite Forall_forall in H.
  destruct (H s Hs) as [_ I]. rewrite Forall_forall in I. auto.
Qed.
Lemma part_le l : Forall (fun r => 0 <= r < np) l -> forall x, In x l -> zlen (local x) <= sumZ (map (fun r => zlen (local r)) l).
Proof.
  induction 1 as [|a l Ha _ IH]; intros x Hx; [destruct Hx|]. cbn [map]. change (sumZ (zlen (local a) :: map (fun r => zlen (local r)) l)) with (zlen (local a) + sumZ (map (fun r => zlen (local r)) l)).
  assert (0 <= sumZ (map (fun r => zlen (local r)) l)) by (clear; induction l; [reflexivity|]; cbn [map]; change (0 <= zlen (local a) + sumZ (map (fun r => zlen (local r)) l)); pose proof (zlen_nonneg (local a)); lia).
  pose proof (zlen_nonneg (local a)). destruct Hx as [->|Hx]; [lia|]. specialize (IH x Hx). lia.
Qed.
Lemma size_ok r : 0 <= r < np -> 0 <= 3 * zlen (local r) <= int_max.
Proof.
  intros Hr. pose proof (zlen_nonneg (local r)). pose proof (part_le (zrange 0 np)) as P.
  specialize (P ltac:(apply Forall_forall; intros x Hx; now apply in_zrange in Hx) r ltac:(now apply in_zrange)). lia.
Qed.

Lemma sizes_eq : map (pd_dec pod_int) (map (fun r => pd_enc pod_int (3 * zlen (local r))) (zrange 0 np)) = map (fun r => 3 * zlen (local r)) (zrange 0 np).
Proof.
  rewrite map_map. apply map_ext_in. intros r Hr. apply in_zrange in Hr. destruct pod_int_ok as [_ P]. apply P. pose proof (size_ok r Hr). unfold int_range, int_max in *. lia.
Qed.
Lemma sum3 l : sumZ (map (fun r => 3 * zlen (local r)) l) = 3 * sumZ (map (fun r => zlen (local r)) l).
Proof. induction l as [|a l IH]; [reflexivity|]. cbn [map]. change (3 * zlen (local a) + sumZ (map (fun r => 3 * zlen (local r)) l) = 3 * (zlen (local a) + sumZ (map (fun r => zlen (local r)) l))). lia. Qed.

Lemma block_eq : concat (map (fun b => arr_dec pod_int (Z.to_nat (zlen b / 4)) b) (map (fun r => arr_enc pod_int (concat (local r))) (zrange 0 np)))
  = concat (map (fun r => concat (local r)) (zrange 0 np)).
Proof.
  rewrite map_map. f_equal. apply map_ext_in. intros r Hr. apply in_zrange in Hr.
  rewrite (zlen_arr_enc pod_int int_range) by (auto using pod_int_ok, ints). change (pd_size pod_int) with 4. rewrite Z.div_mul by lia.
  unfold zlen. rewrite Nat2Z.id. apply (arr_dec_enc pod_int int_range); auto using pod_int_ok, ints.
Qed.

Lemma unpack : map_opt (fun i => do n <- get (map (fun r => 3 * zlen (local r)) (zrange 0 np)) i;
    seeds_from_buffer (concat (map (fun r => concat (local r)) (zrange 0 np))) (sumZ (firstn (Z.to_nat i) (map (fun r => 3 * zlen (local r)) (zrange 0 np)))) n)
  (zrange 0 np) = Some all.
Proof.
  apply map_opt_map. intros i Hi. apply in_zrange in Hi. rewrite (BaseL.get_nth _ _ 0) by (rewrite BaseL.zlen_map, zlen_zrange; lia). cbn [bind].
  assert (nth (Z.to_nat i) (map (fun r => 3 * zlen (local r)) (zrange 0 np)) 0 = 3 * zlen (local i)) as ->.
  { apply nth_error_nth. rewrite nth_error_map. rewrite nth_error_zrange by lia. cbn [option_map]. do 4 f_equal. lia. }
  rewrite (zrange_app 0 i np) at 1 by lia. rewrite (zrange_cons i np) by lia. rewrite map_app, concat_app. cbn [map concat].
  assert (firstn (Z.to_nat i) (map (fun r => 3 * zlen (local r)) (zrange 0 np)) = map (fun r => 3 * zlen (local r)) (zrange 0 i)) as ->.
  { rewrite firstn_map. f_equal. rewrite (zrange_app 0 i np) by lia. rewrite firstn_app, length_zrange. rewrite firstn_all2 by (rewrite length_zrange; lia).
    replace (Z.to_nat i - Z.to_nat (i - 0))%nat with O by lia. now rewrite firstn_O, app_nil_r. }
  assert (sumZ (map (fun r => 3 * zlen (local r)) (zrange 0 i)) = zlen (concat (map (fun r => concat (local r)) (zrange 0 i)))) as ->.
  { assert (Forall (fun r => 0 <= r < np) (zrange 0 i)) as F by (apply Forall_forall; intros x Hx; apply in_zrange in Hx; lia).
    induction F as [|a l Ha _ IH]; [reflexivity|]. cbn [map concat]. rewrite zlen_app, <- IH. rewrite zlen_concat3 by now apply L3. reflexivity. }
  apply from_buffer. now apply L3.
Qed.

Lemma exchange (D' : Z -> list (sobj T)) :
  (forall r, 0 <= r < np -> exact_voronoi N one true (axs r) (all ++ [[]]) (data r) = Some (D' r)) ->
  exists f, finished np (fun r => (all, D' r)) f /\
    inevitable (ranks np (fun r => tessellate_mpi N one (axs r) (local r) (data r)), no_chans) f.
Proof.
  intros HV. apply (conclude np _ _ 8 no_chans no_chans Hnp quiet_empty).
  set (szs := map (fun r => 3 * zlen (local r)) (zrange 0 np)).
  assert (sumZ szs <=? int_max = true) as Hs by (apply Z.leb_le; unfold szs; rewrite sum3; auto).
  assert (zlen szs = np) as Zs by (unfold szs; rewrite BaseL.zlen_map, zlen_zrange; lia).
  (* the states between the collective operations *)
  set (R8 := fun r => Ret (all, D' r)).
  set (P7 := fun r => Coll 5 (pd_enc pod_int 1) (fun _ : list msg => R8 r)).
  set (P6 := fun r => barrier (P7 r)).
  set (P5 := fun r => Coll 5 (pd_enc pod_int 1) (fun _ : list msg => P6 r)).
  set (P4 := fun r => barrier (P5 r)).
  set (k3 := fun r (bs : list msg) =>
      lift (guard (if list_eq_dec Z.eq_dec (map zlen bs) (map (Z.mul 4) szs) then true else false)) (fun _ =>
      let block := concat (map (fun b => arr_dec pod_int (Z.to_nat (zlen b / 4)) b) bs) in
      lift (map_opt (fun i => do n <- get szs i; seeds_from_buffer block (sumZ (firstn (Z.to_nat i) szs)) n) (zrange 0 (zlen szs))) (fun seeds =>
      barrier (Coll 5 (pd_enc pod_int 1) (fun _ =>
      lift (exact_voronoi N one true (axs r) (seeds ++ [[]]) (data r)) (fun data =>
      barrier (Coll 5 (pd_enc pod_int 1) (fun _ => Ret (seeds, data))))))))).
  set (P3 := fun r => Coll 4 (arr_enc pod_int (concat (local r))) (k3 r)).
  set (P2 := fun r => barrier (P3 r)).
  set (k1 := fun r (ms : list msg) => let sizes := map (pd_dec pod_int) ms in
      lift (guard (sumZ sizes <=? int_max)) (fun _ => barrier (Coll 4 (arr_enc pod_int (concat (local r))) (fun bs =>
      lift (guard (if list_eq_dec Z.eq_dec (map zlen bs) (map (Z.mul 4) sizes) then true else false)) (fun _ =>
      let block := concat (map (fun b => arr_dec pod_int (Z.to_nat (zlen b / 4)) b) bs) in
      lift (map_opt (fun i => do n <- get sizes i; seeds_from_buffer block (sumZ (firstn (Z.to_nat i) sizes)) n) (zrange 0 (zlen sizes))) (fun seeds =>
      barrier (Coll 5 (pd_enc pod_int 1) (fun _ =>
      lift (exact_voronoi N one true (axs r) (seeds ++ [[]]) (data r)) (fun data =>
      barrier (Coll 5 (pd_enc pod_int 1) (fun _ => Ret (seeds, data)))))))))))).
  set (P1 := fun r => Coll 3 (pd_enc pod_int (3 * zlen (local r))) (k1 r)).
  eapply (coll_gsteps np 0 (fun _ => []) _ (fun r _ => P1 r) P1); [auto| |reflexivity|].
  { intros r Hr. unfold tessellate_mpi. rewrite to_buffer_concat by now apply L3. cbn [lift]. rewrite zlen_concat3 by now apply L3.
    pose proof (size_ok r Hr). assert (3 * zlen (local r) <=? int_max = true) as -> by (apply Z.leb_le; lia). reflexivity. }
  eapply (coll_gsteps np 3 (fun r => pd_enc pod_int (3 * zlen (local r))) _ k1 P2); [auto|reflexivity| |].
  { intros r Hr. unfold k1, msg. rewrite sizes_eq. fold szs. cbv zeta. rewrite Hs. reflexivity. }
  eapply (coll_gsteps np 0 (fun _ => []) _ (fun r _ => P3 r) P3); [auto|reflexivity|reflexivity|].
  eapply (coll_gsteps np 4 (fun r => arr_enc pod_int (concat (local r))) _ k3 P4); [auto|reflexivity| |].
  { intros r Hr. unfold k3, msg. rewrite block_eq. cbv zeta. rewrite Zs.
    assert (map zlen (map (fun r => arr_enc pod_int (concat (local r))) (zrange 0 np)) = map (Z.mul 4) szs) as ->.
    { unfold szs. rewrite !map_map. apply map_ext_in. intros q Hq. apply in_zrange in Hq. rewrite (zlen_arr_enc pod_int int_range) by (auto using pod_int_ok, ints).
      rewrite zlen_concat3 by now apply L3. change (pd_size pod_int) with 4. lia. }
    destruct (list_eq_dec Z.eq_dec (map (Z.mul 4) szs) (map (Z.mul 4) szs)); [|congruence]. cbn [guard lift].
    unfold szs. rewrite unpack. cbn [lift]. rewrite (HV r Hr). reflexivity. }
  eapply (coll_gsteps np 0 (fun _ => []) _ (fun r _ => P5 r) P5); [auto|reflexivity|reflexivity|].
  eapply (coll_gsteps np 5 _ _ (fun r _ => P6 r) P6); [auto|reflexivity|reflexivity|].
  eapply (coll_gsteps np 0 (fun _ => []) _ (fun r _ => P7 r) P7); [auto|reflexivity|reflexivity|].
  eapply (coll_gsteps np 5 _ _ (fun r _ => R8 r) R8); [auto|reflexivity|reflexivity|]. constructor.
Qed.
End Exchange.
