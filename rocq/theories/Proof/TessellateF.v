From Coq Require Import QArith Qcanon Permutation.
From Verif Require Import Model.Base Model.Boundary Model.Layout Model.Access Model.Setup Model.Num Model.Sparse Model.Codec Model.MPI Model.Ghostswap Model.Simulate Model.Tessellate
  Spec.Box Spec.Access Spec.Bytes Spec.Decomp Spec.Schedule Spec.Sparse Spec.Tessellate
  Proof.BaseL Proof.LayoutL Proof.AccessL Proof.CodecL Proof.SetupL Proof.SparseL Proof.MPIL Proof.SimulateL Proof.GlobalL Proof.TessellateL.
Local Open Scope Z_scope.

(* ---- geometry of a rank, boundary conditions set at the sides of the domain ---- *)
Lemma zip_inner gs p1 pos bs : gok gs -> Forall (fun q => 0 < q) p1 -> in_box (map (fun _ => 0) p1) p1 pos -> length p1 = length gs -> length bs = length gs ->
  forall gh, Forall inner_parallel (lay gh (zip_with set_lim (zip_limits gs p1 pos) bs)).
Proof.
  intros Hg; revert p1 pos bs; induction Hg as [|g gs Hg0 Hg IH]; intros [|p p1] [|k pos] [|b bs] Hp Hb Hl Hl' gh; simpl in *; try easy; try discriminate.
  inversion Hp; subst. destruct Hb as [Hk Hb]. constructor; [|apply IH; auto].
  rewrite axis_limits_eq by auto. unfold inner_parallel, set_lim. simpl.
  pose proof (start_mono g p 0 k ltac:(auto) Hg0 ltac:(lia)). pose proof (start_mono g p (k + 1) p ltac:(auto) Hg0 ltac:(lia)).
  rewrite start_0 in * by auto. rewrite start_p in * by auto.
  destruct (Z.eqb_spec (start g p k) (gx_0 g)), (Z.eqb_spec (start g p (k + 1)) (gx_1 g)); repeat split; auto; congruence.
Qed.
Lemma zip_limits_g gs p1 pos : length p1 = length gs -> length pos = length gs ->
  map l_g0 (zip_limits gs p1 pos) = map gx_0 gs /\ map l_g1 (zip_limits gs p1 pos) = map gx_1 gs.
Proof.
  revert p1 pos; induction gs as [|g gs IH]; intros [|p p1] [|k pos] H1 H2; simpl in *; try discriminate; auto.
  destruct (IH p1 pos) as [E0 E1]; try lia. unfold axis_limits. destruct (local_limits g p k). simpl. rewrite E0, E1. auto.
Qed.
Lemma map_g0_lay gh ls : map a_g0 (lay gh ls) = map l_g0 ls.
Proof. induction ls; simpl; congruence. Qed.
Lemma map_g1_lay gh ls : map a_g1 (lay gh ls) = map l_g1 ls.
Proof. induction ls; simpl; congruence. Qed.

Lemma rank_geometry np gs gh bs r ge : 0 < np -> gs <> [] -> gok gs -> 0 <= r < np -> length bs = length gs -> setup_mpi np gs gh r = Some ge ->
  exists ls, ge_axes (with_bounds set_bounds_axis bs ge) = lay gh ls /\ length ls = length gs /\ lims_ok ls /\ Forall inner_parallel (lay gh ls) /\
    map a_g0 (lay gh ls) = map gx_0 gs /\ map a_g1 (lay gh ls) = map gx_1 gs /\
    map l_x0 ls = map a_x0 (ge_axes ge) /\ map l_x1 ls = map a_x1 (ge_axes ge) /\ cells (lay gh ls) = cells (ge_axes ge) /\
    exists ls0, ge_axes ge = lay gh ls0 /\ lims_ok ls0 /\ length ls0 = length gs /\ map l_g0 ls0 = map gx_0 gs /\ map l_g1 ls0 = map gx_1 gs.
Proof.
  intros Hnp Hne Hg Hr Lb Hs. destruct (setup_eq np gs gh r Hnp Hne Hg Hr) as (p & P1 & (L & Q & E) & S2 & S3 & S4).
  rewrite S4 in Hs. inversion Hs; subst ge. cbn [ge_axes with_bounds]. set (pos := rank_pos (slices p) r) in *.
  destruct (zip_limits_ok gs p pos Hg Q S2 L) as [Z1 Z2]. pose proof (in_box_length _ _ _ S2) as [Lp _]. rewrite map_length in Lp.
  destruct (zip_limits_g gs p pos L ltac:(congruence)) as [G0 G1].
  exists (zip_with set_lim (zip_limits gs p pos) bs). split; [apply zip_lay; congruence|]. split; [rewrite length_zip_with; congruence|].
  split. { unfold lims_ok in *. apply Forall_forall. intros l Hl. rewrite Forall_forall in Z1.
    assert (forall ls bs, length bs = length ls -> In l (zip_with set_lim ls bs) -> exists l0 b, In l0 ls /\ l = set_lim l0 b) as X.
    { clear. induction ls as [|a ls IH]; intros [|b bs] E H; simpl in *; try discriminate; try tauto. destruct H as [<-|H]; [eauto|]. destruct (IH bs ltac:(lia) H) as (l0 & b0 & I & ->). eauto. }
    destruct (X (zip_limits gs p pos) bs ltac:(congruence) Hl) as (l0 & b & I & ->). simpl. auto. }
  split; [apply zip_inner; auto|]. rewrite map_g0_lay, map_g1_lay, map_x0_lay, map_x1_lay, !map_zip by (auto; congruence).
  split; [auto|]. split; [auto|]. split; [auto|]. split; [auto|]. split.
  { rewrite !cells_lay. f_equal. rewrite map_zip by (auto; congruence). reflexivity. }
  exists (zip_limits gs p pos). auto.
Qed.

Lemma dist2_bound gs x s : in_box (map gx_0 gs) (map gx_1 gs) x -> in_box (map gx_0 gs) (map gx_1 gs) (firstn (length gs) s) -> gs <> [] ->
  dist2 x s < sumZ (map (fun g => glen g ^ 2) gs).
Proof.
  assert (forall gs x s, in_box (map gx_0 gs) (map gx_1 gs) x -> in_box (map gx_0 gs) (map gx_1 gs) (firstn (length gs) s) -> dist2 x s <= sumZ (map (fun g => glen g ^ 2) gs)) as X.
  { clear. induction gs as [|g gs IH]; intros [|a x] [|b s] H1 H2; simpl in *; try easy. destruct H1 as [A1 A2], H2 as [B1 B2]. specialize (IH x s A2 B2).
    change (sumZ (glen g ^ 2 :: map (fun g => glen g ^ 2) gs)) with (glen g ^ 2 + sumZ (map (fun g => glen g ^ 2) gs)). unfold glen in *. nia. }
  destruct gs as [|g gs]; [congruence|]. intros H1 H2 _. destruct x as [|a x]; [destruct H1|]. destruct s as [|b s]; [destruct H2|]. simpl in H1, H2. destruct H1 as [A1 A2], H2 as [B1 B2].
  specialize (X gs x s A2 B2). cbn [dist2 map]. change (sumZ (glen g ^ 2 :: map (fun g => glen g ^ 2) gs)) with (glen g ^ 2 + sumZ (map (fun g => glen g ^ 2) gs)). unfold glen in *. nia.
Qed.

Theorem tessellation {T} (N : num T) (one : T) np gs gh bs (local : Z -> list seed) (data : Z -> list (sobj T)) :
  0 < np -> gs <> [] -> (length gs <= 3)%nat -> gok gs -> 0 <= gh -> length bs = length gs ->
  sumZ (map (fun g => glen g ^ 2) gs) <= int_max ->
  (forall r, 0 <= r < np -> Forall (domain_seed gs) (local r)) ->
  concat (map local (zrange 0 np)) <> [] -> 3 * sumZ (map (fun r => zlen (local r)) (zrange 0 np)) <= int_max ->
  (forall r ge, 0 <= r < np -> setup_mpi np gs gh r = Some ge -> zlen (data r) = cells (ge_axes ge) /\ Forall (fun o => o = []) (data r)) ->
  exists D' f, finished np (fun r => (map local (zrange 0 np), D' r)) f /\
    inevitable (ranks np (fun r => lift (setup_mpi np gs gh r) (fun ge =>
       tessellate_mpi N one (ge_axes (with_bounds set_bounds_axis bs ge)) (local r) (data r))), no_chans) f /\
    forall r ge x, 0 <= r < np -> setup_mpi np gs gh r = Some ge -> owns ge x ->
      exists k, first_nearest (concat (map local (zrange 0 np))) x k /\
        grid_read true (ge_axes (with_bounds set_bounds_axis bs ge)) (D' r) x = Some [Some (k, one)].
Proof.
  intros Hnp Hne H3 Hg Hgh Lb Hsq HL NE Ht HD.
  assert (forall r, 0 <= r < np -> exists ge, setup_mpi np gs gh r = Some ge) as SG.
  { intros r Hr. destruct (setup_eq np gs gh r Hnp Hne Hg Hr) as (p & _ & _ & _ & _ & S4). eauto. }
  set (axs := fun r => match setup_mpi np gs gh r with Some ge => ge_axes (with_bounds set_bounds_axis bs ge) | None => [] end).
  set (all := map local (zrange 0 np)) in *.
  assert (concat (all ++ [[]]) = concat all) as EC by (rewrite concat_app; simpl; now rewrite app_nil_r).
  assert (forall r, 0 <= r < np -> exists d', exact_voronoi N one true (axs r) (all ++ [[]]) (data r) = Some d' /\
    forall ge x, setup_mpi np gs gh r = Some ge -> owns ge x -> exists k, first_nearest (concat all) x k /\ grid_read true (axs r) d' x = Some [Some (k, one)]) as V.
  { intros r Hr. destruct (SG r Hr) as [ge Ege]. destruct (rank_geometry np gs gh bs r ge Hnp Hne Hg Hr Lb Ege) as (ls & El & Ll & Ol & IP & G0 & G1 & X0 & X1 & Cl & _).
    unfold axs. rewrite Ege. rewrite El. destruct (HD r ge Hr Ege) as [Dl De].
    assert (forall s, In s (concat all) -> domain_seed gs s) as DS.
    { intros s Hs. apply in_concat in Hs as (l & Hl & Hs). unfold all in Hl. apply in_map_iff in Hl as (q & <- & Hq). apply in_zrange in Hq.
      specialize (HL q Hq). rewrite Forall_forall in HL. auto. }
    destruct (voronoi N one true gh ls (all ++ [[]]) (data r)) as (d' & E & _ & V).
    - lia.
    - discriminate.
    - auto.
    - congruence.
    - auto.
    - congruence.
    - eapply Forall_impl; [|exact De]. intros o ->. now exists [].
    - now rewrite EC.
    - rewrite EC. apply Forall_forall. intros s Hs. destruct (DS s Hs) as (A & _ & B). split; [auto|]. rewrite G0, G1, length_lay, Ll. exact B.
    - intros x s Hx Hs. rewrite EC in Hs. destruct (DS s Hs) as (_ & _ & B). eapply Z.lt_le_trans; [|exact Hsq]. apply dist2_bound; auto.
      eapply (owned_inside np gs gh r ge); eauto. unfold owns. now rewrite <- X0, <- X1.
    - exists d'. split; [exact E|]. intros ge' x E' Ox. inversion E'; subst ge'. unfold owns in Ox. rewrite <- X0, <- X1 in Ox.
      destruct (V x Ox) as (k & l & K1 & K2 & K3). exists k. rewrite EC in K1. split; [auto|]. rewrite K3.
      assert (l = []) as ->; [|reflexivity]. unfold grid_read in K2. destruct (addr_vec true (lay gh ls) x 0) as [a|]; [|discriminate]. cbn [bind] in K2.
      unfold get in K2. destruct (a <? 0); [discriminate|]. apply nth_error_In in K2. rewrite Forall_forall in De. apply De in K2. destruct l; [auto|discriminate]. }
  set (D' := fun r => match exact_voronoi N one true (axs r) (all ++ [[]]) (data r) with Some d => d | None => [] end).
  destruct (exchange N one np axs local data Hnp) with (D' := D') as (f & F1 & F2).
  - intros r Hr. eapply Forall_impl; [|apply HL; auto]. intros s (A & B & _). auto.
  - exact Ht.
  - intros r Hr. unfold D'. destruct (V r Hr) as (d' & E & _). fold all. now rewrite E.
  - exists D', f. split; [exact F1|]. split.
    + erewrite ranks_ext; [exact F2|]. intros r Hr. destruct (SG r Hr) as [ge Ege]. unfold axs. rewrite Ege. reflexivity.
    + intros r ge x Hr Ege Ox. destruct (V r Hr) as (d' & E & W). destruct (W ge x Ege Ox) as (k & K1 & K2). exists k. split; [auto|].
      unfold D'. rewrite E. unfold axs in K2. rewrite Ege in K2. exact K2.
Qed.

(* ---- seeds from a file ---- *)
Lemma truncZ_range L (x : Qc) : 0 <= L -> (0 <= x)%Qc -> (x < 1)%Qc -> 0 < L -> 0 <= truncZ (Q2Qc (inject_Z L) * x)%Qc < L.
Proof.
  intros HL H0 H1 HL'. unfold truncZ. set (q := (Q2Qc (inject_Z L) * x)%Qc).
  assert ((this q == inject_Z L * this x)%Q) as E. { unfold q. cbn [this Qcmult]. change (this (Q2Qc (inject_Z L) * x)%Qc) with (Qred (Qred (inject_Z L) * this x)). rewrite !Qred_correct. reflexivity. }
  unfold Qcle, Qclt in *. change (this 0) with 0%Q in H0. change (this 1) with 1%Q in H1.
  assert (0 <= this q)%Q as Q0. { rewrite E. apply Qmult_le_0_compat; [unfold Qle; simpl; lia|auto]. }
  assert (this q < inject_Z L)%Q as Q1. { rewrite E. rewrite <- (Qmult_1_r (inject_Z L)) at 2. apply Qmult_lt_l; [unfold Qlt; simpl; lia|auto]. }
  destruct (this q) as [n d]. unfold Qle, Qlt in Q0, Q1. simpl in Q0, Q1. cbn [Qnum Qden].
  rewrite Z.quot_div_nonneg by lia. split; [apply Z.div_pos; lia|]. apply Z.div_lt_upper_bound; lia.
Qed.

Lemma map_opt_zip {A B C} (f : A -> B -> C) : forall (l : list A) (m : list B) pre pre', length pre = length pre' -> (length l <= length m)%nat ->
  map_opt (fun k => do g <- get (pre ++ l) k; do x <- get (pre' ++ m) k; Some (f g x)) (zrange (zlen pre) (zlen pre + zlen l)) = Some (zip_with f l m).
Proof.
  induction l as [|a l IH]; intros m pre pre' Hp Hl.
  - change (zlen []) with 0. rewrite zrange_nil by lia. reflexivity.
  - destruct m as [|b m]; [simpl in Hl; lia|]. rewrite zlen_cons. pose proof (zlen_nonneg l). rewrite zrange_cons by lia. cbn [map_opt zip_with].
    assert (get (pre ++ a :: l) (zlen pre) = Some a) as -> by (unfold zlen; rewrite SparseL.get_nth, nth_error_app2, Nat.sub_diag by lia; reflexivity).
    assert (get (pre' ++ b :: m) (zlen pre) = Some b) as -> by (unfold zlen; rewrite SparseL.get_nth, nth_error_app2 by lia; rewrite Hp, Nat.sub_diag; reflexivity).
    cbn [bind]. specialize (IH m (pre ++ [a]) (pre' ++ [b])). rewrite zlen_app, !app_length, <- !app_assoc in IH. change (zlen [a]) with 1 in IH. cbn [app length] in IH.
    replace (zlen pre + (1 + zlen l)) with (zlen pre + 1 + zlen l) by lia. rewrite IH by (simpl in *; lia). reflexivity.
Qed.

Lemma zip_with_length {A B C} (f : A -> B -> C) l m : (length l <= length m)%nat -> length (zip_with f l m) = length l.
Proof. revert m; induction l; intros [|b m]; simpl; intros; auto; try lia. f_equal. apply IHl. lia. Qed.

Definition scaled (g : gaxis) (x : Qc) : Z := gx_0 g + truncZ (Q2Qc (inject_Z (glen g)) * x)%Qc.
Lemma file_seed_spec gs line : (length gs <= length line)%nat -> file_seed gs line = Some (zip_with scaled gs line ++ repeat 0 (3 - length gs)).
Proof. intros H. unfold file_seed. pose proof (map_opt_zip scaled gs line [] [] eq_refl H) as E. change (zlen []) with 0 in E. simpl app in E. unfold scaled in E. change (0 + zlen gs) with (zlen gs) in E. rewrite E. reflexivity. Qed.
Lemma scaled_in gs line : Forall (fun g => gx_0 g < gx_1 g) gs -> unit_line (length gs) line -> in_box (map gx_0 gs) (map gx_1 gs) (zip_with scaled gs line).
Proof.
  intros Hg [Hl Hu]. revert line Hl Hu. induction Hg as [|g gs Hg _ IH]; intros [|x line] Hl Hu; simpl in *; try lia; auto.
  inversion Hu as [|? ? [A B] Hu']; subst. split; [|apply IH; auto; lia]. unfold scaled.
  pose proof (truncZ_range (glen g) x ltac:(unfold glen; lia) A B ltac:(unfold glen; lia)). unfold glen in *. lia.
Qed.

Lemma truncZ_floor q : (0 <= q)%Qc -> (inject_Z (truncZ q) <= this q)%Q /\ (this q < inject_Z (truncZ q + 1))%Q.
Proof.
  unfold truncZ, Qcle. change (this 0) with 0%Q. destruct (this q) as [n d]. unfold Qle, Qlt. simpl. intros H. rewrite Z.quot_div_nonneg by lia.
  pose proof (Z.div_mod n (Zpos d) ltac:(lia)). pose proof (Z.mod_pos_bound n (Zpos d) ltac:(lia)). nia.
Qed.
Lemma scaled_cell gs line rest : Forall (fun g => gx_0 g < gx_1 g) gs -> unit_line (length gs) line -> cell_of gs line (zip_with scaled gs line ++ rest).
Proof.
  intros Hg [Hl Hu]. revert line Hl Hu. induction Hg as [|g gs Hg _ IH]; intros [|x line] Hl Hu; simpl in *; try lia; auto.
  inversion Hu as [|? ? [A B] Hu']; subst. split; [|split; [|apply IH; auto; lia]]; unfold scaled; set (q := (Q2Qc (inject_Z (glen g)) * x)%Qc).
  all: assert ((this q == inject_Z (glen g) * this x)%Q) as E by (unfold q; change (this (Q2Qc (inject_Z (glen g)) * x)%Qc) with (Qred (Qred (inject_Z (glen g)) * this x)); rewrite !Qred_correct; reflexivity).
  all: assert (0 <= q)%Qc as Q0 by (unfold Qcle in *; change (this 0) with 0%Q in *; rewrite E; apply Qmult_le_0_compat; [unfold Qle; simpl; unfold glen; lia|auto]).
  all: destruct (truncZ_floor q Q0) as [F1 F2]; rewrite E in F1, F2.
  - rewrite inject_Z_plus. apply Qplus_le_compat; [apply Qle_refl|auto].
  - rewrite <- Z.add_assoc, (inject_Z_plus (gx_0 g)). apply Qplus_lt_r. auto.
Qed.

Lemma is_local_spec axs s : (length axs <= length s)%nat ->
  exists b, is_local axs s = Some b /\ (b = true <-> in_box (map a_x0 axs) (map a_x1 axs) (firstn (length axs) s)).
Proof.
  intros H. unfold is_local. pose proof (map_opt_zip (fun (a : axis) c => (a_x0 a <=? c) && (c <? a_x1 a)) axs s [] [] eq_refl H) as E.
  change (zlen []) with 0 in E. cbn [app] in E. change (0 + zlen axs) with (zlen axs) in E.
  assert (map_opt (fun k => do c <- get s k; do a <- get axs k; Some ((a_x0 a <=? c) && (c <? a_x1 a))) (zrange 0 (zlen axs)) = Some (zip_with (fun (a : axis) c => (a_x0 a <=? c) && (c <? a_x1 a)) axs s)) as ->.
  { rewrite <- E. generalize (zrange 0 (zlen axs)). intros l. induction l as [|k l IH]; [reflexivity|]. cbn [map_opt]. rewrite IH. now destruct (get s k), (get axs k). }
  cbn [bind]. eexists. split; [reflexivity|]. clear E. revert s H. induction axs as [|a axs IH]; intros [|c s] H; simpl in *; try lia; try tauto.
  rewrite !andb_true_iff, IH by lia. rewrite Z.leb_le, Z.ltb_lt. tauto.
Qed.

Lemma perm_owned {A} (own : Z -> A -> bool) rs : NoDup rs -> forall ss, (forall s, In s ss -> exists r, In r rs /\ own r s = true /\ forall r', In r' rs -> own r' s = true -> r' = r) ->
  Permutation (concat (map (fun r => filter (own r) ss) rs)) ss.
Proof.
  intros Hn. induction ss as [|s ss IH]; intros H.
  - replace (concat (map (fun r => filter (own r) []) rs)) with (@nil A); [constructor|]. clear. induction rs; simpl; auto.
  - destruct (H s (or_introl eq_refl)) as (r & Hr & Or & U). apply in_split in Hr as (r1 & r2 & ->).
    assert (forall l, (forall q, In q l -> In q (r1 ++ r :: r2) /\ q <> r) -> map (fun r => filter (own r) (s :: ss)) l = map (fun r => filter (own r) ss) l) as X.
    { intros l Hl. apply map_ext_in. intros q Hq. destruct (Hl q Hq) as [I Nq]. cbn [filter]. destruct (own q s) eqn:E; [|reflexivity]. exfalso. apply Nq. apply U; auto. }
    apply NoDup_remove in Hn as [_ Nr].
    assert (forall q, In q r1 \/ In q r2 -> In q (r1 ++ r :: r2) /\ q <> r) as Y.
    { intros q Hq. split; [apply in_or_app; simpl; tauto|]. intros ->. apply Nr. apply in_or_app. tauto. }
    rewrite map_app, concat_app. cbn [map concat]. rewrite (X r1), (X r2) by (intros; apply Y; auto). cbn [filter]. rewrite Or.
    cbn [app]. symmetry. rewrite <- Permutation_middle. apply perm_skip. symmetry.
    specialize (IH ltac:(intros; apply H; simpl; auto)). rewrite map_app, concat_app in IH. exact IH.
Qed.

Lemma combine_filter {A} (f : A -> bool) l : map snd (filter fst (combine (map f l) l)) = filter f l.
Proof. induction l as [|a l IH]; [reflexivity|]. simpl. destruct (f a); simpl; now rewrite IH. Qed.

Theorem file_seeds np gs gh lines : 0 < np -> gs <> [] -> (length gs <= 3)%nat -> Forall (fun g => gx_0 g < gx_1 g) gs ->
  Forall (unit_line (length gs)) lines ->
  exists ss L, seeds_from_file false (ge_axes (setup_single gs gh)) lines = Some ss /\
    (forall r ge, 0 <= r < np -> setup_mpi np gs gh r = Some ge -> seeds_from_file true (ge_axes ge) lines = Some (L r)) /\
    Permutation (concat (map L (zrange 0 np))) ss /\ Forall2 (cell_of gs) lines ss /\
    Forall (fun s => length s = 3%nat /\ in_box (map gx_0 gs) (map gx_1 gs) (firstn (length gs) s) /\ Forall (eq 0) (skipn (length gs) s)) ss.
Proof.
  intros Hnp Hne H3 Hg Hu. assert (gok gs) as Hok by (eapply Forall_impl; [|exact Hg]; simpl; lia).
  set (ss := map (fun l => zip_with scaled gs l ++ repeat 0 (3 - length gs)) lines).
  assert (map_opt (file_seed gs) lines = Some ss) as ES.
  { apply map_opt_map. intros l Hl. rewrite Forall_forall in Hu. apply file_seed_spec. apply Hu. auto. }
  assert (Forall (fun s => length s = 3%nat /\ in_box (map gx_0 gs) (map gx_1 gs) (firstn (length gs) s) /\ Forall (eq 0) (skipn (length gs) s)) ss) as Fs.
  { unfold ss. apply Forall_forall. intros s Hs. apply in_map_iff in Hs as (l & <- & Hl). rewrite Forall_forall in Hu. specialize (Hu l Hl).
    assert (length (zip_with scaled gs l) = length gs) as Lz by (apply zip_with_length; apply Hu).
    rewrite app_length, repeat_length, Lz. split; [lia|]. rewrite firstn_app, Lz, Nat.sub_diag, firstn_O, app_nil_r. rewrite firstn_all2 by lia. split; [now apply scaled_in|].
    rewrite skipn_app, Lz, Nat.sub_diag, skipn_all2 by lia. simpl. apply Forall_forall. intros c Hc. symmetry. now apply repeat_spec in Hc. }
  set (own := fun r s => match setup_mpi np gs gh r with Some ge => match is_local (ge_axes ge) s with Some b => b | None => false end | None => false end).
  assert (forall r ge s, 0 <= r < np -> setup_mpi np gs gh r = Some ge -> In s ss -> is_local (ge_axes ge) s = Some (own r s) /\ (own r s = true <-> owns ge (firstn (length gs) s))) as Own.
  { intros r ge s Hr E Hs. rewrite Forall_forall in Fs. destruct (Fs s Hs) as [L _].
    destruct (rank_geometry np gs gh (map (fun _ => (0, 0)) gs) r ge Hnp Hne Hok Hr (map_length _ _) E) as (_ & _ & _ & _ & _ & _ & _ & _ & _ & _ & ls0 & E0 & _ & L0 & _).
    assert (length (ge_axes ge) = length gs) as La by (rewrite E0, length_lay; auto).
    destruct (is_local_spec (ge_axes ge) s ltac:(lia)) as (b & Eb & B). unfold own. rewrite E, Eb. rewrite La in B. auto. }
  exists ss, (fun r => filter (own r) ss). split; [|split; [|split; [|split]]].
  - unfold seeds_from_file, setup_single. cbn [ge_axes].
    assert (map (fun a => mkG (a_g0 a) (a_g1 a)) (lay gh (map serial_limits gs)) = gs) as ->.
    { clear. induction gs as [|g gs IH]; [reflexivity|]. simpl. rewrite IH. f_equal. now destruct g. }
    rewrite ES. reflexivity.
  - intros r ge Hr E. unfold seeds_from_file.
    destruct (rank_geometry np gs gh (map (fun _ => (0, 0)) gs) r ge Hnp Hne Hok Hr (map_length _ _) E) as (_ & _ & _ & _ & _ & _ & _ & _ & _ & _ & ls0 & E0 & _ & L0 & G0 & G1).
    assert (map (fun a => mkG (a_g0 a) (a_g1 a)) (ge_axes ge) = gs) as ->.
    { rewrite E0. clear - G0 G1 L0. revert gs G0 G1 L0. induction ls0 as [|l ls IH]; intros [|g gs] G0 G1 L0; simpl in *; try discriminate; [reflexivity|].
      inversion G0; inversion G1. rewrite (IH gs) by (auto; lia). f_equal. destruct g. simpl in *. congruence. }
    rewrite ES. cbn [bind]. rewrite (map_opt_map _ (own r)). 2:{ intros s Hs. apply (Own r ge s Hr E Hs). }
    cbn [bind]. now rewrite combine_filter.
  - apply perm_owned; [apply NoDup_zrange|]. intros s Hs. rewrite Forall_forall in Fs. destruct (Fs s Hs) as [_ [B _]].
    destruct (partition np gs gh _ Hnp Hne Hok B) as (r & ge & Hr & E & O & U). exists r. split; [now apply in_zrange|].
    split; [apply (Own r ge s Hr E Hs); auto|]. intros r' Hr' Or'. apply in_zrange in Hr'.
    destruct (setup_eq np gs gh r' Hnp Hne Hok Hr') as (p & _ & _ & _ & _ & S4). eapply U; eauto. apply (Own r' _ s Hr' S4 Hs). auto.
  - unfold ss. clear - Hg Hu. induction Hu as [|l lines Hl _ IH]; [constructor|]. constructor; [|exact IH]. now apply scaled_cell.
  - exact Fs.
Qed.

(* ---- random seeds ---- *)
Lemma prng_row_spec los his rands : length los = length his -> Forall2 (fun L r => 0 <= r <= L - 1) (zip_with (fun lo hi => hi - lo) los his) (firstn (length los) rands) ->
  exists row, prng_row los his rands = Some (row, skipn (length los) rands) /\ in_box los his row.
Proof.
  revert his rands. induction los as [|lo los IH]; intros [|hi his] rands L F; simpl in *; try discriminate; [exists []; auto|].
  destruct rands as [|r rands]; [inversion F|]. simpl in F. inversion F; subst. destruct (IH his rands ltac:(lia) ltac:(auto)) as (row & E & B).
  rewrite E. cbn [bind fst snd]. exists (lo + r :: row). split; [reflexivity|]. simpl. split; [lia|auto].
Qed.
Theorem prng_seeds (mpi : bool) (axs : list axis) n rands : (length axs <= 3)%nat ->
  let lo := map (if mpi then a_g0 else a_x0) axs in let hi := map (if mpi then a_g1 else a_x1) axs in
  draws_ok (zip_with (fun lo hi => hi - lo) lo hi) n rands ->
  exists ss, seeds_from_prng mpi axs n rands = Some ss /\ length ss = n /\
    Forall (fun s => length s = 3%nat /\ in_box lo hi (firstn (length axs) s)) ss.
Proof.
  intros H3 lo hi. revert rands. induction n as [|n IH]; intros rands C.
  - exists []. simpl. auto.
  - destruct C as [C1 C2]. assert (length (zip_with (fun lo0 hi0 => hi0 - lo0) lo hi) = length axs) as Lz by (unfold lo, hi; rewrite zip_with_length; rewrite !map_length; auto).
    rewrite Lz in C1, C2. destruct (prng_row_spec lo hi rands) as (row & E & B); [unfold lo, hi; now rewrite !map_length|unfold lo at 2; rewrite map_length; auto|].
    unfold lo in E at 2. rewrite map_length in E. destruct (IH _ C2) as (ss & Es & Ls & Fs).
    exists ((row ++ repeat 0 (3 - length axs)) :: ss). split; [|split; [simpl; congruence|]].
    + cbn [seeds_from_prng]. replace (if mpi then prng_row (map a_g0 axs) (map a_g1 axs) rands else prng_row (map a_x0 axs) (map a_x1 axs) rands) with (prng_row lo hi rands) by (unfold lo, hi; now destruct mpi).
      rewrite E. cbn [bind fst snd]. rewrite Es. reflexivity.
    + constructor; [|auto]. pose proof (in_box_length _ _ _ B) as [Lr _]. unfold lo in Lr. rewrite map_length in Lr. rewrite app_length, repeat_length, Lr. split; [lia|].
      rewrite firstn_app, Lr, Nat.sub_diag, firstn_O, app_nil_r. rewrite firstn_all2 by lia. auto.
Qed.

(* ---- tessellation from a file ---- *)
Lemma zlen_concat (l : Z -> list seed) rs : zlen (concat (map l rs)) = sumZ (map (fun r => zlen (l r)) rs).
Proof. induction rs as [|r rs IH]; [reflexivity|]. cbn [map concat]. rewrite zlen_app, IH. reflexivity. Qed.
Lemma in_box_int lo hi x : Forall int_range lo -> Forall int_range hi -> in_box lo hi x -> Forall int_range x.
Proof.
  revert hi x. induction lo as [|a lo IH]; intros [|b hi] [|c x] H1 H2; simpl; try easy. intros [A B]. inversion H1; inversion H2; subst. constructor; [unfold int_range in *; lia|eauto].
Qed.
Lemma same_axes bs ge : length bs = length (ge_axes ge) ->
  map (fun a => mkG (a_g0 a) (a_g1 a)) (ge_axes (with_bounds set_bounds_axis bs ge)) = map (fun a => mkG (a_g0 a) (a_g1 a)) (ge_axes ge) /\
  forall s, is_local (ge_axes (with_bounds set_bounds_axis bs ge)) s = is_local (ge_axes ge) s.
Proof.
  cbn [ge_axes with_bounds]. generalize (ge_axes ge). intros axs H. 
  assert (forall k, match get (zip_with set_bounds_axis axs bs) k, get axs k with Some a', Some a => a_g0 a' = a_g0 a /\ a_g1 a' = a_g1 a /\ a_x0 a' = a_x0 a /\ a_x1 a' = a_x1 a | None, None => True | _, _ => False end) as G.
  { intros k. unfold get. destruct (k <? 0); [exact I|]. generalize (Z.to_nat k). clear k. revert bs H. induction axs as [|a axs IH]; intros [|b bs] H n; simpl in *; try discriminate; destruct n; simpl; auto.
    apply IH. lia. }
  split.
  - clear G. revert bs H. induction axs as [|a axs IH]; intros [|b bs] H; simpl in *; try discriminate; auto. rewrite IH by lia. reflexivity.
  - intros s. unfold is_local. unfold zlen. rewrite length_zip_with by auto. f_equal.
    generalize (zrange 0 (Z.of_nat (length axs))). intros l. induction l as [|k l IH]; [reflexivity|]. cbn [map_opt].
    rewrite IH. specialize (G k). destruct (get s k); [|reflexivity]. cbn [bind].
    destruct (get (zip_with set_bounds_axis axs bs) k) as [a'|], (get axs k) as [a|]; try tauto. cbn [bind]. destruct G as (_ & _ & -> & ->). reflexivity.
Qed.
Lemma seeds_from_file_bounds bs ge lines : length bs = length (ge_axes ge) ->
  seeds_from_file true (ge_axes (with_bounds set_bounds_axis bs ge)) lines = seeds_from_file true (ge_axes ge) lines.
Proof.
  intros H. destruct (same_axes bs ge H) as [E1 E2]. unfold seeds_from_file. rewrite E1. destruct (map_opt (file_seed _) lines) as [ss|]; [|reflexivity]. cbn [bind].
  replace (map_opt (is_local (ge_axes (with_bounds set_bounds_axis bs ge))) ss) with (map_opt (is_local (ge_axes ge)) ss); [reflexivity|].
  induction ss as [|s ss IH]; [reflexivity|]. cbn [map_opt]. now rewrite E2, IH.
Qed.

Theorem file_tessellation {T} (N : num T) (one : T) np gs gh bs lines (data : Z -> list (sobj T)) :
  0 < np -> gs <> [] -> (length gs <= 3)%nat -> Forall (fun g => gx_0 g < gx_1 g /\ int_range (gx_0 g) /\ int_range (gx_1 g)) gs -> 0 <= gh -> length bs = length gs ->
  sumZ (map (fun g => glen g ^ 2) gs) <= int_max ->
  Forall (unit_line (length gs)) lines -> lines <> [] -> 3 * zlen lines <= int_max ->
  (forall r ge, 0 <= r < np -> setup_mpi np gs gh r = Some ge -> zlen (data r) = cells (ge_axes ge) /\ Forall (fun o => o = []) (data r)) ->
  exists ss L D' f, Forall2 (cell_of gs) lines ss /\ Permutation (concat L) ss /\
    finished np (fun r => (L, D' r)) f /\
    inevitable (ranks np (fun r => lift (setup_mpi np gs gh r) (fun ge =>
       tessellate_file N one (ge_axes (with_bounds set_bounds_axis bs ge)) lines (data r))), no_chans) f /\
    forall r ge x, 0 <= r < np -> setup_mpi np gs gh r = Some ge -> owns ge x ->
      exists k s, grid_read true (ge_axes (with_bounds set_bounds_axis bs ge)) (D' r) x = Some [Some (k, one)] /\
        get (concat L) k = Some s /\ In s ss /\ forall t, In t ss -> dist2 x s <= dist2 x t.
Proof.
  intros Hnp Hne H3 Hg Hgh Lb Hsq Hu Hl Hl3 HD.
  assert (Forall (fun g => gx_0 g < gx_1 g) gs) as Hg1 by (eapply Forall_impl; [|exact Hg]; simpl; tauto).
  assert (gok gs) as Hok by (eapply Forall_impl; [|exact Hg1]; simpl; lia).
  destruct (file_seeds np gs gh lines Hnp Hne H3 Hg1 Hu) as (ss & L & _ & S2 & S3 & S4 & S5).
  assert (zlen (concat (map L (zrange 0 np))) = zlen lines) as EL.
  { unfold zlen. rewrite (Permutation_length S3). f_equal. symmetry. clear - S4. induction S4; simpl; congruence. }
  destruct (tessellation N one np gs gh bs L data) as (D' & f & F1 & F2 & F3); auto.
  - intros r Hr. apply Forall_forall. intros s Hs. rewrite Forall_forall in S5. destruct (S5 s) as (A & B & C).
    { eapply Permutation_in; [exact S3|]. apply in_concat. exists (L r). split; [|auto]. apply in_map. now apply in_zrange. }
    split; [auto|]. split; [|auto]. rewrite <- (firstn_skipn (length gs) s). apply Forall_app. split.
    + eapply in_box_int; [| |exact B]; apply Forall_map; eapply Forall_impl; try exact Hg; simpl; tauto.
    + eapply Forall_impl; [|exact C]. intros c <-. unfold int_range. cbn. lia.
  - intros E. rewrite E in EL. destruct lines; [congruence|]. rewrite zlen_cons in EL. change (zlen []) with 0 in EL. pose proof (zlen_nonneg lines). lia.
  - rewrite <- zlen_concat. lia.
  - exists ss, (map L (zrange 0 np)), D', f. split; [auto|]. split; [auto|]. split; [exact F1|]. split.
    + erewrite ranks_ext; [exact F2|]. intros r Hr. destruct (setup_eq np gs gh r Hnp Hne Hok Hr) as (p & _ & _ & _ & _ & S6). rewrite S6. cbn [lift].
      destruct (rank_geometry np gs gh bs r _ Hnp Hne Hok Hr Lb S6) as (_ & _ & _ & _ & _ & _ & _ & _ & _ & _ & ls0 & E0 & _ & L0 & _).
      unfold tessellate_file. rewrite seeds_from_file_bounds by (rewrite E0, length_lay; congruence). rewrite (S2 r _ Hr S6). reflexivity.
    + intros r ge x Hr E O. destruct (F3 r ge x Hr E O) as (k & (s & K1 & K2) & K3). exists k, s. split; [auto|]. split; [auto|]. split.
      * eapply Permutation_in; [exact S3|]. unfold get in K1. destruct (k <? 0); [discriminate|]. eapply nth_error_In; eauto.
      * intros t Ht. eapply Permutation_in in Ht; [|symmetry; exact S3]. apply In_nth_error in Ht as (n & Hn).
        apply (K2 (Z.of_nat n) t). now rewrite SparseL.get_nth.
Qed.
