(* The full multigrid algorithm and update. *)
From Coq Require Import QArith.QArith QArith.Qcanon Lqa.
From Verif Require Import Model.Base Model.Boundary Model.Layout Model.Access Model.Stencil Model.Evolve Model.Multigrid Spec.Box Spec.Stencil Spec.Multigrid
  Proof.BaseL Proof.LayoutL Proof.AccessL Proof.StencilL Proof.StencilS Proof.StencilM Proof.MultigridL Proof.MultigridS Proof.MultigridG Proof.MultigridC.
Local Open Scope Z_scope.

Section Full.
Context (ls : list limits) (dx : list Qc) (Hdx : spaced ls dx).
Notation axs := (lay 0 ls).
Notation val := (value ls).
Notation lin := (lin ls).

Lemma fits_eight s j : fits ls s (S (S j)) -> eight ls s.
Proof.
  intros (Hs & _ & F & _). eapply Forall_impl; [|exact F]. cbv beta. intros l (_ & B & k & E). rewrite !pow_S in E. pose proof (Z.pow_pos_nonneg 2 (Z.of_nat j) ltac:(lia) ltac:(lia)) as P.
  set (p := 2 ^ Z.of_nat j) in *. split; [exists (k * (2 * (2 * p))); rewrite E; ring|]. assert (8 * s <= 2 * s * (2 * (2 * p))) as Q by nia. set (X := 2 * s * (2 * (2 * p))) in *. assert (0 < k) by nia. nia.
Qed.
(* stride 2^i on a grid whose finest level fits *)
Lemma fits_pow i j : fits ls 1 (i + j) -> fits ls (2 ^ Z.of_nat i) j.
Proof.
  intros (_ & B & C & D). assert (2 ^ Z.of_nat (i + j) = 2 ^ Z.of_nat i * 2 ^ Z.of_nat j) as E by (rewrite Nat2Z.inj_add, Z.pow_add_r by lia; reflexivity).
  pose proof (Z.pow_pos_nonneg 2 (Z.of_nat i) ltac:(lia) ltac:(lia)) as P. split; [lia|]. split; [auto|]. split.
  - eapply Forall_impl; [|exact C]. cbv beta. intros l (C1 & C2 & C3). rewrite E in C3. repeat split; auto; try lia. replace (2 * 2 ^ Z.of_nat i * 2 ^ Z.of_nat j) with (2 * 1 * (2 ^ Z.of_nat i * 2 ^ Z.of_nat j)) by ring. auto.
  - eapply Exists_impl; [|exact D]. cbv beta. intros l ->. rewrite E. ring.
Qed.
Lemma inside_one s x : 0 < s -> inside ls s x -> inside ls 1 x.
Proof. intros Hs H. unfold inside in *. clear Hdx. induction H as [|l c m x (Hc & _) _ IH]; constructor; [|exact IH]. split; [lia|]. apply Z.divide_1_l. Qed.
Lemma half_pow i : Z.quot (2 ^ Z.of_nat (S i)) 2 = 2 ^ Z.of_nat i.
Proof. rewrite pow_S, Z.mul_comm. apply Z.quot_mul. lia. Qed.
Lemma fuel_pow i : (i < Z.to_nat (2 ^ Z.of_nat i))%nat.
Proof. pose proof (Z.pow_gt_lin_r 2 (Z.of_nat i) ltac:(lia) ltac:(lia)). lia. Qed.

Context (gamma nu1 nu2 : Z).
Lemma finer_lin a b J1 J2 J3 : sized ls J1 -> sized ls J2 -> sized ls J3 -> forall i j fuel f1 f2 f3 u1 u2 u3, (i < fuel)%nat -> fits ls 1 (i + S (S j)) -> (i + S (S j) < 32)%nat -> lin a b (inside ls 1) f1 f2 f3 -> lin a b (node ls) u1 u2 u3 ->
  exists r1 r2 r3, finer axs dx J1 fuel gamma nu1 nu2 (2 ^ Z.of_nat i) u1 f1 = Some r1 /\ finer axs dx J2 fuel gamma nu1 nu2 (2 ^ Z.of_nat i) u2 f2 = Some r2 /\ finer axs dx J3 fuel gamma nu1 nu2 (2 ^ Z.of_nat i) u3 f3 = Some r3 /\ lin a b (node ls) r1 r2 r3.
Proof.
  intros S1 S2 S3. induction i as [|i IH]; intros j [|fuel] f1 f2 f3 u1 u2 u3 Hfuel Hf H32 LF LU; try lia; pose proof (fits_pow _ _ Hf) as Hfi; pose proof (fits_base ls _ _ Hfi) as Hl; pose proof (fits_eight _ _ Hfi) as H8; pose proof Hfi as (Hs & Hne & _).
  - cbn [finer]. rewrite (proj2 (Z.ltb_lt _ _) Hs). destruct (refine_lin ls Hl Hne (cubic axs) (2 ^ Z.of_nat 0) a b u1 u2 u3 Hs) as (q1 & q2 & q3 & -> & -> & -> & LQ); auto. { intros. apply (cubic_lin ls Hl); auto. }
    cbn [bind]. unfold mg. destruct (MG_lin ls dx Hdx a b J1 J2 J3 gamma nu1 nu2 S1 S2 S3 (S (S j)) 32 (2 ^ Z.of_nat 0) f1 f2 f3 q1 q2 q3) as (r1 & r2 & r3 & -> & -> & -> & LR); auto.
    cbn [bind]. change (Z.quot (2 ^ Z.of_nat 0) 2) with 0. exists r1, r2, r3. destruct fuel; auto.
  - cbn [finer]. rewrite (proj2 (Z.ltb_lt _ _) Hs). destruct (refine_lin ls Hl Hne (cubic axs) (2 ^ Z.of_nat (S i)) a b u1 u2 u3 Hs) as (q1 & q2 & q3 & -> & -> & -> & LQ); auto. { intros. apply (cubic_lin ls Hl); auto. }
    cbn [bind]. unfold mg. destruct (MG_lin ls dx Hdx a b J1 J2 J3 gamma nu1 nu2 S1 S2 S3 (S (S j)) 32 (2 ^ Z.of_nat (S i)) f1 f2 f3 q1 q2 q3) as (r1 & r2 & r3 & -> & -> & -> & LR); auto; [lia| |].
    { destruct LF as (T1 & T2 & T3 & F). repeat split; auto. intros x Hx. apply F. eapply inside_one; eauto. }
    cbn [bind]. rewrite half_pow. apply (IH (S j)); auto; try lia. now replace (i + S (S (S j)))%nat with (S i + S (S j))%nat by lia.
Qed.
Lemma finer_frame J : sized ls J -> forall i j fuel f u, (i < fuel)%nat -> fits ls 1 (i + S (S j)) -> (i + S (S j) < 32)%nat -> sized ls f -> sized ls u ->
  exists r, finer axs dx J fuel gamma nu1 nu2 (2 ^ Z.of_nat i) u f = Some r /\ sized ls r /\ forall y, node ls y -> ~ inside ls 1 y -> val r y = val u y.
Proof.
  intros SJ. induction i as [|i IH]; intros j [|fuel] f u Hfuel Hf H32 Sf Su; try lia; pose proof (fits_pow _ _ Hf) as Hfi; pose proof (fits_base ls _ _ Hfi) as Hl; pose proof (fits_eight _ _ Hfi) as H8; pose proof Hfi as (Hs & Hne & _).
  - cbn [finer]. rewrite (proj2 (Z.ltb_lt _ _) Hs). destruct (refine_frame ls (cubic axs) (2 ^ Z.of_nat 0) u Hs Hl Hne) as (q & -> & Sq & Fq); auto. { intros i x v Hi Hm Sv. rewrite (cubic_eq ls Hl) by auto. eauto. }
    cbn [bind]. unfold mg. destruct (MG_frame ls dx Hdx J gamma nu1 nu2 SJ (S (S j)) 32 (2 ^ Z.of_nat 0) q f) as (r & -> & Sr & Fr); auto. cbn [bind]. change (Z.quot (2 ^ Z.of_nat 0) 2) with 0.
    exists r. destruct fuel; (split; [reflexivity|]; split; [auto|]; intros y Hy Ny; rewrite Fr, Fq; auto).
  - cbn [finer]. rewrite (proj2 (Z.ltb_lt _ _) Hs). destruct (refine_frame ls (cubic axs) (2 ^ Z.of_nat (S i)) u Hs Hl Hne) as (q & -> & Sq & Fq); auto. { intros i' x v Hi Hm Sv. rewrite (cubic_eq ls Hl) by auto. eauto. }
    cbn [bind]. unfold mg. destruct (MG_frame ls dx Hdx J gamma nu1 nu2 SJ (S (S j)) 32 (2 ^ Z.of_nat (S i)) q f) as (r & -> & Sr & Fr); auto; [lia|]. cbn [bind]. rewrite half_pow.
    destruct (IH (S j) fuel f r) as (r' & E & Sr' & Fr'); auto; try lia. { now replace (i + S (S (S j)))%nat with (S i + S (S j))%nat by lia. }
    exists r'. split; [exact E|]. split; [auto|]. intros y Hy Ny. rewrite Fr', Fr, Fq; auto; intros C; apply Ny; eapply inside_one; eauto.
Qed.

Lemma fold_left_map {A B C} (g : B -> A) (f : C -> A -> C) l c : fold_left f (map g l) c = fold_left (fun c b => f c (g b)) l c.
Proof. revert c. induction l as [|b l IH]; intros c; cbn; auto. Qed.
Lemma coarsest_fits j : fits ls 1 (S j) -> coarsest axs = Some (2 ^ Z.of_nat j).
Proof.
  clear dx Hdx. intros (_ & Hne & C & D). set (M := 2 ^ Z.of_nat j). set (q := fun z => Z.quot (z - 1) 4). set (g := fun s z => if q z <? s then q z else s).
  assert (coarsest axs = match map a_x1 axs with [] => None | z :: r => Some (fold_left g r (q z)) end) as ->. { unfold coarsest, g, q. destruct axs as [|a r]; [auto|]. cbn [map]. now rewrite fold_left_map. }
  rewrite map_x1_lay.
  assert (forall l, In l ls -> M <= q (l_x1 l)) as Low.
  { intros l Hi. rewrite Forall_forall in C. destruct (C l Hi) as (_ & B & k & E). rewrite pow_S in E. fold M in E. pose proof (Z.pow_pos_nonneg 2 (Z.of_nat j) ltac:(lia) ltac:(lia)) as P. fold M in P. unfold q. assert (0 < k) by nia. rewrite E, Z.quot_div_nonneg by nia. apply Z.div_le_lower_bound; nia. }
  assert (exists l, In l ls /\ q (l_x1 l) = M) as (l0 & Hi0 & E0).
  { apply Exists_exists in D as (l & Hi & E). exists l. split; [auto|]. unfold q. rewrite E, pow_S. fold M. replace (2 * 1 * (2 * M)) with (M * 4) by ring. apply Z.quot_mul. lia. }
  assert (forall r s, M <= s -> (forall l, In l r -> M <= q (l_x1 l)) -> (s = M \/ exists l, In l r /\ q (l_x1 l) = M) -> fold_left g (map l_x1 r) s = M) as A.
  { induction r as [|l r IH]; intros s H1 H2 H3; cbn [map fold_left].
    - destruct H3 as [H3|(l & [] & _)]; auto.
    - apply IH; [|intros; apply H2; cbn; auto|].
      + unfold g. specialize (H2 l (or_introl eq_refl)). destruct (q (l_x1 l) <? s); lia.
      + unfold g. specialize (H2 l (or_introl eq_refl)). destruct (Z.ltb_spec (q (l_x1 l)) s); destruct H3 as [H3|(l' & [->|Hi] & E)]; eauto; try lia; left; lia. }
  destruct ls as [|l r]; [congruence|]. cbn [map]. f_equal. apply A.
  - apply Low. cbn. auto.
  - intros; apply Low; cbn; auto.
  - destruct Hi0 as [->|Hi0]; eauto.
Qed.
Lemma finer_stop J fuel u f : finer axs dx J fuel gamma nu1 nu2 0 u f = Some u.
Proof. destruct fuel; reflexivity. Qed.
Lemma FMG_lin a b J1 J2 J3 j f1 f2 f3 u1 u2 u3 : sized ls J1 -> sized ls J2 -> sized ls J3 -> fits ls 1 (S j) -> (S j < 32)%nat -> lin a b (inside ls 1) f1 f2 f3 -> lin a b (node ls) u1 u2 u3 ->
  exists r1 r2 r3, FMG axs dx J1 gamma nu1 nu2 u1 f1 = Some r1 /\ FMG axs dx J2 gamma nu1 nu2 u2 f2 = Some r2 /\ FMG axs dx J3 gamma nu1 nu2 u3 f3 = Some r3 /\ lin a b (node ls) r1 r2 r3.
Proof.
  intros S1 S2 S3 Hf H32 LF LU. unfold FMG. rewrite (coarsest_fits j Hf). cbn [bind]. assert (fits ls (2 ^ Z.of_nat j) 1) as Hfj by (apply fits_pow; now rewrite Nat.add_comm).
  pose proof (fits_base ls _ _ Hfj) as Hl. pose proof (divides_half _ _ (fits_divides _ _ _ Hfj)) as Hd. pose proof Hfj as (Hs & Hne & _).
  destruct (smooth_lin ls Hl Hne dx Hdx (2 ^ Z.of_nat j) Hs Hd a b 40 f1 f2 f3 u1 u2 u3) as (w1 & w2 & w3 & -> & -> & -> & LW); auto.
  { destruct LF as (T1 & T2 & T3 & F). repeat split; auto. intros x Hx. apply F. eapply inside_one; eauto. }
  cbn [bind]. destruct j as [|i].
  - change (Z.quot (2 ^ Z.of_nat 0) 2) with 0. rewrite !finer_stop. eauto 10.
  - rewrite half_pow. apply (finer_lin a b J1 J2 J3 S1 S2 S3 i 0); auto; try lia. + pose proof (fuel_pow (S i)). lia. + now replace (i + 2)%nat with (S (S i)) by lia.
Qed.
Lemma FMG_frame J j f u : sized ls J -> fits ls 1 (S j) -> (S j < 32)%nat -> sized ls f -> sized ls u ->
  exists r, FMG axs dx J gamma nu1 nu2 u f = Some r /\ sized ls r /\ forall y, node ls y -> ~ inside ls 1 y -> val r y = val u y.
Proof.
  intros SJ Hf H32 Sf Su. unfold FMG. rewrite (coarsest_fits j Hf). cbn [bind]. assert (fits ls (2 ^ Z.of_nat j) 1) as Hfj by (apply fits_pow; now rewrite Nat.add_comm).
  pose proof (fits_base ls _ _ Hfj) as Hl. pose proof (divides_half _ _ (fits_divides _ _ _ Hfj)) as Hd. pose proof Hfj as (Hs & Hne & _).
  destruct (smooth_frame ls Hl Hne dx Hdx (2 ^ Z.of_nat j) Hs Hd 40 u f) as (w & -> & Sw & Fw); auto. cbn [bind].
  assert (forall y, node ls y -> ~ inside ls 1 y -> val w y = val u y) as Fw'. { intros y Hy Ny. apply Fw; auto. intros C. apply Ny. eapply inside_one; eauto. }
  destruct j as [|i].
  - change (Z.quot (2 ^ Z.of_nat 0) 2) with 0. rewrite finer_stop. eauto.
  - rewrite half_pow. destruct (finer_frame J SJ i 0 (Z.to_nat (2 ^ Z.of_nat (S i))) f w) as (r & E & Sr & Fr); auto; try lia.
    + pose proof (fuel_pow (S i)). lia.
    + now replace (i + 2)%nat with (S (S i)) by lia.
    + exists r. repeat split; auto. intros y Hy Ny. rewrite Fr; auto.
Qed.
End Full.

Section Update.
Context (ls : list limits) (dx : list Qc) (Hdx : spaced ls dx).
Notation axs := (lay 0 ls).
Notation val := (value ls).
Lemma clear_zeros J : Forall (fun l => l_x0 l = 0 /\ 1 < l_x1 l) ls -> sized ls J -> fold_opt (fun u n => grid_write_int false axs u n 0%Qc) (zrange 0 (nodes axs)) J = Some (zeros axs).
Proof.
  intros Hl SJ. pose proof (nodes_nonneg 0 axs (wf_lay 0 ls (lims ls Hl))) as Hn. pose proof SJ as L. unfold sized in L. rewrite cells_nodes_0 in L.
  assert (forall k, (k <= Z.to_nat (nodes axs))%nat -> exists u, fold_opt (fun u n => grid_write_int false axs u n 0%Qc) (zrange 0 (Z.of_nat k)) J = Some u /\ zlen u = nodes axs /\ forall m, (m < k)%nat -> nth m u 0%Qc = 0%Qc) as A.
  { induction k as [|k IH]; intros Hk; [exists J; repeat split; auto; intros; lia|]. destruct IH as (u & E & Lu & V); [lia|].
    rewrite Nat2Z.inj_succ, <- Z.add_1_r, zrange_snoc, fold_opt_app, E by lia. cbn [bind fold_opt]. unfold grid_write_int, addr_int, put.
    replace ((Z.of_nat k <? 0) || (Z.of_nat (length u) <=? Z.of_nat k))%bool with false by (unfold zlen in Lu; symmetry; apply orb_false_iff; split; [apply Z.ltb_ge|apply Z.leb_gt]; lia).
    cbn [bind]. exists (set_nth (Z.to_nat (Z.of_nat k)) u 0%Qc). split; [auto|]. rewrite Nat2Z.id. split; [unfold zlen in *; rewrite length_set_nth; auto|].
    intros m Hm. destruct (Nat.eq_dec m k) as [->|Ne].
    - rewrite nth_set_nth_eq; [auto|unfold zlen in Lu; lia].
    - rewrite nth_set_nth_ne by auto. apply V. lia. }
  destruct (A (Z.to_nat (nodes axs)) ltac:(lia)) as (u & E & Lu & V). rewrite Z2Nat.id in E by lia. rewrite E. f_equal. unfold zeros. rewrite cells_nodes_0.
  apply nth_ext with (d := 0%Qc) (d' := 0%Qc); [rewrite repeat_length; unfold zlen in Lu; lia|]. intros n Hn'. rewrite nth_repeat. apply V. unfold zlen in Lu. lia.
Qed.
Lemma small_levels j : fits ls 1 j -> (j < 32)%nat.
Proof.
  intros (_ & _ & C & D). apply Exists_exists in D as (l & Hi & E). rewrite Forall_forall in C. destruct (C l Hi) as (_ & B & _). destruct (Nat.lt_ge_cases j 32) as [|G]; [auto|].
  assert (2 ^ 32 <= 2 ^ Z.of_nat j) by (apply Z.pow_le_mono_r; lia). lia.
Qed.
Lemma update_lin a b J1 J2 J3 j f1 f2 f3 : sized ls J1 -> sized ls J2 -> sized ls J3 -> fits ls 1 (S j) -> lin ls a b (inside ls 1) f1 f2 f3 ->
  exists r1 r2 r3, update axs dx J1 f1 = Some r1 /\ update axs dx J2 f2 = Some r2 /\ update axs dx J3 f3 = Some r3 /\ lin ls a b (node ls) r1 r2 r3.
Proof.
  intros S1 S2 S3 Hf LF. pose proof (fits_base ls _ _ Hf) as Hl. unfold update. rewrite !clear_zeros by auto. cbn [bind]. apply (FMG_lin ls dx Hdx 1 2 2 a b J1 J2 J3 j); auto; [now apply small_levels|now apply zeros_lin].
Qed.
Lemma update_frame J j f : sized ls J -> fits ls 1 (S j) -> sized ls f -> exists r, update axs dx J f = Some r /\ sized ls r /\ forall y, node ls y -> ~ inside ls 1 y -> val r y = 0%Qc.
Proof.
  intros SJ Hf Sf. pose proof (fits_base ls _ _ Hf) as Hl. unfold update. rewrite clear_zeros by auto. cbn [bind].
  destruct (FMG_frame ls dx Hdx 1 2 2 J j f (zeros axs) SJ Hf (small_levels _ Hf) Sf (zeros_sized ls Hl)) as (r & -> & Sr & F). exists r. repeat split; auto. intros y Hy Ny. rewrite F by auto. now apply zeros_value.
Qed.
End Update.
