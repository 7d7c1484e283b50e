(* The multigrid cycle and the full multigrid algorithm. *)
From Coq Require Import QArith.QArith QArith.Qcanon Lqa.
From Verif Require Import Model.Base Model.Boundary Model.Layout Model.Access Model.Stencil Model.Evolve Model.Multigrid Spec.Box Spec.Stencil Spec.Multigrid
  Proof.BaseL Proof.LayoutL Proof.AccessL Proof.StencilL Proof.StencilS Proof.StencilM Proof.MultigridL Proof.MultigridS Proof.MultigridG.
Local Open Scope Z_scope.

Section Cycle.
Context (ls : list limits) (dx : list Qc) (Hdx : spaced ls dx).
Notation axs := (lay 0 ls).
Notation val := (value ls).

Lemma fits_base s j : fits ls s j -> Forall (fun l => l_x0 l = 0 /\ 1 < l_x1 l) ls.
Proof. intros (_ & _ & F & _). eapply Forall_impl; [|exact F]. cbn. intros l (A & B & _). split; [auto|lia]. Qed.
Lemma fits_divides s j : fits ls s j -> divides ls (2 * s).
Proof. intros (_ & _ & F & _). eapply Forall_impl; [|exact F]. cbn. intros l (_ & _ & k & E). exists (k * 2 ^ Z.of_nat j). lia. Qed.
Lemma divides_half s : divides ls (2 * s) -> divides ls s.
Proof. apply Forall_impl. intros l (k & E). exists (2 * k). lia. Qed.
Lemma pow_S j : 2 ^ Z.of_nat (S j) = 2 * 2 ^ Z.of_nat j.
Proof. rewrite Nat2Z.inj_succ, Z.pow_succ_r by lia. reflexivity. Qed.
Lemma fits_double s j : fits ls s (S j) -> fits ls (2 * s) j.
Proof.
  intros (A & B & C & D). split; [lia|]. split; [auto|]. split.
  - eapply Forall_impl; [|exact C]. cbv beta. intros l (C1 & C2 & C3). rewrite pow_S in C3. split; [auto|]. split; [auto|]. replace (2 * (2 * s) * 2 ^ Z.of_nat j) with (2 * s * (2 * 2 ^ Z.of_nat j)) by ring. auto.
  - eapply Exists_impl; [|exact D]. cbv beta. intros l D1. rewrite pow_S in D1. rewrite D1. ring.
Qed.
Lemma fits_stop s j : fits ls s j -> existsb (fun a => 2 * s + 1 =? a_x1 a) axs = match j with O => true | S _ => false end /\ 2 * s + 1 <= int_max.
Proof.
  intros (A & B & C & D). split.
  - assert (forall P, existsb P (map a_x1 axs) = existsb (fun a => P (a_x1 a)) axs) as M. { intros P. induction axs as [|a r IH]; [auto|]. cbn. now rewrite IH. }
    rewrite <- (M (fun z => 2 * s + 1 =? z)), map_x1_lay. destruct j.
    + apply existsb_exists. apply Exists_exists in D as (l & Hi & E). exists (l_x1 l). split; [now apply in_map|]. apply Z.eqb_eq. cbn in E. lia.
    + destruct (existsb _ _) eqn:E; [|auto]. apply existsb_exists in E as (z & Hz & Ez). apply in_map_iff in Hz as (l & <- & Hi). apply Z.eqb_eq in Ez.
      rewrite Forall_forall in C. destruct (C l Hi) as (_ & _ & k & Ek). rewrite pow_S in Ek. pose proof (Z.pow_pos_nonneg 2 (Z.of_nat j) ltac:(lia) ltac:(lia)) as P. set (p := 2 ^ Z.of_nat j) in *.
      assert (s * (2 * k * p) = s) as Q by lia. assert (2 * k * p = 1) as Q' by nia. lia.
  - apply Exists_exists in D as (l & Hi & E). rewrite Forall_forall in C. destruct (C l Hi) as (_ & C2 & _). pose proof (Z.pow_pos_nonneg 2 (Z.of_nat j) ltac:(lia) ltac:(lia)). unfold int_max. nia.
Qed.

Lemma fits_levels s j : fits ls s j -> (j < 32)%nat.
Proof.
  intros (Hs & _ & C & D). apply Exists_exists in D as (l & Hi & E). rewrite Forall_forall in C. destruct (C l Hi) as (_ & B & _). destruct (Nat.lt_ge_cases j 32) as [|G]; [auto|].
  assert (2 ^ 32 <= 2 ^ Z.of_nat j) by (apply Z.pow_le_mono_r; lia). nia.
Qed.
Notation lin := (lin ls).
Lemma add_lin a b u1 u2 u3 v1 v2 v3 : Forall (fun l => l_x0 l = 0 /\ 1 < l_x1 l) ls -> lin a b (node ls) u1 u2 u3 -> lin a b (node ls) v1 v2 v3 -> lin a b (node ls) (add u1 v1) (add u2 v2) (add u3 v3).
Proof.
  intros Hl (S1 & S2 & S3 & F) (Q1 & Q2 & Q3 & G). repeat split; try (apply add_sized; auto). intros x Hx. rewrite !(add_value ls Hl) by auto. rewrite F, G by auto. ring.
Qed.
Lemma zeros_lin a b : Forall (fun l => l_x0 l = 0 /\ 1 < l_x1 l) ls -> lin a b (node ls) (zeros axs) (zeros axs) (zeros axs).
Proof. intros Hl. repeat split; try (now apply zeros_sized). intros x Hx. rewrite (zeros_value ls Hl) by auto. ring. Qed.

Lemma MG_lin a b j1 j2 j3 gamma nu1 nu2 : sized ls j1 -> sized ls j2 -> sized ls j3 ->
  forall j levels s f1 f2 f3 u1 u2 u3, (j < levels)%nat -> fits ls s j -> lin a b (inside ls s) f1 f2 f3 -> lin a b (node ls) u1 u2 u3 ->
  exists r1 r2 r3, MG axs dx j1 levels gamma nu1 nu2 s u1 f1 = Some r1 /\ MG axs dx j2 levels gamma nu1 nu2 s u2 f2 = Some r2 /\ MG axs dx j3 levels gamma nu1 nu2 s u3 f3 = Some r3 /\ lin a b (node ls) r1 r2 r3.
Proof.
  intros J1 J2 J3. induction j as [|j IH]; intros [|levels] s f1 f2 f3 u1 u2 u3 Hlev Hf LF LU; try lia; cbn [MG]; destruct (fits_stop _ _ Hf) as (-> & G); (rewrite (proj2 (Z.leb_le _ _) G)); cbn [guard bind];
    pose proof (fits_base _ _ Hf) as Hl; pose proof (fits_divides _ _ Hf) as Hd2; pose proof (divides_half _ Hd2) as Hd; pose proof Hf as (Hs & Hne & _).
  - apply smooth_lin; auto.
  - destruct (smooth_lin ls Hl Hne dx Hdx s Hs Hd a b nu1 f1 f2 f3 u1 u2 u3 LF LU) as (w1 & w2 & w3 & -> & -> & -> & LW). cbn [bind].
    pose proof LW as (SW1 & SW2 & SW3 & _). pose proof LF as (SF1 & SF2 & SF3 & FF).
    destruct (defect_ok ls Hl dx Hdx s Hs Hd w1 f1 j1) as (d1 & -> & SD1 & V1); auto.
    destruct (defect_ok ls Hl dx Hdx s Hs Hd w2 f2 j2) as (d2 & -> & SD2 & V2); auto.
    destruct (defect_ok ls Hl dx Hdx s Hs Hd w3 f3 j3) as (d3 & -> & SD3 & V3); auto. cbn [bind].
    assert (lin a b (inside ls s) d1 d2 d3) as LD. { repeat split; auto. intros x Hx. rewrite V1, V2, V3, (lap_lin ls Hl dx Hdx s Hs Hd a b w1 w2 w3 x Hx LW), FF by auto. ring. }
    destruct (coarsen_lin ls Hl s a b d1 d2 d3 Hs Hd2 LD) as (c1 & c2 & c3 & -> & -> & -> & LC). cbn [bind].
    destruct (fold_lin ls a b (node ls) (fun v _ => MG axs dx j1 levels gamma nu1 nu2 (2 * s) v c1) (fun v _ => MG axs dx j2 levels gamma nu1 nu2 (2 * s) v c2) (fun v _ => MG axs dx j3 levels gamma nu1 nu2 (2 * s) v c3) (zrange 0 gamma)) with (u1 := zeros axs) (u2 := zeros axs) (u3 := zeros axs) as (v1 & v2 & v3 & -> & -> & -> & LV).
    + intros _ v1 v2 v3 _ LV. apply IH; auto; [lia|now apply fits_double].
    + now apply zeros_lin.
    + cbn [bind]. destruct (refine_lin ls Hl Hne (midpoint axs) s a b v1 v2 v3 Hs) as (q1 & q2 & q3 & -> & -> & -> & LQ); auto.
      * intros. apply (midpoint_lin ls Hl); auto.
      * cbn [bind]. apply smooth_lin; auto. now apply add_lin.
Qed.

Lemma MG_zero j0 gamma nu1 nu2 j levels s f : sized ls j0 -> (j < levels)%nat -> fits ls s j -> sized ls f -> (forall x, inside ls s x -> val f x = 0%Qc) ->
  MG axs dx j0 levels gamma nu1 nu2 s (zeros axs) f = Some (zeros axs).
Proof.
  intros J Hlev Hf Sf F. pose proof (fits_base _ _ Hf) as Hl. destruct (MG_lin 0%Qc 0%Qc j0 j0 j0 gamma nu1 nu2 J J J j levels s f f f (zeros axs) (zeros axs) (zeros axs) Hlev Hf) as (r & r2 & r3 & E & _ & E' & S1 & _ & S3 & V).
  - repeat split; auto; intros x Hx; rewrite F by auto; ring.
  - now apply zeros_lin.
  - rewrite E. f_equal. apply (value_ext ls Hl); auto; [now apply zeros_sized|]. intros x Hx. rewrite E in E'. injection E' as <-. rewrite V, (zeros_value ls Hl) by auto. ring.
Qed.
Lemma refine_zero s : 0 < s -> divides ls s -> Forall (fun l => l_x0 l = 0 /\ 1 < l_x1 l) ls -> ls <> [] -> refine axs (midpoint axs) s (zeros axs) = Some (zeros axs).
Proof.
  intros Hs Hd Hl Hne. destruct (refine_lin ls Hl Hne (midpoint axs) s 0%Qc 0%Qc (zeros axs) (zeros axs) (zeros axs) Hs) as (r & r2 & r3 & E & _ & E' & S1 & _ & S3 & V).
  - intros. apply (midpoint_lin ls Hl); auto.
  - now apply zeros_lin.
  - rewrite E. f_equal. rewrite E in E'. injection E' as <-. apply (value_ext ls Hl); auto; [now apply zeros_sized|]. intros x Hx. rewrite V, (zeros_value ls Hl) by auto. ring.
Qed.
Lemma coarsen_zero s d : Forall (fun l => l_x0 l = 0 /\ 1 < l_x1 l) ls -> 0 < s -> divides ls (2 * s) -> sized ls d -> (forall x, inside ls s x -> val d x = 0%Qc) ->
  exists r, coarsen axs s d = Some r /\ sized ls r /\ forall x, inside ls (2 * s) x -> val r x = 0%Qc.
Proof.
  intros Hl Hs Hd Sd F. destruct (coarsen_lin ls Hl s 0%Qc 0%Qc d d d Hs Hd) as (r & r2 & r3 & E & _ & E' & S1 & _ & S3 & V).
  - repeat split; auto; intros x Hx; rewrite F by auto; ring.
  - exists r. repeat split; auto. intros x Hx. rewrite E in E'. injection E' as <-. rewrite V by auto. ring.
Qed.
Lemma MG_fixed j0 gamma nu1 nu2 j levels s u f : sized ls j0 -> (j < levels)%nat -> fits ls s j -> sized ls f -> sized ls u -> (forall x, inside ls s x -> laplacian_at ls dx s (val u) x = val f x) ->
  MG axs dx j0 levels gamma nu1 nu2 s u f = Some u.
Proof.
  intros J Hlev Hf Sf Su F. destruct levels as [|levels]; [lia|]. cbn [MG]. destruct (fits_stop _ _ Hf) as (-> & G). rewrite (proj2 (Z.leb_le _ _) G). cbn [guard bind].
  pose proof (fits_base _ _ Hf) as Hl; pose proof (fits_divides _ _ Hf) as Hd2; pose proof (divides_half _ Hd2) as Hd; pose proof Hf as (Hs & Hne & _).
  destruct j as [|j]; [apply (smooth_fixed ls Hl Hne dx Hdx s Hs Hd); auto|].
  rewrite (smooth_fixed ls Hl Hne dx Hdx s Hs Hd) by auto. cbn [bind]. destruct (defect_ok ls Hl dx Hdx s Hs Hd u f j0 Su Sf J) as (d & -> & Sd & V). cbn [bind].
  destruct (coarsen_zero s d Hl Hs Hd2 Sd) as (c & -> & Sc & Vc). { intros x Hx. rewrite V by auto. unfold lap. rewrite F by auto. ring. }
  cbn [bind]. destruct (fold_opt_ind (fun v => v = zeros axs) (fun v (_ : Z) => MG axs dx j0 levels gamma nu1 nu2 (2 * s) v c) (zrange 0 gamma)) with (s := zeros axs) as (v & -> & ->); auto.
  { intros v _ _ ->. exists (zeros axs). split; [|auto]. apply MG_zero with (j := j); auto; [lia|now apply fits_double]. }
  cbn [bind]. rewrite refine_zero by auto. cbn [bind].
  assert (add u (zeros axs) = u) as ->; [|apply (smooth_fixed ls Hl Hne dx Hdx s Hs Hd); auto].
  apply (value_ext ls Hl); auto; [apply add_sized; auto; now apply zeros_sized|]. intros x Hx. rewrite (add_value ls Hl), (zeros_value ls Hl) by (auto; now apply zeros_sized). ring.
Qed.

(* nodes off the inner lattice keep their value *)
Lemma refine_frame m s u : 0 < s -> Forall (fun l => l_x0 l = 0 /\ 1 < l_x1 l) ls -> ls <> [] -> (forall i x v, 0 <= i < zlen ls -> mid ls s i x -> sized ls v -> exists w, m s i v x = Some w) -> sized ls u ->
  exists r, refine axs m s u = Some r /\ sized ls r /\ forall y, node ls y -> ~ inside ls s y -> val r y = val u y.
Proof.
  clear dx Hdx. intros Hs Hl Hne Hm Su.
  assert (exists r, fold_opt (fun u i => do xs <- between axs s i; assign axs xs (m s i) u) (zrange 0 (zlen axs)) u = Some r /\ sized ls r /\ forall y, node ls y -> ~ inside ls s y -> val r y = val u y) as A.
  { apply (fold_opt_ind (fun v => sized ls v /\ forall y, node ls y -> ~ inside ls s y -> val v y = val u y)); [|auto]. intros v i Hi Pv. rewrite zlen_axs in Hi. apply in_zrange in Hi.
    destruct (between_ok ls s i Hs Hi) as (xs & -> & I). cbn [bind]. apply (assign_ind ls (fun v => sized ls v /\ forall y, node ls y -> ~ inside ls s y -> val v y = val u y)); [|auto].
    clear v Pv. intros v x Hx (Sv & F). apply I in Hx. destruct (Hm i x v Hi Hx Sv) as (w & E). destruct (wr_value ls Hl v x w Sv) as (v' & W & S' & _ & G & _); [eapply inside_node; [auto| |apply Hx]; auto|].
    exists w, v'. repeat split; auto. intros y Hy Ny. rewrite G; auto. intros ->. apply Ny, Hx. }
  unfold refine. destruct ls as [|l1 [|l2 m']]; [congruence| |exact A]. exists u. auto.
Qed.
Lemma MG_frame j0 gamma nu1 nu2 : sized ls j0 -> forall j levels s u f, (j < levels)%nat -> fits ls s j -> sized ls f -> sized ls u ->
  exists r, MG axs dx j0 levels gamma nu1 nu2 s u f = Some r /\ sized ls r /\ forall y, node ls y -> ~ inside ls s y -> val r y = val u y.
Proof.
  intros J. induction j as [|j IH]; intros [|levels] s u f Hlev Hf Sf Su; try lia; cbn [MG]; destruct (fits_stop _ _ Hf) as (-> & G); (rewrite (proj2 (Z.leb_le _ _) G)); cbn [guard bind];
    pose proof (fits_base _ _ Hf) as Hl; pose proof (fits_divides _ _ Hf) as Hd2; pose proof (divides_half _ Hd2) as Hd; pose proof Hf as (Hs & Hne & _).
  - apply (smooth_frame ls Hl Hne dx Hdx s Hs Hd); auto.
  - destruct (smooth_frame ls Hl Hne dx Hdx s Hs Hd nu1 u f Su Sf) as (u1 & -> & S1 & F1). cbn [bind]. destruct (defect_ok ls Hl dx Hdx s Hs Hd u1 f j0 S1 Sf J) as (d & -> & Sd & _). cbn [bind].
    destruct (coarsen_lin ls Hl s 1%Qc 0%Qc d d d Hs Hd2) as (c & c' & c'' & -> & _ & _ & Sc & _). { repeat split; auto. intros x Hx. ring. } cbn [bind].
    destruct (fold_opt_ind (fun v => sized ls v /\ forall y, node ls y -> ~ inside ls s y -> val v y = 0%Qc) (fun v (_ : Z) => MG axs dx j0 levels gamma nu1 nu2 (2 * s) v c) (zrange 0 gamma)) with (s := zeros axs) as (v & -> & Sv & Fv).
    + intros v _ _ (Sv & Fv). destruct (IH levels (2 * s) v c) as (r & -> & Sr & Fr); auto; [lia|now apply fits_double|]. exists r. repeat split; auto. intros y Hy Ny. rewrite Fr; auto. intros C. apply Ny. now apply inside_double.
    + split; [now apply zeros_sized|]. intros. now apply zeros_value.
    + cbn [bind]. destruct (refine_frame (midpoint axs) s v Hs Hl Hne) as (q & -> & Sq & Fq); auto. { intros i x v' Hi (Hx & _) Sv'. rewrite (midpoint_eq ls Hl) by auto. eauto. } cbn [bind].
      destruct (smooth_frame ls Hl Hne dx Hdx s Hs Hd nu2 (add u1 q) f) as (r & -> & Sr & Fr); auto using add_sized. exists r. repeat split; auto. intros y Hy Ny. rewrite Fr, (add_value ls Hl), Fq, Fv, F1 by auto. ring.
Qed.
End Cycle.
