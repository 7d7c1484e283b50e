(* The temperature gradient of Monte Carlo grain growth *)
From Coq Require Import QArith.QArith QArith.Qcanon.
From Verif Require Import Model.Base Model.Boundary Model.Layout Model.Access Model.Spin Model.Evolve Model.Gradient Spec.Box Spec.Stencil Spec.Spin
  Proof.BaseL Proof.StencilL Proof.StencilM Proof.SpinL Proof.SpinF Proof.GrowthL Proof.GrowthF.
Local Open Scope list_scope.
Local Open Scope Z_scope.

Lemma inv_pos (v : Qc) : (0 < v)%Qc -> (0 < / v)%Qc.
Proof. intros H. unfold Qclt in *. rewrite this_inv. change (this 0%Qc) with 0%Q in *. now apply Qinv_lt_0_compat. Qed.
Lemma inv_lt (v w : Qc) : (0 < v)%Qc -> (v < w)%Qc -> (/ w < / v)%Qc.
Proof.
  intros Hv H. unfold Qclt in *. rewrite !this_inv. change (this 0%Qc) with 0%Q in *. apply Qlt_shift_inv_l; [|]. 1: Lqa.lra.
  rewrite Qmult_comm. apply Qlt_shift_div_r; Lqa.lra.
Qed.
Lemma this_of z : (this (Qc_of z) == inject_Z z)%Q. Proof. apply Qred_correct. Qed.
Lemma of_lt a b : a < b -> (Qc_of a < Qc_of b)%Qc.
Proof. intros H. unfold Qclt. rewrite !this_of. now rewrite <- Zlt_Qlt. Qed.
Lemma mul_lt (a v w : Qc) : (0 < a)%Qc -> (v < w)%Qc -> (a * v < a * w)%Qc.
Proof. intros Ha H. unfold Qclt in *. rewrite !this_mul. change (this 0%Qc) with 0%Q in Ha. now apply Qmult_lt_l. Qed.
Lemma pos_nz (v : Qc) : (0 < v)%Qc -> v <> 0%Qc.
Proof. intros H ->. now apply Qclt_not_eq in H. Qed.

Lemma temperature_eq l ls c y : temperature (lay 0 (l :: ls)) (c :: y) = (Qc_of 673 + Qc_of 50 / Qc_of (l_g1 l - l_g0 l)%Z * Qc_of (c - l_g0 l)%Z)%Qc.
Proof. reflexivity. Qed.
Lemma temperature_lt l ls c c' y y' : l_g0 l < l_g1 l -> c < c' -> (temperature (lay 0 (l :: ls)) (c :: y) < temperature (lay 0 (l :: ls)) (c' :: y'))%Qc.
Proof.
  intros G H. rewrite !temperature_eq. assert (0 < Qc_of 50 / Qc_of (l_g1 l - l_g0 l)%Z)%Qc as P. { unfold Qcdiv. replace 0%Qc with (Qc_of 50 * 0)%Qc by ring. apply mul_lt; [reflexivity|]. apply inv_pos. replace 0%Qc with (Qc_of 0) by reflexivity. apply of_lt. lia. }
  pose proof (mul_lt _ (Qc_of (c - l_g0 l)) (Qc_of (c' - l_g0 l)) P ltac:(apply of_lt; lia)) as M. unfold Qclt in *. rewrite !this_add. Lqa.lra.
Qed.
Lemma temperature_ok l ls c y : l_g0 l <= c < l_g1 l ->
  temperature (lay 0 (l :: ls)) (l_g0 l :: y) = Qc_of 673 /\
  (temperature (lay 0 (l :: ls)) ((c + 1)%Z :: y) - temperature (lay 0 (l :: ls)) (c :: y) = Qc_of 50 / Qc_of (l_g1 l - l_g0 l)%Z)%Qc /\
  temperature (lay 0 (l :: ls)) (l_g1 l :: y) = Qc_of 723 /\
  (Qc_of 673 <= temperature (lay 0 (l :: ls)) (c :: y))%Qc /\ (temperature (lay 0 (l :: ls)) (c :: y) < Qc_of 723)%Qc.
Proof.
  intros H. assert (temperature (lay 0 (l :: ls)) (l_g0 l :: y) = Qc_of 673) as T0. { rewrite temperature_eq, Z.sub_diag, Qc_of_0. ring. }
  assert (temperature (lay 0 (l :: ls)) (l_g1 l :: y) = Qc_of 723) as T1. { rewrite temperature_eq. change (Qc_of 723) with (Qc_of (673 + 50)). rewrite Qc_of_add. f_equal. field. apply pos_nz. replace 0%Qc with (Qc_of 0) by reflexivity. apply of_lt. lia. }
  split; [exact T0|]. split. { rewrite !temperature_eq. replace (c + 1 - l_g0 l) with ((c - l_g0 l) + 1) by lia. rewrite Qc_of_add, Qc_of_1. ring. }
  split; [exact T1|]. split.
  - rewrite <- T0. destruct (Z.eq_dec (l_g0 l) c) as [->|]; [apply Qcle_refl|]. apply Qclt_le_weak, temperature_lt; lia.
  - rewrite <- T1. apply temperature_lt; lia.
Qed.

Lemma selection_ok ex top l ls c c' y y' : (forall v, 0 < ex v)%Qc -> (forall v w, v < w -> ex v < ex w)%Qc -> 0 < top -> l_g0 l <= c < l_g1 l -> l_g0 l <= c' < l_g1 l ->
  let axs := lay 0 (l :: ls) in
  (0 < selection_probability ex axs (c :: y))%Qc /\ (selection_probability ex axs (c :: y) < 1)%Qc /\
  (c < c' -> (selection_probability ex axs (c :: y) < selection_probability ex axs (c' :: y'))%Qc) /\
  (c = c' -> selection_probability ex axs (c :: y) = selection_probability ex axs (c' :: y')) /\
  (forall rd, selected ex top axs (c :: y) rd = true <-> (Qc_of rd / Qc_of top <= selection_probability ex axs (c :: y))%Qc) /\
  (forall rd, c <= c' -> selected ex top axs (c :: y) rd = true -> selected ex top axs (c' :: y') rd = true) /\
  selected ex top axs (c :: y) 0 = true /\ selected ex top axs (c :: y) top = false.
Proof.
  intros Pos Mono Ht Hc Hc' axs.
  set (k := (- of_int 100000 / Q2Qc (8314 # 1000))%Qc). set (e1 := ex (k / of_int 723)%Qc).
  assert (forall c y, selection_probability ex axs (c :: y) = (/ e1 * ex (k / temperature axs (c :: y)))%Qc) as E. { intros ? ?. unfold selection_probability. cbv zeta. fold k. fold e1. unfold Qcdiv. apply Qcmult_comm. }
  assert (0 < / e1)%Qc as P1 by apply inv_pos, Pos.
  assert (forall v w, 0 < v -> v < w -> k / v < k / w)%Qc as K.
  { intros v w Hv Hl. pose proof (inv_lt v w Hv Hl) as I. assert (0 < - k)%Qc as Pk by reflexivity. pose proof (mul_lt _ _ _ Pk I) as M. unfold Qcdiv. unfold Qclt in *. rewrite !this_mul in *. rewrite this_opp in M. Lqa.lra. }
  assert (forall c y, (l_g0 l <= c < l_g1 l)%Z -> 0 < temperature axs (c :: y))%Qc as TP. { intros d z Hd. apply Qclt_le_trans with (Qc_of 673); [reflexivity|]. apply (temperature_ok l ls d z Hd). }
  assert (forall c c' y y', (l_g0 l <= c < l_g1 l)%Z -> (c < c')%Z -> selection_probability ex axs (c :: y) < selection_probability ex axs (c' :: y'))%Qc as Lt.
  { intros d d' z z' Hd Hl. rewrite !E. apply mul_lt; [exact P1|]. apply Mono, K; [now apply TP|]. apply temperature_lt; lia. }
  assert (0 < selection_probability ex axs (c :: y))%Qc as P0. { rewrite E. replace 0%Qc with (/ e1 * 0)%Qc by ring. now apply mul_lt. }
  assert (selection_probability ex axs (c :: y) < 1)%Qc as P2.
  { apply Qclt_le_trans with (selection_probability ex axs (l_g1 l :: y)); [apply Lt; lia|]. rewrite E. unfold axs. rewrite (proj1 (proj2 (proj2 (temperature_ok l ls c y Hc)))). fold axs. change (ex (k / Qc_of 723)%Qc) with e1. rewrite Qcmult_comm, Qcmult_inv_r; [apply Qcle_refl|]. apply pos_nz, Pos. }
  assert (c = c' -> selection_probability ex axs (c :: y) = selection_probability ex axs (c' :: y')) as Eq by (intros ->; reflexivity).
  assert (forall c y rd, selected ex top axs (c :: y) rd = true <-> (Qc_of rd / Qc_of top <= selection_probability ex axs (c :: y))%Qc) as S.
  { intros d z rd. unfold selected, qgt. change (of_int rd) with (Qc_of rd). change (of_int top) with (Qc_of top). destruct (Qclt_le_dec _ _) as [Hl|Hl]; cbn [negb]; [|now split]. split; [discriminate|]. intros X. exfalso. exact (Qclt_not_le _ _ Hl X). }
  assert (0 < Qc_of top)%Qc as PT by (replace 0%Qc with (Qc_of 0) by reflexivity; now apply of_lt).
  split; [auto|]. split; [auto|]. split; [intros; apply Lt; auto|]. split; [exact Eq|]. split; [apply S|]. split; [|split].
  - intros rd Hl X. apply S. apply S in X. destruct (Z.eq_dec c c') as [e|]; [now rewrite <- Eq|]. eapply Qcle_trans; [exact X|]. apply Qclt_le_weak, Lt; lia.
  - apply S. unfold Qcdiv. rewrite Qc_of_0, Qcmult_0_l. now apply Qclt_le_weak.
  - destruct (selected ex top axs (c :: y) top) eqn:X; [|reflexivity]. exfalso. apply S in X. unfold Qcdiv in X. rewrite Qcmult_inv_r in X by now apply pos_nz. exact (Qclt_not_le _ _ P2 X).
Qed.
Lemma attempt_or_not hot sel ls data a : whole ls -> zlen data = cells (lay 0 ls) -> in_box (map l_x0 ls) (map l_x1 ls) (at_site a) ->
  attempts (lay 0 ls) hot sel [a] data = if sel (at_site a) (a_d a) then attempts (lay 0 ls) hot (fun _ _ => true) [a] data else Some data.
Proof.
  intros W L B. unfold attempts. cbn [fold_opt]. unfold attempt_at. destruct (sel (at_site a) (a_d a)) eqn:Es.
  - unfold visit. rewrite Es. reflexivity.
  - unfold visit. rewrite Es, (read_in ls W) by auto. cbn [bind negb fst]. destruct (write_in ls W hot sel data (at_site a) (value_at ls data (at_site a)) L B) as (d' & -> & L' & E & O & _). cbn [bind]. f_equal. symmetry.
    apply (same_values ls hot sel W); auto. intros y By. destruct (list_eq_dec Z.eq_dec y (at_site a)) as [->|]; auto. symmetry. auto.
Qed.
