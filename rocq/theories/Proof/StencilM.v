(* the maximum principle for explicit diffusion *)
From Coq Require Import QArith.QArith QArith.Qcanon Lqa.
From Verif Require Import Model.Base Model.Boundary Model.Layout Model.Access Model.Stencil Spec.Box Spec.Access Spec.Stencil
  Proof.BaseL Proof.LayoutL Proof.AccessL Proof.StencilL Proof.StencilS.
Local Open Scope list_scope.
Local Open Scope Qc_scope.

Lemma this_add a b : (this (a + b) == this a + this b)%Q. Proof. apply Qred_correct. Qed.
Lemma this_mul a b : (this (a * b) == this a * this b)%Q. Proof. apply Qred_correct. Qed.
Lemma this_opp a : (this (- a) == - this a)%Q. Proof. apply Qred_correct. Qed.
Lemma this_inv a : (this (/ a) == / this a)%Q. Proof. apply Qred_correct. Qed.
Lemma this_sub a b : (this (a - b) == this a - this b)%Q. Proof. unfold Qcminus. rewrite this_add, this_opp. reflexivity. Qed.

Lemma sumQ_le {A} (f g : A -> Qc) l : (forall a, In a l -> f a <= g a) -> sumQ (map f l) <= sumQ (map g l).
Proof.
  induction l as [|a l IH]; intros H; [apply Qcle_refl|]. change (f a + sumQ (map f l) <= g a + sumQ (map g l)). apply Qcplus_le_compat; [apply H; now left|]. apply IH. intros; apply H; now right.
Qed.
Lemma sumQ_ge_0 {A} (f : A -> Qc) l : (forall a, In a l -> 0 <= f a) -> 0 <= sumQ (map f l).
Proof. intros H. rewrite <- (sumQ_zero l). now apply sumQ_le. Qed.

Lemma sq_inv_pos h : h <> 0 -> 0 < / (h * h).
Proof.
  intros H. assert (0 < h * h) as P.
  { destruct (Qc_dec h 0) as [[L|G]|E]; [| |congruence]; unfold Qclt in *; rewrite this_mul; change (this 0) with 0%Q in *; nra. }
  unfold Qclt in *. rewrite this_inv. change (this 0) with 0%Q in *. now apply Qinv_lt_0_compat.
Qed.

Lemma conv_low (v m k S T : Qc) : m <= v -> 0 <= k -> k * S <= 1 -> (m - v) * S <= T -> m <= k * T + v.
Proof.
  unfold Qcle. rewrite this_add, !this_mul, this_sub. change (this 1) with 1%Q. change (this 0) with 0%Q. intros A B C D. nra.
Qed.
Lemma conv_high (v m k S T : Qc) : v <= m -> 0 <= k -> k * S <= 1 -> T <= (m - v) * S -> k * T + v <= m.
Proof.
  unfold Qcle. rewrite this_add, !this_mul, this_sub. change (this 1) with 1%Q. change (this 0) with 0%Q. intros A B C D. nra.
Qed.

Section Max.
Variables (ls : list limits) (dx : list Qc).
Hypotheses (F : Forall serial_axis ls) (Ld : length dx = length ls) (Fd : Forall (fun h => h <> 0) dx).

Lemma at_or_in data x : zlen data = cells (lay 0 ls) -> length x = length ls -> box ls (cbs ls x) -> In (at_or 0 (lay 0 ls) data x) data.
Proof.
  intros L Lx B. pose proof (read_defined 0 ls data x F L Lx B) as E. unfold grid_read in E. destruct (addr_vec _ _ _ _); [|discriminate]. cbn [bind] in E.
  unfold get in E. destruct (Z.ltb _ _); [discriminate|]. eapply nth_error_In; eauto.
Qed.

Lemma nth_at data i : zlen data = cells (lay 0 ls) -> (0 <= i < nodes (lay 0 ls))%Z -> at_or 0 (lay 0 ls) data (position (lay 0 ls) i) = nth (Z.to_nat i) data 0.
Proof.
  intros L Hi. unfold at_or. destruct (read_int_position false 0 ls data i) as [E _]; auto; try lia.
  { apply lims_le, F. }
  rewrite <- E, read_int_0 by auto. reflexivity.
Qed.

Lemma lap_bounds data m M i : zlen data = cells (lay 0 ls) -> (0 <= i < nodes (lay 0 ls))%Z -> Forall (fun v => m <= v <= M) data ->
  let v := nth (Z.to_nat i) data 0 in let w := sumQ (map (fun h => Q2Qc (2 # 1) / (h * h)) dx) in
  (m - v) * w <= lap ls dx data (position (lay 0 ls) i) <= (M - v) * w.
Proof.
  intros L Hi Fm v w. pose proof (pos_box ls F i Hi) as B. set (x := position (lay 0 ls) i) in *. pose proof (local_len ls x B) as Lx.
  rewrite Forall_forall in Fm. set (f := at_or 0 (lay 0 ls) data).
  assert (f x = v) as Ex by now apply nth_at.
  assert (forall k d, (0 <= k < zlen ls)%Z -> d = 1%Z \/ d = (-1)%Z -> m <= f (nb x k d) <= M) as Fn.
  { intros k d Hk Hd. apply Fm, at_or_in; auto; [now rewrite nb_len|]. now apply nb_box. }
  assert (w = sumQ (map (fun k => Q2Qc (2 # 1) / (spacing dx k * spacing dx k)) (zrange 0 (zlen ls)))) as Ew.
  { unfold w. rewrite (list_tab dx) at 1. unfold tab. rewrite map_map. replace (zlen dx) with (zlen ls) by (unfold zlen; lia). reflexivity. }
  rewrite Ew, <- !sumQ_mul. unfold lap. fold f.
  split; apply sumQ_le; intros k Hk; apply in_zrange in Hk; destruct (Fn k 1%Z Hk (or_introl eq_refl)) as [A1 A2], (Fn k (-1)%Z Hk (or_intror eq_refl)) as [B1 B2];
    unfold second_difference; rewrite Ex; fold c2; assert (spacing dx k <> 0) as Nz by (apply spacing_nz; auto; unfold zlen in *; lia);
    pose proof (sq_inv_pos _ Nz) as P; unfold Qcdiv; set (q := / (spacing dx k * spacing dx k)) in *; rewrite c2_eq;
    unfold Qcle, Qclt in *; repeat (rewrite ?this_add, ?this_mul, ?this_sub); change (this 1) with 1%Q; change (this 0) with 0%Q in *; nra.
Qed.
End Max.
