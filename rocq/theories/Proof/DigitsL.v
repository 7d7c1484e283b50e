(* The text form of doubles: six significant digits. *)
From Coq Require Import QArith.QArith QArith.Qcanon QArith.Qround QArith.Qpower Lqa.
From Verif Require Import Model.Base Model.Num Model.Digits Spec.Stencil Spec.Digits Spec.File Proof.BaseL Proof.StencilL Proof.StencilM Proof.GradientL.
Local Open Scope Z_scope.

Notation P := (decimal 1).
Lemma this_of_Z z : (this (Q2Qc (inject_Z z)) == inject_Z z)%Q.
Proof. cbn [this Q2Qc]. apply Qred_correct. Qed.
Lemma inj_pos n : 0 < n -> (0 < inject_Z n)%Q.
Proof. intros H. change 0%Q with (inject_Z 0). now rewrite <- Zlt_Qlt. Qed.
Lemma ten_pos k : 0 < 10 ^ k \/ k < 0.
Proof. destruct (Z.lt_ge_cases k 0); [now right|left]. apply Z.pow_pos_nonneg; lia. Qed.
Lemma ten_gt k : 0 <= k -> 0 < 10 ^ k.
Proof. intros H. apply Z.pow_pos_nonneg; lia. Qed.
Lemma this_decimal a e : (this (decimal a e) == inject_Z a * (10 # 1) ^ e)%Q.
Proof.
  unfold decimal. destruct (Z.leb_spec 0 e) as [H|H]; cbn [this Q2Qc]; rewrite Qred_correct.
  - rewrite inject_Z_mult. change (10 # 1)%Q with (inject_Z 10). rewrite <- Zpower_Qpower by auto. reflexivity.
  - unfold Qdiv. apply Qmult_comp; [reflexivity|]. rewrite Zpower_Qpower by lia. change (inject_Z 10) with (10 # 1)%Q. rewrite Qpower_opp, Qinv_involutive. reflexivity.
Qed.
Lemma ten_nz : ~ (10 # 1 == 0)%Q. Proof. discriminate. Qed.
Lemma P_plus a b : P (a + b) = (P a * P b)%Qc.
Proof. apply Qc_is_canon. rewrite this_mul, !this_decimal, Qpower_plus by apply ten_nz. ring. Qed.
Lemma dec_P a e : decimal a e = (Qc_of a * P e)%Qc.
Proof. apply Qc_is_canon. unfold Qc_of. rewrite this_mul, !this_decimal, this_of_Z. ring. Qed.
Lemma P_nat k : 0 <= k -> P k = Qc_of (10 ^ k).
Proof. intros H. unfold decimal. destruct (Z.leb_spec 0 k); [|lia]. now rewrite Z.mul_1_l. Qed.
Lemma P_0 : P 0 = 1%Qc. Proof. reflexivity. Qed.
Lemma P_inv k : (P (- k) * P k = 1)%Qc.
Proof. rewrite <- P_plus. replace (- k + k) with 0 by lia. reflexivity. Qed.
Lemma of_pos n : 0 < n -> (0 < Qc_of n)%Qc.
Proof. intros H. unfold Qclt, Qc_of. rewrite this_of_Z. now apply inj_pos. Qed.
Lemma P_pos k : (0 < P k)%Qc.
Proof. unfold Qclt. rewrite this_decimal. change (inject_Z 1) with 1%Q. rewrite Qmult_1_l. change (this 0%Qc) with 0%Q. apply Qpower_0_lt. reflexivity. Qed.
Lemma P_nz k : P k <> 0%Qc. Proof. intros E. pose proof (P_pos k) as H. rewrite E in H. discriminate H. Qed.
Lemma dec_shift a e k : 0 <= k -> decimal (a * 10 ^ k) e = decimal a (e + k).
Proof. intros H. rewrite (dec_P a), P_plus, (P_nat k H), dec_P. assert (Qc_of (a * 10 ^ k) = Qc_of a * Qc_of (10 ^ k))%Qc as ->; [|ring]. apply Qc_is_canon. unfold Qc_of. rewrite this_mul, !this_of_Z. now rewrite inject_Z_mult. Qed.
Lemma mul_le a b c : (0 < c -> a <= b -> a * c <= b * c)%Qc.
Proof. intros H L. apply Qcmult_le_compat_r; auto. now apply Qclt_le_weak. Qed.
Lemma mul_lt_r a b c : (0 < c -> a < b -> a * c < b * c)%Qc.
Proof. intros H L. now apply Qcmult_lt_compat_r. Qed.
Lemma P_lt a b : a < b -> (P a < P b)%Qc.
Proof.
  intros H. replace b with (a + (b - a)) by lia. rewrite P_plus, <- (Qcmult_1_l (P a)) at 1. rewrite (Qcmult_comm (P a)). apply mul_lt_r; [apply P_pos|]. rewrite P_nat by lia.
  change 1%Qc with (Qc_of 1). unfold Qclt, Qc_of. rewrite !this_of_Z, <- Zlt_Qlt. apply Z.pow_gt_1; lia.
Qed.
Lemma P_le_iff a b : (P a < P b)%Qc -> a < b.
Proof. intros H. destruct (Z.lt_ge_cases a b) as [|G]; [auto|]. exfalso. destruct (Z.eq_dec a b) as [->|N]; [exact (Qclt_not_le _ _ H (Qcle_refl _))|]. exact (Qclt_not_le _ _ H (Qclt_le_weak _ _ (P_lt b a ltac:(lia)))). Qed.

(* the exponent *)
Lemma find_least (f : Z -> bool) lo hi x : find f (zrange lo hi) = Some x -> f x = true /\ lo <= x < hi /\ forall y, lo <= y < x -> f y = false.
Proof.
  remember (Z.to_nat (hi - lo)) as n eqn:En. revert lo En. induction n as [|n IH]; intros lo En H.
  - unfold zrange in H. rewrite <- En in H. discriminate.
  - rewrite zrange_cons in H by lia. cbn [find] in H. destruct (f lo) eqn:E; [injection H as <-; split; [auto|]; split; [lia|]; intros; lia|].
    destruct (IH (lo + 1) ltac:(lia) H) as (A & B & C). split; [auto|]. split; [lia|]. intros y Hy. destruct (Z.eq_dec y lo) as [->|]; [auto|]. apply C. lia.
Qed.
Lemma find_some_range (f : Z -> bool) lo hi x : lo <= x < hi -> f x = true -> exists y, find f (zrange lo hi) = Some y.
Proof.
  intros H E. destruct (find f (zrange lo hi)) as [y|] eqn:F; [eauto|]. pose proof (find_none _ _ F x) as N. rewrite N in E; [discriminate|]. unfold zrange. apply in_map_iff. exists (Z.to_nat (x - lo)). split; [lia|]. apply in_seq. lia.
Qed.
Lemma log_ten n : 0 < n -> n < 10 ^ (Z.log2 n + 1).
Proof.
  intros H. pose proof (Z.log2_spec n H) as [_ L]. unfold Z.succ in L. pose proof (Z.log2_nonneg n). apply Z.lt_le_trans with (2 ^ (Z.log2 n + 1)); [auto|]. apply Z.pow_le_mono_l. lia.
Qed.
Lemma exponent_spec q : (0 < q)%Qc -> (P (exponent q) <= q)%Qc /\ (q < P (exponent q + 1))%Qc.
Proof.
  intros H. unfold exponent. set (n := Qnum q). set (d := Z.pos (Qden q)). set (f := fun x => if Qclt_le_dec q (P (x + 1)) then true else false).
  assert (0 < n) as Hn by (unfold n; unfold Qclt, Qlt in H; change (Qnum 0%Qc) with 0 in H; change (QDen 0%Qc) with 1 in H; lia). assert (0 < d) as Hd by (unfold d; lia).
  pose proof (log_ten n Hn) as Ln. pose proof (log_ten d Hd) as Ld. pose proof (Z.log2_nonneg n) as N1. pose proof (Z.log2_nonneg d) as N2.
  assert (this q == inject_Z n / inject_Z d)%Q as Eq by (unfold n, d; destruct (this q) as [a b]; cbn; unfold Qeq; cbn; lia).
  assert (q < P (Z.log2 n + 1))%Qc as Hi.
  { rewrite P_nat by lia. unfold Qclt, Qc_of. rewrite this_of_Z, Eq. apply Qlt_shift_div_r; [now apply inj_pos|]. rewrite <- inject_Z_mult, <- Zlt_Qlt. nia. }
  assert (P (- Z.log2 d - 1) <= q)%Qc as Lo.
  { replace (- Z.log2 d - 1) with (- (Z.log2 d + 1)) by lia. set (k := Z.log2 d + 1) in *. assert (1 <= q * P k)%Qc as G.
    { rewrite P_nat by (unfold k; lia). unfold Qcle, Qc_of. rewrite this_mul, this_of_Z, Eq. change (this 1%Qc) with (inject_Z 1). unfold Qdiv. rewrite <- Qmult_assoc, (Qmult_comm (/ _)), Qmult_assoc. apply Qle_shift_div_l; [now apply inj_pos|]. rewrite <- !inject_Z_mult, <- Zle_Qle. nia. }
    apply (mul_le _ _ (P (- k)) (P_pos _)) in G. rewrite Qcmult_1_l, <- Qcmult_assoc, (Qcmult_comm (P k)), P_inv, Qcmult_1_r in G. exact G. }
  destruct (find_some_range f (- Z.log2 d - 1) (Z.log2 n + 2) (Z.log2 n) ltac:(lia)) as [y Fy]; [unfold f; destruct (Qclt_le_dec q (P (Z.log2 n + 1))) as [|G]; [reflexivity|exfalso; exact (Qclt_not_le _ _ Hi G)]|].
  fold f. rewrite Fy. destruct (find_least _ _ _ _ Fy) as (A & B & C). split.
  - destruct (Z.eq_dec y (- Z.log2 d - 1)) as [->|N]; [exact Lo|]. pose proof (C (y - 1) ltac:(lia)) as G. unfold f in G. replace (y - 1 + 1) with y in G by lia. destruct (Qclt_le_dec q (P y)); [discriminate|auto].
  - unfold f in A. destruct (Qclt_le_dec q (P (y + 1))); [auto|discriminate].
Qed.
Lemma exponent_unique q x : (0 < q)%Qc -> (P x <= q)%Qc -> (q < P (x + 1))%Qc -> exponent q = x.
Proof.
  intros H A B. destruct (exponent_spec q H) as [C D]. assert (x < exponent q + 1) by (apply P_le_iff; eapply Qcle_lt_trans; eauto). assert (exponent q < x + 1) by (apply P_le_iff; eapply Qcle_lt_trans; eauto). lia.
Qed.

(* rounding *)
Lemma nearest_spec (q : Qc) : (q - (1 # 2) <= inject_Z (nearest q))%Q /\ (inject_Z (nearest q) <= q + (1 # 2))%Q.
Proof.
  unfold nearest. destruct q as [q Hq]; cbn [this]. pose proof (Qfloor_le q) as A. pose proof (Qlt_floor q) as B. set (f := Qfloor q) in *. rewrite inject_Z_plus in B. change (inject_Z 1) with 1%Q in B.
  destruct (Qcompare_spec (q - inject_Z f) (1 # 2)) as [E|E|E]; [destruct (Z.even f)| |]; rewrite ?inject_Z_plus; change (inject_Z 1) with 1%Q; split; lra.
Qed.
Lemma nearest_unique (q : Qc) n : (q - (1 # 2) < inject_Z n)%Q -> (inject_Z n < q + (1 # 2))%Q -> nearest q = n.
Proof.
  intros A B. destruct (nearest_spec q) as [C D]. assert (inject_Z (nearest q) < inject_Z (n + 1))%Q as H by (rewrite inject_Z_plus; change (inject_Z 1) with 1%Q; lra). assert (inject_Z n < inject_Z (nearest q + 1))%Q as H' by (rewrite inject_Z_plus; change (inject_Z 1) with 1%Q; lra). rewrite <- Zlt_Qlt in H, H'. lia.
Qed.


(* q in units of the sixth digit *)
Definition h : Qc := Q2Qc (1 # 2).
Lemma scaled q e : (q = q * P (- e) * P e)%Qc.
Proof. rewrite <- Qcmult_assoc, P_inv. ring. Qed.
Lemma P_5 x : (P x * P (5 - x) = Qc_of 100000)%Qc.
Proof. rewrite <- P_plus. replace (x + (5 - x)) with 5 by lia. now rewrite P_nat by lia. Qed.
Lemma P_6 x : (P (x + 1) * P (5 - x) = Qc_of 1000000)%Qc.
Proof. rewrite <- P_plus. replace (x + 1 + (5 - x)) with 6 by lia. now rewrite P_nat by lia. Qed.
Lemma this_h : (this h == 1 # 2)%Q. Proof. reflexivity. Qed.
Lemma unit_of q x : (q = q * P (5 - x) * P (x - 5))%Qc.
Proof. rewrite (scaled q (x - 5)) at 1. now replace (- (x - 5)) with (5 - x) by lia. Qed.
Lemma six_digits_spec q m x : (0 < q)%Qc -> six_digits q = (m, x) ->
  100000 <= m < 1000000 /\ (q - h * P (x - 5) <= decimal m (x - 5))%Qc /\ (decimal m (x - 5) <= q + h * P (x - 5))%Qc /\
  ((q - h * P (-5) * q <= decimal m (x - 5))%Qc /\ (decimal m (x - 5) <= q + h * P (-5) * q)%Qc) /\ exponent q <= x <= exponent q + 1.
Proof.
  intros Hq E. unfold six_digits in E. destruct (exponent_spec q Hq) as [A B]. set (z := exponent q) in *. clearbody z. pose proof A as A'.
  apply (mul_le _ _ _ (P_pos (5 - z))) in A. apply (mul_lt_r _ _ _ (P_pos (5 - z))) in B. rewrite P_5 in A. rewrite P_6 in B.
  pose proof (unit_of q z) as U. set (Y := (q * P (5 - z))%Qc) in *. destruct (nearest_spec Y) as [C D]. set (n := nearest Y) in *. clearbody n Y.
  unfold Qcle, Qclt, Qc_of in A, B. rewrite this_of_Z in A, B.
  assert (100000 <= n <= 1000000) as R.
  { assert (inject_Z 100000 < inject_Z (n + 1))%Q as R1 by (rewrite inject_Z_plus; change (inject_Z 1) with 1%Q; lra).
    assert (inject_Z n < inject_Z (1000000 + 1))%Q as R2 by (rewrite inject_Z_plus; change (inject_Z 1) with 1%Q; lra).
    rewrite <- Zlt_Qlt in R1, R2. lia. }
  assert (q - h * P (z - 5) <= decimal n (z - 5) /\ decimal n (z - 5) <= q + h * P (z - 5))%Qc as [K1 K2].
  { rewrite U, (dec_P n). pose proof (P_pos (z - 5)) as W. set (u := P (z - 5)) in *. clearbody u. clear U. split.
    - replace (Y * u - h * u)%Qc with ((Y - h) * u)%Qc by ring. apply mul_le; [auto|]. unfold Qcle, Qc_of. rewrite this_sub, this_h, this_of_Z. exact C.
    - replace (Y * u + h * u)%Qc with ((Y + h) * u)%Qc by ring. apply mul_le; [auto|]. unfold Qcle, Qc_of. rewrite this_add, this_h, this_of_Z. exact D. }
  assert (h * P (z - 5) <= h * P (-5) * q)%Qc as Lr.
  { replace (z - 5) with (z + -5) by lia. rewrite P_plus. replace (h * (P z * P (-5)))%Qc with (P z * (h * P (-5)))%Qc by ring. rewrite (Qcmult_comm _ q). apply mul_le; [reflexivity|exact A']. }
  assert (q - h * P (-5) * q <= decimal n (z - 5) /\ decimal n (z - 5) <= q + h * P (-5) * q)%Qc as [R1 R2].
  { split.
    - apply Qcle_trans with (2 := K1). unfold Qcminus. apply Qcplus_le_compat; [apply Qcle_refl|]. now apply Qcopp_le_compat.
    - apply Qcle_trans with (1 := K2). apply Qcplus_le_compat; [apply Qcle_refl|auto]. }
  destruct (Z.eqb_spec n 1000000) as [En|N]; injection E as <- <-; [rewrite En in *|split; [lia|repeat split; auto; lia]].
  split; [lia|]. replace (decimal 100000 (z + 1 - 5)) with (decimal 1000000 (z - 5)) by (change 1000000 with (100000 * 10 ^ 1); rewrite dec_shift by lia; f_equal; lia).
  assert (h * P (z - 5) <= h * P (z + 1 - 5))%Qc as L by (rewrite !(Qcmult_comm h); apply mul_le; [reflexivity|apply Qclt_le_weak, P_lt; lia]).
  split; [|split; [|split; [split; auto|lia]]].
  - apply Qcle_trans with (2 := K1). unfold Qcminus. apply Qcplus_le_compat; [apply Qcle_refl|]. now apply Qcopp_le_compat.
  - apply Qcle_trans with (1 := K2). apply Qcplus_le_compat; [apply Qcle_refl|auto].
Qed.

(* a number within 10^-8 of a number of six digits has those digits *)
Definition close (q v : Qc) : Prop := (v - P (-8) * v <= q)%Qc /\ (q <= v + P (-8) * v)%Qc.
Lemma close_pos q v : (0 < v)%Qc -> close q v -> (0 < q)%Qc.
Proof.
  intros H [A _]. apply Qclt_le_trans with (2 := A). unfold Qclt in *. rewrite this_sub, this_mul. change (this (P (-8))) with (1 # 100000000)%Q. change (this 0%Qc) with 0%Q in *. lra.
Qed.
Lemma six_digits_close q m x : 100000 <= m < 1000000 -> close q (decimal m (x - 5)) -> six_digits q = (m, x).
Proof.
  intros Hm C. assert (0 < decimal m (x - 5))%Qc as Hv by (rewrite (dec_P m); rewrite <- (Qcmult_0_l (P (x - 5))); apply mul_lt_r; [apply P_pos|apply of_pos; lia]).
  pose proof (close_pos _ _ Hv C) as Hq. destruct C as [C1 C2]. apply (mul_le _ _ _ (P_pos (5 - x))) in C1, C2.
  assert (decimal m (x - 5) * P (5 - x) = Qc_of m)%Qc as Ev by (rewrite (dec_P m), <- Qcmult_assoc, <- P_plus; replace (x - 5 + (5 - x)) with 0 by lia; rewrite P_0; ring).
  replace ((decimal m (x - 5) - P (-8) * decimal m (x - 5)) * P (5 - x))%Qc with (Qc_of m - P (-8) * Qc_of m)%Qc in C1 by (rewrite <- Ev; ring).
  replace ((decimal m (x - 5) + P (-8) * decimal m (x - 5)) * P (5 - x))%Qc with (Qc_of m + P (-8) * Qc_of m)%Qc in C2 by (rewrite <- Ev; ring).
  pose proof (unit_of q x) as U. remember (q * P (5 - x))%Qc as Y eqn:EY.
  unfold Qcle, Qc_of in C1, C2. rewrite this_sub, this_mul, this_of_Z in C1. rewrite this_add, this_mul, this_of_Z in C2. change (this (P (-8))) with (1 # 100000000)%Q in C1, C2.
  assert (inject_Z 100000 <= inject_Z m)%Q as M1 by (rewrite <- Zle_Qle; lia). assert (inject_Z m <= inject_Z 999999)%Q as M2 by (rewrite <- Zle_Qle; lia).
  change (inject_Z 100000) with (100000 # 1)%Q in M1. change (inject_Z 999999) with (999999 # 1)%Q in M2.
  assert (this Y < 1000000 # 1)%Q as Y2 by lra.
  unfold six_digits. destruct (Qclt_le_dec Y (Qc_of 100000)) as [L|L].
  - (* just below a power of ten *)
    assert (m = 100000) as ->. { destruct (Z.eq_dec m 100000) as [|N]; [auto|exfalso]. assert (inject_Z 100001 <= inject_Z m)%Q as M3 by (rewrite <- Zle_Qle; lia). change (inject_Z 100001) with (100001 # 1)%Q in M3. unfold Qclt, Qc_of in L. rewrite this_of_Z in L. change (inject_Z 100000) with (100000 # 1)%Q in L. lra. }
    assert (exponent q = x - 1) as ->.
    { apply exponent_unique; [auto| |].
      - rewrite U. replace (P (x - 1)) with (Qc_of 10000 * P (x - 5))%Qc by (replace (x - 1) with (4 + (x - 5)) by lia; now rewrite P_plus, (P_nat 4) by lia). apply mul_le; [apply P_pos|]. unfold Qcle, Qc_of. rewrite this_of_Z. change (inject_Z 10000) with (10000 # 1)%Q. lra.
      - rewrite U. replace (P (x - 1 + 1)) with (Qc_of 100000 * P (x - 5))%Qc by (replace (x - 1 + 1) with (5 + (x - 5)) by lia; now rewrite P_plus, (P_nat 5) by lia). apply mul_lt_r; [apply P_pos|exact L]. }
    assert (nearest (q * P (5 - (x - 1))) = 1000000) as ->.
    { replace (q * P (5 - (x - 1)))%Qc with (Y * Qc_of 10)%Qc by (rewrite EY; replace (5 - (x - 1)) with (5 - x + 1) by lia; rewrite P_plus, (P_nat 1) by lia; change (10 ^ 1) with 10; ring).
      unfold Qclt, Qc_of in L. rewrite this_of_Z in L. change (inject_Z 100000) with (100000 # 1)%Q in *.
      apply nearest_unique; rewrite this_mul; change (this (Qc_of 10)) with (10 # 1)%Q; change (inject_Z 1000000) with (1000000 # 1)%Q; lra. }
    cbn. f_equal. lia.
  - assert (exponent q = x) as ->.
    { apply exponent_unique; [auto| |].
      - rewrite U. replace (P x) with (Qc_of 100000 * P (x - 5))%Qc by (replace x with (5 + (x - 5)) at 2 by lia; now rewrite (P_plus 5), (P_nat 5) by lia). apply mul_le; [apply P_pos|exact L].
      - rewrite U. replace (P (x + 1)) with (Qc_of 1000000 * P (x - 5))%Qc by (replace (x + 1) with (6 + (x - 5)) by lia; now rewrite (P_plus 6), (P_nat 6) by lia). apply mul_lt_r; [apply P_pos|]. unfold Qclt, Qc_of. rewrite this_of_Z. exact Y2. }
    assert (nearest (q * P (5 - x)) = m) as -> by (rewrite <- EY; apply nearest_unique; lra).
    destruct (Z.eqb_spec m 1000000); [lia|reflexivity].
Qed.

(* the text *)
Definition digit (d : Z) : Prop := 0 <= d <= 9.
Definition value (l : list Z) (a : Z) : Z := fold_left (fun a d => 10 * a + d) l a.
Lemma value_app l l' a : value (l ++ l') a = value l' (value l a).
Proof. apply fold_left_app. Qed.
Lemma value_zeros k a : value (repeat 0 k) a = a * 10 ^ Z.of_nat k.
Proof. revert a. induction k as [|k IH]; intros a; [cbn; lia|]. cbn [repeat value fold_left]. fold (value (repeat 0 k) (10 * a + 0)). rewrite IH, Nat2Z.inj_succ, Z.pow_succ_r by lia. lia. Qed.
Lemma drop_zeros_spec l : exists k, l = repeat 0 k ++ drop_zeros l.
Proof. induction l as [|d l [k IH]]; [now exists 0%nat|]. destruct d; [|exists 0%nat; reflexivity..]. exists (S k). cbn [drop_zeros repeat app]. now rewrite <- IH. Qed.
Lemma rev_repeat {A} (x : A) k : rev (repeat x k) = repeat x k.
Proof. induction k as [|k IH]; [reflexivity|]. cbn [repeat rev]. rewrite IH. symmetry. apply repeat_cons. Qed.
Lemma strip_spec l : exists k, l = strip l ++ repeat 0 k.
Proof. destruct (drop_zeros_spec (rev l)) as [k E]. exists k. unfold strip. rewrite <- (rev_repeat 0 k), <- rev_app_distr, <- E. symmetry. apply rev_involutive. Qed.
Lemma strip_digits l : Forall digit l -> Forall digit (strip l).
Proof. intros H. destruct (strip_spec l) as [k E]. rewrite E in H. now apply Forall_app in H. Qed.
Lemma digits_digits m : Forall digit (digits_of m).
Proof. unfold digits_of. apply Forall_map. apply Forall_forall. intros k _. unfold digit. pose proof (Z.mod_pos_bound (m / 10 ^ k) 10 ltac:(lia)). lia. Qed.
Lemma digits_value m : 0 <= m < 1000000 -> value (digits_of m) 0 = m.
Proof.
  intros H. unfold digits_of, value. cbn [map fold_left].
  assert (forall k, 0 <= k -> 10 * (m / 10 ^ (k + 1)) + (m / 10 ^ k) mod 10 = m / 10 ^ k) as S.
  { intros k Hk. rewrite Z.pow_add_r, <- Z.div_div by (try lia; apply ten_gt; lia). change (10 ^ 1) with 10. symmetry. apply Z.div_mod. lia. }
  assert (m / 10 ^ 6 = 0) as E6 by (apply Z.div_small; cbn; lia). pose proof (S 5 ltac:(lia)) as S5. change (5 + 1) with 6 in S5. rewrite E6 in S5. rewrite S5.
  pose proof (S 4 ltac:(lia)) as S4. change (4 + 1) with 5 in S4. rewrite S4. pose proof (S 3 ltac:(lia)) as S3. change (3 + 1) with 4 in S3. rewrite S3.
  pose proof (S 2 ltac:(lia)) as S2. change (2 + 1) with 3 in S2. rewrite S2. pose proof (S 1 ltac:(lia)) as S1. change (1 + 1) with 2 in S1. rewrite S1.
  pose proof (S 0 ltac:(lia)) as S0. change (0 + 1) with 1 in S0. rewrite S0. apply Z.div_1_r.
Qed.
Lemma digits_length m : length (digits_of m) = 6%nat. Proof. reflexivity. Qed.
Definition stops (t : list byte) : Prop := match t with [] => True | c :: _ => c < 48 \/ 57 < c end.
Lemma take_chars l t a n : Forall digit l -> stops t -> take_digits (chars l ++ t) a n = (value l a, n + zlen l, t).
Proof.
  intros H St. revert a n. induction H as [|d l Hd _ IH]; intros a n.
  - cbn [chars map app value fold_left]. replace (n + zlen (@nil Z)) with n by (unfold zlen; cbn; lia). destruct t as [|c t]; [reflexivity|]. cbn [take_digits]. cbn [stops] in St. destruct (Z.leb_spec 48 c), (Z.leb_spec c 57); cbn [andb]; try reflexivity; lia.
  - cbn [chars map app take_digits]. unfold digit in Hd. destruct (Z.leb_spec 48 (48 + d)), (Z.leb_spec (48 + d) 57); try lia. cbn [andb]. fold (chars l). rewrite IH. rewrite zlen_cons. replace (48 + d - 48) with d by lia. replace (n + 1 + zlen l) with (n + (1 + zlen l)) by lia. reflexivity.
Qed.
Lemma take_chars_end l a n : Forall digit l -> take_digits (chars l) a n = (value l a, n + zlen l, []).
Proof. intros H. rewrite <- (app_nil_r (chars l)). now apply take_chars. Qed.

(* digits, a fraction and a tail *)
Definition tail_value (t : list byte) : option Z :=
  match t with
  | [] => Some 0
  | c :: t' => if (c =? 101) || (c =? 69) then
      let '(eneg, t') := take_sign t' in
      let '(x, n, rest) := take_digits t' 0 0 in
      do _ <- guard (0 <? n);
      do _ <- match rest with [] => Some tt | _ => None end;
      Some (if eneg then - x else x)
    else None
  end.
Definition plain_end (t : list byte) : Prop := match t with [] => True | c :: _ => 57 < c end.
Lemma parse_parts l f t x : Forall digit l -> Forall digit f -> l <> [] -> plain_end t -> tail_value t = Some x ->
  parse_number (chars l ++ fraction f ++ t) = Some (decimal (value (l ++ f) 0) (x - zlen f)).
Proof.
  intros Hl Hf Ne Ht Ex. unfold parse_number. destruct l as [|d l]; [easy|]. inversion Hl as [|? ? Hd Hl']; subst.
  assert (take_sign (chars (d :: l) ++ fraction f ++ t) = (false, chars (d :: l) ++ fraction f ++ t)) as ->.
  { cbn [chars map app take_sign]. unfold digit in Hd. destruct (Z.eqb_spec (48 + d) 45); [lia|]. destruct (Z.eqb_spec (48 + d) 43); [lia|]. reflexivity. }
  rewrite take_chars; [|auto|].
  2:{ destruct f; cbn [fraction app]; [destruct t; cbn in *; [auto|lia]|cbn; lia]. }
  pose proof (zlen_nonneg l). rewrite zlen_cons. destruct f as [|b f].
  - cbn [fraction app]. rewrite app_nil_r. replace (x - zlen (@nil Z)) with (x - 0) by (unfold zlen; cbn; lia).
    assert (match t with [] => (value (d :: l) 0, 0, t) | c :: t' => if c =? 46 then take_digits t' (value (d :: l) 0) 0 else (value (d :: l) 0, 0, t) end = (value (d :: l) 0, 0, t)) as ->.
    { destruct t as [|c t]; [reflexivity|]. cbn in Ht. destruct (Z.eqb_spec c 46); [lia|reflexivity]. }
    fold (tail_value t). rewrite Ex. destruct (Z.ltb_spec 0 (0 + (1 + zlen l) + 0)); [|lia]. reflexivity.
  - cbn [fraction app]. change (46 =? 46) with true. cbn [app]. rewrite (take_chars (b :: f)); [|auto|destruct t; cbn in *; [auto|lia]].
    fold (tail_value t). rewrite Ex. pose proof (zlen_nonneg f). rewrite zlen_cons. destruct (Z.ltb_spec 0 (0 + (1 + zlen l) + (0 + (1 + zlen f)))); [|lia]. cbn [guard bind]. rewrite <- value_app. reflexivity.
Qed.
Lemma exponent_text x : -1000 < x < 1000 -> tail_value (101 :: show_exponent x) = Some x.
Proof.
  intros H. unfold tail_value, show_exponent. change ((101 =? 101) || (101 =? 69)) with true. cbn iota.
  assert (forall (neg : bool) l, Forall digit l -> l <> [] -> take_sign ((if neg then 45 else 43) :: chars l) = (neg, chars l) /\ take_digits (chars l) 0 0 = (value l 0, zlen l, []) /\ 0 < zlen l) as G.
  { intros neg l Hl Ne. split; [now destruct neg|]. split; [rewrite take_chars_end by auto; reflexivity|]. destruct l; [easy|]. rewrite zlen_cons. pose proof (zlen_nonneg l). lia. }
  set (a := Z.abs x). assert (0 <= a < 1000) as Ha by (unfold a; lia).
  assert (forall l, Forall digit l -> l <> [] -> value l 0 = a -> (let '(eneg, t') := take_sign ((if x <? 0 then 45 else 43) :: chars l) in let '(v, n, rest) := take_digits t' 0 0 in do _ <- guard (0 <? n); do _ <- match rest with [] => Some tt | _ => None end; Some (if eneg then - v else v)) = Some x) as K.
  { intros l Hl Ne Ev. destruct (G (x <? 0) l Hl Ne) as (-> & -> & L). destruct (Z.ltb_spec 0 (zlen l)); [|lia]. cbn [guard bind]. rewrite Ev. unfold a. destruct (Z.ltb_spec x 0); f_equal; lia. }
  pose proof (Z.div_mod a 10 ltac:(lia)) as D1. pose proof (Z.mod_pos_bound a 10 ltac:(lia)) as D2.
  destruct (Z.ltb_spec a 100) as [L|L]; apply K; try easy.
  - repeat (apply Forall_cons; [unfold digit; lia|]); apply Forall_nil.
  - pose proof (Z.div_mod (a / 10) 10 ltac:(lia)) as D3. pose proof (Z.mod_pos_bound (a / 10) 10 ltac:(lia)) as D4. rewrite Z.div_div in D3 by lia. change (10 * 10) with 100 in D3. repeat (apply Forall_cons; [unfold digit; lia|]); apply Forall_nil.
  - unfold value. cbn [fold_left]. pose proof (Z.div_mod (a / 10) 10 ltac:(lia)) as D3. rewrite Z.div_div in D3 by lia. change (10 * 10) with 100 in D3. lia.
Qed.

Lemma value_strip l1 l2 m : value (l1 ++ l2) 0 = m -> exists k, zlen l2 = zlen (strip l2) + Z.of_nat k /\ m = value (l1 ++ strip l2) 0 * 10 ^ Z.of_nat k.
Proof.
  intros E. destruct (strip_spec l2) as [k S]. exists k. split.
  - rewrite S at 1. unfold zlen. rewrite app_length, repeat_length. lia.
  - rewrite <- E. rewrite S at 1. now rewrite app_assoc, (value_app (l1 ++ strip l2)), value_zeros.
Qed.
Lemma firstn_digits n m : Forall digit (firstn n (digits_of m)).
Proof. pose proof (digits_digits m) as H. rewrite <- (firstn_skipn n) in H. now apply Forall_app in H. Qed.
Lemma skipn_digits n m : Forall digit (skipn n (digits_of m)).
Proof. pose proof (digits_digits m) as H. rewrite <- (firstn_skipn n) in H. now apply Forall_app in H. Qed.
Lemma zeros_digits k : Forall digit (repeat 0 k).
Proof. apply Forall_forall. intros d H. apply repeat_spec in H. subst. unfold digit. lia. Qed.
Lemma dec_of m v k e : m = v * 10 ^ Z.of_nat k -> decimal m e = decimal v (e + Z.of_nat k).
Proof. intros ->. apply dec_shift. lia. Qed.
Lemma parse_show q m x : six_digits q = (m, x) -> 100000 <= m < 1000000 -> -1000 < x < 1000 -> parse_number (show_positive q) = Some (decimal m (x - 5)).
Proof.
  intros E Hm Hx. unfold show_positive. rewrite E. pose proof (digits_value m ltac:(lia)) as V.
  destruct ((-4 <=? x) && (x <? 6)) eqn:F; [apply andb_prop in F as [F1 F2]; apply Z.leb_le in F1; apply Z.ltb_lt in F2; destruct (Z.leb_spec 0 x) as [L|L]|].
  - set (n := Z.to_nat (x + 1)). rewrite <- (firstn_skipn n (digits_of m)) in V. destruct (value_strip _ _ _ V) as (k & Lk & Ek). rewrite <- (app_nil_r (fraction _)).
    rewrite (parse_parts _ _ [] 0); [|apply firstn_digits|apply strip_digits, skipn_digits|unfold n; replace (Z.to_nat (x + 1)) with (S (Z.to_nat x)) by lia; discriminate|exact I|reflexivity].
    f_equal. rewrite (dec_of _ _ _ (x - 5) Ek). f_equal. unfold zlen in Lk at 1. rewrite skipn_length, digits_length in Lk. unfold n in *. lia.
  - set (zs := repeat 0 (Z.to_nat (- x - 1))). change (digits_of m) with ([] ++ digits_of m) in V. destruct (value_strip _ _ _ V) as (k & Lk & Ek). cbn [app] in Ek.
    assert (strip (digits_of m) <> []) as Ne by (intros N; rewrite N in Ek; cbn in Ek; lia).
    assert (48 :: 46 :: chars zs ++ chars (strip (digits_of m)) = chars [0] ++ fraction (zs ++ strip (digits_of m)) ++ []) as ->.
    { rewrite app_nil_r. unfold fraction. destruct (zs ++ strip (digits_of m)) eqn:N; [apply app_eq_nil in N as [_ N]; easy|]. rewrite <- N. unfold chars. rewrite map_app. reflexivity. }
    rewrite (parse_parts _ _ [] 0); [|repeat (apply Forall_cons; [unfold digit; lia|]); apply Forall_nil|apply Forall_app; split; [apply zeros_digits|apply strip_digits, digits_digits]|discriminate|exact I|reflexivity].
    f_equal. rewrite (dec_of _ _ _ (x - 5) Ek). rewrite !value_app. replace (value zs (value [0] 0)) with 0 by (unfold zs; rewrite value_zeros; reflexivity). f_equal.
    unfold zlen in Lk at 1. rewrite digits_length in Lk. unfold zlen in *. rewrite app_length. unfold zs. rewrite repeat_length. lia.
  - rewrite <- (firstn_skipn 1 (digits_of m)) in V. destruct (value_strip _ _ _ V) as (k & Lk & Ek).
    rewrite (parse_parts _ _ _ x); [|apply firstn_digits|apply strip_digits, skipn_digits|discriminate|cbn; lia|now apply exponent_text].
    f_equal. rewrite (dec_of _ _ _ (x - 5) Ek). f_equal. unfold zlen in Lk at 1. rewrite skipn_length, digits_length in Lk. lia.
Qed.
Definition legal (b : byte) : Prop := 48 <= b <= 57 \/ b = 43 \/ b = 45 \/ b = 46 \/ b = 69 \/ b = 101.
Lemma chars_legal l : Forall digit l -> Forall legal (chars l).
Proof. intros H. unfold chars. apply Forall_map. eapply Forall_impl; [|exact H]. intros d Hd. unfold digit in Hd. left. lia. Qed.
Lemma fraction_legal l : Forall digit l -> Forall legal (fraction l).
Proof. intros H. destruct l; [constructor|]. cbn [fraction]. constructor; [unfold legal; lia|now apply chars_legal]. Qed.
Lemma show_legal q m x : six_digits q = (m, x) -> -1000 < x < 1000 -> show_positive q <> [] /\ Forall legal (show_positive q).
Proof.
  intros E Hx. unfold show_positive. rewrite E.
  destruct ((-4 <=? x) && (x <? 6)) eqn:F; [apply andb_prop in F as [F1 F2]; apply Z.leb_le in F1; apply Z.ltb_lt in F2; destruct (Z.leb_spec 0 x) as [L|L]|]; split.
  - replace (Z.to_nat (x + 1)) with (S (Z.to_nat x)) by lia. discriminate.
  - apply Forall_app. split; [apply chars_legal, firstn_digits|apply fraction_legal, strip_digits, skipn_digits].
  - discriminate.
  - constructor; [unfold legal; lia|]. constructor; [unfold legal; lia|]. apply Forall_app. split; [apply chars_legal, zeros_digits|apply chars_legal, strip_digits, digits_digits].
  - discriminate.
  - apply Forall_app. split; [apply chars_legal, firstn_digits|]. apply Forall_app. split; [apply fraction_legal, strip_digits, skipn_digits|]. constructor; [unfold legal; lia|]. unfold show_exponent. constructor; [unfold legal; destruct (x <? 0); lia|].
    set (a := Z.abs x). assert (0 <= a < 1000) as Ha by (unfold a; lia). pose proof (Z.div_mod a 10 ltac:(lia)) as D1. pose proof (Z.mod_pos_bound a 10 ltac:(lia)) as D2.
    pose proof (Z.div_mod (a / 10) 10 ltac:(lia)) as D3. pose proof (Z.mod_pos_bound (a / 10) 10 ltac:(lia)) as D4. rewrite Z.div_div in D3 by lia. change (10 * 10) with 100 in D3.
    destruct (Z.ltb_spec a 100); apply chars_legal; repeat (apply Forall_cons; [unfold digit; lia|]); apply Forall_nil.
Qed.
Lemma show_pos q : (0 < q)%Qc -> show_double q = show_positive q.
Proof. intros H. unfold show_double. unfold Qclt in H. destruct (Qcompare_spec q 0) as [E|E|E]; [rewrite E in H; exfalso; exact (Qlt_irrefl _ H)|exfalso; exact (Qlt_irrefl _ (Qlt_trans _ _ _ H E))|reflexivity]. Qed.

(* against the specification *)
Lemma pow10_P e : pow10 e = P e.
Proof. apply Qc_is_canon. rewrite this_decimal. unfold pow10. cbn [this Q2Qc]. rewrite Qred_correct. change (inject_Z 1) with 1%Q. ring. Qed.
Lemma normal_figures v : six_figures v -> exists m x, 100000 <= m < 1000000 /\ v = decimal m (x - 5).
Proof.
  intros (m & e & H & ->). rewrite pow10_P. rewrite <- dec_P.
  assert (forall k n f, 0 < n < 1000000 -> 1000000 <= n * 10 ^ Z.of_nat k * 10 -> exists m x, 100000 <= m < 1000000 /\ decimal n f = decimal m (x - 5)) as G.
  { induction k as [|k IH]; intros n f Hn Hk; [exists n, (f + 5); split; [cbn in Hk; lia|f_equal; lia]|].
    destruct (Z.le_gt_cases 100000 n) as [L|L]; [exists n, (f + 5); split; [lia|f_equal; lia]|].
    destruct (IH (n * 10) (f - 1)) as (m' & x & A & B); [lia|rewrite Nat2Z.inj_succ, Z.pow_succ_r in Hk by lia; lia|]. exists m', x. split; [auto|]. rewrite <- B. change 10 with (10 ^ 1) at 1. rewrite dec_shift by lia. f_equal. lia. }
  apply (G 5%nat m e H). cbn. lia.
Qed.
Lemma figures_dec m x : 0 < m < 1000000 -> six_figures (decimal m x).
Proof. intros H. exists m, x. split; [auto|]. now rewrite pow10_P, <- dec_P. Qed.
Lemma within_close q v : within (pow10 (-8)) q v <-> close q v.
Proof. unfold within, close. now rewrite pow10_P. Qed.
Lemma ordinary_range d m x : ordinary d -> six_digits d = (m, x) -> (0 < d)%Qc /\ 100000 <= m < 1000000 /\ -1000 < x < 1000.
Proof.
  intros [A B] E. rewrite pow10_P in A, B. assert (0 < d)%Qc as H by (eapply Qclt_le_trans; [apply (P_pos (-300))|auto]). split; [auto|].
  destruct (six_digits_spec d m x H E) as (Hm & _ & _ & _ & Hx). split; [auto|]. destruct (exponent_spec d H) as [C D].
  assert (-300 < exponent d + 1) by (apply P_le_iff; eapply Qcle_lt_trans; eauto). assert (exponent d < 301) by (apply P_le_iff; eapply Qcle_lt_trans; [exact C|]; eapply Qcle_lt_trans; [exact B|apply P_lt; lia]). lia.
Qed.
(* what is read back *)
Definition six (d : Qc) : Qc := let '(m, x) := six_digits d in decimal m (x - 5).
Lemma six_spec d : ordinary d -> six_figures (six d) /\ within (Qc_of 5 * pow10 (-6)) (six d) d /\ parse_number (show_double d) = Some (six d) /\ show_double d <> [] /\ Forall legal (show_double d).
Proof.
  intros H. unfold six. destruct (six_digits d) as [m x] eqn:E. destruct (ordinary_range d m x H E) as (Hd & Hm & Hx). split; [apply figures_dec; lia|]. split.
  - destruct (six_digits_spec d m x Hd E) as (_ & _ & _ & W & _). unfold within. rewrite pow10_P. assert (Qc_of 5 * P (-6) = h * P (-5))%Qc as -> by (apply Qc_is_canon; reflexivity). exact W.
  - rewrite show_pos by auto. split; [now apply parse_show|]. eapply show_legal; eauto.
Qed.
Lemma six_near near v : rounding near -> six_figures v -> six (near v) = v.
Proof.
  intros R F. pose proof (R v F) as C. apply within_close in C. destruct (normal_figures v F) as (m & x & Hm & ->). unfold six. now rewrite (six_digits_close _ m x Hm C).
Qed.
Lemma show_near near d : rounding near -> ordinary d -> show_double (near (six d)) = show_double d.
Proof.
  intros R H. unfold six. destruct (six_digits d) as [m x] eqn:E. destruct (ordinary_range d m x H E) as (Hd & Hm & Hx).
  pose proof (R _ (figures_dec m (x - 5) ltac:(lia))) as C. apply within_close in C. pose proof (six_digits_close _ m x Hm C) as E'.
  assert (0 < decimal m (x - 5))%Qc as Hv by (rewrite (dec_P m); rewrite <- (Qcmult_0_l (P (x - 5))); apply mul_lt_r; [apply P_pos|apply of_pos; lia]).
  pose proof (close_pos _ _ Hv C) as Hd'. rewrite !show_pos by auto. unfold show_positive. now rewrite E, E'.
Qed.

(* 53 binary digits *)
Lemma this_pow2 e : (this (pow2 e) == (2 # 1) ^ e)%Q.
Proof.
  unfold pow2. destruct (Z.leb_spec 0 e) as [H|H]; cbn [this Q2Qc]; rewrite Qred_correct.
  - change (2 # 1)%Q with (inject_Z 2). rewrite <- Zpower_Qpower by auto. reflexivity.
  - rewrite Zpower_Qpower by lia. change (inject_Z 2) with (2 # 1)%Q. rewrite Qpower_opp. unfold Qdiv. rewrite Qinv_involutive. ring.
Qed.
Lemma pow2_plus a b : pow2 (a + b) = (pow2 a * pow2 b)%Qc.
Proof. apply Qc_is_canon. rewrite this_mul, !this_pow2, Qpower_plus by discriminate. ring. Qed.
Lemma pow2_pos e : (0 < pow2 e)%Qc.
Proof. unfold Qclt. rewrite this_pow2. change (this 0%Qc) with 0%Q. apply Qpower_0_lt. reflexivity. Qed.
Lemma pow2_nat e : 0 <= e -> pow2 e = Qc_of (2 ^ e).
Proof. intros H. unfold pow2. destruct (Z.leb_spec 0 e); [reflexivity|lia]. Qed.
Lemma round53_err q : (0 < q)%Qc -> within (pow2 (-53)) (round53 q) q.
Proof.
  intros H. unfold round53. set (e0 := Z.log2 (Qnum q) - Z.log2 (Z.pos (Qden q))). set (e := if Qclt_le_dec q (pow2 e0) then e0 - 1 else e0).
  assert (pow2 e <= q)%Qc as Le.
  { unfold e. destruct (Qclt_le_dec q (pow2 e0)) as [_|L]; [|exact L]. unfold e0. set (n := Qnum q). set (d := Z.pos (Qden q)).
    assert (0 < n) as Hn by (unfold n; unfold Qclt, Qlt in H; change (Qnum 0%Qc) with 0 in H; change (QDen 0%Qc) with 1 in H; lia). assert (0 < d) as Hd by (unfold d; lia).
    assert (this q == inject_Z n / inject_Z d)%Q as Eq by (unfold n, d; destruct (this q) as [a b]; cbn; unfold Qeq; cbn; lia).
    pose proof (Z.log2_spec n Hn) as [Ln _]. pose proof (Z.log2_spec d Hd) as [_ Ld]. pose proof (Z.log2_nonneg n). pose proof (Z.log2_nonneg d). unfold Z.succ in Ld.
    assert (pow2 (Z.log2 n) <= q * pow2 (Z.log2 d + 1))%Qc as G.
    { rewrite !pow2_nat by lia. unfold Qcle, Qc_of. rewrite this_mul, !this_of_Z, Eq. unfold Qdiv. rewrite <- Qmult_assoc, (Qmult_comm (/ _)), Qmult_assoc. apply Qle_shift_div_l; [now apply inj_pos|]. rewrite <- !inject_Z_mult, <- Zle_Qle. nia. }
    apply (mul_le _ _ (pow2 (- (Z.log2 d + 1))) (pow2_pos _)) in G. rewrite <- Qcmult_assoc, <- !pow2_plus in G. replace (Z.log2 d + 1 + - (Z.log2 d + 1)) with 0 in G by lia.
    replace (Z.log2 n + - (Z.log2 d + 1)) with (Z.log2 n - Z.log2 d - 1) in G by lia. change (pow2 0) with 1%Qc in G. now rewrite Qcmult_1_r in G. }
  clearbody e. clear e0. destruct (nearest_spec (q * pow2 (52 - e))%Qc) as [C D]. set (n := nearest (q * pow2 (52 - e))%Qc) in *. clearbody n.
  assert (q = q * pow2 (52 - e) * pow2 (e - 52))%Qc as U by (rewrite <- Qcmult_assoc, <- pow2_plus; replace (52 - e + (e - 52)) with 0 by lia; change (pow2 0) with 1%Qc; ring).
  assert (h * pow2 (e - 52) <= pow2 (-53) * q)%Qc as Lh.
  { replace (e - 52) with (1 + -53 + e) by lia. rewrite !pow2_plus. replace (h * (pow2 1 * pow2 (-53) * pow2 e))%Qc with (pow2 e * pow2 (-53) * (h * pow2 1))%Qc by ring. assert (h * pow2 1 = 1)%Qc as -> by (apply Qc_is_canon; reflexivity). rewrite Qcmult_1_r, (Qcmult_comm _ q). apply mul_le; [apply pow2_pos|exact Le]. }
  set (Y := (q * pow2 (52 - e))%Qc) in *. pose proof (pow2_pos (e - 52)) as W. set (u := pow2 (e - 52)) in *. clearbody Y u. split.
  - apply Qcle_trans with (q - h * u)%Qc; [unfold Qcminus; apply Qcplus_le_compat; [apply Qcle_refl|now apply Qcopp_le_compat]|]. rewrite U. replace (Y * u - h * u)%Qc with ((Y - h) * u)%Qc by ring. apply mul_le; [auto|]. unfold Qcle. rewrite this_sub, this_h, this_of_Z. exact C.
  - apply Qcle_trans with (q + h * u)%Qc; [|apply Qcplus_le_compat; [apply Qcle_refl|auto]]. rewrite U at 1. replace (Y * u + h * u)%Qc with ((Y + h) * u)%Qc by ring. apply mul_le; [auto|]. unfold Qcle. rewrite this_add, this_h, this_of_Z. exact D.
Qed.
Lemma round53_rounding : rounding round53.
Proof.
  intros v F. destruct (normal_figures v F) as (m & x & Hm & ->). set (v := decimal m (x - 5)).
  assert (0 < v)%Qc as Hv by (unfold v; rewrite (dec_P m); rewrite <- (Qcmult_0_l (P (x - 5))); apply mul_lt_r; [apply P_pos|apply of_pos; lia]).
  destruct (round53_err v Hv) as [A B]. rewrite within_close. assert (pow2 (-53) * v <= P (-8) * v)%Qc as L by (apply mul_le; [auto|]; unfold Qcle; rewrite this_pow2, this_decimal; discriminate). split.
  - apply Qcle_trans with (2 := A). unfold Qcminus. apply Qcplus_le_compat; [apply Qcle_refl|now apply Qcopp_le_compat].
  - apply Qcle_trans with (1 := B). apply Qcplus_le_compat; [apply Qcle_refl|auto].
Qed.

(* signs *)
Lemma first_char q : exists b t, show_positive q = b :: t /\ 48 <= b <= 57.
Proof.
  unfold show_positive. destruct (six_digits q) as [m x]. pose proof (Z.mod_pos_bound (m / 10 ^ 5) 10).
  assert (exists b t, forall n, (0 < n)%nat -> chars (firstn n (digits_of m)) = b :: t n /\ 48 <= b <= 57) as (b & t & X).
  { exists (48 + (m / 10 ^ 5) mod 10), (fun n => chars (firstn (n - 1) (tl (digits_of m)))). intros [|n] Hn; [lia|]. split; [|lia]. unfold digits_of. cbn [map firstn chars tl]. replace (S n - 1)%nat with n by lia. reflexivity. }
  destruct ((-4 <=? x) && (x <? 6)).
  - destruct (Z.leb_spec 0 x).
    + destruct (X (Z.to_nat (x + 1))) as [-> Hb]; [lia|]. do 2 eexists. split; [reflexivity|auto].
    + do 2 eexists. split; [reflexivity|lia].
  - destruct (X 1%nat) as [-> Hb]; [lia|]. do 2 eexists. split; [reflexivity|auto].
Qed.
Lemma parse_minus t : (exists b s, t = b :: s /\ 48 <= b <= 57) -> parse_number (45 :: t) = option_map Qcopp (parse_number t).
Proof.
  intros (b & s & -> & Hb). unfold parse_number, take_sign. cbn [Z.eqb Pos.eqb]. destruct (Z.eqb_spec b 45); [lia|]. destruct (Z.eqb_spec b 43); [lia|].
  destruct (take_digits (b :: s) 0 0) as [[a n1] t]. destruct (match t with [] => _ | _ => _ end) as [[a' n2] t'].
  destruct (guard (0 <? n1 + n2)); cbn [bind option_map]; [|reflexivity]. destruct (match t' with [] => _ | _ => _ end); reflexivity.
Qed.
Lemma show_minus d : (0 < d)%Qc -> show_double (- d)%Qc = 45 :: show_double d.
Proof.
  intros H. unfold show_double. assert (Qcompare d 0 = Gt) as ->.
  { destruct (Qcompare_spec d 0); auto; unfold Qclt in H; change (this 0%Qc) with 0%Q in H; lra. }
  assert (Qcompare (- d)%Qc 0 = Lt) as ->.
  { destruct (Qcompare_spec (- d)%Qc 0) as [X|X|X]; auto; exfalso; unfold Qclt in H; change (this 0%Qc) with 0%Q in H;
      pose proof (Qred_correct (- d)) as Y; change (this (- d)%Qc) with (Qred (- d)) in X; rewrite Y in X; lra. }
  now replace (- - d)%Qc with d by ring.
Qed.
Lemma six_pos v : six_figures v -> (0 < v)%Qc.
Proof.
  intros (m & e & Hm & ->). unfold Qclt. rewrite this_mul. change (this 0%Qc) with 0%Q. unfold Qc_of, pow10. rewrite this_of_Z. cbn [this Q2Qc]. rewrite Qred_correct.
  apply Qmult_lt_0_compat; [apply inj_pos; lia|]. apply Qpower_0_lt. reflexivity.
Qed.
Lemma near_pos near v : rounding near -> six_figures v -> (0 < near v)%Qc.
Proof.
  intros R F. pose proof (six_pos v F) as P. destruct (R v F) as [L _]. unfold Qclt, Qcle in *. rewrite this_sub, this_mul in L. change (this 0%Qc) with 0%Q in *.
  change (this (pow10 (-8))) with (1 # 100000000)%Q in L. lra.
Qed.
Lemma round_double_pos q : (0 < q)%Qc -> round_double q = round53 q /\ round_double (- q)%Qc = (- round53 q)%Qc.
Proof.
  intros H. unfold round_double. split.
  - destruct (Qclt_le_dec q 0); [|reflexivity]. exfalso. apply (Qclt_not_le _ _ H). now apply Qclt_le_weak.
  - destruct (Qclt_le_dec (- q) 0) as [X|X]; [now replace (- - q)%Qc with q by ring|]. exfalso. apply (Qclt_not_le _ _ H). apply Qcopp_le_compat in X. replace (- - q)%Qc with q in X by ring. exact X.
Qed.
