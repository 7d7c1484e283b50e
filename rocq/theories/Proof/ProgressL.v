From Verif Require Import Model.Base Model.Ghostswap Model.Progress Proof.BaseL.
From Coq Require Import Znumtheory.
Local Open Scope list_scope.
Local Open Scope Z_scope.

Definition dots (steps : Z) (l : list Z) : list printed := flat_map (fun s => if Z.rem (20 * s) steps =? 0 then [Dot] else []) l.
Lemma dots_app steps a b : dots steps (a ++ b) = dots steps a ++ dots steps b.
Proof. apply flat_map_app. Qed.
(* the multiples of q among 1 .. m *)
Lemma count_multiples steps q m : 1 <= q -> (forall s, 1 <= s <= Z.of_nat m -> Z.rem (20 * s) steps = 0 <-> (q | s)) -> dots steps (zrange 1 (1 + Z.of_nat m)) = repeat Dot (Z.to_nat (Z.of_nat m / q)).
Proof.
  intros Hq H. induction m as [|m IH].
  - rewrite zrange_nil by lia. rewrite Z.div_0_l by lia. reflexivity.
  - replace (1 + Z.of_nat (S m)) with ((1 + Z.of_nat m) + 1) by lia. rewrite zrange_snoc, dots_app by lia. rewrite IH by (intros s Hs; apply H; lia). cbn [dots flat_map]. rewrite app_nil_r.
    specialize (H (1 + Z.of_nat m) ltac:(lia)). replace (Z.of_nat (S m)) with (1 + Z.of_nat m) by lia. set (n := 1 + Z.of_nat m) in *. replace (Z.of_nat m) with (n - 1) by lia. assert (1 <= n) by lia.
    pose proof (Z.div_mod n q ltac:(lia)) as D. pose proof (Z.mod_pos_bound n q ltac:(lia)) as B. destruct (Z.eqb_spec (Z.rem (20 * n) steps) 0) as [E|N].
    + apply H in E. apply Z.mod_divide in E; [|lia]. rewrite E in D. assert (1 <= n / q) as P by nia. assert ((n - 1) / q = n / q - 1) as ->. { symmetry. apply (Z.div_unique _ q _ (q - 1)); lia. }
      change [Dot] with (repeat Dot 1). rewrite <- repeat_app. f_equal. lia.
    + rewrite app_nil_r. f_equal. f_equal. assert (n mod q <> 0) as M. { intros M. apply N, H. now apply Z.mod_divide; [lia|]. }
      symmetry. apply (Z.div_unique _ q _ (n mod q - 1)); lia.
Qed.
Lemma multiple_iff steps s : 1 <= steps -> 0 <= s -> Z.rem (20 * s) steps = 0 <-> (steps / Z.gcd 20 steps | s).
Proof.
  intros H Hs. rewrite Z.rem_mod_nonneg by lia. rewrite Z.mod_divide by lia. set (g := Z.gcd 20 steps). assert (0 < g) as Hg. { pose proof (Z.gcd_nonneg 20 steps). assert (g <> 0); [|lia]. intros E. apply Z.gcd_eq_0_l in E. lia. }
  destruct (Z.gcd_divide_r 20 steps) as [q Eq]. destruct (Z.gcd_divide_l 20 steps) as [p Ep]. fold g in Eq, Ep. assert (steps / g = q) as -> by (rewrite Eq; apply Z.div_mul; lia).
  assert (Z.gcd q p = 1) as Rel. { pose proof (Z.gcd_mul_mono_r_nonneg q p g ltac:(lia)) as M. rewrite <- Eq, <- Ep in M. rewrite Z.gcd_comm in M. fold g in M. nia. }
  split.
  - intros [k E]. apply (Z.gauss q p s); [|auto]. exists k. apply (Z.mul_reg_r _ _ g); [lia|]. nia.
  - intros [k ->]. exists (p * k). nia.
Qed.
Lemma progress_ok steps iters : 2 <= steps -> 20 * (steps - 2) <= int_max ->
  progress steps iters = Some (Header (iters + 1) :: repeat Dot (Z.to_nat ((steps - 2) / (steps / Z.gcd 20 steps))) ++ [Footer], iters + 1).
Proof.
  intros H O. unfold progress. rewrite zrange_cons by lia. cbn [fold_opt]. unfold print_progress at 1. change (0 =? 0) with true. cbn [bind fst snd app]. rewrite Z.add_0_l.
  assert (forall m acc, 1 + Z.of_nat m <= steps - 1 -> fold_opt (fun st step => do (l, n) <- print_progress step steps (snd st); Some (fst st ++ l, n)) (zrange 1 (1 + Z.of_nat m)) (acc, iters + 1) = Some (acc ++ dots steps (zrange 1 (1 + Z.of_nat m)), iters + 1)) as X.
  { induction m as [|m IH]; intros acc Hm; [rewrite zrange_nil by lia; cbn [dots flat_map fold_opt]; now rewrite app_nil_r|].
    replace (1 + Z.of_nat (S m)) with ((1 + Z.of_nat m) + 1) by lia. rewrite zrange_snoc, dots_app, fold_opt_app by lia. rewrite IH by lia. cbn [bind fold_opt dots flat_map fst snd]. rewrite app_nil_r.
    unfold print_progress. replace (1 + Z.of_nat m =? 0) with false by (symmetry; apply Z.eqb_neq; lia). replace (1 + Z.of_nat m =? steps - 1) with false by (symmetry; apply Z.eqb_neq; lia).
    replace (20 * (1 + Z.of_nat m) <=? int_max) with true by (symmetry; apply Z.leb_le; lia). replace (steps =? 0) with false by (symmetry; apply Z.eqb_neq; lia). cbn [guard negb bind]. now rewrite app_assoc. }
  replace (zrange 1 steps) with (zrange 1 (1 + Z.of_nat (Z.to_nat (steps - 2))) ++ [steps - 1]).
  2:{ replace (1 + Z.of_nat (Z.to_nat (steps - 2))) with (steps - 1) by lia. rewrite <- zrange_snoc by lia. f_equal. lia. }
  rewrite fold_opt_app, X by lia. cbn [bind fold_opt fst snd]. unfold print_progress. replace (steps - 1 =? 0) with false by (symmetry; apply Z.eqb_neq; lia). rewrite Z.eqb_refl. cbn [bind]. do 2 f_equal. cbn [app]. f_equal. f_equal.
  assert (0 < Z.gcd 20 steps) as Hg. { pose proof (Z.gcd_nonneg 20 steps). assert (Z.gcd 20 steps <> 0); [|lia]. intros E. apply Z.gcd_eq_0_l in E. lia. }
  rewrite (count_multiples steps (steps / Z.gcd 20 steps)).
  - rewrite Z2Nat.id by lia. reflexivity.
  - apply Z.div_le_lower_bound; [lia|]. rewrite Z.mul_1_r. apply Z.divide_pos_le; [lia|]. apply Z.gcd_divide_r.
  - intros s Hs. apply multiple_iff; lia.
Qed.
Lemma number_of_dots steps : 2 <= steps -> (steps - 2) / (steps / Z.gcd 20 steps) = if 20 mod steps =? 0 then steps - 2 else Z.gcd 20 steps - 1.
Proof.
  intros H. set (g := Z.gcd 20 steps). assert (0 < g) as Hg. { pose proof (Z.gcd_nonneg 20 steps). assert (g <> 0); [|lia]. intros E. apply Z.gcd_eq_0_l in E. lia. }
  destruct (Z.gcd_divide_r 20 steps) as [q Eq]. fold g in Eq. assert (steps / g = q) as -> by (rewrite Eq; apply Z.div_mul; lia).
  destruct (Z.eqb_spec (20 mod steps) 0) as [E|N].
  - apply Z.mod_divide in E; [|lia]. assert (g = steps) as G by (unfold g; rewrite Z.gcd_comm; apply Z.divide_gcd_iff; auto; lia). assert (q = 1) as -> by nia. apply Z.div_1_r.
  - assert (q <> 1). { intros ->. rewrite Z.mul_1_l in Eq. apply N, Z.mod_divide; [lia|]. rewrite Eq. apply Z.gcd_divide_l. }
    symmetry. apply (Z.div_unique _ q _ (q - 2)); nia.
Qed.
