(* C50: the progress bar *)
From Verif Require Import Model.Base Model.Ghostswap Model.Progress Proof.BaseL Proof.ProgressL.
Local Open Scope list_scope.
Local Open Scope Z_scope.

(* an update of at least two steps prints one header, then dots, then one footer, and counts one more update.  The number of dots
   is the greatest common divisor of 20 and the number of steps, less one; for the divisors of 20 it is the number of steps less two.
   In particular there are never more than 19 *)
Theorem C50_bar_partial : forall steps iterations, 2 <= steps -> 20 * (steps - 2) <= int_max ->
  exists n, progress steps iterations = Some (Header (iterations + 1) :: repeat Dot n ++ [Footer], iterations + 1) /\
    Z.of_nat n = (if 20 mod steps =? 0 then steps - 2 else Z.gcd 20 steps - 1) /\ (n <= 19)%nat.
Proof.
  intros steps it H O. exists (Z.to_nat ((steps - 2) / (steps / Z.gcd 20 steps))). split; [now apply progress_ok|]. rewrite number_of_dots by lia.
  assert (0 < Z.gcd 20 steps <= 20) as G. { pose proof (Z.gcd_nonneg 20 steps). split; [|apply Z.divide_pos_le; [lia|apply Z.gcd_divide_l]]. assert (Z.gcd 20 steps <> 0); [|lia]. intros E. apply Z.gcd_eq_0_l in E. lia. }
  destruct (Z.eqb_spec (20 mod steps) 0) as [E|N]; [|lia]. apply Z.mod_divide in E; [|lia]. apply Z.divide_pos_le in E; lia.
Qed.
Print Assumptions C50_bar_partial.
(* with a multiple of 20 above 20 there are 19 dots before the one of the footer *)
Theorem C50_twenty : forall k iterations, 2 <= k -> 20 * (20 * k - 2) <= int_max ->
  progress (20 * k) iterations = Some (Header (iterations + 1) :: repeat Dot 19 ++ [Footer], iterations + 1).
Proof.
  intros k it H O. destruct (C50_bar_partial (20 * k) it) as (n & E & En & _); [lia|lia|]. rewrite E. rewrite Z.mod_small in En by lia. cbn [Z.eqb] in En.
  replace (Z.gcd 20 (20 * k)) with 20 in En by (symmetry; apply Z.divide_gcd_iff; [lia|exists k; lia]). replace n with 19%nat by lia. reflexivity.
Qed.
Print Assumptions C50_twenty.
Example C50_case : progress 60 4 = Some (Header 5 :: repeat Dot 19 ++ [Footer], 5) /\ progress 10 0 = Some (Header 1 :: repeat Dot 8 ++ [Footer], 1).
Proof. split; vm_compute; reflexivity. Qed.

(* C50 is false: the number of marks depends on the number of steps beyond 20 ... *)
Theorem C50_count_refuted : exists a b la lb, 20 < a /\ 20 < b /\ progress a 0 = Some (la, 1) /\ progress b 0 = Some (lb, 1) /\ In Dot la /\ ~ In Dot lb.
Proof.
  exists 40, 41. do 2 eexists. split; [lia|]. split; [lia|]. split; [vm_compute; reflexivity|]. split; [vm_compute; reflexivity|]. split; [cbn; auto|]. cbn. intros [H|[H|[]]]; discriminate.
Qed.
Print Assumptions C50_count_refuted.
(* ... an update of one step prints no footer ... *)
Theorem C50_footer_refuted : exists l, progress 1 0 = Some (l, 1) /\ ~ In Footer l.
Proof. eexists. split; [vm_compute; reflexivity|]. cbn. intros [H|[]]. discriminate. Qed.
Print Assumptions C50_footer_refuted.
(* ... and 20*step overflows in a long update *)
Theorem C50_overflow_refuted : forall steps iterations, int_max < 20 * (steps - 2) -> steps <= int_max -> progress steps iterations = None.
Proof.
  intros steps it H O. unfold int_max in *. unfold progress. set (f := fun _ _ => _).
  replace (zrange 0 steps) with (zrange 0 (steps - 2) ++ (steps - 2) :: zrange (steps - 2 + 1) steps) by (rewrite <- zrange_cons by lia; symmetry; apply zrange_app; lia).
  rewrite fold_opt_app. destruct (fold_opt f (zrange 0 (steps - 2)) ([], it)) as [[l n]|]; [|reflexivity]. cbn [bind fold_opt]. assert (f (l, n) (steps - 2) = None) as ->; [|reflexivity]. unfold f, print_progress.
  replace (steps - 2 =? 0) with false by (symmetry; apply Z.eqb_neq; lia). replace (steps - 2 =? steps - 1) with false by (symmetry; apply Z.eqb_neq; lia).
  replace (20 * (steps - 2) <=? int_max) with false by (symmetry; apply Z.leb_gt; unfold int_max; lia). reflexivity.
Qed.
Print Assumptions C50_overflow_refuted.
