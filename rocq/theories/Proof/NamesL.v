(* Lemmas for C34_names: the parts of the name given for the output. *)
From Coq Require Import String.
From Verif Require Import Model.Base Model.Text Model.Ghostswap Model.Driver Spec.Driver Proof.BaseL Proof.TextL Proof.DriverL.
Local Open Scope list_scope.
Local Open Scope Z_scope.

Lemma first_dot_split s : match first_dot s with None => dotless s | Some k => exists u e, s = u ++ 46 :: e /\ dotless u /\ k = zlen u end.
Proof.
  induction s as [|b s IH]; [constructor|]. cbn [first_dot]. destruct (Z.eqb_spec b 46) as [->|N]; [exists [], s; repeat split; constructor|].
  destruct (first_dot s) as [k|]; [|now constructor]. destruct IH as (u & e & -> & H & ->). exists (b :: u), e. split; [reflexivity|]. split; [now constructor|]. unfold zlen. cbn [length]. lia.
Qed.
Lemma is_numeral mid : forallb is_digit mid = true <-> numeral mid.
Proof.
  unfold numeral. rewrite forallb_forall, Forall_forall. split; intros H b Hb; specialize (H b Hb); [now apply digit_bounds|]. unfold is_digit. rewrite andb_true_iff, !Z.leb_le. exact H.
Qed.
Lemma skip_two w mid (r : list byte) : skipn (Z.to_nat (zlen w + 1)) (w ++ 46 :: mid ++ r) = mid ++ r.
Proof.
  replace (Z.to_nat (zlen w + 1)) with (length (w ++ [46])) by (rewrite app_length; unfold zlen; cbn [length]; lia).
  change (w ++ 46 :: mid ++ r) with (w ++ [46] ++ mid ++ r). rewrite app_assoc, skipn_app, skipn_all, Nat.sub_diag. reflexivity.
Qed.

Lemma undotted s : dotless s -> iterations_start s = Some 0 /\ out_base s = s ++ [46] /\ out_suffix s = [].
Proof. intros D. unfold iterations_start, out_base, out_suffix. now rewrite first_dot_none, last_dot_none. Qed.
Lemma dotted w mid ext : dotless mid -> dotless ext -> let s := w ++ 46 :: mid ++ 46 :: ext in
  (numeral mid -> out_base s = w ++ [46]) /\ (~ numeral mid -> out_base s = (w ++ 46 :: mid) ++ [46]) /\ out_suffix s = 46 :: ext.
Proof.
  intros Dm De s. set (v := w ++ 46 :: mid). assert (s = v ++ 46 :: ext) as Es by (unfold s, v; rewrite <- app_assoc; reflexivity).
  assert (last_dot s = Some (zlen v)) as L by (rewrite Es; now apply last_dot_app).
  assert (out_suffix s = 46 :: ext) as So by (unfold out_suffix; rewrite L, Es; apply skipn_zlen).
  assert (out_base s = if forallb is_digit mid then w ++ [46] else v ++ [46]) as Sb.
  { unfold out_base. pose proof (first_dot_split s) as F. destruct (first_dot s) as [f|].
    - destruct F as (a & b & Ea & Da & ->). rewrite L.
      assert (first_dot (skipn (Z.to_nat (zlen a + 1)) s) <> None) as N2.
      { intros C. assert (skipn (Z.to_nat (zlen a + 1)) s = b) as Sk by (rewrite Ea; pose proof (skip_two a b []) as Q; now rewrite app_nil_r in Q). rewrite Sk in C. pose proof (first_dot_split b) as Fb. rewrite C in Fb.
        rewrite Ea, last_dot_app in L by exact Fb. injection L as L. assert (a = v) as ->.
        { assert (firstn (Z.to_nat (zlen a)) s = a) as A1 by (rewrite Ea; apply firstn_zlen). assert (firstn (Z.to_nat (zlen v)) s = v) as A2 by (rewrite Es; apply firstn_zlen). exact (eq_trans (eq_sym A1) (eq_trans (f_equal (fun n => firstn (Z.to_nat n) s) L) A2)). }
        unfold dotless, v in Da. apply Forall_app in Da as [_ Da]. inversion Da. contradiction. }
      match goal with |- context [match first_dot ?X with Some _ => _ | None => _ end] => destruct (first_dot X) eqn:Fx; [|contradiction (N2 Fx)] end. match goal with |- context [last_dot ?X] => assert (X = v) as HA by (rewrite Es; apply firstn_zlen); rewrite HA; clear HA end.
      assert (last_dot v = Some (zlen w)) as -> by (now apply last_dot_app). cbv zeta.
      match goal with |- context [if forallb is_digit ?X then _ else _] => assert (X = mid) as HA end.
      { unfold substr, s. rewrite skip_two. match goal with |- firstn (Z.to_nat ?n) _ = _ => assert (n = zlen mid) as Hn end.
        { unfold v, zlen. rewrite app_length. cbn [length]. unfold byte in *. lia. }
        exact (eq_trans (f_equal (fun n => firstn (Z.to_nat n) (mid ++ 46 :: ext)) Hn) (firstn_zlen mid _)). }
      rewrite HA. clear HA. 
      assert (substr s 0 (zlen w) = w) as HA by (unfold substr, s; exact (firstn_zlen w _)). assert (substr s 0 (zlen v) = v) as HB by (unfold substr; rewrite Es; exact (firstn_zlen v _)).
      destruct (forallb is_digit mid); [exact (f_equal (fun t => t ++ [46]) HA)|exact (f_equal (fun t => t ++ [46]) HB)].
    - exfalso. unfold dotless, s in F. apply Forall_app in F as [_ F]. inversion F. contradiction. }
  split; [|split; [|exact So]]; intros H; rewrite Sb.
  - apply is_numeral in H. now rewrite H.
  - destruct (forallb is_digit mid) eqn:E; [|reflexivity]. now apply is_numeral in E.
Qed.
