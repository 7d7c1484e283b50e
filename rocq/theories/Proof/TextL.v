From Coq Require Import String.
From Verif Require Import Model.Base Model.Text Spec.Bytes Proof.BaseL.

Lemma digits_val_app l m : digits_val (l ++ m) = fold_left (fun v d => 10 * v + (d - 48)) m (digits_val l).
Proof. unfold digits_val. apply fold_left_app. Qed.

Lemma show_nat_spec fuel n : 0 <= n -> Z.of_nat fuel > Z.log2 n ->
  Forall (fun b => is_digit b = true) (show_nat fuel n) /\ digits_val (show_nat fuel n) = n /\ show_nat fuel n <> [].
Proof.
  revert n; induction fuel as [|f IH]; intros n Hn Hf; [pose proof (Z.log2_nonneg n); lia|].
  simpl. destruct (Z.ltb_spec n 10) as [L|L].
  - split; [|split; [cbv [digits_val fold_left]; lia|discriminate]].
    constructor; [|constructor]. unfold is_digit. apply andb_true_intro. split; apply Z.leb_le; lia.
  - assert (0 <= n / 10) by (apply Z.div_pos; lia).
    pose proof (Z.mod_pos_bound n 10 ltac:(lia)).
    destruct (IH (n / 10)) as (F & V & N); [auto| |].
    { assert (Z.log2 (n / 10) < Z.log2 n); [|lia].
      assert (1 <= n / 10) by (apply Z.div_le_lower_bound; lia).
      apply Z.log2_lt_pow2; [lia|]. pose proof (Z.log2_spec n ltac:(lia)) as [_ U].
      rewrite Z.pow_succ_r in U by apply Z.log2_nonneg. apply Z.div_lt_upper_bound; [lia|].
      pose proof (Z.pow_pos_nonneg 2 (Z.log2 n)). pose proof (Z.log2_nonneg n). lia. }
    split; [|split].
    + apply Forall_app. split; [auto|]. constructor; [|constructor].
      unfold is_digit. apply andb_true_intro. split; apply Z.leb_le; lia.
    + rewrite digits_val_app, V. cbv [fold_left]. pose proof (Z.div_mod n 10). lia.
    + intros E. apply app_eq_nil in E. destruct E. discriminate.
Qed.

Lemma show_int_nonneg n : 0 <= n ->
  Forall (fun b => is_digit b = true) (show_int n) /\ digits_val (show_int n) = n /\ show_int n <> [].
Proof.
  intros H. unfold show_int. destruct (Z.ltb_spec n 0); [lia|]. apply show_nat_spec; [auto|].
  pose proof (Z.log2_nonneg n). lia.
Qed.

Lemma span_app p l r : Forall (fun b => p b = true) l -> (match r with [] => True | b :: _ => p b = false end) ->
  span p (l ++ r) = (l, r).
Proof.
  induction 1 as [|b l Hb F IH]; intros Hr; simpl.
  - destruct r; simpl; [auto|]. now rewrite Hr.
  - rewrite Hb, (IH Hr). reflexivity.
Qed.

Lemma skip_space_app ws l : Forall (fun b => is_space b = true) ws -> skip_space (ws ++ l) = skip_space l.
Proof. induction 1 as [|b ws Hb F IH]; simpl; [auto|]. now rewrite Hb. Qed.

Lemma digit_bounds b : is_digit b = true -> 48 <= b <= 57.
Proof. unfold is_digit. rewrite andb_true_iff, !Z.leb_le. tauto. Qed.

Lemma skip_space_stop b l : is_space b = false -> skip_space (b :: l) = b :: l.
Proof. simpl. intros ->. reflexivity. Qed.

Definition no_digit (r : list byte) := match r with [] => True | b :: _ => is_digit b = false end.

Lemma read_show ws n rest : Forall (fun b => is_space b = true) ws -> int_range n -> no_digit rest ->
  read_int (ws ++ show_int n ++ rest) = Some (n, rest).
Proof.
  intros W R N. unfold read_int. rewrite skip_space_app by auto. unfold int_range in R.
  unfold show_int. destruct (Z.ltb_spec n 0) as [L|L].
  - destruct (show_nat_spec (S (Z.to_nat (Z.log2 (- n)))) (- n)) as (F & V & Ne); [lia|pose proof (Z.log2_nonneg (-n)); lia|].
    set (ds := show_nat _ _) in *. change ((45 :: ds) ++ rest) with (45 :: (ds ++ rest)). rewrite skip_space_stop by reflexivity.
    cbv iota. change (45 =? 45) with true. cbv iota.
    rewrite (span_app is_digit ds rest F N). destruct ds as [|d ds]; [congruence|]. rewrite V.
    replace (- - n) with n by lia.
    destruct (Z.leb_spec (-2147483648) n); [|lia]. destruct (Z.ltb_spec n 2147483648); [|lia]. reflexivity.
  - destruct (show_nat_spec (S (Z.to_nat (Z.log2 n))) n) as (F & V & Ne); [lia|pose proof (Z.log2_nonneg n); lia|].
    set (ds := show_nat _ _) in *. destruct ds as [|d ds]; [congruence|].
    pose proof (digit_bounds d (Forall_inv F)) as Bd.
    change ((d :: ds) ++ rest) with (d :: (ds ++ rest)). rewrite skip_space_stop.
    2:{ unfold is_space. destruct (Z.eqb_spec d 32); [lia|]. destruct (Z.leb_spec 9 d), (Z.leb_spec d 13); auto; lia. }
    destruct (Z.eqb_spec d 45); [lia|]. destruct (Z.eqb_spec d 43); [lia|].
    change (d :: (ds ++ rest)) with ((d :: ds) ++ rest). rewrite (span_app is_digit (d :: ds) rest F N). rewrite V.
    destruct (Z.leb_spec (-2147483648) n); [|lia]. destruct (Z.ltb_spec n 2147483648); [|lia]. reflexivity.
Qed.

Lemma getline_app l r : Forall (fun b => b <> 10) l -> getline (l ++ (10 : byte) :: r) = (l, r).
Proof.
  intros F. unfold getline. rewrite span_app; [reflexivity| |reflexivity].
  eapply Forall_impl; [|exact F]. intros a Ha. simpl. destruct (Z.eqb_spec a 10); [congruence|reflexivity].
Qed.

Lemma read_n_app l r n : zlen l = n -> read_n n (l ++ r) = Some (l, r).
Proof.
  intros <-. unfold read_n. pose proof (zlen_nonneg l). pose proof (zlen_nonneg r). rewrite zlen_app.
  destruct (Z.leb_spec 0 (zlen l)); [|lia]. destruct (Z.leb_spec (zlen l) (zlen l + zlen r)); [|lia]. simpl.
  unfold zlen. rewrite Nat2Z.id. f_equal. f_equal.
  - now rewrite firstn_app, Nat.sub_diag, firstn_all, firstn_O, app_nil_r.
  - now rewrite skipn_app, Nat.sub_diag, skipn_all, skipn_O.
Qed.

Lemma show_int_inj m n : show_int m = show_int n -> m = n.
Proof.
  unfold show_int. intros E.
  assert (forall k, 0 <= k -> digits_val (show_nat (S (Z.to_nat (Z.log2 k))) k) = k /\
    exists d l, show_nat (S (Z.to_nat (Z.log2 k))) k = d :: l /\ 48 <= d <= 57) as X.
  { intros k Hk. destruct (show_nat_spec (S (Z.to_nat (Z.log2 k))) k) as (F & V & Ne); [auto|pose proof (Z.log2_nonneg k); lia|].
    split; [auto|]. destruct (show_nat _ k) as [|d l]; [congruence|]. pose proof (Forall_inv F). eauto using digit_bounds. }
  destruct (Z.ltb_spec m 0), (Z.ltb_spec n 0).
  - inversion E as [E']. destruct (X (- m)) as (V & _); [lia|]. destruct (X (- n)) as (V' & _); [lia|].
    simpl show_nat in V, V'. rewrite E' in V. lia.
  - destruct (X n) as (_ & d & l & Y & Bd); [lia|]. rewrite Y in E. inversion E. lia.
  - destruct (X m) as (_ & d & l & Y & Bd); [lia|]. rewrite Y in E. inversion E. lia.
  - destruct (X m) as (V & _); [lia|]. destruct (X n) as (V' & _); [lia|]. congruence.
Qed.
