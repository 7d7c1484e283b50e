From Verif Require Import Model.Base.
From Coq Require Import ZifyBool FinFun.
Ltac Zify.zify_post_hook ::= Z.div_mod_to_equations.

Lemma zlen_nonneg {A} (l : list A) : 0 <= zlen l.
Proof. unfold zlen; lia. Qed.
Lemma zlen_cons {A} (a : A) l : zlen (a :: l) = 1 + zlen l.
Proof. unfold zlen; simpl length; lia. Qed.
Lemma zlen_app {A} (l m : list A) : zlen (l ++ m) = zlen l + zlen m.
Proof. unfold zlen; rewrite app_length; lia. Qed.
Lemma zlen_map {A B} (f : A -> B) l : zlen (map f l) = zlen l.
Proof. unfold zlen; now rewrite map_length. Qed.
Lemma zlen_nil {A} : zlen (@nil A) = 0.
Proof. reflexivity. Qed.

Lemma get_some_iff {A} (a : list A) i v :
  get a i = Some v -> 0 <= i < zlen a.
Proof.
  unfold get, zlen. destruct (Z.ltb_spec i 0); [discriminate|].
  intros Hn. assert (Z.to_nat i < length a)%nat by (apply nth_error_Some; congruence). lia.
Qed.

Lemma get_ok {A} (a : list A) i : 0 <= i < zlen a -> exists v, get a i = Some v.
Proof.
  unfold get, zlen. intros Hi. destruct (Z.ltb_spec i 0); [lia|].
  destruct (nth_error a (Z.to_nat i)) eqn:E; [eauto|].
  apply nth_error_None in E. lia.
Qed.

Lemma get_none {A} (a : list A) i : ~ (0 <= i < zlen a) -> get a i = None.
Proof.
  intros H. destruct (get a i) eqn:E; [|reflexivity]. apply get_some_iff in E. contradiction.
Qed.

Lemma get_nth {A} (a : list A) i d : 0 <= i < zlen a -> get a i = Some (nth (Z.to_nat i) a d).
Proof.
  unfold get, zlen. intros Hi. destruct (Z.ltb_spec i 0); [lia|].
  apply nth_error_nth'. lia.
Qed.

Lemma length_set_nth {A} n (a : list A) v : length (set_nth n a v) = length a.
Proof. revert n; induction a as [|h t IH]; intros [|n]; simpl; auto. Qed.

Lemma nth_error_set_nth_eq {A} n (a : list A) v :
  (n < length a)%nat -> nth_error (set_nth n a v) n = Some v.
Proof. revert n; induction a as [|h t IH]; intros [|n]; simpl; intros; try lia; auto. apply IH; lia. Qed.

Lemma nth_error_set_nth_ne {A} n m (a : list A) v :
  n <> m -> nth_error (set_nth n a v) m = nth_error a m.
Proof.
  revert n m; induction a as [|h t IH]; intros [|n] [|m] H; simpl; try reflexivity; try congruence.
  apply IH; congruence.
Qed.

Lemma nth_set_nth_eq {A} n (a : list A) v d :
  (n < length a)%nat -> nth n (set_nth n a v) d = v.
Proof. revert n; induction a as [|h t IH]; intros [|n]; simpl; intros; try lia; auto. apply IH; lia. Qed.

Lemma nth_set_nth_ne {A} n m (a : list A) v d :
  n <> m -> nth m (set_nth n a v) d = nth m a d.
Proof.
  revert n m; induction a as [|h t IH]; intros [|n] [|m] H; simpl; try reflexivity; try congruence.
  apply IH; congruence.
Qed.

Lemma put_some {A} (a b : list A) i v :
  put a i v = Some b -> 0 <= i < zlen a /\ b = set_nth (Z.to_nat i) a v.
Proof.
  unfold put, zlen. destruct ((i <? 0) || (Z.of_nat (length a) <=? i)) eqn:E; [discriminate|].
  intros H; inversion H; split; [lia|reflexivity].
Qed.

Lemma put_ok {A} (a : list A) i v :
  0 <= i < zlen a -> put a i v = Some (set_nth (Z.to_nat i) a v).
Proof.
  unfold put, zlen; intros H.
  destruct ((i <? 0) || (Z.of_nat (length a) <=? i)) eqn:E; [lia|reflexivity].
Qed.

Lemma put_len {A} (a b : list A) i v : put a i v = Some b -> zlen b = zlen a.
Proof. intros H; apply put_some in H as [_ ->]. unfold zlen; now rewrite length_set_nth. Qed.

Lemma get_put_eq {A} (a b : list A) i v : put a i v = Some b -> get b i = Some v.
Proof.
  intros H; apply put_some in H as [Hi ->]. unfold get, zlen in *.
  destruct (Z.ltb_spec i 0); [lia|]. apply nth_error_set_nth_eq; lia.
Qed.

Lemma get_put_ne {A} (a b : list A) i j v : put a i v = Some b -> i <> j -> get b j = get a j.
Proof.
  intros H Hne; apply put_some in H as [Hi ->]. unfold get.
  destruct (Z.ltb_spec j 0); [reflexivity|]. apply nth_error_set_nth_ne; lia.
Qed.

Lemma in_zrange lo hi x : In x (zrange lo hi) <-> lo <= x < hi.
Proof.
  unfold zrange. rewrite in_map_iff. split.
  - intros (k & <- & Hk). apply in_seq in Hk. lia.
  - intros H. exists (Z.to_nat (x - lo)). split; [lia|]. apply in_seq. lia.
Qed.

Lemma length_zrange lo hi : length (zrange lo hi) = Z.to_nat (hi - lo).
Proof. unfold zrange. now rewrite map_length, seq_length. Qed.

Lemma zlen_zrange lo hi : lo <= hi -> zlen (zrange lo hi) = hi - lo.
Proof. unfold zlen; rewrite length_zrange; lia. Qed.

Lemma zrange_nil lo hi : hi <= lo -> zrange lo hi = [].
Proof. intros. unfold zrange. replace (Z.to_nat (hi - lo)) with O by lia. reflexivity. Qed.

Lemma zrange_cons lo hi : lo < hi -> zrange lo hi = lo :: zrange (lo + 1) hi.
Proof.
  intros. unfold zrange. replace (Z.to_nat (hi - lo)) with (S (Z.to_nat (hi - (lo + 1)))) by lia.
  rewrite <- cons_seq, <- seq_shift, map_cons, map_map. f_equal; [lia|].
  apply map_ext; intros; lia.
Qed.

Lemma zrange_app lo mid hi : lo <= mid <= hi -> zrange lo hi = zrange lo mid ++ zrange mid hi.
Proof.
  intros H. remember (Z.to_nat (mid - lo)) as n eqn:E. revert lo H E.
  induction n as [|n IH]; intros lo H E.
  - assert (lo = mid) by lia; subst. now rewrite (zrange_nil mid mid) by lia.
  - rewrite (zrange_cons lo hi), (zrange_cons lo mid) by lia. simpl. f_equal. apply IH; lia.
Qed.

Lemma zrange_snoc lo hi : lo <= hi -> zrange lo (hi + 1) = zrange lo hi ++ [hi].
Proof.
  intros. rewrite (zrange_app lo hi (hi + 1)) by lia. f_equal.
  rewrite zrange_cons by lia. now rewrite zrange_nil by lia.
Qed.

Lemma NoDup_zrange lo hi : NoDup (zrange lo hi).
Proof.
  unfold zrange. apply FinFun.Injective_map_NoDup; [|apply seq_NoDup].
  intros a b; lia.
Qed.

Lemma zrange_shift lo hi k : zrange (lo + k) (hi + k) = map (fun x => x + k) (zrange lo hi).
Proof.
  unfold zrange. rewrite map_map. replace (hi + k - (lo + k)) with (hi - lo) by lia.
  apply map_ext; intros; lia.
Qed.

Lemma nth_error_zrange lo hi n :
  (n < Z.to_nat (hi - lo))%nat -> nth_error (zrange lo hi) n = Some (lo + Z.of_nat n).
Proof.
  intros. unfold zrange. rewrite nth_error_map, (nth_error_nth' _ O) by (rewrite seq_length; lia).
  rewrite seq_nth by lia. reflexivity.
Qed.

Lemma in_zrange2 lo hi x :
  In x (zrange2 lo hi) <-> lo <= x < hi /\ (x - lo) mod 2 = 0.
Proof.
  unfold zrange2. rewrite in_map_iff. split.
  - intros (k & <- & Hk). apply in_seq in Hk. lia.
  - intros H. exists (Z.to_nat ((x - lo) / 2)). split; [lia|]. apply in_seq. lia.
Qed.

Lemma zrange2_nil lo hi : hi <= lo -> zrange2 lo hi = [].
Proof. intros. unfold zrange2. replace (Z.to_nat ((hi - lo + 1)/2)) with O by lia. reflexivity. Qed.

Lemma zrange2_cons lo hi : lo < hi -> zrange2 lo hi = lo :: zrange2 (lo + 2) hi.
Proof.
  intros. unfold zrange2.
  replace (Z.to_nat ((hi - lo + 1)/2)) with (S (Z.to_nat ((hi - (lo + 2) + 1)/2))) by lia.
  rewrite <- cons_seq, <- seq_shift, map_cons, map_map. f_equal; [lia|].
  apply map_ext; intros; lia.
Qed.

Lemma zrange2_shift lo hi k : zrange2 (lo + k) (hi + k) = map (fun x => x + k) (zrange2 lo hi).
Proof.
  unfold zrange2. rewrite map_map. replace (hi + k - (lo + k)) with (hi - lo) by lia.
  apply map_ext; intros; lia.
Qed.

Lemma NoDup_zrange2 lo hi : NoDup (zrange2 lo hi).
Proof.
  unfold zrange2. apply FinFun.Injective_map_NoDup; [|apply seq_NoDup].
  intros a b; lia.
Qed.

Lemma fold_opt_app {A S} (f : S -> A -> option S) l m s :
  fold_opt f (l ++ m) s = bind (fold_opt f l s) (fold_opt f m).
Proof.
  revert s; induction l as [|a t IH]; intros s; simpl; [reflexivity|].
  destruct (f s a); simpl; auto.
Qed.

Lemma map_opt_some {A B} (f : A -> option B) l bs :
  map_opt f l = Some bs -> Forall2 (fun a b => f a = Some b) l bs.
Proof.
  revert bs; induction l as [|a t IH]; intros bs; simpl; intros H.
  - inversion H; constructor.
  - destruct (f a) eqn:E; [|discriminate]. simpl in H.
    destruct (map_opt f t) eqn:E2; [|discriminate]. simpl in H. inversion H; subst.
    constructor; auto.
Qed.

Lemma map_opt_ok {A B} (f : A -> option B) l :
  (forall a, In a l -> exists b, f a = Some b) -> exists bs, map_opt f l = Some bs.
Proof.
  induction l as [|a t IH]; intros H; simpl; [eauto|].
  destruct (H a) as [b Hb]; [now left|]. rewrite Hb. simpl.
  destruct IH as [bs Hbs]; [intros; apply H; now right|]. rewrite Hbs. simpl; eauto.
Qed.

Lemma Forall2_len {A B} (R : A -> B -> Prop) l m : Forall2 R l m -> length l = length m.
Proof. induction 1; simpl; congruence. Qed.

Lemma map_opt_length {A B} (f : A -> option B) l bs :
  map_opt f l = Some bs -> length bs = length l.
Proof. intros H. apply map_opt_some in H. symmetry. eapply Forall2_len; eauto. Qed.

Lemma map_opt_map {A B} (f : A -> option B) (g : A -> B) l :
  (forall a, In a l -> f a = Some (g a)) -> map_opt f l = Some (map g l).
Proof.
  induction l as [|a t IH]; intros H; simpl; [reflexivity|].
  rewrite H by now left. simpl. rewrite IH; [reflexivity|]. intros; apply H; now right.
Qed.

Lemma prodZ_cons a l : prodZ (a :: l) = a * prodZ l.
Proof. reflexivity. Qed.
Lemma prodZ_nonneg l : Forall (fun x => 0 <= x) l -> 0 <= prodZ l.
Proof. induction 1; unfold prodZ in *; simpl; nia. Qed.
Lemma prodZ_pos l : Forall (fun x => 0 < x) l -> 0 < prodZ l.
Proof. induction 1; unfold prodZ in *; simpl; nia. Qed.
Lemma prodZ_app l m : prodZ (l ++ m) = prodZ l * prodZ m.
Proof. induction l as [|a t IH]; cbn [app]; [change (prodZ []) with 1; lia|]. rewrite !prodZ_cons, IH. lia. Qed.
Lemma sumZ_app l m : sumZ (l ++ m) = sumZ l + sumZ m.
Proof. induction l as [|a t IH]; cbn [app]; [change (sumZ []) with 0; lia|]. unfold sumZ in *; simpl; lia. Qed.
