From Coq Require Import QArith.QArith QArith.Qcanon.
From Verif Require Import Model.Base Model.Text Model.File Model.Random Spec.Bytes Spec.Random Proof.BaseL Proof.TextL.
Local Open Scope list_scope.
Local Open Scope Z_scope.

(* bits *)
Lemma word_bits v : word32 v <-> 0 <= v /\ forall i, 32 <= i -> Z.testbit v i = false.
Proof.
  unfold word32. split.
  - intros (N & L). split; [auto|]. intros i Hi. destruct (Z.eq_dec v 0) as [->|Z0]; [apply Z.bits_0|].
    apply Z.bits_above_log2; [auto|]. assert (Z.log2 v < 32); [|lia]. apply Z.log2_lt_pow2; lia.
  - intros (N & B). split; [auto|]. destruct (Z.eq_dec v 0) as [->|Z0]; [lia|].
    apply Z.log2_lt_pow2; [lia|]. destruct (Z.lt_ge_cases (Z.log2 v) 32) as [L|G]; [auto|].
    specialize (B _ G). rewrite Z.bit_log2 in B by lia. discriminate.
Qed.

Lemma word_lxor a b : word32 a -> word32 b -> word32 (Z.lxor a b).
Proof.
  rewrite !word_bits. intros (A & A') (B & B'). split; [apply Z.lxor_nonneg; tauto|].
  intros i Hi. rewrite Z.lxor_spec, A', B' by auto. reflexivity.
Qed.

Lemma word_land a b : 0 <= a -> word32 b -> word32 (Z.land a b).
Proof.
  rewrite !word_bits. intros A (B & B'). split; [apply Z.land_nonneg; tauto|].
  intros i Hi. rewrite Z.land_spec, B' by auto. apply andb_false_r.
Qed.

Lemma word_shiftr a k : 0 <= k -> word32 a -> word32 (Z.shiftr a k).
Proof.
  rewrite !word_bits. intros K (A & A'). split; [now apply Z.shiftr_nonneg|].
  intros i Hi. rewrite Z.shiftr_spec by lia. apply A'. lia.
Qed.

Lemma land_ones32 v : Z.land v ones32 = v mod 2 ^ 32.
Proof. change ones32 with (Z.ones 32). apply Z.land_ones. lia. Qed.

Lemma mod32 v : word32 (v mod 2 ^ 32).
Proof. unfold word32. apply Z.mod_pos_bound. lia. Qed.

Lemma u64_mod v : u64 v mod 2 ^ 32 = v mod 2 ^ 32.
Proof.
  unfold u64. change 18446744073709551616 with (2 ^ 32 * 2 ^ 32).
  rewrite Z.rem_mul_r by lia. rewrite (Z.mul_comm (2 ^ 32) (_ mod _)), Z_mod_plus_full. apply Z.mod_mod. lia.
Qed.

(* a lower half added to an upper half *)
Lemma mix_joined u v : word32 u -> mix_bits u v = joined u v.
Proof.
  intros W. unfold mix_bits, joined.
  change 2147483647 with (Z.ones 31). rewrite (Z.land_ones v) by lia.
  replace (Z.land u 2147483648) with (u / 2 ^ 31 * 2 ^ 31).
  - assert (D : Z.land (u / 2 ^ 31 * 2 ^ 31) (v mod 2 ^ 31) = 0).
    { apply Z.bits_inj'. intros i Hi.
      rewrite Z.land_spec, Z.bits_0. destruct (Z.lt_ge_cases i 31) as [L|G].
      - rewrite Z.mul_pow2_bits_low by lia. reflexivity.
      - rewrite Z.mod_pow2_bits_high by lia. apply andb_false_r. }
    rewrite Z.add_nocarry_lxor by auto. symmetry. now apply Z.lxor_lor.
  - apply Z.bits_inj'. intros i Hi. rewrite Z.land_spec. change 2147483648 with (2 ^ 31).
    rewrite Z.pow2_bits_eqb by lia. destruct (Z.eqb_spec 31 i) as [<-|D].
    + rewrite andb_true_r. rewrite Z.mul_pow2_bits by lia. change (31 - 31) with 0.
      rewrite <- Z.shiftr_div_pow2 by lia. rewrite Z.shiftr_spec by lia. reflexivity.
    + rewrite andb_false_r. destruct (Z.lt_ge_cases i 31) as [L|G]; [apply Z.mul_pow2_bits_low; lia|].
      rewrite Z.mul_pow2_bits by lia. rewrite <- Z.shiftr_div_pow2 by lia. rewrite Z.shiftr_spec by lia.
      apply word_bits in W. apply W. lia.
Qed.

Lemma twist_spec m s0 s1 : word32 s0 ->
  twist m s0 s1 = Z.lxor (Z.lxor m (joined s0 s1 / 2)) (if Z.odd s1 then 0x9908b0df else 0).
Proof.
  intros W. unfold twist. rewrite mix_joined by auto. rewrite Z.shiftr_div_pow2 by lia. change (2 ^ 1) with 2. f_equal.
  unfold magic. change 1 with (Z.ones 1). rewrite Z.land_ones by lia. change (2 ^ 1) with 2.
  rewrite Zmod_odd. destruct (Z.odd s1); reflexivity.
Qed.

Lemma joined_word u v : word32 u -> word32 (joined u v).
Proof.
  unfold word32, joined. intros W. pose proof (Z.mod_pos_bound v (2 ^ 31) ltac:(lia)).
  assert (0 <= u / 2 ^ 31 <= 1); [|lia].
  split; [apply Z.div_pos; lia|]. assert (u / 2 ^ 31 < 2); [|lia]. apply Z.div_lt_upper_bound; lia.
Qed.

Lemma start_word seed x : start seed x -> forall k, 0 <= k < 624 -> word32 (x k).
Proof.
  intros (A & B) k Hk. destruct (Z.eq_dec k 0) as [->|N].
  - rewrite A. apply mod32.
  - rewrite B by lia. apply mod32.
Qed.

Lemma twister_word x : twister x -> (forall k, 0 <= k < 624 -> word32 (x k)) -> forall k, 0 <= k -> word32 (x k).
Proof.
  intros T B.
  assert (P : forall n : nat, forall k, 0 <= k < Z.of_nat n -> word32 (x k)).
  { induction n as [|n IH]; intros k Hk; [lia|].
    destruct (Z.lt_ge_cases k 624) as [L|G]; [apply B; lia|].
    replace k with (k - 624 + 624) by lia. rewrite T by lia.
    apply word_lxor; [apply word_lxor; [apply IH; lia|]|].
    - change 2 with (2 ^ 1). rewrite <- Z.shiftr_div_pow2 by lia. apply word_shiftr; [lia|]. apply joined_word. apply IH. lia.
    - unfold word32. destruct (Z.odd _); lia. }
  intros k Hk. apply (P (Z.to_nat (k + 1))). lia.
Qed.

(* loops with an invariant *)
Lemma fold_inv {S} (P : Z -> S -> Prop) (f : S -> Z -> option S) lo hi s : lo <= hi -> P lo s ->
  (forall i s, lo <= i < hi -> P i s -> exists s', f s i = Some s' /\ P (i + 1) s') ->
  exists s', fold_opt f (zrange lo hi) s = Some s' /\ P hi s'.
Proof.
  intros L P0 St. remember (Z.to_nat (hi - lo)) as n eqn:E. revert lo s L P0 St E.
  induction n as [|n IH]; intros lo s L P0 St E.
  - rewrite zrange_nil by lia. exists s. split; [reflexivity|]. now replace hi with lo by lia.
  - rewrite zrange_cons by lia. destruct (St lo s) as (s1 & E1 & P1); [lia|auto|]. cbn [fold_opt]. rewrite E1. cbn [bind].
    apply IH; [lia|auto| |lia]. intros i s2 Hi. apply St. lia.
Qed.

Definition holds (s : list Z) (a : Z -> Z) : Prop := zlen s = 624 /\ forall i, 0 <= i < 624 -> get s i = Some (a i).

Lemma holds_put s a p v : holds s a -> 0 <= p < 624 -> exists s', put s p v = Some s' /\ holds s' (fun i => if i =? p then v else a i).
Proof.
  intros (L & G) Hp. exists (set_nth (Z.to_nat p) s v). assert (E : put s p v = Some (set_nth (Z.to_nat p) s v)) by (apply put_ok; lia).
  split; [auto|]. split.
  - pose proof (put_len _ _ _ _ E). lia.
  - intros i Hi. destruct (Z.eqb_spec i p) as [->|N].
    + eapply get_put_eq; eauto.
    + rewrite <- (G i Hi). eapply get_put_ne; [exact E|auto].
Qed.

Lemma holds_ext s a b : (forall i, 0 <= i < 624 -> a i = b i) -> holds s a -> holds s b.
Proof. intros E (L & G). split; [auto|]. intros i Hi. rewrite <- E by auto. auto. Qed.

Lemma initialize_ok st seed x : zlen st = 624 -> start seed x -> exists s, initialize st seed = Some s /\ holds s x.
Proof.
  intros L (S0 & S1). unfold initialize. rewrite land_ones32.
  assert (H0 : exists a, holds st a).
  { exists (fun i => match get st i with Some v => v | None => 0 end). split; [auto|]. intros i Hi.
    destruct (get_ok st i) as (v & E); [lia|]. now rewrite E. }
  destruct H0 as (a & H0). destruct (holds_put st a 0 (seed mod 2 ^ 32) H0) as (s & E & H); [lia|]. rewrite E. cbn [bind].
  unfold mt_n. refine (fold_inv (fun p s => zlen s = 624 /\ forall i, 0 <= i < p -> get s i = Some (x i)) _ 1 624 s _ _ _).
  - lia.
  - split; [apply H|]. intros i Hi. assert (i = 0) by lia. subst i. destruct H as (_ & H). rewrite H by lia. now rewrite S0.
  - clear s E H. intros i s Hi (Ls & Hs). cbn beta in *. rewrite (Hs (i - 1)) by lia. cbn [bind].
    set (v := Z.land _ _). assert (E : put s i v = Some (set_nth (Z.to_nat i) s v)) by (apply put_ok; lia).
    eexists. split; [exact E|]. split; [pose proof (put_len _ _ _ _ E); lia|].
    intros j Hj. destruct (Z.eq_dec j i) as [->|N].
    + rewrite (get_put_eq _ _ _ _ E). f_equal. unfold v. rewrite land_ones32, u64_mod, Zplus_mod, u64_mod, <- Zplus_mod.
      rewrite (S1 i) by lia. rewrite Z.shiftr_div_pow2 by lia. reflexivity.
    + rewrite (get_put_ne _ _ _ j _ E) by lia. apply Hs. lia.
Qed.

(* part of the way through reload *)
Definition turned (x : Z -> Z) (b p i : Z) : Z := if i <? p then x (b + 624 + i) else x (b + i).

Lemma reload_step x b p a c s : twister x -> (forall k, 0 <= k -> word32 (x k)) -> 0 <= b -> 0 <= p < 624 ->
  0 <= a < 624 -> 0 <= c < 624 -> turned x b p a = x (b + p + 397) -> turned x b p c = x (b + p + 1) ->
  holds s (turned x b p) ->
  exists s', (do u <- get s a; do v <- get s p; do w <- get s c; put s p (twist u v w)) = Some s' /\ holds s' (turned x b (p + 1)).
Proof.
  intros T W Hb Hp Ha Hc Ea Ec H. destruct (H) as (L & G). rewrite (G a), (G p), (G c) by auto. cbn [bind].
  rewrite Ea, Ec. unfold turned at 1. rewrite Z.ltb_irrefl. rewrite twist_spec by (apply W; lia).
  rewrite <- T by lia. destruct (holds_put s _ p (x (b + p + 624)) H Hp) as (s' & E & H'). exists s'. split; [exact E|].
  eapply holds_ext; [|exact H']. intros i Hi. cbn beta. unfold turned.
  destruct (Z.eqb_spec i p); destruct (Z.ltb_spec i p); destruct (Z.ltb_spec i (p + 1)); try lia; try reflexivity.
  f_equal. lia.
Qed.

Lemma reload_ok g x b : twister x -> (forall k, 0 <= k -> word32 (x k)) -> 0 <= b -> holds (mt_state g) (fun i => x (b + i)) ->
  exists s, reload g = Some (mkMT s 0 624) /\ holds s (fun i => x (b + 624 + i)).
Proof.
  intros T W Hb H. unfold reload, mt_n, mt_m.
  destruct (fold_inv (fun p s => holds s (turned x b p))
    (fun s p => do u <- get s (p + 397); do v <- get s p; do w <- get s (p + 1); put s p (twist u v w)) 0 (624 - 397) (mt_state g)) as (s1 & E1 & H1).
  { lia. }
  { eapply holds_ext; [|exact H]. intros i Hi. unfold turned. destruct (Z.ltb_spec i 0); [lia|]. reflexivity. }
  { intros i s Hi Hs. apply (reload_step x b i (i + 397) (i + 1)); auto; try lia; unfold turned.
    - destruct (Z.ltb_spec (i + 397) i); [lia|]. f_equal. lia.
    - destruct (Z.ltb_spec (i + 1) i); [lia|]. f_equal. lia. }
  rewrite E1. cbn [bind].
  destruct (fold_inv (fun p s => holds s (turned x b p))
    (fun s p => do u <- get s (p + (397 - 624)); do v <- get s p; do w <- get s (p + 1); put s p (twist u v w)) (624 - 397) (624 - 1) s1) as (s2 & E2 & H2).
  { lia. }
  { exact H1. }
  { intros i s Hi Hs. apply (reload_step x b i (i + (397 - 624)) (i + 1)); auto; try lia; unfold turned.
    - destruct (Z.ltb_spec (i + (397 - 624)) i); [|lia]. f_equal. lia.
    - destruct (Z.ltb_spec (i + 1) i); [lia|]. f_equal. lia. }
  rewrite E2. cbn [bind].
  destruct (reload_step x b (624 - 1) (624 - 1 + (397 - 624)) 0 s2) as (s3 & E3 & H3); auto; try lia.
  { unfold turned. change (624 - 1 + (397 - 624) <? 624 - 1) with true. cbn [andb]. f_equal. lia. }
  { unfold turned. change (0 <? 624 - 1) with true. cbn iota. f_equal. lia. }
  rewrite E3. cbn [bind]. exists s3. split; [reflexivity|]. eapply holds_ext; [|exact H3].
  intros i Hi. unfold turned. destruct (Z.ltb_spec i (624 - 1 + 1)); [reflexivity|lia].
Qed.

Lemma land_low v c : word32 c -> Z.land (u64 v) c = Z.land v c.
Proof.
  intros W. apply word_bits in W. apply Z.bits_inj'. intros i Hi. rewrite !Z.land_spec.
  destruct (Z.lt_ge_cases i 32) as [L|G]; [|rewrite (proj2 W) by auto; now rewrite !andb_false_r].
  unfold u64. change 18446744073709551616 with (2 ^ 64). rewrite Z.mod_pow2_bits_low by lia. reflexivity.
Qed.

Lemma temper_spec v : temper v = tempered v.
Proof.
  unfold temper, tempered. cbv zeta. rewrite !land_low by (unfold word32; lia).
  rewrite !Z.shiftr_div_pow2, !Z.shiftl_mul_pow2 by lia. reflexivity.
Qed.

Lemma tempered_word v : word32 v -> word32 (tempered v).
Proof.
  intros W. rewrite <- temper_spec. unfold temper. cbv zeta. rewrite !land_low by (unfold word32; lia).
  assert (N : forall v k, 0 <= k -> word32 v -> 0 <= Z.shiftl v k) by (intros u k K (U & _); now apply Z.shiftl_nonneg).
  assert (A : word32 (Z.lxor v (Z.shiftr v 11))) by (apply word_lxor; [auto|apply word_shiftr; [lia|auto]]).
  set (a := Z.lxor v _) in *.
  assert (B : word32 (Z.lxor a (Z.land (Z.shiftl a 7) 2636928640))) by (apply word_lxor; [auto|apply word_land; [apply N; [lia|auto]|unfold word32; lia]]).
  set (b := Z.lxor a _) in *.
  assert (C : word32 (Z.lxor b (Z.land (Z.shiftl b 15) 4022730752))) by (apply word_lxor; [auto|apply word_land; [apply N; [lia|auto]|unfold word32; lia]]).
  set (c := Z.lxor b _) in *.
  apply word_lxor; [auto|apply word_shiftr; [lia|auto]].
Qed.

(* the tempering loses nothing *)
Lemma lxor_cancel a b : Z.lxor a b = 0 -> a = b.
Proof. apply Z.lxor_eq. Qed.

Lemma right_inj k a b : 0 < k -> word32 a -> word32 b ->
  Z.lxor a (Z.shiftr a k) = Z.lxor b (Z.shiftr b k) -> a = b.
Proof.
  intros K A B E. apply word_bits in A, B. destruct A as (_ & A), B as (_ & B).
  apply Z.bits_inj'. intros i Hi.
  assert (P : forall n : nat, forall i, 0 <= i -> 32 - Z.of_nat n <= i -> Z.testbit a i = Z.testbit b i).
  { induction n as [|n IH]; intros j Hj Hn.
    - rewrite A, B by lia. reflexivity.
    - assert (Eb : Z.testbit (Z.lxor a (Z.shiftr a k)) j = Z.testbit (Z.lxor b (Z.shiftr b k)) j) by now rewrite E.
      rewrite !Z.lxor_spec, !Z.shiftr_spec in Eb by lia. rewrite (IH (j + k)) in Eb by lia.
      destruct (Z.testbit a j), (Z.testbit b j), (Z.testbit b (j + k)); try reflexivity; discriminate. }
  apply (P 32%nat); lia.
Qed.

Lemma left_inj k c a b : 0 < k ->
  Z.lxor a (Z.land (Z.shiftl a k) c) = Z.lxor b (Z.land (Z.shiftl b k) c) -> a = b.
Proof.
  intros K E. apply Z.bits_inj'. intros i Hi.
  assert (P : forall n : nat, forall i, i < Z.of_nat n -> Z.testbit a i = Z.testbit b i).
  { induction n as [|n IH]; intros j Hn.
    - rewrite !Z.testbit_neg_r by lia. reflexivity.
    - destruct (Z.lt_ge_cases j 0); [rewrite !Z.testbit_neg_r by lia; reflexivity|].
      assert (Eb : Z.testbit (Z.lxor a (Z.land (Z.shiftl a k) c)) j = Z.testbit (Z.lxor b (Z.land (Z.shiftl b k) c)) j) by now rewrite E.
      rewrite !Z.lxor_spec, !Z.land_spec, !Z.shiftl_spec in Eb by lia. rewrite (IH (j - k)) in Eb by lia.
      destruct (Z.testbit a j), (Z.testbit b j), (Z.testbit b (j - k)), (Z.testbit c j); try reflexivity; discriminate. }
  apply (P (Z.to_nat (i + 1))). lia.
Qed.

Lemma tempered_inj a b : word32 a -> word32 b -> tempered a = tempered b -> a = b.
Proof.
  intros A B. rewrite <- !temper_spec. unfold temper. cbv zeta. rewrite !land_low by (unfold word32; lia).
  assert (N : forall v k, 0 <= k -> word32 v -> 0 <= Z.shiftl v k) by (intros u k K (U & _); now apply Z.shiftl_nonneg).
  assert (W1 : forall v, word32 v -> word32 (Z.lxor v (Z.shiftr v 11))) by (intros v V; apply word_lxor; [auto|apply word_shiftr; [lia|auto]]).
  assert (W2 : forall v, word32 v -> word32 (Z.lxor v (Z.land (Z.shiftl v 7) 2636928640))) by (intros v V; apply word_lxor; [auto|apply word_land; [apply N; [lia|auto]|unfold word32; lia]]).
  assert (W3 : forall v, word32 v -> word32 (Z.lxor v (Z.land (Z.shiftl v 15) 4022730752))) by (intros v V; apply word_lxor; [auto|apply word_land; [apply N; [lia|auto]|unfold word32; lia]]).
  intros E. apply right_inj in E; [|lia| |]; [|apply W3, W2, W1; auto|apply W3, W2, W1; auto].
  apply left_inj in E; [|lia]. apply left_inj in E; [|lia]. apply right_inj in E; auto; lia.
Qed.

(* the generator stands before term k of the sequence *)
Definition before (g : mtrand) (x : Z -> Z) (k : Z) : Prop :=
  exists b, 0 <= b /\ holds (mt_state g) (fun i => x (b + i)) /\ 0 <= mt_next g <= 624 /\ mt_left g = 624 - mt_next g /\ k = b + mt_next g.

Lemma rand_int_ok g x k : twister x -> (forall k, 0 <= k -> word32 (x k)) -> before g x k ->
  exists g', rand_int g = Some (tempered (x k), g') /\ before g' x (k + 1).
Proof.
  intros T W (b & Hb & H & N & L & ->). unfold rand_int. destruct (Z.eqb_spec (mt_left g) 0) as [L0|L0].
  - destruct (reload_ok g x b T W Hb H) as (s & E & Hs). rewrite E. cbn [bind mt_state mt_next mt_left].
    rewrite (proj2 Hs) by lia. cbn [bind]. eexists. rewrite temper_spec.
    replace (b + 624 + 0) with (b + mt_next g) by lia. split; [reflexivity|].
    exists (b + 624). cbn [mt_state mt_next mt_left]. repeat split; try lia; apply Hs.
  - cbn [bind]. rewrite (proj2 H) by lia. cbn [bind]. eexists. rewrite temper_spec. split; [reflexivity|].
    exists b. cbn [mt_state mt_next mt_left]. repeat split; try lia; apply H.
Qed.

Lemma draws_ok x : twister x -> (forall k, 0 <= k -> word32 (x k)) -> forall n g k, before g x k ->
  exists g', draws n g = Some (map (fun i => tempered (x i)) (zrange k (k + Z.of_nat n)), g') /\ before g' x (k + Z.of_nat n).
Proof.
  intros T W. induction n as [|n IH]; intros g k B.
  - exists g. rewrite zrange_nil by lia. split; [reflexivity|]. now replace (k + Z.of_nat 0) with k by lia.
  - destruct (rand_int_ok g x k T W B) as (g1 & E1 & B1). destruct (IH g1 (k + 1) B1) as (g2 & E2 & B2).
    exists g2. cbn [draws]. rewrite E1. cbn [bind]. rewrite E2. cbn [bind]. rewrite (zrange_cons k) by lia. cbn [map].
    replace (k + Z.of_nat (S n)) with (k + 1 + Z.of_nat n) by lia. split; [reflexivity|exact B2].
Qed.
