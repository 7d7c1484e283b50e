From Coq Require Import QArith.QArith QArith.Qcanon.
From Verif Require Import Model.Base Model.Text Model.File Model.Random Spec.Bytes Spec.Random Proof.BaseL Proof.TextL Proof.EndianF Proof.RandomL.
Local Open Scope list_scope.
Local Open Scope Z_scope.

(* a sequence given by its past *)
Fixpoint words (F : list Z -> Z) (n : nat) : list Z :=
  match n with O => [] | S n' => words F n' ++ [F (words F n')] end.

Lemma words_len F n : length (words F n) = n.
Proof. induction n as [|n IH]; [reflexivity|]. cbn [words]. rewrite app_length, IH. cbn. lia. Qed.

Lemma course (F : list Z -> Z) : exists x : Z -> Z, forall k, 0 <= k -> x k = F (map x (zrange 0 k)).
Proof.
  set (x := fun k => F (words F (Z.to_nat k))). exists x.
  assert (W : forall n : nat, words F n = map x (zrange 0 (Z.of_nat n))).
  { induction n as [|n IH]; [reflexivity|]. cbn [words].
    replace (Z.of_nat (S n)) with (Z.of_nat n + 1) by lia. rewrite zrange_snoc by lia. rewrite map_app, <- IH. cbn [map].
    f_equal. unfold x. now rewrite Nat2Z.id. }
  intros k Hk. unfold x at 1. rewrite W. now rewrite Z2Nat.id.
Qed.

Lemma nth_map_range (x : Z -> Z) k i : 0 <= i < k -> nth (Z.to_nat i) (map x (zrange 0 k)) 0 = x i.
Proof.
  intros H. unfold zrange. rewrite map_map.
  rewrite (nth_indep _ 0 (x (0 + Z.of_nat 0))) by (rewrite map_length, seq_length; lia).
  rewrite (map_nth (fun n : nat => x (0 + Z.of_nat n)) _ 0%nat). rewrite seq_nth by lia. f_equal. lia.
Qed.

(* every beginning extends to a sequence *)
Lemma twister_exists (a : Z -> Z) (b : Z -> Z -> Z) :
  exists x, twister x /\ x 0 = a 0 /\ forall k, 0 < k < 624 -> x k = b k (x (k - 1)).
Proof.
  set (at_ := fun (l : list Z) i => nth (Z.to_nat i) l 0).
  destruct (course (fun l => let k := zlen l in
    if k =? 0 then a 0 else if k <? 624 then b k (at_ l (k - 1)) else
    let j := k - 624 in
    Z.lxor (Z.lxor (at_ l (j + 397)) (joined (at_ l j) (at_ l (j + 1)) / 2)) (if Z.odd (at_ l (j + 1)) then 0x9908b0df else 0))) as (x & X).
  exists x. cbv zeta in X.
  assert (L : forall k, 0 <= k -> zlen (map x (zrange 0 k)) = k) by (intros k Hk; rewrite BaseL.zlen_map, zlen_zrange; lia).
  split; [|split].
  - intros k Hk. rewrite (X (k + 624)) by lia. rewrite L by lia.
    destruct (Z.eqb_spec (k + 624) 0); [lia|]. destruct (Z.ltb_spec (k + 624) 624); [lia|].
    unfold at_. replace (k + 624 - 624) with k by lia. rewrite !nth_map_range by lia. reflexivity.
  - rewrite (X 0) by lia. reflexivity.
  - intros k Hk. rewrite (X k) by lia. rewrite L by lia.
    destruct (Z.eqb_spec k 0); [lia|]. destruct (Z.ltb_spec k 624); [|lia].
    unfold at_. rewrite nth_map_range by lia. reflexivity.
Qed.

Lemma start_exists seed : exists x, twister x /\ start seed x.
Proof.
  destruct (twister_exists (fun _ => seed mod 2 ^ 32) (fun k v => (1812433253 * Z.lxor v (v / 2 ^ 30) + k) mod 2 ^ 32)) as (x & T & A & B).
  exists x. split; [auto|]. split; auto.
Qed.

Lemma state_exists s : zlen s = 624 -> exists x, twister x /\ holds s x.
Proof.
  intros L. destruct (twister_exists (fun _ => nth 0 s 0) (fun k _ => nth (Z.to_nat k) s 0)) as (x & T & A & B).
  exists x. split; [auto|]. split; [auto|]. intros i Hi.
  assert (E : x i = nth (Z.to_nat i) s 0) by (destruct (Z.eq_dec i 0) as [->|N]; [exact A|apply B; lia]).
  rewrite E. unfold get. destruct (Z.ltb_spec i 0); [lia|]. apply nth_error_nth'. unfold zlen in L. lia.
Qed.

Lemma holds_unique s t x : holds s x -> holds t x -> s = t.
Proof.
  intros (Ls & Gs) (Lt & Gt). assert (E : map_opt (get s) (zrange 0 624) = map_opt (get t) (zrange 0 624)).
  { rewrite (map_opt_map _ x), (map_opt_map (get t) x); [reflexivity| |]; intros i Hi; apply in_zrange in Hi; auto. }
  rewrite <- Ls in E at 1. rewrite get_all in E. rewrite <- Lt in E at 1. rewrite get_all in E. congruence.
Qed.

(* seeding *)
Lemma seed_one_ok junk seed x : zlen (mt_state junk) = 624 -> twister x -> start seed x ->
  exists g, seed_one junk seed = Some g /\ before g x 624.
Proof.
  intros L T S0. pose proof (twister_word x T (start_word seed x S0)) as W.
  destruct (initialize_ok _ seed x L S0) as (s & E & H). unfold seed_one. rewrite E. cbn [bind].
  destruct (reload_ok (mkMT s (mt_next junk) (mt_left junk)) x 0 T W) as (s' & E' & H'); [lia|exact H|].
  rewrite E'. eexists. split; [reflexivity|]. exists 624. cbn [mt_state mt_next mt_left]. repeat split; try lia; apply H'.
Qed.

Definition words32 (s : list Z) : Prop := zlen s = 624 /\ Forall word32 s.

Lemma words32_get s i : words32 s -> 0 <= i < 624 -> exists v, get s i = Some v /\ word32 v.
Proof.
  intros (L & F) Hi. destruct (get_ok s i) as (v & E); [lia|]. exists v. split; [auto|].
  rewrite Forall_forall in F. apply F. unfold get in E. destruct (Z.ltb_spec i 0); [lia|]. eapply nth_error_In; eauto.
Qed.

Lemma Forall_set_nth {A} (P : A -> Prop) n l v : Forall P l -> P v -> Forall P (set_nth n l v).
Proof. intros F V. revert n; induction F; intros [|n]; cbn; constructor; auto. Qed.

Lemma words32_put s i v : words32 s -> 0 <= i < 624 -> word32 v -> exists s', put s i v = Some s' /\ words32 s'.
Proof.
  intros (L & F) Hi V. assert (E : put s i v = Some (set_nth (Z.to_nat i) s v)) by (apply put_ok; lia).
  eexists. split; [exact E|]. split; [pose proof (put_len _ _ _ _ E); lia|]. now apply Forall_set_nth.
Qed.

Lemma words32_holds s x : holds s x -> (forall k, 0 <= k < 624 -> word32 (x k)) -> words32 s.
Proof.
  intros (L & G) W. split; [auto|]. apply Forall_forall. intros v Hv. apply In_nth_error in Hv. destruct Hv as (n & E).
  assert (n < length s)%nat by (apply nth_error_Some; congruence). unfold zlen in L.
  specialize (G (Z.of_nat n) ltac:(lia)). unfold get in G. destruct (Z.ltb_spec (Z.of_nat n) 0); [lia|]. rewrite Nat2Z.id in G.
  rewrite E in G. injection G as ->. apply W. lia.
Qed.

Lemma wrap_ok s i : words32 s -> 1 <= i <= 624 -> exists s' i', wrap_row s i = Some (s', i') /\ words32 s' /\ 1 <= i' < 624.
Proof.
  intros H Hi. unfold wrap_row, mt_n. destruct (Z.leb_spec 624 i) as [G|L].
  - destruct (words32_get s (624 - 1) H) as (v & E & V); [lia|]. rewrite E. cbn [bind].
    destruct (words32_put s 0 v H) as (s' & E' & H'); [lia|auto|]. rewrite E'. cbn [bind].
    exists s', 1. repeat split; try lia; apply H'.
  - exists s, i. repeat split; try lia; apply H.
Qed.

Lemma mix_one_ok big s i j : words32 s -> 1 <= i < 624 -> 0 <= j < zlen big ->
  exists s' i' j', mix_one big (s, i, j) = Some (s', i', j') /\ words32 s' /\ 1 <= i' < 624 /\ 0 <= j' < zlen big.
Proof.
  intros H Hi Hj. unfold mix_one. destruct (words32_get s i H) as (a & Ea & _); [lia|]. rewrite Ea. cbn [bind].
  destruct (words32_get s (i - 1) H) as (b & Eb & _); [lia|]. rewrite Eb. cbn [bind].
  destruct (get_ok big j Hj) as (v & Ev). rewrite Ev. cbn [bind].
  set (w := u64 _). destruct (words32_put s i (Z.land w ones32) H) as (s1 & E1 & H1); [lia|rewrite land_ones32; apply mod32|].
  rewrite E1. cbn [bind]. destruct (wrap_ok s1 (i + 1) H1) as (s2 & i2 & E2 & H2 & I2); [lia|]. rewrite E2. cbn [bind fst snd].
  exists s2, i2, (if zlen big <=? j + 1 then 0 else j + 1). split; [reflexivity|]. split; [auto|]. split; [auto|].
  destruct (Z.leb_spec (zlen big) (j + 1)); lia.
Qed.

Lemma mix_two_ok s i : words32 s -> 1 <= i < 624 -> exists s' i', mix_two (s, i) = Some (s', i') /\ words32 s' /\ 1 <= i' < 624.
Proof.
  intros H Hi. unfold mix_two. destruct (words32_get s i H) as (a & Ea & _); [lia|]. rewrite Ea. cbn [bind].
  destruct (words32_get s (i - 1) H) as (b & Eb & _); [lia|]. rewrite Eb. cbn [bind].
  match goal with |- context [put s i (Z.land ?w ones32)] =>
    destruct (words32_put s i (Z.land w ones32) H) as (s1 & E1 & H1); [lia|rewrite land_ones32; apply mod32|] end.
  rewrite E1. cbn [bind]. destruct (wrap_ok s1 (i + 1) H1) as (s2 & i2 & E2 & H2 & I2); [lia|]. eauto.
Qed.

Lemma initialize_words st seed : zlen st = 624 -> exists s, initialize st seed = Some s /\ words32 s.
Proof.
  intros L. destruct (start_exists seed) as (x & T & S0). destruct (initialize_ok st seed x L S0) as (s & E & H).
  exists s. split; [auto|]. eapply words32_holds; [exact H|]. now apply (start_word seed).
Qed.

Lemma initialize_junk st st' seed : zlen st = 624 -> zlen st' = 624 -> initialize st seed = initialize st' seed.
Proof.
  intros L L'. destruct (start_exists seed) as (x & T & S0). destruct (initialize_ok st seed x L S0) as (s & E & H).
  destruct (initialize_ok st' seed x L' S0) as (s' & E' & H'). rewrite E, E'. f_equal. eapply holds_unique; eauto.
Qed.

Lemma reload_fields s a b a' b' : reload (mkMT s a b) = reload (mkMT s a' b').
Proof. reflexivity. Qed.

Lemma seed_many_ok junk big : zlen (mt_state junk) = 624 -> big <> [] ->
  exists g x, seed_many junk big = Some g /\ twister x /\ (forall k, 0 <= k -> word32 (x k)) /\ x 0 = 2 ^ 31 /\ before g x 624.
Proof.
  intros L Ne. destruct (initialize_words _ 19650218 L) as (s & E & H). unfold seed_many. rewrite E. cbn [bind].
  assert (Lb : 0 < zlen big) by (destruct big; [congruence|rewrite zlen_cons; pose proof (zlen_nonneg big); lia]).
  destruct (fold_inv (fun _ (st : list Z * Z * Z) => let '(s, i, j) := st in words32 s /\ 1 <= i < 624 /\ 0 <= j < zlen big)
     (fun st _ => mix_one big st) 0 (Z.max mt_n (zlen big)) (s, 1, 0)) as (((s1 & i1) & j1) & E1 & H1 & I1 & _).
  { lia. }
  { split; [auto|]. lia. }
  { intros p ((s2 & i2) & j2) _ (H2 & I2 & J2). destruct (mix_one_ok big s2 i2 j2 H2 I2 J2) as (s3 & i3 & j3 & E3 & H3).
    exists (s3, i3, j3). split; [exact E3|exact H3]. }
  rewrite E1. cbn [bind].
  destruct (fold_inv (fun _ (st : list Z * Z) => words32 (fst st) /\ 1 <= snd st < 624)
     (fun st _ => mix_two st) 1 mt_n (s1, i1)) as ((s2 & i2) & E2 & H2 & _).
  { unfold mt_n. lia. }
  { split; [auto|]. cbn. lia. }
  { intros p (s2 & i2) _ (H2 & I2). destruct (mix_two_ok s2 i2 H2 I2) as (s3 & i3 & E3 & H3).
    exists (s3, i3). split; [exact E3|exact H3]. }
  rewrite E2. cbn [bind fst]. destruct (words32_put s2 0 2147483648 H2) as (s3 & E3 & H3); [lia|unfold word32; lia|].
  rewrite E3. cbn [bind]. destruct (state_exists s3) as (x & T & Hx); [apply H3|].
  assert (W : forall k, 0 <= k -> word32 (x k)).
  { apply twister_word; [auto|]. intros k Hk. destruct (words32_get s3 k H3 Hk) as (v & Ev & V). rewrite (proj2 Hx) in Ev by lia. congruence. }
  destruct (reload_ok (mkMT s3 (mt_next junk) (mt_left junk)) x 0 T W) as (s' & E' & H'); [lia|exact Hx|].
  rewrite E'. eexists. exists x. split; [reflexivity|]. split; [auto|]. split; [auto|]. split.
  - assert (G0 : get s3 0 = Some (x 0)) by (apply Hx; lia). rewrite (get_put_eq _ _ _ _ E3) in G0. injection G0 as G0. rewrite <- G0. reflexivity.
  - exists 624. cbn [mt_state mt_next mt_left]. repeat split; try lia; apply H'.
Qed.

Lemma land_twice v : Z.land (v mod 2 ^ 32) ones32 = Z.land v ones32.
Proof. rewrite !land_ones32. apply Z.mod_mod. lia. Qed.

Lemma get_map {A B} (f : A -> B) l i : get (map f l) i = option_map f (get l i).
Proof. unfold get. destruct (i <? 0); [reflexivity|]. apply nth_error_map. Qed.

Lemma mix_one_low big st : mix_one (map (fun v => v mod 2 ^ 32) big) st = mix_one big st.
Proof.
  destruct st as ((s & i) & j). unfold mix_one. rewrite get_map, BaseL.zlen_map.
  destruct (get s i); [|reflexivity]. cbn [bind]. destruct (get s (i - 1)); [|reflexivity]. cbn [bind].
  destruct (get big j); [|reflexivity]. cbn [bind option_map]. now rewrite land_twice.
Qed.

Lemma fold_ext {A S} (f g : S -> A -> option S) l s : (forall s a, f s a = g s a) -> fold_opt f l s = fold_opt g l s.
Proof. intros E. revert s; induction l as [|a l IH]; intros s; [reflexivity|]. cbn. rewrite E. destruct (g s a); [apply IH|reflexivity]. Qed.

Lemma seed_many_low junk junk' big : zlen (mt_state junk) = 624 -> zlen (mt_state junk') = 624 ->
  seed_many junk (map (fun v => v mod 2 ^ 32) big) = seed_many junk' big.
Proof.
  intros L L'. unfold seed_many. rewrite (initialize_junk _ (mt_state junk') 19650218 L L'), BaseL.zlen_map.
  destruct (initialize (mt_state junk') 19650218) as [s|]; [|reflexivity]. cbn [bind].
  rewrite (fold_ext _ (fun st _ => mix_one big st)) by (intros; apply mix_one_low). reflexivity.
Qed.

(* reading and writing the state *)
Lemma before_shape g x k : before g x k -> zlen (mt_state g) = 624 /\ mt_next g = 624 - mt_left g /\ 0 <= mt_left g <= 624.
Proof. intros (b & _ & H & N & L & _). split; [apply H|]. lia. Qed.

Lemma before_words g x k : (forall k, 0 <= k -> word32 (x k)) -> before g x k -> Forall word32 (mt_state g).
Proof. intros W (b & Hb & H & _). eapply words32_holds; [exact H|]. intros i Hi. apply W. lia. Qed.

Lemma load_save g o : zlen (mt_state g) = 624 -> mt_next g = 624 - mt_left g -> load o (save g) = Some g.
Proof.
  intros L N. unfold load, save, mt_n.
  assert (E : map_opt (get (mt_state g ++ [mt_left g])) (zrange 0 624) = Some (mt_state g)).
  { rewrite <- L. rewrite <- (get_all (mt_state g)) at 1. 
    assert (X : forall i, In i (zrange 0 (zlen (mt_state g))) -> get (mt_state g ++ [mt_left g]) i = get (mt_state g) i).
    { intros i Hi. apply in_zrange in Hi. unfold get. destruct (i <? 0); [reflexivity|]. apply nth_error_app1. unfold zlen in Hi. lia. }
    induction (zrange 0 (zlen (mt_state g))) as [|i l IH]; [reflexivity|]. cbn [map_opt]. rewrite X by now left. rewrite IH; [reflexivity|].
    intros j Hj. apply X. now right. }
  rewrite E. cbn [bind].
  assert (E2 : get (mt_state g ++ [mt_left g]) 624 = Some (mt_left g)).
  { unfold get. change (624 <? 0) with false. cbn iota. rewrite nth_error_app2 by (unfold zlen in L; lia).
    replace (Z.to_nat 624 - length (mt_state g))%nat with 0%nat by (unfold zlen in L; lia). reflexivity. }
  rewrite E2. cbn [bind]. destruct g; cbn in *. now rewrite N.
Qed.

Lemma copy_same g : mt_next g = 624 - mt_left g -> copy_of g = g.
Proof. intros N. unfold copy_of, mt_n. destruct g; cbn in *. now rewrite N. Qed.

Lemma read_ulong_ok v ws rest : 0 <= v < 2 ^ 64 -> Forall (fun b => is_space b = true) ws -> no_digit rest ->
  read_ulong (ws ++ show_int v ++ rest) = Some (v, rest).
Proof.
  intros Hv Hw Hr. destruct (show_int_nonneg v) as (F & V & N); [lia|]. unfold read_ulong.
  rewrite skip_space_app by auto.
  destruct (show_int v) as [|d ds] eqn:E; [congruence|]. cbn [app].
  assert (D : is_space d = false).
  { inversion F; subst. apply digit_bounds in H1. unfold is_space.
    destruct (Z.eqb_spec d 32); [lia|]. destruct (Z.leb_spec 9 d); destruct (Z.leb_spec d 13); try lia; reflexivity. }
  rewrite skip_space_stop by auto. change (d :: ds ++ rest) with ((d :: ds) ++ rest). rewrite span_app by auto.
  cbn iota. rewrite V. change 18446744073709551616 with (2 ^ 64). destruct (Z.ltb_spec v (2 ^ 64)); [reflexivity|lia].
Qed.

Lemma read_words_ok s ws rest : Forall word32 s -> Forall (fun b => is_space b = true) ws -> 
  exists ws', read_words (length s) (ws ++ flat_map (fun v => show_int v ++ [9]) s ++ rest) = Some (s, ws' ++ rest) /\ Forall (fun b => is_space b = true) ws'.
Proof.
  intros F. revert ws. induction F as [|v s V F IH]; intros ws Hw; cbn [length read_words flat_map].
  - exists ws. split; [reflexivity|auto].
  - rewrite <- !app_assoc. rewrite read_ulong_ok; [|unfold word32 in V; lia|auto|reflexivity]. cbn [bind].
    destruct (IH [9]) as (ws' & E & Hw'); [constructor; [reflexivity|constructor]|].
    exists ws'. rewrite E. cbn [bind]. split; [reflexivity|auto].
Qed.

Lemma read_show_mt g rest : zlen (mt_state g) = 624 -> mt_next g = 624 - mt_left g -> 0 <= mt_left g <= 624 ->
  Forall word32 (mt_state g) -> no_digit rest -> read_mt (show_mt g ++ rest) = Some g.
Proof.
  intros L N Lf W R. unfold read_mt, show_mt, mt_n. replace (Z.to_nat 624) with (length (mt_state g)) by (unfold zlen in L; lia).
  rewrite <- app_assoc. destruct (read_words_ok (mt_state g) [] (show_int (mt_left g) ++ rest) W) as (ws & E & Hw); [constructor|].
  cbn [app] in E. rewrite E. cbn [bind]. rewrite read_show; [|auto|unfold int_range; lia|auto]. cbn [bind].
  destruct g; cbn in *. now rewrite N.
Qed.

(* numbers up to n *)
Lemma spread n m u : 0 <= m -> (forall i, 0 <= i -> Z.testbit u i = true <-> exists j, i <= j < i + m /\ Z.testbit n j = true) ->
  forall i, 0 <= i -> Z.testbit (Z.lor u (Z.shiftr u m)) i = true <-> exists j, i <= j < i + (m + m) /\ Z.testbit n j = true.
Proof.
  intros M P i Hi. rewrite Z.lor_spec, Z.shiftr_spec, orb_true_iff, (P i), (P (i + m)) by lia. split.
  - intros [(j & J & B)|(j & J & B)]; exists j; (split; [lia|auto]).
  - intros (j & J & B). destruct (Z.lt_ge_cases j (i + m)); [left|right]; exists j; (split; [lia|auto]).
Qed.

Definition bits_of (n : Z) : Z := if n =? 0 then 0 else Z.log2 n + 1.

Lemma used_bits_ok n : word32 n -> used_bits n = Z.ones (bits_of n).
Proof.
  intros W. apply Z.bits_inj'. intros i Hi.
  assert (P : Z.testbit (used_bits n) i = true <-> exists j, i <= j < i + 32 /\ Z.testbit n j = true).
  { unfold used_bits. cbv zeta. revert i Hi.
    apply (spread n 16). { lia. } apply (spread n 8). { lia. } apply (spread n 4). { lia. } apply (spread n 2). { lia. }
    apply (spread n 1). { lia. } intros i Hi. split; [intros B; exists i; split; [lia|auto]|].
    intros (j & J & B). now replace i with j by lia. }
  unfold bits_of. pose proof W as W'. apply word_bits in W. destruct W as (W0 & W). destruct (Z.eqb_spec n 0) as [->|N].
  - transitivity false; [|symmetry; apply Z.bits_0]. apply not_true_is_false. intros B0.
    destruct (proj1 P B0) as (j & _ & B). now rewrite Z.bits_0 in B.
  - pose proof (Z.log2_nonneg n). assert (Z.log2 n < 32) by (apply Z.log2_lt_pow2; unfold word32 in *; lia).
    destruct (Z.lt_ge_cases i (Z.log2 n + 1)) as [L|G].
    + rewrite Z.ones_spec_low by lia. apply P. exists (Z.log2 n). split; [lia|]. apply Z.bit_log2. lia.
    + rewrite Z.ones_spec_high by lia. destruct (Z.testbit (used_bits n) i); [|reflexivity].
      destruct (proj1 P eq_refl) as (j & J & B). rewrite Z.bits_above_log2 in B by lia. discriminate.
Qed.

Lemma bits_of_pow n : word32 n -> 0 <= bits_of n <= 32 /\ n < 2 ^ bits_of n /\ (n = 0 \/ 2 ^ bits_of n <= 2 * n).
Proof.
  intros W. unfold bits_of. destruct (Z.eqb_spec n 0) as [->|N]; [lia|]. unfold word32 in W.
  pose proof (Z.log2_nonneg n). assert (Z.log2 n < 32) by (apply Z.log2_lt_pow2; lia).
  pose proof (Z.log2_spec n ltac:(lia)) as (A & B). rewrite <- Z.add_1_r in B. rewrite Z.pow_add_r in * by lia. lia.
Qed.

Lemma rand_below_ok n : word32 n -> forall fuel g l g1, draws fuel g = Some (l, g1) ->
  match first_at_most n (2 ^ bits_of n) l with
  | Some r => exists g', rand_below fuel n g = Some (Some (r, g'))
  | None => rand_below fuel n g = Some None
  end.
Proof.
  intros W. induction fuel as [|f IH]; intros g l g1 E; cbn [draws] in E.
  - injection E as <- <-. reflexivity.
  - destruct (rand_int g) as [(v & g2)|] eqn:Ev; [|discriminate]. cbn [bind] in E.
    destruct (draws f g2) as [(l2 & g3)|] eqn:E2; [|discriminate]. cbn [bind] in E. injection E as <- <-.
    cbn [first_at_most rand_below]. rewrite Ev. cbn [bind]. rewrite used_bits_ok by auto.
    pose proof (bits_of_pow n W) as (B & _). rewrite Z.land_ones by lia.
    destruct (Z.leb_spec (v mod 2 ^ bits_of n) n) as [Le|Gt]; destruct (Z.ltb_spec n (v mod 2 ^ bits_of n)); try lia.
    + eauto.
    + apply (IH g2 l2 g3 E2).
Qed.

Lemma first_range n m l r : 0 < m -> first_at_most n m l = Some r -> 0 <= r <= n.
Proof.
  intros M. induction l as [|v l IH]; [discriminate|]. cbn. destruct (Z.leb_spec (v mod m) n); [|auto].
  intros E. injection E as <-. pose proof (Z.mod_pos_bound v m M). lia.
Qed.

(* real numbers *)
Lemma real_closed_eq v : this (real_closed v) == inject_Z v / inject_Z 4294967295.
Proof. unfold real_closed, q. cbn. rewrite !Qred_correct. reflexivity. Qed.
Lemma real_half_open_eq v : this (real_half_open v) == inject_Z v / inject_Z 4294967296.
Proof. unfold real_half_open, q. cbn. rewrite !Qred_correct. reflexivity. Qed.
Lemma real_open_eq v : this (real_open v) == (inject_Z v + (1 # 2)) / inject_Z 4294967296.
Proof. unfold real_open, q. cbn. rewrite !Qred_correct. reflexivity. Qed.
Lemma real53_eq v w : this (real53 v w) == inject_Z (v / 2 ^ 5 * 2 ^ 26 + w / 2 ^ 6) / inject_Z (2 ^ 53).
Proof.
  unfold real53, q. rewrite !Z.shiftr_div_pow2 by lia. cbn. rewrite !Qred_correct. rewrite inject_Z_plus, inject_Z_mult. reflexivity.
Qed.

Lemma frac_le v m : 0 < m -> 0 <= v <= m -> (0 <= inject_Z v / inject_Z m <= 1)%Q.
Proof.
  intros M V. assert (0 < inject_Z m)%Q by (change 0%Q with (inject_Z 0); rewrite <- Zlt_Qlt; auto). split.
  - apply Qle_shift_div_l; [auto|]. rewrite Qmult_0_l. change 0%Q with (inject_Z 0). rewrite <- Zle_Qle. lia.
  - apply Qle_shift_div_r; [auto|]. rewrite Qmult_1_l. rewrite <- Zle_Qle. lia.
Qed.
Lemma frac_lt v m : 0 < m -> v < m -> (inject_Z v / inject_Z m < 1)%Q.
Proof.
  intros M V. assert (0 < inject_Z m)%Q by (change 0%Q with (inject_Z 0); rewrite <- Zlt_Qlt; auto).
  apply Qlt_shift_div_r; [auto|]. rewrite Qmult_1_l. rewrite <- Zlt_Qlt. lia.
Qed.

Lemma real_ranges v w : word32 v -> word32 w ->
  (0 <= real_closed v <= 1)%Qc /\ (0 <= real_half_open v /\ real_half_open v < 1)%Qc /\ (0 < real_open v /\ real_open v < 1)%Qc /\
  (0 <= real53 v w /\ real53 v w < 1)%Qc.
Proof.
  unfold word32. intros V W. unfold Qcle, Qclt. cbn [this]. rewrite real_closed_eq, real_half_open_eq, real_open_eq, real53_eq.
  change (this 0%Qc) with 0%Q. change (this 1%Qc) with 1%Q.
  assert (A : 0 <= v / 2 ^ 5 < 2 ^ 27) by (split; [apply Z.div_pos; lia|apply Z.div_lt_upper_bound; lia]).
  assert (B : 0 <= w / 2 ^ 6 < 2 ^ 26) by (split; [apply Z.div_pos; lia|apply Z.div_lt_upper_bound; lia]).
  split; [apply frac_le; lia|]. split; [split; [apply frac_le; lia|apply frac_lt; lia]|]. split.
  - split.
    + apply Qlt_shift_div_l; [reflexivity|]. unfold Qlt, Qplus, inject_Z. cbn [Qnum Qden Qmult]. lia.
    + apply Qlt_shift_div_r; [reflexivity|]. unfold Qlt, Qplus, inject_Z. cbn [Qnum Qden Qmult]. lia.
  - split; [apply frac_le; lia|apply frac_lt; lia].
Qed.
