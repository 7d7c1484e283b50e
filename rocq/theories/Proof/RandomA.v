(* Seeding the generator with an array. *)
From Verif Require Import Model.Base Model.Random Spec.Random Proof.BaseL Proof.RandomL Proof.RandomF.
Local Open Scope list_scope.
Local Open Scope Z_scope.

(* the contents of place p after t rounds *)
Definition placed (u : Z -> Z) (t p : Z) : Z :=
  if (p =? 0) && (t / 623 =? 0) then u 0 else u ((if p <=? t mod 623 then t / 623 + 1 else t / 623) * 623 + p).

Lemma div623 t : 0 <= t -> t = 623 * (t / 623) + t mod 623 /\ 0 <= t mod 623 < 623 /\ 0 <= t / 623.
Proof. intros H. pose proof (Z.div_mod t 623). pose proof (Z.mod_pos_bound t 623). pose proof (Z.div_pos t 623). lia. Qed.

Lemma placed_here u t : 0 <= t -> placed u t (t mod 623 + 1) = u (t + 1).
Proof.
  intros H. destruct (div623 t H) as (E & B & C). unfold placed. destruct (Z.eqb_spec (t mod 623 + 1) 0); [lia|].
  cbn [andb]. destruct (Z.leb_spec (t mod 623 + 1) (t mod 623)); [lia|]. f_equal. lia.
Qed.
Lemma placed_before u t : 0 <= t -> placed u t (t mod 623) = if t + 1 =? 1 then u 0 else u (622 + (t + 1)).
Proof.
  intros H. destruct (div623 t H) as (E & B & C). unfold placed. destruct (Z.leb_spec (t mod 623) (t mod 623)); [|lia].
  destruct (Z.eqb_spec (t mod 623) 0) as [E0|N0]; destruct (Z.eqb_spec (t / 623) 0) as [E1|N1]; cbn [andb];
  destruct (Z.eqb_spec (t + 1) 1); try lia; try reflexivity; f_equal; lia.
Qed.

Lemma place_step u t s w : 0 <= t -> holds s (placed u t) -> w = u (624 + t) ->
  exists s' s2, put s (t mod 623 + 1) w = Some s' /\ wrap_row s' (t mod 623 + 1 + 1) = Some (s2, (t + 1) mod 623 + 1) /\ holds s2 (placed u (t + 1)).
Proof.
  intros H Hs ->. destruct (div623 t H) as (E & B & C). destruct (div623 (t + 1) ltac:(lia)) as (E' & B' & C').
  destruct (holds_put s _ (t mod 623 + 1) (u (624 + t)) Hs ltac:(lia)) as (s' & E1 & H1). exists s'. unfold wrap_row, mt_n.
  destruct (Z.leb_spec 624 (t mod 623 + 1 + 1)) as [G|G].
  - assert (t mod 623 = 622) as R by lia. assert ((t + 1) mod 623 = 0 /\ (t + 1) / 623 = t / 623 + 1) as [R' Q] by lia.
    rewrite (proj2 H1) by lia. cbn [bind]. destruct (Z.eqb_spec (624 - 1) (t mod 623 + 1)); [|lia].
    destruct (holds_put s' _ 0 (u (624 + t)) H1 ltac:(lia)) as (s2 & E2 & H2). rewrite E2. cbn [bind]. exists s2. split; [auto|].
    split; [do 2 f_equal; lia|]. eapply holds_ext; [|exact H2]. intros i Hi. cbn beta. unfold placed. rewrite R', Q, R.
    destruct (Z.eqb_spec i 0) as [->|N].
    + destruct (Z.eqb_spec (t / 623 + 1) 0); [lia|]. cbn [andb Z.leb Z.compare]. f_equal. lia.
    + destruct (Z.leb_spec i 0); [lia|]. cbn [andb]. destruct (Z.eqb_spec i (622 + 1)) as [->|N2]; [f_equal; lia|].
      destruct (Z.leb_spec i 622); [|lia]. reflexivity.
  - assert ((t + 1) mod 623 = t mod 623 + 1 /\ (t + 1) / 623 = t / 623) as [R' Q] by lia. exists s'. split; [auto|].
    split; [do 2 f_equal; lia|]. eapply holds_ext; [|exact H1]. intros i Hi. cbn beta. unfold placed. rewrite R', Q.
    destruct (Z.eqb_spec i (t mod 623 + 1)) as [->|N].
    + destruct (Z.eqb_spec (t mod 623 + 1) 0); [lia|]. cbn [andb]. destruct (Z.leb_spec (t mod 623 + 1) (t mod 623 + 1)); [|lia]. f_equal. lia.
    + destruct (Z.eqb_spec i 0) as [->|N0]; cbn [andb].
      * destruct (t / 623 =? 0); [reflexivity|]. destruct (Z.leb_spec 0 (t mod 623)), (Z.leb_spec 0 (t mod 623 + 1)); try lia; reflexivity.
      * destruct (Z.leb_spec i (t mod 623)), (Z.leb_spec i (t mod 623 + 1)); try lia; reflexivity.
Qed.

Lemma lxor_mod a b n : 0 <= n -> Z.lxor a b mod 2 ^ n = Z.lxor (a mod 2 ^ n) (b mod 2 ^ n).
Proof.
  intros H. rewrite <- !Z.land_ones by lia. apply Z.bits_inj'. intros i Hi. rewrite Z.lxor_spec, !Z.land_spec, Z.lxor_spec. 
  destruct (Z.testbit a i), (Z.testbit b i), (Z.testbit (Z.ones n) i); reflexivity.
Qed.
Lemma lxor_u64 a b : Z.lxor a (u64 b) mod 2 ^ 32 = Z.lxor a b mod 2 ^ 32.
Proof. rewrite !lxor_mod, u64_mod by lia. reflexivity. Qed.

Lemma mixed_word a b v j : Z.land (u64 (Z.lxor a (u64 (Z.lxor b (Z.shiftr b 30) * 1664525)) + u64 (Z.land v ones32 + j))) ones32
  = (Z.lxor a (scrambled b * 1664525) + v + j) mod 2 ^ 32.
Proof.
  rewrite land_ones32, u64_mod, Zplus_mod, u64_mod, lxor_u64, <- Zplus_mod, land_ones32. unfold scrambled. rewrite Z.shiftr_div_pow2 by lia.
  rewrite <- Z.add_assoc, (Zplus_mod _ (v mod 2 ^ 32 + j)), (Zplus_mod (v mod 2 ^ 32)), Z.mod_mod, <- (Zplus_mod v j), <- Zplus_mod by lia. reflexivity.
Qed.
Lemma remixed_word a b i : Z.land (u64 (Z.lxor a (u64 (Z.lxor b (Z.shiftr b 30) * 1566083941)) - i)) ones32
  = (Z.lxor a (scrambled b * 1566083941) - i) mod 2 ^ 32.
Proof.
  rewrite land_ones32, u64_mod, Zminus_mod, lxor_u64, <- Zminus_mod. unfold scrambled. rewrite Z.shiftr_div_pow2 by lia. reflexivity.
Qed.

Lemma seed_array_ok junk big x : zlen (mt_state junk) = 624 -> big <> [] -> twister x -> array_start big x ->
  exists g, seed_many junk big = Some g /\ before g x 624.
Proof.
  intros L Ne T (X0 & u & (U0 & U1 & U2) & X1).
  assert (Lb : 0 < zlen big) by (destruct big; [congruence|rewrite zlen_cons; pose proof (zlen_nonneg big); lia]).
  destruct (initialize_ok _ 19650218 u L U0) as (s & E & H). unfold seed_many. rewrite E. cbn [bind].
  set (N := rounds big) in *. assert (624 <= N) as HN by (unfold N, rounds; lia).
  change (Z.max mt_n (zlen big)) with N.
  destruct (fold_inv (fun t (st : list Z * Z * Z) => let '(s, i, j) := st in holds s (placed u t) /\ i = t mod 623 + 1 /\ j = t mod zlen big)
     (fun st _ => mix_one big st) 0 N (s, 1, 0)) as (((s1 & i1) & j1) & E1 & H1 & I1 & _).
  { lia. }
  { split; [|split; [reflexivity|rewrite Z.mod_0_l; lia]]. eapply holds_ext; [|exact H]. intros i Hi. unfold placed. cbn [Z.div Z.modulo].
    change (0 / 623) with 0. change (0 mod 623) with 0. cbn [Z.eqb]. destruct (Z.eqb_spec i 0) as [->|Ni]; [reflexivity|]. cbn [andb]. destruct (Z.leb_spec i 0); [lia|]. reflexivity. }
  { intros t ((s2 & i2) & j2) Ht (H2 & -> & ->). unfold mix_one.
    destruct (div623 t ltac:(lia)) as (Et & Bt & Ct). pose proof (Z.mod_pos_bound t (zlen big) Lb) as Bj.
    rewrite !(proj2 H2) by lia. cbn [bind]. destruct (get_ok big (t mod zlen big) ltac:(lia)) as (v & Ev). rewrite Ev. cbn [bind]. cbv zeta. rewrite mixed_word.
    rewrite placed_here by lia. replace (t mod 623 + 1 - 1) with (t mod 623) by lia. rewrite placed_before by lia.
    destruct (place_step u t s2 (u (624 + t)) ltac:(lia) H2 eq_refl) as (s3 & s4 & E3 & E4 & H4).
    specialize (U1 (t + 1) v ltac:(lia)). replace (t + 1 - 1) with t in U1 by lia. specialize (U1 Ev). rewrite <- U1.
    replace (623 + (t + 1)) with (624 + t) by lia. rewrite E3. cbn [bind]. rewrite E4. cbn [bind fst snd].
    eexists. split; [reflexivity|]. split; [exact H4|]. split; [reflexivity|].
    destruct (Z.leb_spec (zlen big) (t mod zlen big + 1)) as [G|G].
    - symmetry. replace (t + 1) with ((t / zlen big + 1) * zlen big) by (pose proof (Z.div_mod t (zlen big)); lia). apply Z.mod_mul. lia.
    - symmetry. replace (t + 1) with (t mod zlen big + 1 + t / zlen big * zlen big) by (pose proof (Z.div_mod t (zlen big)); lia). rewrite Z_mod_plus_full. apply Z.mod_small. lia. }
  rewrite E1. cbn [bind].
  destruct (fold_inv (fun t (st : list Z * Z) => holds (fst st) (placed u (N + t - 1)) /\ snd st = (N + t - 1) mod 623 + 1)
     (fun st _ => mix_two st) 1 mt_n (s1, i1)) as ((s2 & i2) & E2 & H2 & _).
  { unfold mt_n. lia. }
  { cbn [fst snd]. replace (N + 1 - 1) with N by lia. auto. }
  { unfold mt_n. intros t0 (s2 & i2) Ht (H2 & Ei). cbn [fst snd] in *. subst i2. set (t := N + t0 - 1) in *. unfold mix_two.
    destruct (div623 t ltac:(lia)) as (Et & Bt & Ct). rewrite !(proj2 H2) by lia. cbn [bind]. cbv zeta. rewrite remixed_word.
    rewrite placed_here by lia. replace (t mod 623 + 1 - 1) with (t mod 623) by lia. rewrite placed_before by lia. destruct (Z.eqb_spec (t + 1) 1); [lia|].
    destruct (place_step u t s2 (u (624 + t)) ltac:(lia) H2 eq_refl) as (s3 & s4 & E3 & E4 & H4).
    specialize (U2 (t + 1) ltac:(lia)). replace (t + 1 - 1) with t in U2 by lia. rewrite (Z.add_comm 1 (t mod 623)) in U2. rewrite <- U2.
    replace (623 + (t + 1)) with (624 + t) by lia. rewrite E3. cbn [bind]. rewrite E4.
    eexists. split; [reflexivity|]. cbn [fst snd]. replace (N + (t0 + 1) - 1) with (t + 1) by lia. auto. }
  rewrite E2. cbn [bind fst snd] in *. change mt_n with 624 in H2. destruct (holds_put s2 _ 0 2147483648 H2 ltac:(lia)) as (s3 & E3 & H3).
  rewrite E3. cbn [bind].
  assert (holds s3 x) as Hx.
  { eapply holds_ext; [|exact H3]. intros i Hi. cbn beta. destruct (Z.eqb_spec i 0) as [->|Ni]; [symmetry; exact X0|].
    set (t := N + 624 - 1). destruct (div623 t ltac:(lia)) as (Et & Bt & Ct). unfold placed. destruct (Z.eqb_spec i 0); [lia|]. cbn [andb].
    set (q := if i <=? t mod 623 then t / 623 + 1 else t / 623). symmetry. fold t. 
    assert (exists k, N < k <= N + 623 /\ q * 623 + i = 623 + k /\ k = 623 * (q - 1) + i) as (k & Kb & K1 & K2).
    { exists (q * 623 + i - 623). unfold q. destruct (Z.leb_spec i (t mod 623)); lia. }
    rewrite K1, <- X1 by lia. f_equal. rewrite K2. replace (623 * (q - 1) + i - 1) with (i - 1 + (q - 1) * 623) by lia. rewrite Z_mod_plus_full, Z.mod_small by lia. lia. }
  assert (W : forall k, 0 <= k -> word32 (x k)).
  { apply twister_word; [auto|]. intros k Hk. destruct (Z.eq_dec k 0) as [->|Nk]; [rewrite X0; unfold word32; lia|].
    assert (exists k', N < k' <= N + 623 /\ 1 + (k' - 1) mod 623 = k) as (k' & B & <-).
    { exists (N + 1 + (k - 1 - N) mod 623). pose proof (Z.mod_pos_bound (k - 1 - N) 623). split; [lia|].
      replace (N + 1 + (k - 1 - N) mod 623 - 1) with ((k - 1 - N) mod 623 + N) by lia. rewrite Zplus_mod_idemp_l. replace (k - 1 - N + N) with (k - 1) by lia. rewrite Z.mod_small; lia. }
    rewrite X1, U2 by lia. apply mod32. }
  destruct (reload_ok (mkMT s3 (mt_next junk) (mt_left junk)) x 0 T W) as (s' & E' & H'); [lia|exact Hx|].
  rewrite E'. eexists. split; [reflexivity|]. exists 624. cbn [mt_state mt_next mt_left]. repeat split; try lia; apply H'.
Qed.

Lemma array_start_word big x : twister x -> array_start big x -> forall k, 0 <= k -> word32 (x k).
Proof.
  intros T (X0 & u & (U0 & U1 & U2) & X1). set (N := rounds big) in *. apply twister_word; [auto|]. intros k Hk. destruct (Z.eq_dec k 0) as [->|Nk]; [rewrite X0; unfold word32; lia|].
  assert (exists k', N < k' <= N + 623 /\ 1 + (k' - 1) mod 623 = k) as (k' & B & <-).
  { exists (N + 1 + (k - 1 - N) mod 623). pose proof (Z.mod_pos_bound (k - 1 - N) 623). split; [lia|].
    replace (N + 1 + (k - 1 - N) mod 623 - 1) with ((k - 1 - N) mod 623 + N) by lia. rewrite Zplus_mod_idemp_l. replace (k - 1 - N + N) with (k - 1) by lia. rewrite Z.mod_small; lia. }
  rewrite X1, U2 by lia. apply mod32.
Qed.

Lemma array_exists big : big <> [] -> exists x, twister x /\ array_start big x.
Proof.
  intros Ne. assert (Lb : 0 < zlen big) by (destruct big; [congruence|rewrite zlen_cons; pose proof (zlen_nonneg big); lia]).
  set (N := rounds big). assert (624 <= N) as HN by (unfold N, rounds; lia).
  set (at_ := fun (l : list Z) i => nth (Z.to_nat i) l 0).
  destruct (course (fun l => let k := zlen l in
    if k =? 0 then 19650218 mod 2 ^ 32 else if k <? 624 then (1812433253 * Z.lxor (at_ l (k - 1)) (at_ l (k - 1) / 2 ^ 30) + k) mod 2 ^ 32 else
    let j := k - 623 in
    if j <=? N then (Z.lxor (at_ l j) (scrambled (if j =? 1 then at_ l 0 else at_ l (622 + j)) * 1664525) + at_ big ((j - 1) mod zlen big) + (j - 1) mod zlen big) mod 2 ^ 32
    else (Z.lxor (at_ l j) (scrambled (at_ l (622 + j)) * 1566083941) - (1 + (j - 1) mod 623)) mod 2 ^ 32)) as (u & X).
  cbv zeta in X.
  assert (L : forall k, 0 <= k -> zlen (map u (zrange 0 k)) = k) by (intros k Hk; rewrite BaseL.zlen_map, zlen_zrange; lia).
  assert (array_terms big u) as U.
  { split; [|split].
    - split; [rewrite (X 0) by lia; reflexivity|]. intros k Hk. rewrite (X k) by lia. rewrite L by lia.
      destruct (Z.eqb_spec k 0); [lia|]. destruct (Z.ltb_spec k 624); [|lia]. unfold at_. rewrite nth_map_range by lia. reflexivity.
    - intros k v Hk Hv. rewrite (X (623 + k)) by lia. rewrite L by lia. destruct (Z.eqb_spec (623 + k) 0); [lia|]. destruct (Z.ltb_spec (623 + k) 624); [lia|].
      replace (623 + k - 623) with k by lia. fold N in Hk. destruct (Z.leb_spec k N); [|lia].
      replace (at_ big ((k - 1) mod zlen big)) with v.
      2:{ unfold at_. unfold get in Hv. destruct (Z.ltb_spec ((k - 1) mod zlen big) 0); [discriminate|]. symmetry. now apply nth_error_nth. }
      unfold at_. destruct (Z.eqb_spec k 1); rewrite !nth_map_range by lia; reflexivity.
    - intros k Hk. fold N in Hk. rewrite (X (623 + k)) by lia. rewrite L by lia. destruct (Z.eqb_spec (623 + k) 0); [lia|]. destruct (Z.ltb_spec (623 + k) 624); [lia|].
      replace (623 + k - 623) with k by lia. destruct (Z.leb_spec k N); [lia|]. unfold at_. rewrite !nth_map_range by lia. reflexivity. }
  destruct (twister_exists (fun _ => 2 ^ 31) (fun k _ => u (623 + (N + 1 + (k - 1 - N) mod 623)))) as (x & T & A & B).
  exists x. split; [auto|]. split; [auto|]. exists u. split; [auto|]. fold N. intros k Hk.
  pose proof (Z.mod_pos_bound (k - 1) 623). rewrite B by lia. f_equal. f_equal.
  replace (1 + (k - 1) mod 623 - 1 - N) with ((k - 1) mod 623 - N) by lia. rewrite Zminus_mod_idemp_l.
  rewrite (Z.mod_small (k - 1 - N)) by lia. lia.
Qed.
