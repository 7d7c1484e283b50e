(* C65: the random number generator. *)
From Coq Require Import QArith.QArith QArith.Qcanon.
From Verif Require Import Model.Base Model.Text Model.File Model.Random Spec.Bytes Spec.Random Proof.BaseL Proof.TextL Proof.RandomL Proof.RandomF Proof.RandomA.
Local Open Scope list_scope.
Local Open Scope Z_scope.

(* a generator seeded with a number or a non-empty array, wherever the object was made, after some draws *)
Definition in_use (g : mtrand) : Prop :=
  exists junk g0 n l, zlen (mt_state junk) = 624 /\
    ((exists seed, seed_one junk seed = Some g0) \/ (exists big, big <> [] /\ seed_many junk big = Some g0)) /\
    draws n g0 = Some (l, g).

Lemma in_use_before g : in_use g -> exists x k, twister x /\ (forall k, 0 <= k -> word32 (x k)) /\ 0 <= k /\ before g x k.
Proof.
  intros (junk & g0 & n & l & L & [(seed & E)|(big & Ne & E)] & D).
  - destruct (start_exists seed) as (x & T & S0). destruct (seed_one_ok junk seed x L T S0) as (g1 & E1 & B).
    rewrite E in E1. injection E1 as <-. pose proof (twister_word x T (start_word seed x S0)) as W.
    destruct (draws_ok x T W n g0 624 B) as (g2 & E2 & B2). rewrite D in E2. injection E2 as _ <-.
    exists x, (624 + Z.of_nat n). repeat split; auto; try lia; apply W; auto.
  - destruct (seed_many_ok junk big L Ne) as (g1 & x & E1 & T & W & _ & B). rewrite E in E1. injection E1 as <-.
    destruct (draws_ok x T W n g0 624 B) as (g2 & E2 & B2). rewrite D in E2. injection E2 as _ <-.
    exists x, (624 + Z.of_nat n). repeat split; auto; try lia; apply W; auto.
Qed.

(* Seeded with a number, the generator delivers the tempered terms 624, 625, ... of the sequence that the number starts,
   however many are drawn and whatever the memory of the object held. *)
Theorem C65_sequence : forall junk seed x n, zlen (mt_state junk) = 624 -> twister x -> start seed x ->
  exists g g', seed_one junk seed = Some g /\
    draws n g = Some (map (fun k => tempered (x k)) (zrange 624 (624 + Z.of_nat n)), g').
Proof.
  intros junk seed x n L T S0. destruct (seed_one_ok junk seed x L T S0) as (g & E & B).
  destruct (draws_ok x T (twister_word x T (start_word seed x S0)) n g 624 B) as (g' & E' & _). eauto.
Qed.
Print Assumptions C65_sequence.

(* every number starts a sequence *)
Theorem C65_sequence_exists : forall seed, exists x, twister x /\ start seed x.
Proof. exact start_exists. Qed.
Print Assumptions C65_sequence_exists.

(* the published first and 10000th outputs for the seed 5489 *)
Example C65_case :
  (do g <- seed_one (raw_object (repeat 7 624)) 5489; do r <- draws 10000 g; do a <- get (fst r) 0; do b <- get (fst r) 9999; Some (a, b))
  = Some (3499211612, 4123659995).
Proof. vm_compute. reflexivity. Qed.

(* Seeded with a non-empty array, it delivers the published sequence for that array; only the low 32 bits of the elements count,
   and the previous contents of the object do not. *)
Theorem C65_array_seed : forall junk big x n, zlen (mt_state junk) = 624 -> big <> [] -> twister x -> array_start big x ->
  exists g g', seed_many junk big = Some g /\
    draws n g = Some (map (fun k => tempered (x k)) (zrange 624 (624 + Z.of_nat n)), g').
Proof.
  intros junk big x n L Ne T S0. destruct (seed_array_ok junk big x L Ne T S0) as (g & E & B).
  destruct (draws_ok x T (array_start_word big x T S0) n g 624 B) as (g' & E' & _). eauto.
Qed.
Print Assumptions C65_array_seed.

(* every array starts a sequence; its first term is 2^31, so it is not the zero sequence *)
Theorem C65_array_exists : forall big, big <> [] -> exists x, twister x /\ array_start big x /\ x 0 = 2 ^ 31.
Proof. intros big Ne. destruct (array_exists big Ne) as (x & T & S0). exists x. split; [auto|]. split; [auto|]. apply S0. Qed.
Print Assumptions C65_array_exists.

Theorem C65_array_low_bits : forall junk junk' big big', zlen (mt_state junk) = 624 -> zlen (mt_state junk') = 624 ->
  map (fun v => v mod 2 ^ 32) big = map (fun v => v mod 2 ^ 32) big' -> seed_many junk big = seed_many junk' big'.
Proof.
  intros junk junk' big big' L L' E. rewrite <- (seed_many_low junk junk big L L), E. now apply seed_many_low.
Qed.
Print Assumptions C65_array_low_bits.

(* the published first outputs for the array 0x123, 0x234, 0x345, 0x456 *)
Example C65_array_case :
  (do g <- seed_many (raw_object (repeat 7 624)) [0x123; 0x234; 0x345; 0x456]; do r <- draws 3 g; Some (fst r))
  = Some [1067595299; 955945823; 477289528].
Proof. vm_compute. reflexivity. Qed.

(* the empty array is read out of its bounds *)
Theorem C65_empty_array_refuted : forall junk, zlen (mt_state junk) = 624 -> seed_many junk [] = None.
Proof.
  intros junk L. unfold seed_many. destruct (initialize_words _ 19650218 L) as (s & E & H). rewrite E. cbn [bind].
  change (Z.max mt_n (zlen (@nil Z))) with 624. rewrite zrange_cons by lia. cbn [fold_opt].
  replace (mix_one [] (s, 1, 0)) with (@None (list Z * Z * Z)); [reflexivity|].
  unfold mix_one. destruct (get s 1); [|reflexivity]. cbn [bind]. destruct (get s (1 - 1)); reflexivity.
Qed.
Print Assumptions C65_empty_array_refuted.

(* A generator in use delivers a number of 32 bits whenever asked, and different terms of the sequence give different
   numbers. *)
Theorem C65_output : forall g, in_use g -> exists v g', rand_int g = Some (v, g') /\ word32 v /\ in_use g'.
Proof.
  intros g U. destruct (in_use_before g U) as (x & k & T & W & K & B).
  destruct (rand_int_ok g x k T W B) as (g' & E & B'). exists (tempered (x k)), g'. split; [exact E|]. split; [apply tempered_word, W, K|].
  destruct U as (junk & g0 & n & l & L & Sd & D). exists junk, g0, (S n), (l ++ [tempered (x k)]). split; [auto|]. split; [auto|].
  clear - D E. revert g0 l D. induction n as [|n IH]; intros g0 l D; cbn [draws] in D.
  - injection D as <- <-. cbn. rewrite E. reflexivity.
  - destruct (rand_int g0) as [(v & g2)|] eqn:Ev; [|discriminate]. cbn [bind] in D.
    destruct (draws n g2) as [(l2 & g3)|] eqn:E2; [|discriminate]. cbn [bind] in D. injection D as <- ->.
    change (draws (S (S n)) g0) with (do (v, g) <- rand_int g0; do (l, g) <- draws (S n) g; Some (v :: l, g)).
    rewrite Ev. cbn [bind]. rewrite (IH g2 l2 E2). reflexivity.
Qed.
Print Assumptions C65_output.

Theorem C65_tempering_injective : forall a b, word32 a -> word32 b -> tempered a = tempered b -> a = b.
Proof. exact tempered_inj. Qed.
Print Assumptions C65_tempering_injective.

(* randInt(n) returns a number from 0 to n: the first of the coming 32-bit numbers that is at most n modulo 2^k, the least
   power of two above n, taken modulo 2^k. *)
Theorem C65_at_most : forall n, word32 n -> exists k, 0 <= k <= 32 /\ n < 2 ^ k /\ (n = 0 /\ k = 0 \/ 2 ^ k <= 2 * n) /\
  forall g fuel, in_use g -> exists l g1, draws fuel g = Some (l, g1) /\
    match first_at_most n (2 ^ k) l with
    | Some r => 0 <= r <= n /\ exists g', rand_below fuel n g = Some (Some (r, g'))
    | None => rand_below fuel n g = Some None
    end.
Proof.
  intros n Wn. exists (bits_of n). pose proof (bits_of_pow n Wn) as (A & B & C). split; [auto|]. split; [auto|]. split.
  { unfold bits_of in *. destruct (Z.eqb_spec n 0); lia. }
  intros g fuel U. destruct (in_use_before g U) as (x & k & T & W & K & Bf).
  destruct (draws_ok x T W fuel g k Bf) as (g1 & E & _). eexists _, g1. split; [exact E|].
  pose proof (rand_below_ok n Wn fuel g _ g1 E) as R. destruct (first_at_most n (2 ^ bits_of n) _) as [r|] eqn:F; [|exact R].
  split; [|exact R]. eapply first_range; [|exact F]. apply Z.pow_pos_nonneg; lia.
Qed.
Print Assumptions C65_at_most.

(* it favours no value: each r up to n comes from exactly 2^(32-k) of the 32-bit numbers *)
Theorem C65_unbiased : forall n k r, 0 <= k <= 32 -> n < 2 ^ k -> 0 <= r <= n -> forall v, word32 v ->
  first_at_most n (2 ^ k) [v] = Some r <-> exists t, 0 <= t < 2 ^ (32 - k) /\ v = r + 2 ^ k * t.
Proof.
  intros n k r K N R v V. unfold word32 in V. cbn [first_at_most].
  assert (P : 0 < 2 ^ k) by (apply Z.pow_pos_nonneg; lia).
  assert (Q : 2 ^ 32 = 2 ^ k * 2 ^ (32 - k)) by (rewrite <- Z.pow_add_r by lia; f_equal; lia).
  split.
  - destruct (Z.leb_spec (v mod 2 ^ k) n); [|discriminate]. intros E. injection E as <-. exists (v / 2 ^ k).
    pose proof (Z.div_mod v (2 ^ k)). split; [|lia]. split; [apply Z.div_pos; lia|]. apply Z.div_lt_upper_bound; lia.
  - intros (t & Ht & ->). rewrite (Z.mul_comm (2 ^ k)), Z_mod_plus_full, Z.mod_small by lia.
    destruct (Z.leb_spec r n); [reflexivity|lia].
Qed.
Print Assumptions C65_unbiased.

(* the real numbers lie in [0,1], [0,1), (0,1) and [0,1) *)
Theorem C65_reals : forall v w, word32 v -> word32 w ->
  (0 <= real_closed v <= 1)%Qc /\ (0 <= real_half_open v /\ real_half_open v < 1)%Qc /\ (0 < real_open v /\ real_open v < 1)%Qc /\
  (0 <= real53 v w /\ real53 v w < 1)%Qc.
Proof. exact real_ranges. Qed.
Print Assumptions C65_reals.

(* A saved state, a copy, and the text of a generator all give back the generator, so the sequence goes on where it was;
   the text may be followed by anything but a digit. *)
Theorem C65_save_restore : forall g o rest, in_use g -> no_digit rest ->
  load o (save g) = Some g /\ copy_of g = g /\ read_mt (show_mt g ++ rest) = Some g.
Proof.
  intros g o rest U R. destruct (in_use_before g U) as (x & k & T & W & K & B).
  pose proof (before_shape g x k B) as (L & N & Lf). pose proof (before_words g x k W B) as Ww.
  split; [now apply load_save|]. split; [now apply copy_same|]. now apply read_show_mt.
Qed.
Print Assumptions C65_save_restore.

Example C65_in_use : exists g, in_use g /\ no_digit [10].
Proof.
  destruct (start_exists 5489) as (x & T & S0).
  destruct (seed_one_ok (raw_object (repeat 0 624)) 5489 x) as (g & E & _); [reflexivity|auto|auto|].
  exists g. split; [|reflexivity]. exists (raw_object (repeat 0 624)), g, 0%nat, []. split; [reflexivity|]. split; [left; exists 5489; exact E|reflexivity].
Qed.
