From Verif Require Import Model.Base Model.Layout Model.Codec Model.Region Spec.Box Spec.Access Spec.Bytes
  Proof.BaseL Proof.LayoutL Proof.CodecL Proof.RegionL.
From Coq Require Import ZifyBool.
Ltac Zify.zify_post_hook ::= Z.div_mod_to_equations.

Lemma inside_len mn mx lo hi : inside mn mx lo hi ->
  length mn = length lo /\ length mx = length lo /\ length hi = length lo.
Proof.
  revert mx lo hi; induction mn as [|a mn IH]; intros [|b mx] [|l lo] [|h hi]; simpl; try tauto.
  intros (_ & _ & H). apply IH in H. lia.
Qed.
Lemma inside_box mn mx lo hi y : inside mn mx lo hi -> in_box mn mx y -> in_box lo hi y.
Proof.
  revert mx lo hi y; induction mn as [|a mn IH]; intros [|b mx] [|l lo] [|h hi] [|c y]; simpl; try tauto.
  intros (H1 & H2 & H) [B1 B2]. split; [lia|eauto].
Qed.
Lemma extents_shape mnA mxA mnB mxB :
  length mxA = length mnA -> length mnB = length mnA -> length mxB = length mnA ->
  extents mnA mxA = extents mnB mxB ->
  Forall2 (fun a b => fst a - snd a = fst b - snd b) (combine mxA mnA) (combine mxB mnB).
Proof.
  revert mxA mnB mxB; induction mnA as [|a mnA IH]; intros [|b mxA] [|c mnB] [|d mxB]; simpl; try discriminate;
    [constructor|]. intros L1 L2 L3 E. inversion E. constructor; [simpl; lia|]. apply IH; auto.
Qed.

Lemma region_round_trip_gen {T} (c : codec T) valid rng gA gB axsA axsB mnA mxA mnB mxB dataA dataB :
  rng_ok rng -> serialises c valid ->
  wf_axes gA axsA -> wf_axes gB axsB -> axsA <> [] -> length axsB = length axsA ->
  zlen dataA = cells axsA -> zlen dataB = cells axsB ->
  inside mnA mxA (map a_s0 axsA) (map a_s1 axsA) -> inside mnB mxB (map a_s0 axsB) (map a_s1 axsB) ->
  extents mnA mxA = extents mnB mxB ->
  (forall y v, in_rng rng mnA mxA y -> get dataA (encode axsA y) = Some v -> valid v) ->
  exists n, 0 <= n /\ buffer_size c rng dataA axsA mnA mxA 0 = Some n /\
    forall buf, n <= zlen buf ->
    exists buf', to_buffer c rng dataA axsA mnA mxA 0 buf 0 = Some (buf', n) /\
      zlen buf' = zlen buf /\ skipn (Z.to_nat n) buf' = skipn (Z.to_nat n) buf /\
    exists dataB', from_buffer c rng dataB axsB mnB mxB 0 buf' 0 = Some (dataB', n) /\
      zlen dataB' = zlen dataB /\
      (forall y, in_rng rng mnB mxB y ->
         get dataB' (encode axsB y) = get dataA (encode axsA (translate mnB mnA y)) /\
         get dataB' (encode axsB y) <> None) /\
      (forall y, in_box (map a_s0 axsB) (map a_s1 axsB) y -> ~ in_rng rng mnB mxB y ->
         get dataB' (encode axsB y) = get dataB (encode axsB y)).
Proof.
  intros R S WA WB Hne LB LdA LdB IA IB E V.
  pose proof (inside_len _ _ _ _ IA) as (A1 & A2 & _). pose proof (inside_len _ _ _ _ IB) as (B1 & B2 & _).
  rewrite map_length in *.
  destruct (region_copy c valid rng gA gB axsA axsB mnA mxA mnB mxB dataA S R WA WB Hne LB)
    as (n & bs & Hn & Lb & Sz & To & From); try congruence.
  { apply extents_shape; congruence. }
  { intros y Hy. eapply inside_box; eauto. eapply in_rng_box; eauto. }
  { intros y Hy. eapply inside_box; eauto. eapply in_rng_box; eauto. }
  { exact V. }
  exists n. split; [auto|]. split; [auto|]. intros buf Hb.
  destruct (split_at buf 0 n) as (p & o & q & -> & P & O); [lia..|].
  destruct p as [|? ?]; [|rewrite zlen_cons in P; pose proof (zlen_nonneg p); lia].
  change ([] ++ o ++ q) with (o ++ q) in *.
  exists (bs ++ q). split; [exact (To [] o q O)|]. split; [rewrite !zlen_app; lia|].
  split. { rewrite !skipn_app. unfold zlen in *. rewrite (skipn_all2 bs), (skipn_all2 o) by lia.
    replace (length bs) with (length o) by lia. reflexivity. }
  destruct (From [] q dataB LdB) as (d & F & Ld & G1 & G2).
  exists d. split; [exact F|]. split; [auto|]. split; [|exact G2].
  intros y Hy. split; [now apply G1|].
  destruct (get_ok d (encode axsB y)) as [v Hv]; [|congruence].
  rewrite Ld, LdB. eapply encode_bounds; eauto. eapply inside_box; eauto. eapply in_rng_box; eauto.
Qed.

Lemma region_round_trip : forall T (c : codec T) valid gA gB axsA axsB mnA mxA mnB mxB dataA dataB,
  serialises c valid ->
  wf_axes gA axsA -> wf_axes gB axsB -> axsA <> [] -> length axsB = length axsA ->
  zlen dataA = cells axsA -> zlen dataB = cells axsB ->
  inside mnA mxA (map a_s0 axsA) (map a_s1 axsA) -> inside mnB mxB (map a_s0 axsB) (map a_s1 axsB) ->
  extents mnA mxA = extents mnB mxB ->
  (forall y v, in_box mnA mxA y -> get dataA (encode axsA y) = Some v -> valid v) ->
  exists n, 0 <= n /\ buffer_size c zrange dataA axsA mnA mxA 0 = Some n /\
    forall buf, n <= zlen buf ->
    exists buf', to_buffer c zrange dataA axsA mnA mxA 0 buf 0 = Some (buf', n) /\
      zlen buf' = zlen buf /\ skipn (Z.to_nat n) buf' = skipn (Z.to_nat n) buf /\
    exists dataB', from_buffer c zrange dataB axsB mnB mxB 0 buf' 0 = Some (dataB', n) /\
      zlen dataB' = zlen dataB /\
      (forall y, in_box mnB mxB y ->
         get dataB' (encode axsB y) = get dataA (encode axsA (translate mnB mnA y)) /\
         get dataB' (encode axsB y) <> None) /\
      (forall y, in_box (map a_s0 axsB) (map a_s1 axsB) y -> ~ in_box mnB mxB y ->
         get dataB' (encode axsB y) = get dataB (encode axsB y)).
Proof.
  intros T c valid gA gB axsA axsB mnA mxA mnB mxB dataA dataB H1 H2 H3 H4 H5 H6 H7 H8 H9 H10 V.
  destruct (region_round_trip_gen c valid _ gA gB axsA axsB mnA mxA mnB mxB dataA dataB rng_ok1 H1 H2 H3 H4 H5 H6 H7 H8 H9 H10
    (fun y v Hy => V y v (proj1 (in_rng1 _ _ _) Hy))) as (n & ? & ? & H').
  exists n; split; [auto|]; split; [auto|]; intros buf Hb. destruct (H' buf Hb) as (buf' & ? & ? & ? & d & ? & ? & G1 & G2).
  exists buf'; split; [auto|]; split; [auto|]; split; [auto|]; exists d; split; [auto|]; split; [auto|].
  split; [intros y Hy; apply G1, in_rng1, Hy|intros y Hy Hn; apply G2; [auto|]; intros Hc; apply Hn, in_rng1, Hc].
Qed.

Lemma region_round_trip2 : forall T (c : codec T) valid gA gB axsA axsB mnA mxA mnB mxB dataA dataB,
  serialises c valid ->
  wf_axes gA axsA -> wf_axes gB axsB -> axsA <> [] -> length axsB = length axsA ->
  zlen dataA = cells axsA -> zlen dataB = cells axsB ->
  inside mnA mxA (map a_s0 axsA) (map a_s1 axsA) -> inside mnB mxB (map a_s0 axsB) (map a_s1 axsB) ->
  extents mnA mxA = extents mnB mxB ->
  (forall y v, in_box2 mnA mxA y -> get dataA (encode axsA y) = Some v -> valid v) ->
  exists n, 0 <= n /\ buffer_size c zrange2 dataA axsA mnA mxA 0 = Some n /\
    forall buf, n <= zlen buf ->
    exists buf', to_buffer c zrange2 dataA axsA mnA mxA 0 buf 0 = Some (buf', n) /\
      zlen buf' = zlen buf /\ skipn (Z.to_nat n) buf' = skipn (Z.to_nat n) buf /\
    exists dataB', from_buffer c zrange2 dataB axsB mnB mxB 0 buf' 0 = Some (dataB', n) /\
      zlen dataB' = zlen dataB /\
      (forall y, in_box2 mnB mxB y ->
         get dataB' (encode axsB y) = get dataA (encode axsA (translate mnB mnA y)) /\
         get dataB' (encode axsB y) <> None) /\
      (forall y, in_box (map a_s0 axsB) (map a_s1 axsB) y -> ~ in_box2 mnB mxB y ->
         get dataB' (encode axsB y) = get dataB (encode axsB y)).
Proof.
  intros T c valid gA gB axsA axsB mnA mxA mnB mxB dataA dataB H1 H2 H3 H4 H5 H6 H7 H8 H9 H10 V.
  destruct (region_round_trip_gen c valid _ gA gB axsA axsB mnA mxA mnB mxB dataA dataB rng_ok2 H1 H2 H3 H4 H5 H6 H7 H8 H9 H10
    (fun y v Hy => V y v (proj1 (in_rng2 _ _ _) Hy))) as (n & ? & ? & H').
  exists n; split; [auto|]; split; [auto|]; intros buf Hb. destruct (H' buf Hb) as (buf' & ? & ? & ? & d & ? & ? & G1 & G2).
  exists buf'; split; [auto|]; split; [auto|]; split; [auto|]; exists d; split; [auto|]; split; [auto|].
  split; [intros y Hy; apply G1, in_rng2, Hy|intros y Hy Hn; apply G2; [auto|]; intros Hc; apply Hn, in_rng2, Hc].
Qed.
