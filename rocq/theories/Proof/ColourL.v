From Verif Require Import Model.Base Model.Boundary Model.Layout Model.Setup Model.Codec Model.Region Model.MPI Model.Access
  Model.Ghostswap Model.Colour Spec.Box Spec.Access Spec.Bytes Spec.Decomp Spec.Schedule
  Proof.SetupL Proof.BaseL Proof.LayoutL Proof.CodecL Proof.RegionL Proof.SerialL Proof.MPIL Proof.GhostL Proof.AccessL Proof.HaloL.
From Coq Require Import ZifyBool.
Ltac Zify.zify_post_hook ::= Z.to_euclidean_division_equations.

Definition b2z (b : bool) : Z := if b then 1 else 0.
Lemma fits_spec b v : fits b v = true <-> v mod 2 = b2z b.
Proof.
  unfold fits. destruct b; simpl.
  - rewrite negb_true_iff, Z.eqb_neq. lia.
  - rewrite Z.eqb_eq. lia.
Qed.
Lemma length_bump p v : length (bump p v) = length v.
Proof. revert v; induction p; intros [|x v]; simpl; auto. Qed.
Lemma nth_bump p v j : length p = length v -> (j < length v)%nat ->
  nth j (bump p v) 0 = if fits (nth j p false) (nth j v 0) then nth j v 0 else nth j v 0 + 1.
Proof.
  revert v j; induction p as [|b p IH]; intros [|x v] [|j]; simpl; try lia; auto. intros; apply IH; lia.
Qed.
Lemma parities_len dim s p : parities dim s = Some p -> length p = dim.
Proof.
  unfold parities. destruct dim as [|[|[|[|]]]]; try discriminate;
  repeat match goal with |- context [if ?b then _ else _] => destruct b end; intros H; inversion H; reflexivity.
Qed.

Lemma in_box2_iff lo hi x : in_box2 lo hi x <->
  length x = length lo /\ length hi = length lo /\
  forall j, (j < length lo)%nat -> nth j lo 0 <= nth j x 0 < nth j hi 0 /\ (nth j x 0 - nth j lo 0) mod 2 = 0.
Proof.
  revert hi x; induction lo as [|l lo IH]; intros [|h hi] [|c x]; simpl;
    try (split; [tauto|intros (? & ? & _); discriminate]).
  - split; [intros _; repeat split; auto; lia|tauto].
  - rewrite IH. split.
    + intros (H0 & L1 & L2 & H). split; [congruence|]. split; [congruence|].
      intros [|j] Hj; simpl; [exact H0|apply H; lia].
    + intros (L1 & L2 & H). split; [apply (H O); lia|]. split; [lia|]. split; [lia|].
      intros j Hj. apply (H (S j)); lia.
Qed.

Section Colour.
Context {T : Type} (c : codec T) (valid : T -> Prop) (np : Z) (gs : list gaxis) (G : Z -> geom) (B s : Z) (par : list bool).
Context (DC : deco np 1 gs G) (S : serialises c valid).
Context (HB : forall v, valid v -> c_size c v <= B) (B0 : 0 <= B).
Context (HI : forall r, 0 <= r < np -> cells (ge_axes (G r)) * B <= int_max).
Context (HP : parities (length gs) s = Some par).
Context (HE : forall j, (j < length gs)%nat -> glen (nth j gs (mkG 0 0)) mod 2 = 0).
Context (HW : forall r j, 0 <= r < np -> (j < length gs)%nat -> 1 <= a_x1 (nth j (ge_axes (G r)) dax) - a_x0 (nth j (ge_axes (G r)) dax)).

Notation ax r := (ge_axes (G r)).
Notation aj r j := (nth j (ge_axes (G r)) dax).
Notation gj j := (nth j gs (mkG 0 0)).
Notation up i r := (nth i (ge_n1 (G r)) 0).
Notation dn i r := (nth i (ge_n0 (G r)) 0).
Notation storage r := (in_box (map a_s0 (ax r)) (map a_s1 (ax r))).
Notation lo r := (map (fun a => a_x0 a - 1) (ax r)).
Notation hi r := (map (fun a => a_x1 a + 1) (ax r)).
Notation pj j := (b2z (nth j par false)).

(* y is in the parity class *)
Definition cls (y : list Z) : Prop := forall j, (j < length gs)%nat -> nth j y 0 mod 2 = pj j.

Definition cmin r i a b := colour_min (Some par) i (lo r) a b.
Definition cmax r i b := set_nth i (hi r) b.

Lemma Lpar : length par = length gs.
Proof using HP. eapply parities_len; eauto. Qed.
Lemma lens r : 0 <= r < np -> length (ax r) = length gs.
Proof using DC. intros Hr. apply (dc_len _ _ _ _ DC r Hr). Qed.

Lemma len_cmin r i a b : 0 <= r < np -> length (cmin r i a b) = length gs.
Proof using DC. intros Hr. unfold cmin, colour_min. now rewrite length_set, length_bump, map_length, lens. Qed.
Lemma len_cmax r i b : 0 <= r < np -> length (cmax r i b) = length gs.
Proof using DC. intros Hr. unfold cmax. now rewrite length_set, map_length, lens. Qed.

Lemma nth_cmin r i a b j : 0 <= r < np -> (i < length gs)%nat -> (j < length gs)%nat ->
  nth j (cmin r i a b) 0 = if Nat.eqb j i then (if fits (nth i par false) a then a else b)
    else if fits (nth j par false) (a_x0 (aj r j) - 1) then a_x0 (aj r j) - 1 else a_x0 (aj r j) - 1 + 1.
Proof.
  intros Hr Hi Hj. pose proof (lens r Hr) as L. pose proof Lpar as Lp. unfold cmin, colour_min.
  rewrite nth_set by (rewrite length_bump, map_length; lia).
  destruct (Nat.eqb_spec j i); [auto|]. rewrite nth_bump by (rewrite map_length; lia).
  rewrite (nth_map_eq (fun a => a_x0 a - 1) _ j 0 dax) by lia. reflexivity.
Qed.
Lemma nth_cmax r i b j : 0 <= r < np -> (i < length gs)%nat -> (j < length gs)%nat ->
  nth j (cmax r i b) 0 = if Nat.eqb j i then b else a_x1 (aj r j) + 1.
Proof.
  intros Hr Hi Hj. pose proof (lens r Hr) as L. unfold cmax.
  rewrite nth_set by (rewrite map_length; lia).
  rewrite (nth_map_eq (fun a => a_x1 a + 1) _ j 0 dax) by lia. reflexivity.
Qed.

(* membership in the region with one layer a on axis i *)
Lemma in_colour r i a y : 0 <= r < np -> (i < length gs)%nat ->
  in_rng zrange2 (cmin r i a (a + 1)) (cmax r i (a + 1)) y <->
  length y = length gs /\ cls y /\ nth i y 0 = a /\
    forall j, (j < length gs)%nat -> j <> i -> a_x0 (aj r j) - 1 <= nth j y 0 < a_x1 (aj r j) + 1.
Proof.
  intros Hr Hi. rewrite in_rng2, in_box2_iff, (len_cmin r), (len_cmax r) by auto. split.
  - intros (L & _ & H). split; [auto|].
    assert (nth i y 0 = a /\ nth i y 0 mod 2 = pj i) as [Ei Pi].
    { specialize (H i Hi). rewrite nth_cmin, nth_cmax, Nat.eqb_refl in H by auto.
      pose proof (fits_spec (nth i par false) a) as F. destruct (fits (nth i par false) a); [|lia].
      assert (a mod 2 = pj i) by (now apply F). split; [lia|]. replace (nth i y 0) with a by lia. auto. }
    assert (forall j, (j < length gs)%nat -> j <> i -> a_x0 (aj r j) - 1 <= nth j y 0 < a_x1 (aj r j) + 1 /\ nth j y 0 mod 2 = pj j) as O.
    { intros j Hj N. specialize (H j Hj). rewrite nth_cmin, nth_cmax in H by auto.
      destruct (Nat.eqb_spec j i); [contradiction|].
      pose proof (fits_spec (nth j par false) (a_x0 (aj r j) - 1)) as F.
      assert (pj j = 0 \/ pj j = 1) by (unfold b2z; destruct (nth j par false); auto).
      destruct (fits (nth j par false) (a_x0 (aj r j) - 1)).
      - assert ((a_x0 (aj r j) - 1) mod 2 = pj j) by (now apply F). lia.
      - assert ((a_x0 (aj r j) - 1) mod 2 <> pj j) by (intros E; apply F in E; discriminate). lia. }
    split; [|split; [auto|intros; now apply O]].
    intros j Hj. destruct (Nat.eq_dec j i) as [->|N]; [auto|now apply O].
  - intros (L & C & Ei & O). split; [auto|]. split; [auto|]. intros j Hj. specialize (C j Hj).
    rewrite nth_cmin, nth_cmax by auto. destruct (Nat.eqb_spec j i) as [->|N].
    + rewrite Ei in *. pose proof (fits_spec (nth i par false) a) as F. destruct (fits (nth i par false) a); [lia|].
      exfalso. assert (false = true) by (now apply F). discriminate.
    + specialize (O j Hj N). pose proof (fits_spec (nth j par false) (a_x0 (aj r j) - 1)) as F.
      assert (pj j = 0 \/ pj j = 1) by (unfold b2z; destruct (nth j par false); auto).
      destruct (fits (nth j par false) (a_x0 (aj r j) - 1)).
      * assert ((a_x0 (aj r j) - 1) mod 2 = pj j) by (now apply F). lia.
      * assert ((a_x0 (aj r j) - 1) mod 2 <> pj j) by (intros E; apply F in E; discriminate). lia.
Qed.

Lemma colour_inside r i a : 0 <= r < np -> (i < length gs)%nat ->
  a_x0 (aj r i) - 1 <= a <= a_x1 (aj r i) ->
  Box.inside (cmin r i a (a + 1)) (cmax r i (a + 1)) (map a_s0 (ax r)) (map a_s1 (ax r)).
Proof.
  intros Hr Hi Ha. pose proof (lens r Hr) as L. pose proof (dc_wf _ _ _ _ DC r Hr) as W.
  apply inside_iff. rewrite !map_length, L, (len_cmin r), (len_cmax r) by auto.
  repeat (split; [auto; fail|]). intros j Hj. rewrite nth_cmin, nth_cmax by auto.
  rewrite (nth_map_eq a_s0 _ j 0 dax) by lia. rewrite (nth_map_eq a_s1 _ j 0 dax) by lia.
  destruct (wf_nth 1 _ j W ltac:(lia)) as [W1 W2]. rewrite W1, W2.
  destruct (Nat.eqb_spec j i) as [->|N]; [destruct (fits (nth i par false) a); lia|].
  destruct (fits (nth j par false) (a_x0 (aj r j) - 1)); lia.
Qed.

Lemma fits_even b u v : (u - v) mod 2 = 0 -> fits b u = fits b v.
Proof.
  intros H. pose proof (fits_spec b u). pose proof (fits_spec b v). assert (u mod 2 = v mod 2) as E by lia.
  rewrite E in *. destruct (fits b u), (fits b v); intuition congruence.
Qed.

(* layers: up sends x1-1 to be x0-1 of the receiver; down sends x0 to be x1 of the receiver *)
Definition u_s i r := a_x1 (aj r i) - 1.
Definition u_r i r := a_x0 (aj r i) - 1.
Definition d_s i r := a_x0 (aj r i).
Definition d_r i r := a_x1 (aj r i).

Lemma dn_facts' r i j : 0 <= r < np -> (i < length gs)%nat -> (j < length gs)%nat ->
  (j <> i -> a_x0 (aj (dn i r) j) = a_x0 (aj r j) /\ a_x1 (aj (dn i r) j) = a_x1 (aj r j)) /\
  (j = i -> a_x1 (aj (dn i r) j) = a_x0 (aj r j) \/ a_x1 (aj (dn i r) j) = gx_1 (gj j) /\ a_x0 (aj r j) = gx_0 (gj j)).
Proof.
  intros Hr Hi Hj. destruct (dc_nb _ _ _ _ DC r i Hr Hi) as (_ & Hd & _ & E).
  pose proof (dc_up _ _ _ _ DC _ i j Hd Hi Hj) as U. cbv zeta in U. rewrite E in U.
  destruct U as [U1 U2]. split; intros N; [specialize (U1 N); intuition congruence|].
  specialize (U2 N). intuition congruence.
Qed.

Lemma ne_ax r : 0 <= r < np -> ax r <> [].
Proof.
  intros Hr E. pose proof (lens r Hr) as L. rewrite E in L. pose proof (dc_ne _ _ _ _ DC).
  destruct gs; [contradiction|discriminate].
Qed.

Lemma cfit_up i : (i < length gs)%nat ->
  fit np 1 (fun r => ax r) (fun r => up i r) (fun r => dn i r)
    (fun r => cmin r i (u_s i r) (u_s i r + 1)) (fun r => cmax r i (u_s i r + 1))
    (fun r => cmin r i (u_r i r) (u_r i r + 1)) (fun r => cmax r i (u_r i r + 1)).
Proof.
  intros Hi. split.
  - intros r Hr. destruct (dc_nb _ _ _ _ DC r i Hr Hi) as (? & ? & ? & ?). auto.
  - intros r Hr. split; [apply (dc_wf _ _ _ _ DC r Hr)|]. split; [now apply ne_ax|].
    destruct (dc_nb _ _ _ _ DC r i Hr Hi) as (_ & Hd & _). rewrite !lens; auto.
  - intros r Hr. destruct (dc_in _ _ _ _ DC r i Hr Hi) as (? & ? & ?). apply colour_inside; auto; unfold u_s; lia.
  - intros r Hr. destruct (dc_in _ _ _ _ DC r i Hr Hi) as (? & ? & ?). apply colour_inside; auto; unfold u_r; lia.
  - intros r Hr. destruct (dc_nb _ _ _ _ DC r i Hr Hi) as (_ & Hd & _).
    apply extents_eq; rewrite ?len_cmin, ?len_cmax; auto.
    intros j Hj. rewrite !nth_cmin, !nth_cmax by auto.
    destruct (dn_facts' r i j Hr Hi Hj) as [F1 F2].
    destruct (Nat.eqb_spec j i) as [->|N].
    + specialize (F2 eq_refl). specialize (HE i Hi). unfold glen in HE. unfold u_s, u_r.
      rewrite (fits_even _ (a_x1 (aj (dn i r) i) - 1) (a_x0 (aj r i) - 1)) by lia.
      destruct (fits _ _); lia.
    + destruct (F1 N) as [-> ->]. lia.
Qed.

Lemma cfit_dn i : (i < length gs)%nat ->
  fit np 1 (fun r => ax r) (fun r => dn i r) (fun r => up i r)
    (fun r => cmin r i (d_s i r) (d_s i r + 1)) (fun r => cmax r i (d_s i r + 1))
    (fun r => cmin r i (d_r i r) (d_r i r + 1)) (fun r => cmax r i (d_r i r + 1)).
Proof.
  intros Hi. split.
  - intros r Hr. destruct (dc_nb _ _ _ _ DC r i Hr Hi) as (? & ? & ? & ?). auto.
  - intros r Hr. split; [apply (dc_wf _ _ _ _ DC r Hr)|]. split; [now apply ne_ax|].
    destruct (dc_nb _ _ _ _ DC r i Hr Hi) as (Hd & _ & _). rewrite !lens; auto.
  - intros r Hr. destruct (dc_in _ _ _ _ DC r i Hr Hi) as (? & ? & ?). apply colour_inside; auto; unfold d_s; lia.
  - intros r Hr. destruct (dc_in _ _ _ _ DC r i Hr Hi) as (? & ? & ?). apply colour_inside; auto; unfold d_r; lia.
  - intros r Hr. destruct (dc_nb _ _ _ _ DC r i Hr Hi) as (Hd & _ & _).
    apply extents_eq; rewrite ?len_cmin, ?len_cmax; auto.
    intros j Hj. rewrite !nth_cmin, !nth_cmax by auto.
    destruct (dc_up _ _ _ _ DC r i j Hr Hi Hj) as [F1 F2].
    destruct (Nat.eqb_spec j i) as [->|N].
    + specialize (F2 eq_refl). specialize (HE i Hi). unfold glen in HE. unfold d_s, d_r.
      rewrite (fits_even _ (a_x0 (aj (up i r) i)) (a_x1 (aj r i))) by lia.
      destruct (fits _ _); lia.
    + destruct (F1 N) as [-> ->]. lia.
Qed.

Notation cheld := (held valid np G).

Section Steps.
Context {A : Type}.
Lemma cup_round d (K : Z -> list T -> proc A) i ch : (i < length gs)%nat -> cheld d -> quiet ch ->
  exists d' n ch', quiet ch' /\ cheld d' /\
    moved zrange2 np (fun r => ax r) (fun r => dn i r) (fun r => cmin r i (u_s i r) (u_s i r + 1))
      (fun r => cmin r i (u_r i r) (u_r i r + 1)) (fun r => cmax r i (u_r i r + 1)) d d' /\
    gsteps n (ranks np (fun r => colour_up c (G r) s i (d r) (K r)), ch) (ranks np (fun r => K r (d' r)), ch').
Proof.
  intros Hi Hd Q. pose proof (dc_np _ _ _ _ DC). pose proof (cfit_up i Hi) as F.
  destruct (transfer_round c zrange2 valid np 1 _ _ _ _ _ _ _ d K 100 200 ch S rng_ok2 H F Hd) as (d' & n & ch' & Q' & M & Gs); auto.
  { intros r n Hr Hn. destruct (Hd r Hr) as [L V].
    eapply Z.le_trans; [|apply HI; exact Hr].
    eapply (buffer_bound c valid zrange2 1 (ax r)); eauto using rng_ok2, ne_ax.
    - apply (dc_wf _ _ _ _ DC); auto. - apply (fit_s _ _ _ _ _ _ _ _ _ F r Hr). }
  exists d', n, ch'. split; [auto|]. split; [|split; [exact M|]].
  { unfold held. eapply (moved_valid valid zrange2 np 1); eauto using rng_ok2. lia. }
  erewrite ranks_ext; [exact Gs|]. intros r Hr. cbv beta. unfold colour_up.
  destruct (dc_len _ _ _ _ DC r Hr) as (L1 & L2 & L3 & ->).
  rewrite (nth_error_nth' (ax r) dax) by lia. cbn [lift].
  rewrite (nth_error_nth' (ge_n1 (G r)) 0) by lia. cbn [lift].
  rewrite (nth_error_nth' (ge_n0 (G r)) 0) by lia. cbn [lift]. rewrite L1, HP.
  unfold u_s, u_r, cmin, cmax. rewrite !Z.sub_add. reflexivity.
Qed.
Lemma cdn_round d (K : Z -> list T -> proc A) i ch : (i < length gs)%nat -> cheld d -> quiet ch ->
  exists d' n ch', quiet ch' /\ cheld d' /\
    moved zrange2 np (fun r => ax r) (fun r => up i r) (fun r => cmin r i (d_s i r) (d_s i r + 1))
      (fun r => cmin r i (d_r i r) (d_r i r + 1)) (fun r => cmax r i (d_r i r + 1)) d d' /\
    gsteps n (ranks np (fun r => colour_down c (G r) s i (d r) (K r)), ch) (ranks np (fun r => K r (d' r)), ch').
Proof.
  intros Hi Hd Q. pose proof (dc_np _ _ _ _ DC). pose proof (cfit_dn i Hi) as F.
  destruct (transfer_round c zrange2 valid np 1 _ _ _ _ _ _ _ d K 300 400 ch S rng_ok2 H F Hd) as (d' & n & ch' & Q' & M & Gs); auto.
  { intros r n Hr Hn. destruct (Hd r Hr) as [L V].
    eapply Z.le_trans; [|apply HI; exact Hr].
    eapply (buffer_bound c valid zrange2 1 (ax r)); eauto using rng_ok2, ne_ax.
    - apply (dc_wf _ _ _ _ DC); auto. - apply (fit_s _ _ _ _ _ _ _ _ _ F r Hr). }
  exists d', n, ch'. split; [auto|]. split; [|split; [exact M|]].
  { unfold held. eapply (moved_valid valid zrange2 np 1); eauto using rng_ok2. lia. }
  erewrite ranks_ext; [exact Gs|]. intros r Hr. cbv beta. unfold colour_down.
  destruct (dc_len _ _ _ _ DC r Hr) as (L1 & L2 & L3 & ->).
  rewrite (nth_error_nth' (ax r) dax) by lia. cbn [lift].
  rewrite (nth_error_nth' (ge_n0 (G r)) 0) by lia. cbn [lift].
  rewrite (nth_error_nth' (ge_n1 (G r)) 0) by lia. cbn [lift]. rewrite L1, HP. reflexivity.
Qed.
End Steps.

(* ---- values ---- *)
Context (D0 : Z -> list T).
Notation cgood := (good np gs G D0).

(* class cells of the storage that are local on the axes from i on are right; all others are untouched *)
Definition cinv (i : nat) d : Prop := forall r y, 0 <= r < np -> storage r y ->
  ((forall j, (i <= j < length gs)%nat -> a_x0 (aj r j) <= nth j y 0 < a_x1 (aj r j)) -> cls y -> cgood d r y) /\
  ((~ cls y \/ owns (G r) y) -> get (d r) (encode (ax r) y) = get (D0 r) (encode (ax r) y)).
Definition cinv_half (i : nat) d : Prop := forall r y, 0 <= r < np -> storage r y ->
  (nth i y 0 < a_x1 (aj r i) ->
  (forall j, (i < j < length gs)%nat -> a_x0 (aj r j) <= nth j y 0 < a_x1 (aj r j)) -> cls y -> cgood d r y) /\
  ((~ cls y \/ owns (G r) y) -> get (d r) (encode (ax r) y) = get (D0 r) (encode (ax r) y)).

Lemma cstart : cinv 0 D0.
Proof.
  intros r y Hr Hs. split; [|auto]. intros Hl _ q Hq O.
  assert (owns (G r) y) as O'.
  { apply (owns_iff np 1 gs G DC r y Hr). apply (storage_iff np 1 gs G DC r y Hr) in Hs as [L _].
    split; [auto|]. intros; apply Hl; lia. }
  rewrite (owned_wrap np 1 gs G DC r y Hr O') in *. now rewrite (dc_own _ _ _ _ DC y q r Hq Hr O O').
Qed.

Lemma wrap_shift' y y' i k : (i < length gs)%nat -> length y = length gs -> length y' = length gs ->
  (forall j, (j < length gs)%nat -> j <> i -> nth j y' 0 = nth j y 0) ->
  nth i y' 0 = nth i y 0 + k * glen (gj i) -> wrap gs y' = wrap gs y.
Proof.
  intros Hi L L' H E. apply list_eq_nth; rewrite !length_wrap by auto; [auto|]. intros j Hj.
  rewrite !(nth_wrap gs _ j (mkG 0 0)) by auto. destruct (Nat.eq_dec j i) as [->|N]; [|now rewrite H].
  rewrite E. replace (nth i y 0 + k * glen (gj i) - gx_0 (gj i)) with (nth i y 0 - gx_0 (gj i) + k * glen (gj i)) by lia.
  now rewrite Z_mod_plus_full.
Qed.

Lemma cinv_up i d d' : (i < length gs)%nat -> cinv i d ->
  moved zrange2 np (fun r => ax r) (fun r => dn i r) (fun r => cmin r i (u_s i r) (u_s i r + 1))
      (fun r => cmin r i (u_r i r) (u_r i r + 1)) (fun r => cmax r i (u_r i r + 1)) d d' -> cinv_half i d'.
Proof.
  intros Hi I M r y Hr Hs. destruct (M r Hr) as (_ & M1 & M2).
  pose proof (proj1 (storage_iff np 1 gs G DC r y Hr) Hs) as [L Sy]. split.
  - intros H1 H2 C. destruct (Z_lt_le_dec (nth i y 0) (a_x0 (aj r i))) as [Hlt|Hge].
    + assert (in_rng zrange2 (cmin r i (u_r i r) (u_r i r + 1)) (cmax r i (u_r i r + 1)) y) as Hy.
      { apply in_colour; auto. split; [auto|]. split; [auto|]. split; [specialize (Sy i Hi); unfold u_r; lia|]. intros; apply Sy; auto. }
      specialize (M1 y Hy). destruct (dc_nb _ _ _ _ DC r i Hr Hi) as (_ & Hq & _).
      set (q := dn i r) in *. cbv beta in M1.
      set (y' := translate (cmin r i (u_r i r) (u_r i r + 1)) (cmin q i (u_s i q) (u_s i q + 1)) y) in *.
      assert (length y' = length gs) as L' by (unfold y'; rewrite length_translate; rewrite !len_cmin; auto).
      destruct (dn_facts' r i i Hr Hi Hi) as [_ Fi]. fold q in Fi. specialize (Fi eq_refl).
      pose proof (HE i Hi) as Ev. unfold glen in Ev.
      assert (forall j, (j < length gs)%nat -> nth j y' 0 = if Nat.eqb j i then nth i y 0 - a_x0 (aj r i) + a_x1 (aj q i) else nth j y 0) as N'.
      { intros j Hj. unfold y'. rewrite nth_translate by (rewrite ?len_cmin; auto). rewrite !nth_cmin by auto.
        destruct (dn_facts' r i j Hr Hi Hj) as [F _]. fold q in F.
        destruct (Nat.eqb_spec j i) as [->|N].
        - unfold u_r, u_s. rewrite (fits_even _ (a_x1 (aj q i) - 1) (a_x0 (aj r i) - 1)) by lia. destruct (fits _ _); lia.
        - destruct (F N) as [-> _]. lia. }
      assert (cls y') as C'.
      { intros j Hj. rewrite N' by auto. destruct (Nat.eqb_spec j i) as [->|N]; [|auto]. specialize (C i Hi). lia. }
      assert (cgood d q y') as Gd.
      { apply I; auto.
        - apply (storage_iff np 1 gs G DC q y' Hq). split; [auto|]. intros j Hj. rewrite N' by auto.
          destruct (dn_facts' r i j Hr Hi Hj) as [F _]. fold q in F. specialize (Sy j Hj).
          pose proof (HW q j Hq Hj).
          destruct (Nat.eqb_spec j i) as [->|N]; [lia|]. destruct (F N) as [-> ->]. lia.
        - intros j Hj. rewrite N' by lia. destruct (dn_facts' r i j Hr Hi ltac:(lia)) as [F _]. fold q in F.
          specialize (Sy j ltac:(lia)). pose proof (HW q j Hq ltac:(lia)).
          destruct (Nat.eqb_spec j i) as [->|N]; [lia|]. destruct (F N) as [-> ->]. apply H2; lia. }
      assert (wrap gs y' = wrap gs y) as Ew.
      { apply (wrap_shift' y y' i (if a_x1 (aj q i) =? a_x0 (aj r i) then 0 else 1)); auto.
        - intros j Hj N. rewrite N' by auto. destruct (Nat.eqb_spec j i); [contradiction|auto].
        - rewrite N', Nat.eqb_refl by auto. unfold glen. destruct (Z.eqb_spec (a_x1 (aj q i)) (a_x0 (aj r i))); lia. }
      intros q' Hq' O. rewrite M1. rewrite <- Ew in *. apply Gd; auto.
    + assert (~ in_rng zrange2 (cmin r i (u_r i r) (u_r i r + 1)) (cmax r i (u_r i r + 1)) y) as Hy.
      { intros Hy. apply in_colour in Hy as (_ & _ & E & _); auto. unfold u_r in E. lia. }
      specialize (M2 y Hs Hy). intros q Hq O. rewrite M2. apply I; auto.
      intros j Hj. destruct (Nat.eq_dec j i) as [->|N]; [lia|apply H2; lia].
  - intros HC. rewrite M2; [apply I; auto|auto|]. intros Hy. apply in_colour in Hy as (_ & C & E & _); auto.
    destruct HC as [HC|O]; [contradiction|].
    apply (owns_iff np 1 gs G DC r y Hr) in O as [_ O]. specialize (O i Hi). unfold u_r in E. lia.
Qed.

Lemma cinv_dn i d d' : (i < length gs)%nat -> cinv_half i d ->
  moved zrange2 np (fun r => ax r) (fun r => up i r) (fun r => cmin r i (d_s i r) (d_s i r + 1))
      (fun r => cmin r i (d_r i r) (d_r i r + 1)) (fun r => cmax r i (d_r i r + 1)) d d' -> cinv (Datatypes.S i) d'.
Proof.
  intros Hi I M r y Hr Hs. destruct (M r Hr) as (_ & M1 & M2).
  pose proof (proj1 (storage_iff np 1 gs G DC r y Hr) Hs) as [L Sy]. split.
  - intros H2 C. destruct (Z_lt_le_dec (nth i y 0) (a_x1 (aj r i))) as [Hlt|Hge].
    + assert (~ in_rng zrange2 (cmin r i (d_r i r) (d_r i r + 1)) (cmax r i (d_r i r + 1)) y) as Hy.
      { intros Hy. apply in_colour in Hy as (_ & _ & E & _); auto. unfold d_r in E. lia. }
      specialize (M2 y Hs Hy). intros q Hq O. rewrite M2. apply I; auto; intros j Hj; apply H2; lia.
    + assert (in_rng zrange2 (cmin r i (d_r i r) (d_r i r + 1)) (cmax r i (d_r i r + 1)) y) as Hy.
      { apply in_colour; auto. split; [auto|]. split; [auto|]. split; [specialize (Sy i Hi); unfold d_r; lia|]. intros; apply Sy; auto. }
      specialize (M1 y Hy). destruct (dc_nb _ _ _ _ DC r i Hr Hi) as (Hq & _ & _).
      set (q := up i r) in *. cbv beta in M1.
      set (y' := translate (cmin r i (d_r i r) (d_r i r + 1)) (cmin q i (d_s i q) (d_s i q + 1)) y) in *.
      assert (length y' = length gs) as L' by (unfold y'; rewrite length_translate; rewrite !len_cmin; auto).
      destruct (dc_up _ _ _ _ DC r i i Hr Hi Hi) as [_ Fi]. fold q in Fi. specialize (Fi eq_refl).
      pose proof (HE i Hi) as Ev. unfold glen in Ev.
      assert (forall j, (j < length gs)%nat -> nth j y' 0 = if Nat.eqb j i then nth i y 0 - a_x1 (aj r i) + a_x0 (aj q i) else nth j y 0) as N'.
      { intros j Hj. unfold y'. rewrite nth_translate by (rewrite ?len_cmin; auto). rewrite !nth_cmin by auto.
        destruct (dc_up _ _ _ _ DC r i j Hr Hi Hj) as [F _]. fold q in F.
        destruct (Nat.eqb_spec j i) as [->|N].
        - unfold d_r, d_s. rewrite (fits_even _ (a_x0 (aj q i)) (a_x1 (aj r i))) by lia. destruct (fits _ _); lia.
        - destruct (F N) as [-> _]. lia. }
      assert (cls y') as C'.
      { intros j Hj. rewrite N' by auto. destruct (Nat.eqb_spec j i) as [->|N]; [|auto]. specialize (C i Hi). lia. }
      assert (cgood d q y') as Gd.
      { apply I; auto.
        - apply (storage_iff np 1 gs G DC q y' Hq). split; [auto|]. intros j Hj. rewrite N' by auto.
          destruct (dc_up _ _ _ _ DC r i j Hr Hi Hj) as [F _]. fold q in F. specialize (Sy j Hj).
          pose proof (HW q j Hq Hj).
          destruct (Nat.eqb_spec j i) as [->|N]; [lia|]. destruct (F N) as [-> ->]. lia.
        - rewrite N', Nat.eqb_refl by auto. specialize (Sy i Hi). pose proof (HW q i Hq Hi). lia.
        - intros j Hj. rewrite N' by lia. destruct (dc_up _ _ _ _ DC r i j Hr Hi ltac:(lia)) as [F _]. fold q in F.
          destruct (Nat.eqb_spec j i) as [->|N]; [lia|]. destruct (F N) as [-> ->]. apply H2; lia. }
      assert (wrap gs y' = wrap gs y) as Ew.
      { apply (wrap_shift' y y' i (if a_x0 (aj q i) =? a_x1 (aj r i) then 0 else -1)); auto.
        - intros j Hj N. rewrite N' by auto. destruct (Nat.eqb_spec j i); [contradiction|auto].
        - rewrite N', Nat.eqb_refl by auto. unfold glen. destruct (Z.eqb_spec (a_x0 (aj q i)) (a_x1 (aj r i))); lia. }
      intros q' Hq' O. rewrite M1. rewrite <- Ew in *. apply Gd; auto.
  - intros HC. rewrite M2; [apply I; auto|auto|]. intros Hy. apply in_colour in Hy as (_ & C & E & _); auto.
    destruct HC as [HC|O]; [contradiction|].
    apply (owns_iff np 1 gs G DC r y Hr) in O as [_ O]. specialize (O i Hi). unfold d_r in E. lia.
Qed.

Context {A : Type}.
Lemma caxes n i d (K : Z -> list T -> proc A) ch : (i + n = length gs)%nat -> cheld d -> quiet ch -> cinv i d ->
  exists d' k ch', quiet ch' /\ cheld d' /\ cinv (length gs) d' /\
    gsteps k (ranks np (fun r => colour_axes c (G r) s (seq i n) (d r) (K r)), ch) (ranks np (fun r => K r (d' r)), ch').
Proof.
  revert i d ch; induction n as [|n IH]; intros i d ch E Hd Q I.
  - exists d, O, ch. split; [auto|]. split; [auto|]. split; [replace (length gs) with i by lia; exact I|].
    constructor.
  - cbn [seq colour_axes].
    destruct (cup_round d (fun r d1 => colour_down c (G r) s i d1 (fun d2 => colour_axes c (G r) s (seq (Datatypes.S i) n) d2 (K r))) i ch
      ltac:(lia) Hd Q) as (d1 & n1 & c1 & Q1 & Hd1 & M1 & G1).
    destruct (cdn_round d1 (fun r d2 => colour_axes c (G r) s (seq (Datatypes.S i) n) d2 (K r)) i c1
      ltac:(lia) Hd1 Q1) as (d2 & n2 & c2 & Q2 & Hd2 & M2 & G2).
    destruct (IH (Datatypes.S i) d2 c2 ltac:(lia) Hd2 Q2) as (d3 & n3 & c3 & Q3 & Hd3 & M3 & G3).
    { eapply cinv_dn; eauto; [lia|]. eapply cinv_up; eauto. lia. }
    exists d3, (n1 + (n2 + n3))%nat, c3. split; [auto|]. split; [auto|]. split; [auto|].
    eapply gsteps_app; [exact G1|]. eapply gsteps_app; [exact G2|exact G3].
Qed.

Lemma colour_round (K : Z -> list T -> proc A) ch : cheld D0 -> quiet ch ->
  exists d' k ch', quiet ch' /\ cheld d' /\ cinv (length gs) d' /\
    gsteps k (ranks np (fun r => ghostswap_colour c (G r) s (D0 r) (K r)), ch) (ranks np (fun r => K r (d' r)), ch').
Proof.
  intros Hd Q. destruct (caxes (length gs) 0 D0 (fun r d => barrier (K r d)) ch ltac:(lia) Hd Q cstart)
    as (d' & k & c1 & Q1 & Hd1 & I & Gs).
  exists d', (1 + (k + 1))%nat, c1. split; [auto|]. split; [auto|]. split; [auto|].
  pose proof (dc_np _ _ _ _ DC). eapply gsteps_app.
  { apply gsteps_1. rewrite (ranks_ext np _ (fun r => Coll 0 [] (fun _ =>
      colour_axes c (G r) s (seq 0 (length gs)) (D0 r) (fun d => barrier (K r d))))).
    - apply (all_coll np 0 (fun _ => []) (fun r _ => colour_axes c (G r) s (seq 0 (length gs)) (D0 r) (fun d => barrier (K r d)))). lia.
    - intros r Hr. unfold ghostswap_colour. destruct (dc_len _ _ _ _ DC r Hr) as (-> & _). reflexivity. }
  eapply gsteps_app; [exact Gs|]. apply gsteps_1.
  apply (all_coll np 0 (fun _ => []) (fun r _ => K r (d' r))). lia.
Qed.
End Colour.

Lemma b2z_odd v b : v mod 2 = b2z b <-> Z.odd v = b.
Proof. rewrite Zmod_odd. destruct (Z.odd v), b; simpl; split; congruence. Qed.
Lemma cls_sub gs s y : (length gs = 2 \/ length gs = 3)%nat -> 0 <= s < 2 ^ zlen gs -> length y = length gs ->
  exists par, parities (length gs) s = Some par /\ (cls gs par y <-> of_sublattice s y).
Proof.
  intros Hd Hs Ly.
  assert (exists par, parities (length gs) s = Some par /\
    forall j, (j < length gs)%nat -> nth j par false = Z.testbit s (Z.of_nat (length gs - 1 - j))) as (par & HP & HN).
  { unfold zlen in Hs. destruct Hd as [L|L]; rewrite L in *.
    - change (2 ^ Z.of_nat 2) with 4 in Hs. assert (s = 0 \/ s = 1 \/ s = 2 \/ s = 3) as C by lia.
      repeat (destruct C as [->|C]); [..|subst s]; (eexists; split; [reflexivity|]);
        intros [|[|j]] Hj; try lia; reflexivity.
    - change (2 ^ Z.of_nat 3) with 8 in Hs.
      assert (s = 0 \/ s = 1 \/ s = 2 \/ s = 3 \/ s = 4 \/ s = 5 \/ s = 6 \/ s = 7) as C by lia.
      repeat (destruct C as [->|C]); [..|subst s]; (eexists; split; [reflexivity|]);
        intros [|[|[|j]]] Hj; try lia; reflexivity. }
  exists par. split; [auto|]. unfold cls, of_sublattice. rewrite Ly.
  split; intros H j Hj; specialize (H j Hj); rewrite HN, b2z_odd in * by auto; auto.
Qed.

Section Final.
Context {T : Type} (c : codec T) (valid : T -> Prop) (np : Z) (gs : list gaxis) (s B : Z) (D : Z -> list T).
Context (S : serialises c valid) (Hnp : 0 < np) (Hdim : (length gs = 2 \/ length gs = 3)%nat) (Hs : 0 <= s < 2 ^ zlen gs) (B0 : 0 <= B).
Context (HB : forall v, valid v -> c_size c v <= B).
Context (HD : forall r ge, 0 <= r < np -> setup_mpi np gs 1 r = Some ge ->
                zlen (D r) = cells (ge_axes ge) /\ Forall valid (D r) /\ cells (ge_axes ge) * B <= int_max).

Theorem colour_values : Forall (fun g => gx_0 g < gx_1 g /\ Z.even (gx_1 g - gx_0 g) = true) gs ->
  (forall r ge, 0 <= r < np -> setup_mpi np gs 1 r = Some ge -> Forall (fun a => a_x0 a < a_x1 a) (ge_axes ge)) ->
  exists D' f, finished np D' f /\
    inevitable (ranks np (rank_colour c np gs 1 s D), no_chans) f /\
    forall r ge y, 0 <= r < np -> setup_mpi np gs 1 r = Some ge ->
      in_box (map a_s0 (ge_axes ge)) (map a_s1 (ge_axes ge)) y ->
      (of_sublattice s y -> exists q geq v, 0 <= q < np /\ setup_mpi np gs 1 q = Some geq /\ owns geq (wrap gs y) /\
         grid_read true (ge_axes geq) (D q) (wrap gs y) = Some v /\
         grid_read true (ge_axes ge) (D' r) y = Some v) /\
      (owns ge y \/ ~ of_sublattice s y ->
         grid_read true (ge_axes ge) (D' r) y = grid_read true (ge_axes ge) (D r) y).
Proof.
  intros Hg0 Hw.
  assert (Forall (fun g => gx_0 g < gx_1 g) gs) as Hg1 by (rewrite Forall_forall in *; intros g Ig; now apply Hg0).
  assert (gok gs) as Hg by (unfold gok; rewrite Forall_forall in *; intros g Ig; specialize (Hg1 g Ig); simpl in Hg1; lia).
  assert (gs <> []) as Hne by (intros ->; destruct Hdim; discriminate).
  assert (0 <= 1) as Hgh by lia.
  destruct (cls_sub gs s (repeat 0 (length gs)) Hdim Hs (repeat_length _ _)) as (par & HP & _).
  pose proof (deco_setup np gs 1 Hnp Hne Hg Hgh) as DC.
  set (G r := match setup_mpi np gs 1 r with Some ge => ge | None => dgeom end) in *.
  assert (forall r, 0 <= r < np -> setup_mpi np gs 1 r = Some (G r)) as ES.
  { intros r Hr. destruct (setup_eq np gs 1 r Hnp Hne Hg Hr) as (p1 & _ & _ & _ & _ & E). unfold G. now rewrite E. }
  clearbody G.
  assert (forall r, 0 <= r < np -> cells (ge_axes (G r)) * B <= int_max) as HI.
  { intros r Hr. destruct (HD r _ Hr (ES r Hr)) as (_ & _ & H). exact H. }
  assert (held valid np G D) as H0.
  { intros r Hr. destruct (HD r _ Hr (ES r Hr)) as (H1 & H2 & _). auto. }
  assert (forall j, (j < length gs)%nat -> glen (nth j gs (mkG 0 0)) mod 2 = 0) as HE.
  { intros j Hj. rewrite Forall_forall in Hg0. destruct (Hg0 (nth j gs (mkG 0 0)) (nth_In _ _ Hj)) as [_ Ev].
    unfold glen. rewrite Zmod_odd, <- Z.negb_even, Ev. reflexivity. }
  assert (forall q, 0 <= q < np -> Forall (fun a => a_x0 a < a_x1 a) (ge_axes (G q))) as Fq.
  { intros q Hq. exact (Hw q _ Hq (ES q Hq)). }
  assert (forall r j, 0 <= r < np -> (j < length gs)%nat -> 1 <= a_x1 (nth j (ge_axes (G r)) dax) - a_x0 (nth j (ge_axes (G r)) dax)) as HW.
  { intros r j Hr Hj. specialize (Fq r Hr). destruct (dc_len _ _ _ _ DC r Hr) as (L & _).
    rewrite Forall_forall in Fq. specialize (Fq _ (nth_In _ dax (eq_ind_r (fun n => (j < n)%nat) Hj L))). simpl in Fq. lia. }
  destruct (colour_round c valid np gs G B s par DC S HB B0 HI HP HE HW D (fun _ => Ret) no_chans H0 quiet_empty)
    as (D' & k & c' & Q & F3 & F4 & Gs).
  destruct (conclude np (rank_colour c np gs 1 s D) D' k no_chans c' Hnp Q) as (f & F1 & F2).
  { erewrite ranks_ext; [exact Gs|]. intros r Hr. unfold rank_colour. now rewrite (ES r Hr). }
  exists D', f. split; [auto|]. split; [auto|].
  intros r ge y Hr E B1. rewrite (ES r Hr) in E. inversion E; subst ge. clear E.
  pose proof (ES r Hr) as Er.
  assert (length y = length gs) as Ly.
  { destruct (dc_len _ _ _ _ DC r Hr) as (L & _). apply in_box_length in B1 as [B1 _]. rewrite map_length in B1. lia. }
  destruct (cls_sub gs s y Hdim Hs Ly) as (par' & HP' & CS). rewrite HP in HP'. inversion HP'; subst par'. clear HP'.
  destruct (F3 r Hr) as (L' & _). destruct (HD r _ Hr Er) as (Lr & _).
  destruct (storage_read np gs 1 r (G r) (D' r) y Hnp Hne Hg Hgh Hr Er (Fq r Hr) L' B1) as [R1 R1'].
  destruct (storage_read np gs 1 r (G r) (D r) y Hnp Hne Hg Hgh Hr Er (Fq r Hr) Lr B1) as [R0 R0'].
  destruct (F4 r y Hr B1) as [V1 V2]. split.
  - intros C. apply CS in C. specialize (V1 ltac:(intros; lia) C).
    assert (in_box (map gx_0 gs) (map gx_1 gs) (wrap gs y)) as Bw.
    { apply in_box_iff. rewrite length_wrap, !map_length by auto. split; [auto|]. split; [auto|]. intros j Hj.
      rewrite (nth_map_eq gx_0 _ j 0 (mkG 0 0)), (nth_map_eq gx_1 _ j 0 (mkG 0 0)), (nth_wrap gs y j (mkG 0 0)) by auto.
      assert (gx_0 (nth j gs (mkG 0 0)) < gx_1 (nth j gs (mkG 0 0))) by (rewrite Forall_forall in Hg1; apply Hg1, nth_In; auto).
      unfold glen. pose proof (Z.mod_pos_bound (nth j y 0 - gx_0 (nth j gs (mkG 0 0))) (gx_1 (nth j gs (mkG 0 0)) - gx_0 (nth j gs (mkG 0 0)))). lia. }
    destruct (partition np gs 1 _ Hnp Hne Hg Bw) as (q & geq & Hq & Eq & O & _).
    pose proof Eq as Eq'. rewrite (ES q Hq) in Eq'. inversion Eq'; subst geq. clear Eq'.
    destruct (HD q _ Hq Eq) as (Lq & _).
    assert (in_box (map a_s0 (ge_axes (G q))) (map a_s1 (ge_axes (G q))) (wrap gs y)) as Bq.
    { eapply (local_in_storage 1); eauto. apply (dc_wf _ _ _ _ DC q Hq). }
    destruct (storage_read np gs 1 q (G q) (D q) _ Hnp Hne Hg Hgh Hq Eq (Fq q Hq) Lq Bq) as [R2 R2'].
    assert (grid_read true (ge_axes (G r)) (D' r) y = grid_read true (ge_axes (G q)) (D q) (wrap gs y)) as V.
    { rewrite R1, R2. now apply V1. }
    destruct (grid_read true (ge_axes (G r)) (D' r) y) as [v|]; [|congruence].
    exists q, (G q), v. auto.
  - intros HC. rewrite R1, R0. apply V2. destruct HC as [O|N]; [now right|left; now rewrite CS].
Qed.
End Final.
