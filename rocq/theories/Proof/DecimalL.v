(* Lemmas for C118. *)
From Coq Require Import String.
From Verif Require Import Model.Base Model.Text Model.Ghostswap Model.Driver Spec.Bytes Spec.Decimal Proof.BaseL Proof.TextL.
Local Open Scope list_scope.
Local Open Scope Z_scope.

Lemma digit_is b : is_digit b = true <-> digit b.
Proof. unfold is_digit, digit. now rewrite andb_true_iff, !Z.leb_le. Qed.
Lemma digits_are l : Forall (fun b => is_digit b = true) l <-> Forall digit l.
Proof. rewrite !Forall_forall. split; intros H b Hb; now apply digit_is, H. Qed.
Lemma value_places l : digits_val l = place_value l.
Proof.
  assert (forall l a, fold_left (fun v d => 10 * v + (d - 48)) l a = a * 10 ^ zlen l + place_value l) as X.
  { clear l. induction l as [|b l IH]; intros a; [cbn [fold_left place_value]; unfold zlen; cbn [length Z.of_nat]; rewrite Z.pow_0_r; lia|]. cbn [fold_left place_value]. unfold byte in *. rewrite IH. rewrite (zlen_cons b l). rewrite Z.pow_add_r by (pose proof (zlen_nonneg l); lia). rewrite Z.pow_1_r. ring. }
  unfold digits_val. rewrite X. lia.
Qed.
Lemma place_bound l : Forall digit l -> 0 <= place_value l < 10 ^ zlen l.
Proof.
  induction 1 as [|b l Hb F IH]; [cbn [place_value]; unfold zlen; cbn [length Z.of_nat]; rewrite Z.pow_0_r; lia|]. cbn [place_value]. unfold byte in *. rewrite (zlen_cons b l). rewrite Z.pow_add_r, Z.pow_1_r by (pose proof (zlen_nonneg l); lia).
  unfold digit in Hb. pose proof (Z.pow_pos_nonneg 10 (zlen l) ltac:(lia) (zlen_nonneg l)). nia.
Qed.
Lemma place_inj l m : Forall digit l -> Forall digit m -> length l = length m -> place_value l = place_value m -> l = m.
Proof.
  intros F. revert m. induction F as [|b l Hb F IH]; intros [|c m] G L E; try discriminate; [reflexivity|]. inversion G as [|? ? Hc G']; subst. cbn [place_value] in E. unfold byte in *. injection L as L.
  assert (zlen m = zlen l) as Z0 by (unfold zlen; now rewrite L). rewrite Z0 in E. pose proof (place_bound l F) as B1. pose proof (place_bound m G') as B2. unfold byte in *. rewrite Z0 in B2.
  assert (b = c) as -> by (unfold digit in *; unfold byte in *; nia). f_equal. apply IH; auto. lia.
Qed.
Lemma numeral_low d m : numeral_of d m -> d = [48] /\ m = 0 \/ 10 ^ (zlen d - 1) <= m < 10 ^ zlen d.
Proof.
  intros (Ne & F & [-> | H] & <-); [now left|]. right. pose proof (place_bound d F) as B. split; [|tauto]. destruct d as [|b d]; [contradiction|]. cbn [hd] in H. cbn [place_value]. unfold byte in *. rewrite (zlen_cons b d).
  inversion F as [|? ? Hb Fd]; subst. pose proof (place_bound d Fd). unfold digit in Hb. replace (zlen d + 1 - 1) with (zlen d) by lia. replace (1 + zlen d - 1) with (zlen d) by lia. pose proof (Z.pow_pos_nonneg 10 (zlen d) ltac:(lia) (zlen_nonneg d)). unfold byte in *. nia.
Qed.
Lemma numeral_unique d d' m : numeral_of d m -> numeral_of d' m -> d = d'.
Proof.
  intros N N'. pose proof (numeral_low d m N) as L. pose proof (numeral_low d' m N') as L'. destruct N as (Ne & F & _ & V), N' as (Ne' & F' & _ & V').
  assert (0 < zlen d) as P by (destruct d; [contradiction|]; unfold zlen; cbn [length]; lia). assert (0 < zlen d') as P' by (destruct d'; [contradiction|]; unfold zlen; cbn [length]; lia).
  destruct L as [[-> ->] | L], L' as [[-> M] | L']; auto.
  - exfalso. pose proof (Z.pow_pos_nonneg 10 (zlen d' - 1)). lia.
  - exfalso. subst m. pose proof (Z.pow_pos_nonneg 10 (zlen d - 1)). lia.
  - apply place_inj; auto; [|congruence]. assert (zlen d - 1 < zlen d') by (apply (Z.pow_lt_mono_r_iff 10); lia). assert (zlen d' - 1 < zlen d) by (apply (Z.pow_lt_mono_r_iff 10); lia). unfold zlen in *. lia.
Qed.

Lemma show_nat_numeral fuel n : 0 <= n -> Z.of_nat fuel > Z.log2 n -> numeral_of (show_nat fuel n) n.
Proof.
  intros Hn Hf. destruct (show_nat_spec fuel n Hn Hf) as (F & V & Ne). split; [exact Ne|]. split; [now apply digits_are|]. split; [|now rewrite <- value_places].
  clear F V Ne. revert n Hn Hf. induction fuel as [|f IH]; intros n Hn Hf; [pose proof (Z.log2_nonneg n); lia|]. cbn [show_nat].
  destruct (Z.ltb_spec n 10) as [L|L].
  - destruct (Z.eq_dec n 0) as [-> | N]; [now left|]. right. cbn [hd]. unfold byte. lia.
  - right. assert (1 <= n / 10) as Q by (apply Z.div_le_lower_bound; lia).
    assert (Z.of_nat f > Z.log2 (n / 10)) as Hf'.
    { assert (Z.log2 (n / 10) < Z.log2 n); [|lia]. apply Z.log2_lt_pow2; [lia|]. pose proof (Z.log2_spec n ltac:(lia)) as [_ U]. rewrite Z.pow_succ_r in U by apply Z.log2_nonneg. apply Z.div_lt_upper_bound; [lia|].
      pose proof (Z.pow_pos_nonneg 2 (Z.log2 n)). pose proof (Z.log2_nonneg n). lia. }
    destruct (show_nat_spec f (n / 10) ltac:(lia) Hf') as (_ & V & Ne). destruct (IH (n / 10) ltac:(lia) Hf') as [E|H].
    + exfalso. rewrite E in V. assert (digits_val [48] = 0) as Z0 by reflexivity. rewrite Z0 in V. clear - V Q. lia.
    + destruct (show_nat f (n / 10)); [contradiction|]. exact H.
Qed.
Lemma show_decimal n : decimal (show_int n) n.
Proof.
  unfold decimal, show_int. destruct (Z.ltb_spec n 0) as [L|L]; [right|left]; (split; [lia|]).
  - eexists. split; [reflexivity|]. apply show_nat_numeral; [lia|]. pose proof (Z.log2_nonneg (- n)). lia.
  - apply show_nat_numeral; [lia|]. pose proof (Z.log2_nonneg n). lia.
Qed.
Lemma decimal_unique s t n : decimal s n -> decimal t n -> s = t.
Proof.
  intros [[A N] | [A (d & -> & N)]] [[B M] | [B (e & -> & M)]]; try lia; [|f_equal]; eapply numeral_unique; eauto.
Qed.

Lemma space_is b : is_space b = true <-> blank b.
Proof. unfold is_space, blank. rewrite orb_true_iff, andb_true_iff, Z.eqb_eq, !Z.leb_le. tauto. Qed.
Lemma spaces_are l : Forall (fun b => is_space b = true) l <-> Forall blank l.
Proof. rewrite !Forall_forall. split; intros H b Hb; now apply space_is, H. Qed.
Lemma ends_is r : ends r <-> no_digit r.
Proof. destruct r as [|b r]; [easy|]. unfold ends, no_digit. rewrite <- digit_is. destruct (is_digit b); split; intros; congruence. Qed.
Lemma skip_split s : exists ws, s = ws ++ skip_space s /\ Forall blank ws /\ match skip_space s with [] => True | b :: _ => ~ blank b end.
Proof.
  induction s as [|b s (ws & E & F & N)]; [exists []; repeat split; constructor|]. cbn [skip_space]. destruct (is_space b) eqn:B.
  - exists (b :: ws). split; [cbn; now rewrite <- E|]. split; [|exact N]. constructor; [now apply space_is|exact F].
  - exists []. split; [reflexivity|]. split; [constructor|]. rewrite <- space_is. congruence.
Qed.
Lemma span_split p s : let (u, v) := span p s in s = u ++ v /\ Forall (fun b => p b = true) u /\ match v with [] => True | b :: _ => p b = false end.
Proof.
  induction s as [|b s IH]; [cbn; repeat split; constructor|]. cbn [span]. destruct (p b) eqn:B.
  - destruct (span p s) as [u v]. destruct IH as (-> & F & N). repeat split; auto.
  - repeat split; auto.
Qed.
Lemma sign_split s : exists g k, let '(neg, t) := match s with b :: t => if b =? 45 then (true, t) else if b =? 43 then (false, t) else (false, s) | [] => (false, s) end in
  s = g ++ t /\ sign g k /\ (forall v, (if neg : bool then - v else v) = k * v).
Proof.
  destruct s as [|b t]; [exists [], 1; (split; [reflexivity|split; [constructor|intros; cbv iota; lia]])|]. destruct (Z.eqb_spec b 45) as [-> | N1]; [exists [45], (-1); (split; [reflexivity|split; [constructor|intros; cbv iota; lia]])|].
  destruct (Z.eqb_spec b 43) as [-> | N2]; [exists [43], 1; (split; [reflexivity|split; [constructor|intros; cbv iota; lia]])|]. exists [], 1. (split; [reflexivity|split; [constructor|intros; cbv iota; lia]]).
Qed.
Lemma sign_apply g k d t : sign g k -> digit d ->
  match g ++ d :: t with b :: u => if b =? 45 then (true, u) else if b =? 43 then (false, u) else (false, g ++ d :: t) | [] => (false, g ++ d :: t) end = ((k =? -1), d :: t).
Proof. intros S D. unfold digit in D. destruct S; cbn [app]; try reflexivity. destruct (Z.eqb_spec d 45); [lia|]. destruct (Z.eqb_spec d 43); [lia|]. reflexivity. Qed.
Lemma sign_start g k d t : sign g k -> digit d -> skip_space (g ++ d :: t) = g ++ d :: t.
Proof.
  intros S D. destruct S; try reflexivity. apply skip_space_stop. destruct (is_space d) eqn:B; [|reflexivity]. apply space_is in B. unfold digit, blank in *. lia.
Qed.
Lemma sign_value g k v : sign g k -> (if k =? -1 then - v else v) = k * v.
Proof. intros S. destruct S; cbn [Z.eqb Pos.eqb]; lia. Qed.
