From Verif Require Import Model.Base Model.Codec Spec.Bytes Proof.BaseL.
From Coq Require Import ZifyBool.
Ltac Zify.zify_post_hook ::= Z.div_mod_to_equations.

Lemma to_nat_zlen {A} (l : list A) : Z.to_nat (zlen l) = length l.
Proof. unfold zlen; lia. Qed.

Lemma blit_at pre old post bs : zlen old = zlen bs ->
  blit (pre ++ old ++ post) (zlen pre) bs = Some (pre ++ bs ++ post).
Proof.
  intros H. unfold blit. rewrite !zlen_app.
  pose proof (zlen_nonneg pre); pose proof (zlen_nonneg post).
  destruct (Z.leb_spec 0 (zlen pre)); [|lia]. simpl.
  destruct (Z.leb_spec (zlen pre + zlen bs) (zlen pre + (zlen old + zlen post))); [|lia].
  rewrite to_nat_zlen, firstn_app, Nat.sub_diag, firstn_all. simpl. rewrite app_nil_r.
  rewrite (app_assoc pre old post). replace (Z.to_nat (zlen pre + zlen bs)) with (length (pre ++ old))%nat.
  - rewrite skipn_app, skipn_all, Nat.sub_diag. simpl. reflexivity.
  - rewrite app_length. unfold zlen in *. lia.
Qed.

Lemma slice_at pre bs post n : n = zlen bs -> slice (pre ++ bs ++ post) (zlen pre) n = Some bs.
Proof.
  intros ->. unfold slice. rewrite !zlen_app.
  pose proof (zlen_nonneg pre); pose proof (zlen_nonneg post); pose proof (zlen_nonneg bs).
  destruct (Z.leb_spec 0 (zlen pre)); [|lia]. destruct (Z.leb_spec 0 (zlen bs)); [|lia]. simpl.
  destruct (Z.leb_spec (zlen pre + zlen bs) (zlen pre + (zlen bs + zlen post))); [|lia].
  rewrite !to_nat_zlen, skipn_app, skipn_all, Nat.sub_diag. simpl.
  rewrite firstn_app, Nat.sub_diag, firstn_all. simpl. now rewrite app_nil_r.
Qed.

Lemma split_at {A} (l : list A) off n : 0 <= off -> 0 <= n -> off + n <= zlen l ->
  exists pre m post, l = pre ++ m ++ post /\ zlen pre = off /\ zlen m = n.
Proof.
  intros. exists (firstn (Z.to_nat off) l), (firstn (Z.to_nat n) (skipn (Z.to_nat off) l)),
    (skipn (Z.to_nat n) (skipn (Z.to_nat off) l)).
  split; [now rewrite !firstn_skipn|]. unfold zlen in *. rewrite !firstn_length, skipn_length. lia.
Qed.

(* ---- plain types ---- *)
Lemma pod_serialises {T} (p : pod T) valid : pod_ok p valid -> serialises (pod_codec p) valid.
Proof.
  intros [H0 H] v Hv. destruct (H v Hv) as [L D]. exists (pd_enc p v). split; [exact L|]. split.
  - intros. simpl. rewrite blit_at by auto. simpl. now rewrite L.
  - intros. simpl. rewrite slice_at by auto. simpl. now rewrite D, L.
Qed.

Lemma length_le_enc n v : length (le_enc n v) = n.
Proof. revert v; induction n; intros; simpl; auto. Qed.
Lemma le_dec_enc n v : 0 <= v < 256 ^ Z.of_nat n -> le_dec (le_enc n v) = v.
Proof.
  revert v; induction n as [|n IH]; intros v H; simpl.
  - simpl in H. change (256 ^ Z.of_nat 0) with 1 in H. lia.
  - replace (Z.of_nat (S n)) with (1 + Z.of_nat n) in H by lia.
    rewrite Z.pow_add_r in H by lia. change (256 ^ 1) with 256 in H. rewrite IH; lia.
Qed.
Lemma le_enc_bytes n v : Forall (fun b => 0 <= b < 256) (le_enc n v).
Proof. revert v; induction n; intros; simpl; constructor; auto; lia. Qed.

Lemma pod_uint_ok n : pod_ok (pod_uint n) (fun v => 0 <= v < 256 ^ Z.of_nat n).
Proof.
  split; simpl; [lia|]. intros v H. unfold zlen; rewrite length_le_enc. split; [reflexivity|].
  now apply le_dec_enc.
Qed.

Lemma pod_sint_ok n : pod_ok (pod_sint (S n))
  (fun v => - (256 ^ Z.of_nat (S n) / 2) <= v < 256 ^ Z.of_nat (S n) / 2).
Proof.
  split; [simpl; lia|]. intros v H. unfold pod_sint, pd_enc, pd_dec, pd_size.
  unfold zlen; rewrite length_le_enc. split; [reflexivity|].
  set (M := 256 ^ Z.of_nat (S n)) in *.
  assert (exists m, M = 2 * m /\ 0 < m) as (m & Em & Pm).
  { subst M. replace (Z.of_nat (S n)) with (1 + Z.of_nat n) by lia. rewrite Z.pow_add_r by lia.
    exists (128 * 256 ^ Z.of_nat n). assert (0 < 256 ^ Z.of_nat n) by (apply Z.pow_pos_nonneg; lia). lia. }
  rewrite le_dec_enc by (fold M; apply Z.mod_pos_bound; lia).
  assert (M / 2 = m) as Hm by lia. rewrite Hm in H.
  assert (v mod M = if v <? 0 then v + M else v) as ->.
  { destruct (Z.ltb_spec v 0).
    - replace v with (v + M + (-1) * M) at 1 by lia. rewrite Z_mod_plus_full. apply Z.mod_small; lia.
    - apply Z.mod_small; lia. }
  unfold sext. fold M. destruct (Z.ltb_spec v 0).
  - destruct (Z.leb_spec M (2 * (v + M))); lia.
  - destruct (Z.leb_spec M (2 * v)); lia.
Qed.

Lemma pod_raw_ok n : 0 <= n -> pod_ok (pod_raw n) (fun v => zlen v = n).
Proof. intros. split; simpl; auto. Qed.

Lemma pod_int_ok : pod_ok pod_int int_range.
Proof. exact (pod_sint_ok 3). Qed.

Lemma zlen_int_enc v : zlen (pd_enc pod_int v) = 4.
Proof. unfold pod_int, pod_sint, pd_enc, zlen. now rewrite length_le_enc. Qed.

(* ---- arrays ---- *)
Lemma zlen_arr_enc {T} (p : pod T) valid v : pod_ok p valid -> Forall valid v ->
  zlen (arr_enc p v) = zlen v * pd_size p.
Proof.
  intros [_ H]. induction 1 as [|x v Hx Hv IH]; unfold arr_enc in *; simpl; [reflexivity|].
  rewrite zlen_app, zlen_cons, IH. destruct (H x Hx) as [-> _]. lia.
Qed.

Lemma arr_dec_enc {T} (p : pod T) valid v : pod_ok p valid -> Forall valid v ->
  arr_dec p (length v) (arr_enc p v) = v.
Proof.
  intros [H0 H]. induction 1 as [|x v Hx Hv IH]; unfold arr_enc in *; simpl; [reflexivity|].
  destruct (H x Hx) as [L D].
  replace (Z.to_nat (pd_size p)) with (length (pd_enc p x)) by (unfold zlen in L; lia).
  rewrite firstn_app, Nat.sub_diag, firstn_all, skipn_app, skipn_all, Nat.sub_diag. simpl.
  rewrite app_nil_r, D. f_equal. exact IH.
Qed.

Lemma vector_serialises {T} (p : pod T) valid : pod_ok p valid ->
  serialises (vector_codec p) (fun v => Forall valid v /\ int_range (zlen v)).
Proof.
  intros P v [Hv Hl].
  pose proof (zlen_arr_enc p valid v P Hv) as La.
  destruct pod_int_ok as [_ PI]. destruct (PI (zlen v) Hl) as [_ DI].
  pose proof (zlen_int_enc (zlen v)) as LI.
  exists (pd_enc pod_int (zlen v) ++ arr_enc p v).
  assert (zlen (pd_enc pod_int (zlen v) ++ arr_enc p v) = 4 + zlen v * pd_size p) as E
    by (rewrite zlen_app; lia).
  split; [exact E|]. split.
  - intros pre old post Ho. unfold vector_codec, c_to.
    assert (0 <= zlen v * pd_size p) by (destruct P as [P0 _]; pose proof (zlen_nonneg v); nia).
    destruct (split_at old 0 4) as (o1 & o2 & o3 & -> & O1 & O2); [lia..|].
    rewrite !zlen_app in Ho. destruct o1 as [|? ?]; [|rewrite zlen_cons in O1; pose proof (zlen_nonneg o1); lia].
    cbn [app] in *. rewrite <- app_assoc.
    rewrite blit_at by lia. cbn [bind guard app fst snd].
    replace (zlen pre + 4) with (zlen (pre ++ pd_enc pod_int (zlen v))) by (rewrite zlen_app; lia).
    rewrite app_assoc. rewrite blit_at by lia. cbn [bind guard app fst snd]. rewrite <- !app_assoc. f_equal. f_equal. lia.
  - intros pre post. unfold vector_codec, c_from. rewrite <- app_assoc.
    rewrite slice_at by lia. cbn [bind]. rewrite DI.
    pose proof (zlen_nonneg v). destruct (Z.leb_spec 0 (zlen v)); [|lia]. cbn [bind guard app fst snd].
    rewrite app_assoc. replace (zlen pre + 4) with (zlen (pre ++ pd_enc pod_int (zlen v))) by (rewrite zlen_app; lia).
    rewrite slice_at by lia. cbn [bind guard app fst snd]. rewrite to_nat_zlen, (arr_dec_enc p valid) by auto.
    f_equal. f_equal. lia.
Qed.

Lemma item_ok {T} pad (p : pod T) valid : pod_ok p valid ->
  pod_ok (item_pod pad p) (fun it => int_range (fst it) /\ valid (snd it)).
Proof.
  intros [P0 P]. split; [simpl; pose proof (zlen_nonneg pad); lia|].
  intros [i v] [Hi Hv]. destruct (P v Hv) as [L D]. destruct pod_int_ok as [_ PI].
  destruct (PI i Hi) as [LI DI]. 
  change (zlen (pd_enc pod_int i ++ pad ++ pd_enc p v) = 4 + zlen pad + pd_size p /\
    (pd_dec pod_int (firstn 4 (pd_enc pod_int i ++ pad ++ pd_enc p v)),
     pd_dec p (skipn (4 + length pad) (pd_enc pod_int i ++ pad ++ pd_enc p v))) = (i, v)).
  change (pd_size pod_int) with 4 in LI.
  rewrite !zlen_app, L, LI. split; [lia|].
  assert (length (pd_enc pod_int i) = 4)%nat as L4 by (unfold zlen in LI; lia).
  f_equal.
  - rewrite firstn_app, L4, Nat.sub_diag, firstn_all2 by lia. simpl firstn. rewrite app_nil_r. exact DI.
  - rewrite app_assoc. rewrite skipn_app, skipn_all2 by (rewrite app_length; lia).
    rewrite app_length, L4, Nat.sub_diag. exact D.
Qed.

Lemma sparse_serialises {T} pad (p : pod T) valid : pod_ok p valid ->
  serialises (sparse_codec pad p)
    (fun v => Forall (fun it => int_range (fst it) /\ valid (snd it)) v /\ int_range (zlen v)).
Proof. intros. apply vector_serialises. now apply item_ok. Qed.

(* ---- sequences ---- *)
Definition total {T} (c : codec T) (vs : list T) : Z := sumZ (map (c_size c) vs).
Lemma total_cons {T} (c : codec T) v vs : total c (v :: vs) = c_size c v + total c vs.
Proof. reflexivity. Qed.
Lemma total_app {T} (c : codec T) v w : total c (v ++ w) = total c v + total c w.
Proof. unfold total. now rewrite map_app, sumZ_app. Qed.

Lemma sequence {T} (c : codec T) valid vs : serialises c valid -> Forall valid vs ->
  exists bs, zlen bs = total c vs /\
    (forall pre old post, zlen old = zlen bs ->
       write_all c vs (pre ++ old ++ post) (zlen pre) = Some (pre ++ bs ++ post, zlen pre + zlen bs)) /\
    (forall pre post,
       read_all c (length vs) (pre ++ bs ++ post) (zlen pre) = Some (vs, zlen pre + zlen bs)).
Proof.
  intros S. induction 1 as [|v vs Hv Hvs (bs & L & W & R)].
  - exists []. split; [reflexivity|]. split.
    + intros. unfold zlen in H at 2; simpl in H. destruct old; [|unfold zlen in H; simpl in H; lia].
      simpl. f_equal. f_equal. rewrite zlen_nil. lia.
    + intros; simpl. f_equal. f_equal. rewrite zlen_nil. lia.
  - destruct (S v Hv) as (b & Lb & Wb & Rb). exists (b ++ bs).
    split; [rewrite zlen_app, total_cons; lia|]. split.
    + intros pre old post Ho. rewrite zlen_app in Ho.
      destruct (split_at old 0 (zlen b)) as (o1 & o2 & o3 & -> & O1 & O2);
        [lia|apply zlen_nonneg|pose proof (zlen_nonneg bs); lia|].
      rewrite !zlen_app in Ho.
      destruct o1 as [|? ?]; [|rewrite zlen_cons in O1; pose proof (zlen_nonneg o1); lia]. cbn [app] in *.
      simpl. rewrite <- app_assoc, Wb by lia. simpl.
      rewrite app_assoc. rewrite <- zlen_app, W by lia.
      rewrite <- !app_assoc, !zlen_app. do 2 f_equal. lia.
    + intros pre post. simpl. rewrite <- app_assoc, Rb. simpl.
      rewrite app_assoc, <- zlen_app, R. simpl. rewrite !zlen_app. do 2 f_equal. lia.
Qed.
