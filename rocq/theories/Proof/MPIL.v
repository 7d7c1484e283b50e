From stdpp Require Import gmap.
From Verif Require Import Model.Base Model.MPI Spec.Schedule Proof.BaseL.
From Coq Require Import ZifyBool.

Lemma chan_set_eq ch s d t q : chan (set_chan ch s d t q) s d t = q.
Proof. unfold chan, set_chan. now rewrite lookup_insert. Qed.
Lemma chan_set_ne ch s d t q s' d' t' : (s', d', t') <> (s, d, t) ->
  chan (set_chan ch s d t q) s' d' t' = chan ch s' d' t'.
Proof. intros H. unfold chan, set_chan. now rewrite lookup_insert_ne by congruence. Qed.
Lemma set_set_ne ch s d t q s' d' t' q' : (s', d', t') <> (s, d, t) ->
  set_chan (set_chan ch s d t q) s' d' t' q' = set_chan (set_chan ch s' d' t' q') s d t q.
Proof. intros H. unfold set_chan. now rewrite insert_commute by congruence. Qed.
Lemma set_set_eq ch s d t q q' : set_chan (set_chan ch s d t q) s d t q' = set_chan ch s d t q'.
Proof. unfold set_chan. now rewrite insert_insert. Qed.

Lemma chan_set ch s d t q s' d' t' :
  chan (set_chan ch s d t q) s' d' t' =
  if (s' =? s) && (d' =? d) && (t' =? t) then q else chan ch s' d' t'.
Proof.
  destruct ((s' =? s) && (d' =? d) && (t' =? t)) eqn:E.
  - assert (s' = s /\ d' = d /\ t' = t) as (-> & -> & ->) by lia. apply chan_set_eq.
  - apply chan_set_ne. intros H; inversion H; subst. lia.
Qed.

Section Det.
Context {A : Type}.
Implicit Types (p q : proc A) (ps : list (proc A)).

(* a local step is determined by the state, whatever its flag *)
Lemma lstep_fun (np : Z) r g g' p ch p1 ch1 p2 ch2 :
  lstep np r g p ch p1 ch1 -> lstep np r g' p ch p2 ch2 -> p1 = p2 /\ ch1 = ch2.
Proof.
  intros H1 H2. destruct H1; inversion H2; subst; auto.
  match goal with H : chan _ _ _ _ = _ :: _, H' : chan _ _ _ _ = _ :: _ |- _ => rewrite H in H'; inversion H'; subst end.
  auto.
Qed.

Lemma isend_eq (np : Z) r d t m k ch c' : 0 <= d < np -> c' = set_chan ch r d t (chan ch r d t ++ [m]) ->
  lstep np r true (Isend d t m k) ch (k : proc A) c'.
Proof. intros H ->. now constructor. Qed.
Lemma recv_eq (np : Z) r (s : Z) t k m (q : list msg) ch c' : 0 <= s < np -> chan ch s r t = m :: q -> c' = set_chan ch s r t q ->
  lstep np r true (Recv s t k) ch (k m : proc A) c'.
Proof. intros H H1 ->. now constructor. Qed.

(* steps of two different ranks commute *)
Lemma lstep_comm (np : Z) r r' g g' p p1 q q1 ch ch1 ch2 : r <> r' ->
  lstep np r g p ch p1 ch1 -> lstep np r' g' q ch q1 ch2 ->
  exists ch3, lstep np r g p ch2 p1 ch3 /\ lstep np r' g' q ch1 q1 ch3.
Proof.
  intros Hr H1 H2. destruct H1 as [d t m k ch Hd|s t k m x ch Hs Hm|d t k ch Hw|d t k ch];
    inversion H2 as [d' t' m' k' ch' Hd'|s' t' k' m' x' ch' Hs' Hm'|d' t' k' ch' Hw'|d' t' k' ch']; subst.
  (* isend / _ *)
  - exists (set_chan (set_chan ch r d t (chan ch r d t ++ [m])) r' d' t' (chan ch r' d' t' ++ [m'])). split.
    + apply isend_eq; [auto|]. rewrite set_set_ne, chan_set_ne by congruence. reflexivity.
    + apply isend_eq; [auto|]. rewrite chan_set_ne by congruence. reflexivity.
  - destruct (decide ((s', r', t') = (r, d, t))) as [E|E].
    + inversion E; subst. exists (set_chan ch r d t (x' ++ [m])). split.
      * apply isend_eq; [auto|]. now rewrite chan_set_eq, set_set_eq.
      * apply (recv_eq _ _ _ _ _ _ (x' ++ [m])); [auto| |]; rewrite ?chan_set_eq, ?set_set_eq, ?Hm'; reflexivity.
    + exists (set_chan (set_chan ch r d t (chan ch r d t ++ [m])) s' r' t' x'). split.
      * apply isend_eq; [auto|]. rewrite set_set_ne, chan_set_ne by congruence. reflexivity.
      * constructor; auto. now rewrite chan_set_ne.
  - eexists. split; [first [solve [constructor; auto] | solve [eapply step_recv; eauto]]|].
    constructor. rewrite chan_set_ne by congruence. auto.
  - eexists. split; first [solve [constructor; auto] | solve [eapply step_recv; eauto]].
  (* recv / _ *)
  - destruct (decide ((s, r, t) = (r', d', t'))) as [E|E].
    + inversion E; subst. exists (set_chan ch r' d' t' (x ++ [m'])). split.
      * apply (recv_eq _ _ _ _ _ _ (x ++ [m'])); [auto| |]; rewrite ?chan_set_eq, ?set_set_eq, ?Hm; reflexivity.
      * apply isend_eq; [auto|]. now rewrite chan_set_eq, set_set_eq.
    + exists (set_chan (set_chan ch s r t x) r' d' t' (chan ch r' d' t' ++ [m'])). split.
      * rewrite set_set_ne by congruence. constructor; auto. now rewrite chan_set_ne.
      * apply isend_eq; [auto|]. rewrite chan_set_ne by congruence. reflexivity.
  - exists (set_chan (set_chan ch s r t x) s' r' t' x'). split.
    + rewrite set_set_ne by congruence. constructor; auto. rewrite chan_set_ne by congruence. auto.
    + constructor; auto. rewrite chan_set_ne by congruence. auto.
  - eexists. split; [first [solve [constructor; auto] | solve [eapply step_recv; eauto]]|]. constructor.
    rewrite chan_set. destruct ((r' =? s) && (d' =? r) && (t' =? t)) eqn:E; [|auto].
    assert (r' = s /\ d' = r /\ t' = t) as (-> & -> & ->) by lia. congruence.
  - eexists. split; first [solve [constructor; auto] | solve [eapply step_recv; eauto]].
  (* wait / _ *)
  - eexists. split; [|first [solve [constructor; auto] | solve [eapply step_recv; eauto]]].
    constructor. rewrite chan_set_ne by congruence. auto.
  - eexists. split; [|first [solve [constructor; auto] | solve [eapply step_recv; eauto]]]. constructor.
    rewrite chan_set. destruct ((r =? s') && (d =? r') && (t =? t')) eqn:E; [|auto].
    assert (r = s' /\ d = r' /\ t = t') as (-> & -> & ->) by lia. congruence.
  - eexists; split; first [solve [constructor; auto] | solve [eapply step_recv; eauto]].
  - eexists; split; first [solve [constructor; auto] | solve [eapply step_recv; eauto]].
  (* eager / _ *)
  - eexists; split; first [solve [constructor; auto] | solve [eapply step_recv; eauto]].
  - eexists; split; [constructor|first [solve [constructor; auto] | solve [eapply step_recv; eauto]]].
  - eexists; split; first [solve [constructor; auto] | solve [eapply step_recv; eauto]].
  - eexists; split; constructor.
Qed.

Lemma put_put_ne ps a b r r' x y : r <> r' -> put ps r x = Some a -> put ps r' y = Some b ->
  exists c, put a r' y = Some c /\ put b r x = Some c.
Proof.
  intros Hr H1 H2. apply put_some in H1 as [R1 ->]. apply put_some in H2 as [R2 ->].
  exists (set_nth (Z.to_nat r') (set_nth (Z.to_nat r) ps x) y).
  split; [apply put_ok; unfold zlen in *; rewrite length_set_nth; lia|].
  rewrite put_ok by (unfold zlen in *; rewrite length_set_nth; lia). f_equal.
  assert (Z.to_nat r <> Z.to_nat r') as Hn by lia. clear -Hn.
  revert ps Hn; generalize (Z.to_nat r) as a, (Z.to_nat r') as b. intros a b ps; revert a b.
  induction ps as [|z ps IH]; intros [|a] [|b] H; simpl; try reflexivity; try congruence.
  f_equal. apply IH. congruence.
Qed.

Lemma at_coll_get kind ps ms ks r p : at_coll kind ps ms ks -> get ps r = Some p ->
  exists m k, p = Coll kind m k.
Proof.
  intros H Hg. unfold get in Hg. destruct (r <? 0); [discriminate|]. apply nth_error_In in Hg.
  induction H as [|m k ps ms ks H IH]; simpl in Hg; [tauto|]. destruct Hg as [<-|Hg]; [eauto|auto].
Qed.
Lemma at_coll_fun kind kind' ps ms ks ms' ks' : ps <> [] ->
  at_coll kind ps ms ks -> at_coll kind' ps ms' ks' -> kind = kind' /\ ms = ms' /\ ks = ks'.
Proof.
  intros Hne H; revert ms' ks'. induction H as [|m k ps ms ks H IH]; intros ms' ks' H'; [contradiction|].
  inversion H' as [|m2 k2 ps2 ms2 ks2 H2]; subst. split; [auto|]. destruct ps.
  - inversion H; inversion H2; subst. auto.
  - edestruct IH as (_ & -> & ->); eauto.
Qed.

Lemma no_local_at_coll (np : Z) r g kind m (k : list msg -> proc A) ch p' ch' : ~ lstep np r g (Coll kind m k) ch p' ch'.
Proof. intros H; inversion H. Qed.

(* one-step commutation *)
Lemma diamond g (s a b : state A) : step true s a -> step g s b -> a = b \/ exists c, step true b c /\ step g a c.
Proof.
  intros H1 H2. inversion H1 as [g1 r p p' ps ps' ch ch' G L P E1 E2 E3|kind ps ms ks ch Hne AC E1 E2 E3]; subst.
  - inversion H2 as [g2 r2 q q' ps2 ps2' ch2 ch2' G2 L2 P2|kind ps2 ms ks ch2 Hne AC]; subst.
    + destruct (Z.eq_dec r r2) as [->|Hr].
      * left. assert (p = q) as -> by congruence. destruct (lstep_fun _ _ _ _ _ _ _ _ _ _ L L2) as [-> ->].
        congruence.
      * right. destruct (lstep_comm _ _ _ _ _ _ _ _ _ _ _ _ Hr L L2) as (ch3 & L1' & L2').
        destruct (put_put_ne _ _ _ _ _ _ _ Hr P P2) as (c & C1 & C2).
        exists (c, ch3). split.
        -- eapply step_local; [|rewrite (put_len _ _ _ _ P2); exact L1'|exact C2].
           rewrite (get_put_ne _ _ _ _ _ P2) by congruence. auto.
        -- eapply step_local; [|rewrite (put_len _ _ _ _ P); exact L2'|exact C1].
           rewrite (get_put_ne _ _ _ _ _ P) by congruence. auto.
    + destruct (at_coll_get _ _ _ _ _ _ AC G) as (m & k & ->). exfalso. eapply no_local_at_coll; eauto.
  - inversion H2 as [g2 r2 q q' ps2 ps2' ch2 ch2' G2 L2 P2|kind2 ps2 ms2 ks2 ch2 Hne2 AC2]; subst.
    + destruct (at_coll_get _ _ _ _ _ _ AC G2) as (m & k & ->). exfalso. eapply no_local_at_coll; eauto.
    + left. destruct (at_coll_fun _ _ _ _ _ _ _ Hne AC AC2) as (_ & -> & ->). reflexivity.
Qed.

Definition stuck (s : state A) : Prop := forall g s', ~ step g s s'.

Lemma one_step n (s f : state A) g s' : gsteps n s f -> stuck f -> step g s s' ->
  exists m, n = S m /\ gsteps m s' f.
Proof.
  intros H. revert g s'. induction H as [s|n s1 s2 s3 H12 H23 IH]; intros g s' St H.
  - exfalso. eapply St; eauto.
  - exists n. split; [reflexivity|].
    destruct (diamond _ _ _ _ H12 H) as [->|(c & C1 & C2)]; [auto|].
    destruct (IH _ _ St C2) as (m & -> & Hm). econstructor; eauto.
Qed.

Lemma many_steps n (s f : state A) k s' : gsteps n s f -> stuck f -> steps k s s' ->
  exists m, (n = k + m)%nat /\ gsteps m s' f.
Proof.
  intros H St Hs. revert n H. induction Hs as [s|k g s1 s2 s3 H12 H23 IH]; intros n H.
  - exists n. auto.
  - destruct (one_step _ _ _ _ _ H St H12) as (m & -> & Hm).
    destruct (IH m Hm) as (m' & -> & Hm'). exists m'. split; [lia|auto].
Qed.

Lemma inevitable_of_gsteps n (s f : state A) : gsteps n s f -> stuck f -> inevitable s f.
Proof.
  intros H St. exists n. intros k s' Hs. destruct (many_steps _ _ _ _ _ H St Hs) as (m & E & Hm).
  inversion Hm; subst.
  - right. split; [lia|auto].
  - left. split; [lia|eauto].
Qed.

Lemma gsteps_app n m (s1 s2 s3 : state A) : gsteps n s1 s2 -> gsteps m s2 s3 -> gsteps (n + m) s1 s3.
Proof. induction 1; simpl; intros; auto. econstructor; eauto. Qed.
Lemma gsteps_1 (s1 s2 : state A) : step true s1 s2 -> gsteps 1 s1 s2.
Proof. intros. econstructor; eauto. constructor. Qed.

(* ---- families of programs ---- *)
Lemma zlen_ranks (np : Z) (P : Z -> proc A) : 0 <= np -> zlen (ranks np P) = np.
Proof. intros. unfold ranks. rewrite zlen_map, zlen_zrange; lia. Qed.
Lemma get_ranks (np : Z) (P : Z -> proc A) r : 0 <= r < np -> get (ranks np P) r = Some (P r).
Proof.
  intros H. unfold ranks, get. destruct (Z.ltb_spec r 0); [lia|].
  rewrite nth_error_map, nth_error_zrange by lia. simpl. f_equal. f_equal. lia.
Qed.
Lemma get_ext {B} (a b : list B) : zlen a = zlen b -> (forall i, 0 <= i < zlen a -> get a i = get b i) -> a = b.
Proof.
  revert b; induction a as [|x a IH]; intros [|y b] L H; rewrite ?zlen_cons, ?zlen_nil in *; auto;
    try (pose proof (zlen_nonneg a)); try (pose proof (zlen_nonneg b)); try lia.
  f_equal.
  - specialize (H 0 ltac:(lia)). unfold get in H. simpl in H. congruence.
  - apply IH; [lia|]. intros i Hi. specialize (H (i + 1) ltac:(lia)). unfold get in *.
    destruct (Z.ltb_spec (i + 1) 0); [lia|]. destruct (Z.ltb_spec i 0); [lia|].
    replace (Z.to_nat (i + 1)) with (S (Z.to_nat i)) in H by lia. exact H.
Qed.
Lemma put_ranks (np : Z) (P : Z -> proc A) r p : 0 <= r < np ->
  put (ranks np P) r p = Some (ranks np (fun x => if x =? r then p else P x)).
Proof.
  intros H. destruct (put (ranks np P) r p) as [b|] eqn:E.
  - f_equal. apply get_ext.
    + rewrite (put_len _ _ _ _ E), !zlen_ranks; lia.
    + intros i Hi. rewrite (put_len _ _ _ _ E), zlen_ranks in Hi by lia. rewrite get_ranks by auto.
      destruct (Z.eqb_spec i r) as [->|]; [eapply get_put_eq; eauto|].
      rewrite (get_put_ne _ _ _ _ _ E) by auto. now apply get_ranks.
  - exfalso. rewrite put_ok in E by (rewrite zlen_ranks; lia). discriminate.
Qed.
Lemma ranks_ext (np : Z) (P Q : Z -> proc A) : (forall r, 0 <= r < np -> P r = Q r) -> ranks np P = ranks np Q.
Proof. intros H. unfold ranks. apply map_ext_in. intros r Hr. apply H. now apply in_zrange. Qed.

(* every rank makes one step, in rank order *)
Lemma all_step (np : Z) (P Q : Z -> proc A) (I : Z -> chans -> Prop) (ch : chans) : 0 <= np -> I 0 ch ->
  (forall r c, 0 <= r < np -> I r c -> exists c', lstep np r true (P r) c (Q r) c' /\ I (r + 1) c') ->
  exists ch', gsteps (Z.to_nat np) (ranks np P, ch) (ranks np Q, ch') /\ I np ch'.
Proof.
  intros Hnp H0 HS.
  assert (forall k : nat, Z.of_nat k <= np -> exists ch',
    gsteps k (ranks np P, ch) (ranks np (fun r => if r <? Z.of_nat k then Q r else P r), ch') /\ I (Z.of_nat k) ch') as X.
  { induction k as [|k IH]; intros Hk.
    - exists ch. split; [|exact H0]. erewrite ranks_ext; [constructor|].
      intros r Hr. simpl. destruct (Z.ltb_spec r (Z.of_nat 0)); [lia|auto].
    - destruct IH as (c & G & Hc); [lia|]. destruct (HS (Z.of_nat k) c ltac:(lia) Hc) as (c' & L & Hc').
      exists c'. split; [|replace (Z.of_nat (S k)) with (Z.of_nat k + 1) by lia; auto].
      replace (S k) with (k + 1)%nat by lia. eapply gsteps_app; [exact G|]. apply gsteps_1.
      eapply step_local with (r := Z.of_nat k) (p := P (Z.of_nat k)) (p' := Q (Z.of_nat k)).
      + rewrite get_ranks by lia. f_equal. destruct (Z.ltb_spec (Z.of_nat k) (Z.of_nat k)); [lia|auto].
      + rewrite zlen_ranks by lia. exact L.
      + rewrite put_ranks by lia. f_equal. apply ranks_ext. intros r Hr.
        destruct (Z.eqb_spec r (Z.of_nat k)) as [->|].
        * destruct (Z.ltb_spec (Z.of_nat k) (Z.of_nat (k + 1))); [auto|lia].
        * destruct (Z.ltb_spec r (Z.of_nat k)), (Z.ltb_spec r (Z.of_nat (k + 1))); auto; lia. }
  destruct (X (Z.to_nat np) ltac:(lia)) as (ch' & G & Hi). exists ch'.
  rewrite Z2Nat.id in * by lia. split; [|auto].
  erewrite (ranks_ext np Q); [exact G|]. intros r Hr. simpl. destruct (Z.ltb_spec r np); [auto|lia].
Qed.

Definition quiet (ch : chans) : Prop := forall s d t, chan ch s d t = [].

Lemma all_coll (np : Z) kind (m : Z -> msg) (K : Z -> list msg -> proc A) ch : 0 < np ->
  step true (ranks np (fun r => Coll kind (m r) (K r)), ch) (ranks np (fun r => K r (map m (zrange 0 np))), ch).
Proof.
  intros Hnp. unfold ranks.
  assert (forall l, at_coll kind (map (fun r => Coll kind (m r) (K r)) l) (map m l) (map K l)) as AC
    by (induction l; simpl; constructor; auto).
  replace (map (fun r => K r (map m (zrange 0 np))) (zrange 0 np))
    with (map (fun k => k (map m (zrange 0 np))) (map K (zrange 0 np))) by apply map_map.
  eapply step_coll; [|apply AC]. rewrite zrange_cons by lia. discriminate.
Qed.

(* every rank sends one message and receives one, the destinations being a permutation *)
Lemma exchange_round (np : Z) (dst src : Z -> Z) t (m : Z -> msg) (K : Z -> msg -> proc A) (ch : chans) : 0 <= np -> quiet ch ->
  (forall r, 0 <= r < np -> 0 <= dst r < np /\ 0 <= src r < np /\ src (dst r) = r /\ dst (src r) = r) ->
  exists n ch', quiet ch' /\
    gsteps n (ranks np (fun r => Isend (dst r) t (m r) (Recv (src r) t (fun x => WaitSend (dst r) t (K r x)))), ch)
             (ranks np (fun r => K r (m (src r))), ch').
Proof.
  intros Hnp Q D.
  destruct (all_step np
    (fun r => Isend (dst r) t (m r) (Recv (src r) t (fun x => WaitSend (dst r) t (K r x))))
    (fun r => Recv (src r) t (fun x => WaitSend (dst r) t (K r x)))
    (fun k c => forall s d u, chan c s d u =
       if (0 <=? s) && (s <? k) && (d =? dst s) && (u =? t) then [m s] else []) ch Hnp) as (c1 & G1 & I1).
  { intros s d u. rewrite Q. destruct (_ && _) eqn:E; [lia|auto]. }
  { intros r c Hr Hc. eexists. split; [apply step_isend; apply D; auto|].
    intros s d u. rewrite chan_set, !Hc.
    destruct ((s =? r) && (d =? dst r) && (u =? t)) eqn:E.
    - assert (s = r /\ d = dst r /\ u = t) as (-> & -> & ->) by lia.
      destruct ((0 <=? r) && (r <? r) && (dst r =? dst r) && (t =? t)) eqn:E2; [lia|].
      destruct ((0 <=? r) && (r <? r + 1) && (dst r =? dst r) && (t =? t)) eqn:E3; [reflexivity|lia].
    - destruct (Z.eq_dec s r) as [->|].
      + destruct ((0 <=? r) && (r <? r) && (d =? dst r) && (u =? t)) eqn:E2; [lia|].
        destruct ((0 <=? r) && (r <? r + 1) && (d =? dst r) && (u =? t)) eqn:E3; [lia|reflexivity].
      + replace (s <? r + 1) with (s <? r) by lia. reflexivity. }
  destruct (all_step np
    (fun r => Recv (src r) t (fun x => WaitSend (dst r) t (K r x)))
    (fun r => WaitSend (dst r) t (K r (m (src r))))
    (fun k c => forall s d u, chan c s d u =
       if (0 <=? s) && (s <? np) && (d =? dst s) && (u =? t) && (k <=? d) then [m s] else []) c1 Hnp) as (c2 & G2 & I2).
  { intros s d u. rewrite I1. destruct ((0 <=? s) && (s <? np) && (d =? dst s) && (u =? t)) eqn:E; simpl; [|auto].
    assert (0 <= s < np /\ d = dst s) as [Hs ->] by lia. destruct (D s Hs) as (Hd & _).
    destruct (Z.leb_spec 0 (dst s)); [auto|lia]. }
  { intros r c Hr Hc. destruct (D r Hr) as (D1 & D2 & D3 & D4).
    eexists. split.
    - apply (step_recv np r (src r) t (fun x => WaitSend (dst r) t (K r x)) (m (src r)) []); [auto|].
      rewrite Hc, D4.
      destruct ((0 <=? src r) && (src r <? np) && (r =? r) && (t =? t) && (r <=? r)) eqn:E; [auto|lia].
    - intros s d u. rewrite chan_set, Hc.
      destruct ((s =? src r) && (d =? r) && (u =? t)) eqn:E.
      + assert (s = src r /\ d = r /\ u = t) as (-> & -> & ->) by lia.
        destruct (Z.leb_spec (r + 1) r); [lia|]. now rewrite andb_false_r.
      + destruct ((0 <=? s) && (s <? np) && (d =? dst s) && (u =? t)) eqn:E2; simpl; [|auto].
        assert (0 <= s < np /\ d = dst s /\ u = t) as (Hs & -> & ->) by lia.
        destruct (D s Hs) as (S1 & S2 & S3 & S4).
        assert (dst s <> r) by (intros <-; rewrite S3 in E; lia).
        replace (r + 1 <=? dst s) with (r <=? dst s) by lia. reflexivity. }
  destruct (all_step np
    (fun r => WaitSend (dst r) t (K r (m (src r))))
    (fun r => K r (m (src r))) (fun _ c => quiet c) c2 Hnp) as (c3 & G3 & I3).
  { intros s d u. rewrite I2.
    destruct ((0 <=? s) && (s <? np) && (d =? dst s) && (u =? t)) eqn:E2; simpl; [|auto].
    assert (0 <= s < np /\ d = dst s) as [Hs ->] by lia. destruct (D s Hs) as (S1 & _).
    destruct (Z.leb_spec np (dst s)); [lia|auto]. }
  { intros r c Hr Hc. exists c. split; [|auto]. constructor. apply Hc. }
  exists (Z.to_nat np + (Z.to_nat np + Z.to_nat np))%nat, c3. split; [auto|].
  eapply gsteps_app; [exact G1|]. eapply gsteps_app; eauto.
Qed.

(* one blocking message from rank i to rank j, the others waiting *)
Lemma send_recv (np : Z) (P : Z -> proc A) i j t m k k' ch : 0 <= i < np -> 0 <= j < np -> i <> j -> quiet ch ->
  P i = Isend j t m (WaitSend j t k) -> P j = Recv i t k' ->
  exists ch', quiet ch' /\
    gsteps 3 (ranks np P, ch) (ranks np (fun r => if r =? i then k else if r =? j then k' m else P r), ch').
Proof.
  intros Hi Hj Hn Q Ei Ej.
  exists (set_chan (set_chan ch i j t (chan ch i j t ++ [m])) i j t []). split.
  { intros s d u. rewrite set_set_eq, chan_set. destruct (_ && _); auto. }
  econstructor.
  { eapply step_local with (r := i); [rewrite get_ranks by auto; rewrite Ei; reflexivity|
      rewrite zlen_ranks by lia; apply step_isend; auto|apply put_ranks; auto]. }
  econstructor.
  { eapply step_local with (r := j); [rewrite get_ranks by auto|rewrite zlen_ranks by lia; apply (step_recv np j i t k' m []); auto|apply put_ranks; auto].
    - destruct (Z.eqb_spec j i); [congruence|]. rewrite Ej; reflexivity.
    - rewrite chan_set_eq, Q. reflexivity. }
  econstructor.
  { eapply step_local with (r := i) (p' := k); [rewrite get_ranks by auto|rewrite zlen_ranks by lia; apply step_wait; apply chan_set_eq|apply put_ranks; auto].
    destruct (Z.eqb_spec i j); [congruence|]. destruct (Z.eqb_spec i i); [reflexivity|congruence]. }
  erewrite ranks_ext; [constructor|]. intros r Hr. simpl.
  destruct (Z.eqb_spec r i), (Z.eqb_spec r j); try congruence; auto.
Qed.

Lemma finished_stuck (np : Z) (a : Z -> A) ch : 0 < np -> stuck (ranks np (fun r => Ret (a r)), ch).
Proof.
  intros Hnp g s' H. inversion H as [g1 r p p' ps ps' ch0 ch' G L P|kind ps ms ks ch0 Hne AC]; subst.
  - apply get_some_iff in G as B. rewrite zlen_ranks in B by lia. rewrite get_ranks in G by auto.
    inversion G; subst. inversion L.
  - destruct (at_coll_get _ _ _ _ 0 (Ret (a 0)) AC) as (m & k & E); [|discriminate].
    now rewrite get_ranks by lia.
Qed.

Lemma conclude (np : Z) (P : Z -> proc A) (a : Z -> A) n ch ch' : 0 < np -> quiet ch' ->
  gsteps n (ranks np P, ch) (ranks np (fun r => Ret (a r)), ch') ->
  exists f, finished np a f /\ inevitable (ranks np P, ch) f.
Proof.
  intros Hnp Q G. exists (ranks np (fun r => Ret (a r)), ch'). split; [split; [reflexivity|exact Q]|].
  eapply inevitable_of_gsteps; eauto. now apply finished_stuck.
Qed.
End Det.

Lemma quiet_empty : quiet no_chans.
Proof. intros s d t. unfold chan, no_chans. now rewrite lookup_empty. Qed.
