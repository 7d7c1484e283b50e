From stdpp Require Import gmap.
From Coq Require Import String.
From Verif Require Import Model.Base Model.Num Model.Codec Model.MPI Model.Ghostswap Model.Global Spec.Bytes Spec.Schedule Spec.Sparse Spec.Reduce
  Proof.BaseL Proof.CodecL Proof.MPIL.

Section G.
Context {T A : Type} (c : codec T) (valid : T -> Prop) (RO : reduce_ops T) (op : string).
Context (SC : serialises c valid).
Context (np : Z) (Hnp : 0 < np).
Notation fits_int v := (c_size c v <= int_max).

(* one value from rank i to rank j *)
Lemma value_round (P : Z -> proc A) i j t1 t2 v k k' ch : 0 <= i < np -> 0 <= j < np -> i <> j -> quiet ch ->
  valid v -> fits_int v ->
  P i = send_value c v j t1 t2 k -> P j = recv_value c i t1 t2 k' ->
  exists n ch', quiet ch' /\
    gsteps n (ranks np P, ch) (ranks np (fun r => if r =? i then k else if r =? j then k' v else P r), ch').
Proof using SC Hnp.
  intros Hi Hj Hn Q V F Ei Ej. destruct (SC v V) as (bs & Lb & W & R).
  unfold send_value in Ei. destruct (Z.ltb_spec int_max (c_size c v)); [lia|].
  unfold recv_value in Ej.
  assert (c_to c v (repeat 0 (Z.to_nat (c_size c v))) 0 = Some (bs, zlen bs)) as Ew.
  { pose proof (W [] (repeat 0 (Z.to_nat (c_size c v))) []) as X. rewrite !app_nil_r in X. apply X. rewrite <- Lb.
    unfold zlen. rewrite repeat_length. lia. }
  rewrite Ew in Ei. cbn [lift] in Ei.
  destruct (send_recv np P i j t1 _ _ _ ch Hi Hj Hn Q Ei Ej) as (ch1 & Q1 & G1).
  assert (pd_dec pod_int (pd_enc pod_int (c_size c v)) = c_size c v) as Ed.
  { apply pod_int_ok. unfold int_range. unfold int_max in F. rewrite <- Lb in *. pose proof (zlen_nonneg bs). lia. }
  rewrite zlen_int_enc in G1. simpl negb in G1. cbv iota zeta in G1. rewrite Ed in G1.
  destruct (Z.ltb_spec (c_size c v) 0); [rewrite <- Lb in *; pose proof (zlen_nonneg bs); lia|].
  match type of G1 with gsteps _ _ (ranks _ ?P', _) =>
    edestruct (send_recv np P' i j t2) as (ch2 & Q2 & G2); [exact Hi|exact Hj|exact Hn|exact Q1| | |] end.
  { cbv beta. rewrite Z.eqb_refl. reflexivity. }
  { cbv beta. destruct (Z.eqb_spec j i); [lia|]. rewrite Z.eqb_refl. reflexivity. }
  exists (3 + 3)%nat, ch2. split; [exact Q2|]. eapply gsteps_app; [exact G1|].
  cbv beta in G2. rewrite <- Lb in G2. destruct (Z.ltb_spec (zlen bs) (zlen bs)); [lia|].
  rewrite Z.sub_diag in G2. change (Z.to_nat 0) with 0%nat in G2. cbn [repeat] in G2. pose proof (R [] []) as Rr. change (zlen []) with 0 in Rr.
  simpl app in Rr. rewrite app_nil_r in Rr. rewrite app_nil_r in G2. rewrite Rr in G2. cbn [lift] in G2.
  rewrite <- Lb. match type of G2 with gsteps _ _ (ranks _ ?P', _) =>
    rewrite (ranks_ext np (fun r => if r =? i then k else if r =? j then k' v else P r) P'); [exact G2|] end.
  intros r Hr. cbv beta. destruct (Z.eqb_spec r i); [auto|]. destruct (Z.eqb_spec r j); auto.
Qed.

Context (v : Z -> T) (Vv : forall r, 0 <= r < np -> valid (v r)) (Fv : forall r, 0 <= r < np -> fits_int (v r)).

Lemma collect_rounds g kb K n : forall i g0 ch, quiet ch -> 1 <= i -> i + Z.of_nat n = np ->
  fold_opt (reduce RO op) (map v (zrange i np)) g0 = Some g ->
  exists m ch', quiet ch' /\
    gsteps m (ranks np (fun r => if r =? 0 then collect c RO op n i g0 kb else if r <? i then K r else send_value c (v r) 0 100 200 (K r)), ch)
             (ranks np (fun r => if r =? 0 then kb g else K r : proc A), ch').
Proof using SC Vv Fv Hnp.
  induction n as [|n IH]; intros i g0 ch Q Hi Hin E.
  - simpl. exists 0%nat, ch. split; [exact Q|]. rewrite (zrange_nil i np) in E by lia. simpl in E. inversion E; subst.
    erewrite ranks_ext; [constructor|]. intros r Hr. cbv beta. destruct (Z.eqb_spec r 0); [auto|]. destruct (Z.ltb_spec r i); [auto|lia].
  - rewrite zrange_cons in E by lia. simpl in E. destruct (reduce RO op g0 (v i)) as [g1|] eqn:Eg; [|discriminate]. cbn [bind] in E.
    set (P := fun r => if r =? 0 then collect c RO op (S n) i g0 kb else if r <? i then K r else send_value c (v r) 0 100 200 (K r)).
    destruct (value_round P i 0 100 200 (v i) (K i) (fun temp => lift (reduce RO op g0 temp) (fun g' => collect c RO op n (i + 1) g' kb)) ch) as (m1 & ch1 & Q1 & G1);
      [lia|lia|lia|exact Q|apply Vv; lia|apply Fv; lia| |reflexivity|].
    + unfold P. destruct (Z.eqb_spec i 0); [lia|]. destruct (Z.ltb_spec i i); [lia|reflexivity].
    + destruct (IH (i + 1) g1 ch1 Q1 ltac:(lia) ltac:(lia) E) as (m2 & ch2 & Q2 & G2).
      exists (m1 + m2)%nat, ch2. split; [exact Q2|]. eapply gsteps_app; [exact G1|].
      erewrite ranks_ext; [exact G2|]. intros r Hr. cbv beta. unfold P. rewrite Eg. cbn [lift].
      destruct (Z.eqb_spec r i) as [->|]; destruct (Z.eqb_spec i 0); try lia.
      * destruct (Z.ltb_spec i (i + 1)); [auto|lia].
      * destruct (Z.eqb_spec r 0); [auto|]. destruct (Z.ltb_spec r i), (Z.ltb_spec r (i + 1)); auto; lia.
Qed.

Lemma distribute_rounds g kb K n : valid g -> fits_int g -> forall i ch, quiet ch -> 1 <= i -> i + Z.of_nat n = np ->
  exists m ch', quiet ch' /\
    gsteps m (ranks np (fun r => if r =? 0 then distribute c n i g kb else if r <? i then K r g else recv_value c 0 300 400 (K r)), ch)
             (ranks np (fun r => if r =? 0 then kb else K r g : proc A), ch').
Proof using SC Hnp Vv Fv.
  intros Vg Fg. induction n as [|n IH]; intros i ch Q Hi Hin.
  - simpl. exists 0%nat, ch. split; [exact Q|].
    erewrite ranks_ext; [constructor|]. intros r Hr. cbv beta. destruct (Z.eqb_spec r 0); [auto|]. destruct (Z.ltb_spec r i); [auto|lia].
  - set (P := fun r => if r =? 0 then distribute c (S n) i g kb else if r <? i then K r g else recv_value c 0 300 400 (K r)).
    destruct (value_round P 0 i 300 400 g (distribute c n (i + 1) g kb) (K i) ch) as (m1 & ch1 & Q1 & G1);
      [lia|lia|lia|exact Q|exact Vg|exact Fg|reflexivity| |].
    + unfold P. destruct (Z.eqb_spec i 0); [lia|]. destruct (Z.ltb_spec i i); [lia|reflexivity].
    + destruct (IH (i + 1) ch1 Q1 ltac:(lia) ltac:(lia)) as (m2 & ch2 & Q2 & G2).
      exists (m1 + m2)%nat, ch2. split; [exact Q2|]. eapply gsteps_app; [exact G1|].
      erewrite ranks_ext; [exact G2|]. intros r Hr. cbv beta. unfold P.
      destruct (Z.eqb_spec r 0); [auto|]. destruct (Z.eqb_spec r i) as [->|].
      * destruct (Z.ltb_spec i (i + 1)); [auto|lia].
      * destruct (Z.ltb_spec r i), (Z.ltb_spec r (i + 1)); auto; lia.
Qed.

Theorem global_rounds g (k : Z -> T -> proc A) ch : quiet ch -> valid g -> fits_int g ->
  fold_opt (reduce RO op) (map v (zrange 1 np)) (v 0) = Some g ->
  exists m ch', quiet ch' /\ gsteps m (ranks np (fun r => global c RO op np r (v r) (k r)), ch) (ranks np (fun r => k r g), ch').
Proof using SC Vv Fv Hnp.
  intros Q Vg Fg E.
  destruct (collect_rounds g (fun g => distribute c (Z.to_nat (np - 1)) 1 g (barrier (k 0 g))) (fun r => recv_value c 0 300 400 (fun g => barrier (k r g)))
    (Z.to_nat (np - 1)) 1 (v 0) ch Q ltac:(lia) ltac:(lia) E) as (m1 & ch1 & Q1 & G1).
  destruct (distribute_rounds g (barrier (k 0 g)) (fun r g => barrier (k r g)) (Z.to_nat (np - 1)) Vg Fg 1 ch1 Q1 ltac:(lia) ltac:(lia)) as (m2 & ch2 & Q2 & G2).
  exists (m1 + (m2 + 1))%nat, ch2. split; [exact Q2|].
  eapply gsteps_app; [|eapply gsteps_app].
  - erewrite ranks_ext; [exact G1|]. intros r Hr. cbv beta. unfold global. destruct (Z.eqb_spec r 0) as [->|]; [reflexivity|].
    destruct (Z.ltb_spec r 1); [lia|reflexivity].
  - erewrite ranks_ext; [exact G2|]. intros r Hr. cbv beta. destruct (Z.eqb_spec r 0) as [->|]; [reflexivity|].
    destruct (Z.ltb_spec r 1); [lia|reflexivity].
  - apply gsteps_1. pose proof (all_coll np 0 (fun _ => []) (fun r _ => k r g) ch2 Hnp) as X.
    erewrite ranks_ext; [exact X|]. intros r Hr. cbv beta. destruct (Z.eqb_spec r 0) as [->|]; reflexivity.
Qed.
End G.

Theorem global_inevitable {T} (c : codec T) valid RO op np v g : 0 < np -> serialises c valid ->
  (forall r, 0 <= r < np -> valid (v r)) -> (forall r, 0 <= r < np -> c_size c (v r) <= int_max) ->
  valid g -> c_size c g <= int_max ->
  fold_opt (reduce RO op) (map v (zrange 1 np)) (v 0) = Some g ->
  exists f, finished np (fun _ => g) f /\ inevitable (ranks np (fun r => global c RO op np r (v r) Ret), no_chans) f.
Proof.
  intros Hnp SC V F Vg Fg E.
  destruct (global_rounds (A := T) c valid RO op SC np Hnp v V F g (fun _ => Ret) no_chans quiet_empty Vg Fg E) as (m & ch' & Q & G).
  exact (conclude np _ (fun _ => g) m no_chans ch' Hnp Q G).
Qed.

Lemma fold_total {X S} (f : S -> X -> S) l s : fold_opt (fun s x => Some (f s x)) l s = Some (fold_left f l s).
Proof. revert s; induction l; simpl; auto. Qed.

Lemma fold_opt_ext {X S} (f g : S -> X -> option S) l s : (forall s x, f s x = g s x) -> fold_opt f l s = fold_opt g l s.
Proof. intros H. revert s; induction l; simpl; intros; auto. rewrite H. destruct (g s a); simpl; auto. Qed.

Section Order.
Context {T : Type} (N : num T) (L : num_laws N).
Lemma gt_asym a b : n_gt N a b = true -> n_gt N b a = false.
Proof using L. intros H. destruct (n_gt N b a) eqn:E; auto. pose proof (gt_trans N L _ _ _ H E) as X. rewrite (gt_irr N L) in X. discriminate. Qed.
Lemma nge_trans a b d : n_gt N a b = false -> n_gt N b d = false -> n_gt N a d = false.
Proof using L.
  intros H1 H2. destruct (n_gt N a d) eqn:E; auto. exfalso.
  destruct (n_gt N d b) eqn:Edb. { rewrite (gt_trans N L _ _ _ E Edb) in H1. discriminate. }
  rewrite (gt_total N L b d H2 Edb) in H1. congruence.
Qed.
Lemma fold_min l : forall a, (fold_left (n_min N) l a = a \/ In (fold_left (n_min N) l a) l)
  /\ n_gt N (fold_left (n_min N) l a) a = false /\ forall x, In x l -> n_gt N (fold_left (n_min N) l a) x = false.
Proof using L.
  induction l as [|b l IH]; intros a; simpl.
  - split; [auto|]. split; [apply (gt_irr N L)|tauto].
  - destruct (IH (n_min N a b)) as (I1 & I2 & I3).
    assert ((n_min N a b = a \/ n_min N a b = b) /\ n_gt N (n_min N a b) a = false /\ n_gt N (n_min N a b) b = false) as (M1 & M2 & M3).
    { unfold n_min. destruct (n_gt N b a) eqn:E.
      - split; [auto|]. split; [apply (gt_irr N L)|now apply gt_asym].
      - split; [auto|]. split; [auto|apply (gt_irr N L)]. }
    split; [|split].
    + destruct I1 as [I1|I1]; [|auto]. rewrite I1. destruct M1 as [M1|M1]; rewrite M1; auto.
    + eapply nge_trans; eauto.
    + intros x [<-|Hx]; [eapply nge_trans; eauto|auto].
Qed.
Lemma fold_max l : forall a, (fold_left (n_max N) l a = a \/ In (fold_left (n_max N) l a) l)
  /\ n_gt N a (fold_left (n_max N) l a) = false /\ forall x, In x l -> n_gt N x (fold_left (n_max N) l a) = false.
Proof using L.
  induction l as [|b l IH]; intros a; simpl.
  - split; [auto|]. split; [apply (gt_irr N L)|tauto].
  - destruct (IH (n_max N a b)) as (I1 & I2 & I3).
    assert ((n_max N a b = a \/ n_max N a b = b) /\ n_gt N a (n_max N a b) = false /\ n_gt N b (n_max N a b) = false) as (M1 & M2 & M3).
    { unfold n_max. destruct (n_gt N a b) eqn:E.
      - split; [auto|]. split; [apply (gt_irr N L)|now apply gt_asym].
      - split; [auto|]. split; [auto|apply (gt_irr N L)]. }
    split; [|split].
    + destruct I1 as [I1|I1]; [|auto]. rewrite I1. destruct M1 as [M1|M1]; rewrite M1; auto.
    + eapply nge_trans; eauto.
    + intros x [<-|Hx]; [eapply nge_trans; eauto|auto].
Qed.
Lemma combined_min np v : 0 < np -> least N np v (combined (n_min N) np v).
Proof using L.
  intros Hnp. unfold combined. destruct (fold_min (map v (zrange 1 np)) (v 0)) as (I1 & I2 & I3). split.
  - destruct I1 as [->|I1]; [exists 0; split; [lia|auto]|]. apply in_map_iff in I1 as (r & E & Hr). apply in_zrange in Hr. exists r. split; [lia|auto].
  - intros r Hr. destruct (Z.eq_dec r 0) as [->|]; [auto|]. apply I3. apply in_map, in_zrange. lia.
Qed.
Lemma combined_max np v : 0 < np -> greatest N np v (combined (n_max N) np v).
Proof using L.
  intros Hnp. unfold combined. destruct (fold_max (map v (zrange 1 np)) (v 0)) as (I1 & I2 & I3). split.
  - destruct I1 as [->|I1]; [exists 0; split; [lia|auto]|]. apply in_map_iff in I1 as (r & E & Hr). apply in_zrange in Hr. exists r. split; [lia|auto].
  - intros r Hr. destruct (Z.eq_dec r 0) as [->|]; [auto|]. apply I3. apply in_map, in_zrange. lia.
Qed.
End Order.

Lemma combined_sum np (v : Z -> Z) : 0 < np -> combined Z.add np v = sumZ (map v (zrange 0 np)).
Proof.
  intros H. unfold combined. rewrite (zrange_cons 0 np) by lia. simpl map.
  assert (forall l a, fold_left Z.add l a = a + sumZ l) as X.
  { induction l; intros; unfold sumZ in *; simpl; [lia|]. rewrite IHl. lia. }
  rewrite X. reflexivity.
Qed.
