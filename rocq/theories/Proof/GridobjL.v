From Verif Require Import Model.Base Model.Codec Model.Gridobj Spec.Bytes Spec.Gridobj Proof.BaseL Proof.SparseL Proof.CodecL.

Lemma gput_at {X} (st : list X) x o o' : get st x = Some o ->
  exists st', put st x o' = Some st' /\ get st' x = Some o' /\ zlen st' = zlen st /\ forall y, y <> x -> get st' y = get st y.
Proof.
  intros H. pose proof (get_range _ _ _ H) as R. exists (set_nth (Z.to_nat x) st o').
  split; [apply put_ok; auto|]. split; [|split].
  - unfold get in *. destruct (x <? 0); [discriminate|]. clear - H. revert H. generalize (Z.to_nat x).
    induction st; intros [|n]; simpl; try discriminate; auto.
  - unfold zlen. f_equal. clear. generalize (Z.to_nat x). induction st; intros [|n]; simpl; auto.
  - intros y Hy. unfold get. destruct (Z.ltb_spec y 0); auto.
    assert (Z.to_nat y <> Z.to_nat x) as Hn by lia. clear - Hn. revert Hn. generalize (Z.to_nat x), (Z.to_nat y).
    induction st; intros [|n] [|m] H; simpl; auto; try congruence.
Qed.
Lemma nth_repeat_some {X} (v : X) n i : (i < n)%nat -> nth_error (repeat v n) i = Some v.
Proof. revert i; induction n; intros [|i] H; simpl; try lia; auto. apply IHn. lia. Qed.

Section G.
Context {T D : Type} (c : codec T) (fresh : Z -> T).
Implicit Types (st : list (gobj T D)).

Lemma copy_axis_id (a : gax D) : copy_axis a = a.
Proof using. destruct a; reflexivity. Qed.
Lemma swap_axes_spec (a b : list (gax D)) : length a = length b -> swap_axes a b = (b, a).
Proof using. revert b; induction a as [|x a IH]; intros [|y b]; simpl; intros H; try discriminate; auto. rewrite IH by congruence. destruct x, y; reflexivity. Qed.
Theorem swap_spec st a b A B : get st a = Some A -> get st b = Some B -> length (go_ax A) = length (go_ax B) ->
  exists st', gswap st a b = Some st' /\ get st' a = Some B /\ get st' b = Some A /\ zlen st' = zlen st /\
    forall g, g <> a -> g <> b -> get st' g = get st g.
Proof using.
  intros Ha Hb L. unfold gswap. rewrite Ha, Hb. cbn [bind]. rewrite swap_axes_spec by auto.
  destruct (gput_at st a A (mkObj (go_data B) (go_nodes B) (go_cells B) (go_fields B) (go_ghosts B) (go_ax B)) Ha) as (st1 & -> & G1 & L1 & O1).
  cbn [bind].
  assert (exists o, get st1 b = Some o) as [o Go].
  { destruct (Z.eq_dec b a) as [->|]; [eauto|]. rewrite O1 by auto. eauto. }
  destruct (gput_at st1 b o (mkObj (go_data A) (go_nodes A) (go_cells A) (go_fields A) (go_ghosts A) (go_ax A)) Go) as (st2 & -> & G2 & L2 & O2).
  exists st2. split; [reflexivity|].
  assert (forall X : gobj T D, mkObj (go_data X) (go_nodes X) (go_cells X) (go_fields X) (go_ghosts X) (go_ax X) = X) as E by (intros []; reflexivity).
  rewrite E in *. split; [|split; [exact G2|split; [congruence|]]].
  - destruct (Z.eq_dec a b) as [->|]; [congruence|]. rewrite O2 by auto. exact G1.
  - intros g H1 H2. rewrite O2, O1; auto.
Qed.

Theorem copy_spec valid junk st a b A B cs : serialises c valid -> (forall l, length (junk l) = length l) ->
  a <> b -> get st a = Some A -> get st b = Some B -> allocated B cs -> Forall valid cs ->
  (forall v, In v cs -> c_size c (fresh (go_fields B)) = c_size c v) ->
  exists st', gcopy c fresh junk st a b = Some st' /\ get st' a = Some B /\ zlen st' = zlen st /\
    forall g, g <> a -> get st' g = get st g.
Proof.
  intros S J Hab Ha Hb [Hd Hl] V Sz. unfold gcopy. rewrite Ha. cbn [bind].
  destruct (gput_at st a A (mkObj None (go_nodes A) (go_cells A) (go_fields A) (go_ghosts A) (go_ax A)) Ha) as (st1 & -> & G1 & L1 & O1).
  cbn [bind]. rewrite O1, Hb by congruence. cbn [bind].
  destruct (Z.ltb_spec (go_cells B) 0) as [Hneg|Hnn]; [pose proof (zlen_nonneg cs); lia|].
  set (f := fresh (go_fields B)) in *.
  destruct (gput_at st1 a _ (mkObj (Some (repeat f (Z.to_nat (go_cells B)))) (go_nodes B) (go_cells B) (go_fields B) (go_ghosts B) (map copy_axis (go_ax B))) G1)
    as (st2 & -> & G2 & L2 & O2).
  cbn [bind].
  assert (map copy_axis (go_ax B) = go_ax B) as Hm by (clear; induction (go_ax B); simpl; auto; now rewrite copy_axis_id, IHl).
  rewrite Hm in *. clear Hm. rewrite <- Hl. unfold zlen at 1. rewrite <- Hl in G2. unfold zlen in G2. rewrite Nat2Z.id in G2.
  match goal with |- context [fold_opt ?F _ _] => destruct (fold_pos F
    (fun i s => get s a = Some (mkObj (Some (firstn i cs ++ repeat f (length cs - i))) (go_nodes B) (go_cells B) (go_fields B) (go_ghosts B) (go_ax B))
      /\ zlen s = zlen st /\ forall g, g <> a -> get s g = get st g) (length cs) st2) as (st' & E & I1 & I2 & I3) end.
  - simpl. rewrite Nat.sub_0_r. split; [|split].
    + rewrite G2. f_equal. f_equal. unfold zlen in Hl. exact Hl.
    + lia.
    + intros g Hg. rewrite O2, O1; auto.
  - intros i s Hi (I1 & I2 & I3). rewrite I1. cbn [bind go_data].
    destruct (nth_error cs i) as [v|] eqn:Ev; [|apply nth_error_None in Ev; lia].
    assert (length (firstn i cs) = i) as Lf by (apply firstn_length_le; lia).
    assert (get (firstn i cs ++ repeat f (length cs - i)) (Z.of_nat i) = Some f) as ->.
    { rewrite get_nth, nth_error_app2 by lia. rewrite Lf, Nat.sub_diag. apply nth_repeat_some. lia. }
    cbn [bind]. rewrite I3, Hb by congruence. cbn [bind]. rewrite Hd. cbn [bind]. rewrite get_nth, Ev. cbn [bind].
    assert (valid v) as Vv by (rewrite Forall_forall in V; apply V; eapply nth_error_In; eauto).
    destruct (S v Vv) as (bs & Lb & W & R).
    set (buffer := junk (repeat 0 (Z.to_nat (c_size c f)))).
    assert (zlen buffer = zlen bs) as Lbuf.
    { unfold buffer, zlen. rewrite J, repeat_length. rewrite (Sz v) by (eapply nth_error_In; eauto). rewrite <- Lb. unfold zlen. lia. }
    pose proof (W [] buffer [] Lbuf) as Wr. rewrite !app_nil_r in Wr. simpl in Wr. change (zlen []) with 0 in Wr.
    rewrite Wr. cbn [bind fst]. pose proof (R [] []) as Rr. rewrite app_nil_r in Rr. simpl in Rr. change (zlen []) with 0 in Rr.
    rewrite Rr. cbn [bind fst]. rewrite put_nth by (rewrite app_length, repeat_length; lia). cbn [bind].
    edestruct (gput_at s a) as (s' & -> & Ga & La & Oa); [exact I1|]. exists s'. split; [reflexivity|]. split; [|split; [lia|]].
    + rewrite Ga. repeat f_equal. rewrite (firstn_snoc _ _ _ Ev).
      replace (length cs - i)%nat with (Datatypes.S (length cs - Datatypes.S i)) by lia. simpl.
      rewrite <- app_assoc. simpl. rewrite <- Lf at 1. generalize (firstn i cs). clear. intros p. induction p; simpl; [auto|]. congruence.
    + intros g Hg. rewrite Oa, I3; auto.
  - exists st'. split; [exact E|]. split; [|auto]. rewrite I1. rewrite firstn_all, Nat.sub_diag, app_nil_r. f_equal.
    destruct B; simpl in *; now subst.
Qed.

(* a cell that does not fit the buffer made for the new cell *)
Theorem copy_overflow junk st a b A B cs v : (forall l, length (junk l) = length l) ->
  a <> b -> get st a = Some A -> get st b = Some B -> allocated B (v :: cs) ->
  c_to c v (junk (repeat 0 (Z.to_nat (c_size c (fresh (go_fields B)))))) 0 = None ->
  gcopy c fresh junk st a b = None.
Proof.
  intros J Hab Ha Hb [Hd Hl] O. unfold gcopy. rewrite Ha. cbn [bind].
  destruct (gput_at st a A (mkObj None (go_nodes A) (go_cells A) (go_fields A) (go_ghosts A) (go_ax A)) Ha) as (st1 & -> & G1 & L1 & O1).
  cbn [bind]. rewrite O1, Hb by congruence. cbn [bind].
  assert (0 < go_cells B) as Hp by (rewrite <- Hl, zlen_cons; pose proof (zlen_nonneg cs); lia).
  destruct (Z.ltb_spec (go_cells B) 0); [lia|].
  destruct (gput_at st1 a _ (mkObj (Some (repeat (fresh (go_fields B)) (Z.to_nat (go_cells B)))) (go_nodes B) (go_cells B) (go_fields B) (go_ghosts B) (map copy_axis (go_ax B))) G1)
    as (st2 & -> & G2 & L2 & O2).
  cbn [bind]. unfold zrange.
  replace (Z.to_nat (go_cells B - 0)) with (Datatypes.S (Z.to_nat (go_cells B - 1))) by lia. simpl map.
  apply fold_opt_none. rewrite G2. cbn [bind go_data].
  replace (Z.to_nat (go_cells B)) with (Datatypes.S (Z.to_nat (go_cells B - 1))) by lia. cbn [repeat].
  change (get (fresh (go_fields B) :: repeat (fresh (go_fields B)) (Z.to_nat (go_cells B - 1))) (0 + Z.of_nat 0)) with (Some (fresh (go_fields B))).
  cbn [bind]. rewrite O2, O1, Hb by congruence. cbn [bind]. rewrite Hd. cbn [bind].
  change (get (v :: cs) (0 + Z.of_nat 0)) with (Some v). cbn [bind]. rewrite O. reflexivity.
Qed.
End G.
