From Verif Require Import Model.Base Model.Num Model.Vector Spec.Sparse Proof.BaseL Proof.SparseL.

Section Vector.
Context {T : Type} (N : num T).

Lemma vnew_ok n : 0 <= n -> @vnew T n = Some (repeat None (Z.to_nat n)).
Proof. intros H. unfold vnew. destruct (Z.ltb_spec n 0); [lia|reflexivity]. Qed.
Lemma vmemcpy_ok (dst src : vobj T) n : 0 <= n <= zlen src -> n <= zlen dst ->
  vmemcpy dst src n = Some (firstn (Z.to_nat n) src ++ skipn (Z.to_nat n) dst).
Proof.
  intros H1 H2. unfold vmemcpy. destruct (Z.leb_spec 0 n), (Z.leb_spec n (zlen src)), (Z.leb_spec n (zlen dst)); simpl; auto; lia.
Qed.
Lemma zlen_repeat {X} (a : X) n : zlen (repeat a n) = Z.of_nat n.
Proof. unfold zlen. now rewrite repeat_length. Qed.

Lemma map_repeat {X Y} (f : X -> Y) a n : map f (repeat a n) = repeat (f a) n.
Proof. induction n; simpl; congruence. Qed.

Lemma copy_whole (o : vobj T) n : zlen o = n -> vmemcpy (repeat None (Z.to_nat n)) o n = Some o.
Proof.
  intros <-. rewrite vmemcpy_ok; [|unfold zlen; lia|rewrite zlen_repeat; unfold zlen; lia]. f_equal.
  unfold zlen. rewrite Nat2Z.id, firstn_all, skipn_all2 by (rewrite repeat_length; lia). apply app_nil_r.
Qed.
Lemma skipn_repeat {X} (a : X) n m : skipn m (repeat a n) = repeat a (n - m).
Proof. revert m; induction n; intros [|m]; simpl; auto. Qed.

Theorem resize_spec (o : vobj T) n : 0 <= n ->
  vresize o n = Some (firstn (Z.to_nat n) o ++ repeat None (Z.to_nat (n - zlen o))).
Proof.
  intros Hn. unfold vresize. pose proof (zlen_nonneg o) as L0. destruct (Z.eqb_spec (zlen o) 0) as [E|E].
  - rewrite vnew_ok by auto. unfold zlen in E. assert (o = []) as -> by (destruct o; [auto|simpl in E; lia]).
    rewrite firstn_nil. change (zlen []) with 0. now rewrite Z.sub_0_r.
  - destruct (Z.ltb_spec (zlen o) n).
    + rewrite vnew_ok by lia. cbn [bind]. rewrite vmemcpy_ok by (rewrite ?zlen_repeat; lia). cbn [bind].
      unfold zlen in *. rewrite Nat2Z.id, firstn_all, skipn_repeat. rewrite copy_whole.
      * f_equal. rewrite firstn_all2 by lia. f_equal. f_equal. lia.
      * unfold zlen. rewrite app_length, repeat_length. lia.
    + destruct (Z.ltb_spec n (zlen o)).
      * rewrite vnew_ok by lia. cbn [bind]. rewrite vmemcpy_ok by (rewrite ?zlen_repeat; lia). cbn [bind].
        rewrite skipn_repeat, Nat.sub_diag, app_nil_r. rewrite copy_whole; [|unfold zlen in *; rewrite firstn_length; lia].
        replace (Z.to_nat (n - zlen o)) with O by lia. now rewrite app_nil_r.
      * replace n with (zlen o) by lia. rewrite Z.sub_diag. unfold zlen. rewrite Nat2Z.id, firstn_all. change (Z.to_nat 0) with O. now rewrite app_nil_r.
Qed.

Lemma append_undefined (o : vobj T) v : vappend o v = None.
Proof.
  unfold vappend. pose proof (zlen_nonneg o) as L0. rewrite vnew_ok by auto. cbn [bind]. rewrite copy_whole by auto. cbn [bind].
  rewrite vnew_ok by lia. cbn [bind]. unfold vmemcpy.
  destruct (Z.leb_spec (zlen o + 1) (zlen o)); [lia|]. rewrite andb_false_r. reflexivity.
Qed.
Lemma append_all_undefined (o v : vobj T) : v <> [] -> vappend_all o v = None.
Proof.
  intros Hv. assert (0 < zlen v) by (destruct v; [contradiction|rewrite zlen_cons; pose proof (zlen_nonneg v); lia]).
  unfold vappend_all. pose proof (zlen_nonneg o) as L0. rewrite vnew_ok by auto. cbn [bind]. rewrite copy_whole by auto. cbn [bind].
  rewrite vnew_ok by lia. cbn [bind]. unfold vmemcpy.
  destruct (Z.leb_spec (zlen o + zlen v) (zlen o)); [lia|]. rewrite andb_false_r. reflexivity.
Qed.

(* a loop writing every element of a new array *)
Lemma write_all_cells (F : vobj T -> Z -> option (vobj T)) (z l : vobj T) : length z = length l ->
  (forall d i c, nth_error l i = Some c -> length d = length l -> F d (Z.of_nat i) = put d (Z.of_nat i) c) ->
  fold_opt F (zrange 0 (zlen l)) z = Some l.
Proof.
  intros L H. unfold zlen.
  destruct (fold_pos F (fun i d => firstn i d = firstn i l /\ length d = length l) (length l) z) as (d & -> & E1 & E2).
  - auto.
  - intros i d Hi [E L']. destruct (nth_error l i) as [c|] eqn:Ei; [|apply nth_error_None in Ei; lia].
    rewrite (H d i c Ei L'), put_nth by lia. eexists. split; [reflexivity|].
    assert (length (set_nth i d c) = length d) as Ls by (clear; revert i; induction d; intros [|i]; simpl; auto).
    split; [|lia].
    assert (nth_error (set_nth i d c) i = Some c) as En.
    { assert (i < length d)%nat as Hd by lia. clear - Hd. revert i Hd; induction d; intros [|i]; simpl; intros; try lia; auto. apply IHd; lia. }
    rewrite (firstn_snoc _ _ _ En), (firstn_snoc _ _ _ Ei). f_equal. rewrite <- E.
    clear. revert i; induction d; intros [|i]; simpl; auto. now rewrite IHd.
  - rewrite <- E2 in E1 at 1. rewrite !firstn_all in E1. congruence.
Qed.
Lemma fill_spec n v : 0 <= n -> @vfill T n v = Some (repeat (Some v) (Z.to_nat n)).
Proof.
  intros Hn. unfold vfill. rewrite vnew_ok by auto. cbn [bind].
  replace n with (zlen (repeat (Some v) (Z.to_nat n))) at 1 by (rewrite zlen_repeat; lia).
  apply write_all_cells; [now rewrite !repeat_length|].
  intros d i c E _. apply nth_error_In, repeat_spec in E. now subst.
Qed.
Lemma set_all_spec o v : @vset_all T o v = Some (repeat (Some v) (length o)).
Proof.
  unfold vset_all. replace (zlen o) with (zlen (repeat (Some v) (length o))) by (rewrite zlen_repeat; reflexivity).
  apply write_all_cells; [now rewrite !repeat_length|].
  intros d i c E _. apply nth_error_In, repeat_spec in E. now subst.
Qed.
Lemma vread_map (l : list T) i a : nth_error l i = Some a -> vread (map Some l) (Z.of_nat i) = Some a.
Proof. intros H. unfold vread. rewrite get_nth, nth_error_map, H. reflexivity. Qed.

Fixpoint map2 (f : T -> T -> T) (x y : list T) : list T :=
  match x, y with a :: x', b :: y' => f a b :: map2 f x' y' | _, _ => [] end.
Lemma length_map2 f x y : length x = length y -> length (map2 f x y) = length x.
Proof. revert y; induction x; intros [|b y]; simpl; intros; try lia. rewrite IHx; lia. Qed.
Lemma nth_map2 f x y i c : nth_error (map2 f x y) i = Some c -> exists a b, nth_error x i = Some a /\ nth_error y i = Some b /\ c = f a b.
Proof. revert y i; induction x; intros [|b y] [|i]; simpl; intros E; try discriminate; [inversion E; eauto|eauto]. Qed.

Lemma binary_spec f x y : length x = length y -> vbinary f (map Some x) (map Some y) = Some (map Some (map2 f x y)).
Proof.
  intros L. unfold vbinary. rewrite zlen_map, vnew_ok by (unfold zlen; lia). cbn [bind].
  replace (zlen x) with (zlen (map Some (map2 f x y))) at 1 by (unfold zlen; rewrite map_length, length_map2; auto).
  apply write_all_cells; [unfold zlen; rewrite repeat_length, map_length, length_map2 by auto; lia|].
  intros d i c E _. rewrite nth_error_map in E. destruct (nth_error (map2 f x y) i) eqn:Em; [|discriminate].
  destruct (nth_map2 _ _ _ _ _ Em) as (a & b & Ha & Hb & ->). rewrite (vread_map _ _ _ Ha), (vread_map _ _ _ Hb). inversion E. reflexivity.
Qed.
Lemma times_spec c x : vtimes N c (map Some x) = Some (map Some (map (n_mul N c) x)).
Proof.
  unfold vtimes. rewrite zlen_map, vnew_ok by (unfold zlen; lia). cbn [bind].
  replace (zlen x) with (zlen (map Some (map (n_mul N c) x))) at 1 by (unfold zlen; now rewrite !map_length).
  apply write_all_cells; [unfold zlen; rewrite repeat_length, !map_length; lia|].
  intros d i w E _. rewrite !nth_error_map in E. destruct (nth_error x i) eqn:Em; [|discriminate].
  rewrite (vread_map _ _ _ Em). inversion E. reflexivity.
Qed.

(* in-place loops: after i steps the first i elements are new *)
Lemma in_place (F : vobj T -> Z -> option (vobj T)) (x z : list T) : length x = length z ->
  (forall i a c, nth_error x i = Some a -> nth_error z i = Some c ->
     F (map Some (firstn i z ++ skipn i x)) (Z.of_nat i) = put (map Some (firstn i z ++ skipn i x)) (Z.of_nat i) (Some c)) ->
  fold_opt F (zrange 0 (zlen x)) (map Some x) = Some (map Some z).
Proof.
  intros L H. unfold zlen.
  destruct (fold_pos F (fun i d => d = map Some (firstn i z ++ skipn i x)) (length x) (map Some x)) as (d & -> & ->).
  - reflexivity.
  - intros i d Hi ->. destruct (nth_error x i) as [a|] eqn:Ex; [|apply nth_error_None in Ex; lia].
    destruct (nth_error z i) as [c|] eqn:Ez; [|apply nth_error_None in Ez; lia].
    rewrite (H i a c Ex Ez).
    assert (length (firstn i z) = i) as Lf by (rewrite firstn_length_le; lia).
    rewrite put_nth by (rewrite map_length, app_length, Lf, skipn_length; lia).
    eexists. split; [reflexivity|]. rewrite (firstn_snoc _ _ _ Ez), (skipn_nth _ _ _ Ex).
    rewrite set_nth_map. f_equal. rewrite <- app_assoc. rewrite <- Lf at 1. clear.
    generalize (firstn i z). intros p. simpl. induction p; simpl; [auto|]. congruence.
  - rewrite L, firstn_all, skipn_all2, app_nil_r by lia. reflexivity.
Qed.
Lemma scale_spec x c : vscale N (map Some x) (VOutside c) = Some (map Some (map (fun a => n_mul N a c) x)).
Proof.
  unfold vscale. rewrite zlen_map. apply in_place; [now rewrite map_length|].
  intros i a w Ha Hw. rewrite nth_error_map, Ha in Hw. inversion Hw; subst.
  rewrite (vread_map _ i a); [reflexivity|].
  assert (i < length x)%nat by (apply nth_error_Some; congruence).
  rewrite nth_error_app2; rewrite firstn_length_le by (rewrite map_length; lia); [|lia].
  rewrite Nat.sub_diag, (skipn_nth _ _ _ Ha). reflexivity.
Qed.

(* in the store *)
Definition others (st st' : vstore T) (x : Z) : Prop := zlen st' = zlen st /\ forall y, y <> x -> get st' y = get st y.
Lemma vput_at (st : vstore T) x o o' : get st x = Some o -> exists st', put st x o' = Some st' /\ get st' x = Some o' /\ others st st' x.
Proof.
  intros H. pose proof (get_range _ _ _ H) as R. exists (set_nth (Z.to_nat x) st o').
  assert (put st x o' = Some (set_nth (Z.to_nat x) st o')) as P by (apply put_ok; auto).
  split; [auto|]. assert (zlen (set_nth (Z.to_nat x) st o') = zlen st) as L.
  { unfold zlen. f_equal. clear. generalize (Z.to_nat x). induction st; intros [|n]; simpl; auto. }
  split.
  - unfold get in *. destruct (x <? 0); [discriminate|]. clear - H. revert H. generalize (Z.to_nat x).
    induction st; intros [|n]; simpl; try discriminate; auto.
  - split; [auto|]. intros y Hy. unfold get. destruct (Z.ltb_spec y 0); auto.
    assert (Z.to_nat y <> Z.to_nat x) as Hn by lia. clear - Hn. revert Hn. generalize (Z.to_nat x), (Z.to_nat y).
    induction st; intros [|n] [|m] H; simpl; auto; try congruence.
Qed.
Lemma others_trans (a b c : vstore T) x : others a b x -> others b c x -> others a c x.
Proof. intros [A1 A2] [B1 B2]. split; [congruence|]. intros y Hy. rewrite B2, A2; auto. Qed.

Lemma accum_spec f (st : vstore T) x y lx ly : get st x = Some (map Some lx) -> get st y = Some (map Some ly) -> length lx = length ly ->
  exists st', vaccum f st x y = Some st' /\ get st' x = Some (map Some (map2 f lx ly)) /\ others st st' x.
Proof.
  intros Gx Gy L. unfold vaccum. rewrite Gx. cbn [bind]. rewrite zlen_map. unfold zlen.
  set (lz := map2 f lx ly). assert (length lz = length lx) as Lz by (apply length_map2; auto).
  destruct (fold_pos (fun (st : vstore T) i => do ox <- get st x; do oy <- get st y; do a <- vread ox i; do b <- vread oy i;
      do ox0 <- put ox i (Some (f a b)); put st x ox0)
    (fun i (s : vstore T) => get s x = Some (map Some (firstn i lz ++ skipn i lx)) /\ others st s x) (length lx) st) as (st' & E & H1 & H2).
  - split; [exact Gx|split; auto].
  - intros i s Hi [A [O1 O2]]. rewrite A. cbn [bind].
    destruct (nth_error lx i) as [a|] eqn:Ex; [|apply nth_error_None in Ex; lia].
    destruct (nth_error ly i) as [b|] eqn:Ey; [|apply nth_error_None in Ey; lia].
    destruct (nth_error lz i) as [c|] eqn:Ez; [|apply nth_error_None in Ez; lia].
    assert (length (firstn i lz) = i) as Lf by (rewrite firstn_length_le; lia).
    assert (nth_error (firstn i lz ++ skipn i lx) i = Some a) as Ea.
    { rewrite nth_error_app2 by lia. rewrite Lf, Nat.sub_diag, (skipn_nth _ _ _ Ex). reflexivity. }
    assert (c = f a b) as ->.
    { destruct (nth_map2 _ _ _ _ _ Ez) as (a' & b' & H1 & H2 & ->). congruence. }
    assert (exists oy, get s y = Some oy /\ vread oy (Z.of_nat i) = Some b) as (oy & Gy' & Rb).
    { destruct (Z.eq_dec y x) as [->|Hn].
      - exists (map Some (firstn i lz ++ skipn i lx)). split; [exact A|]. rewrite Gx in Gy. inversion Gy as [E].
        assert (lx = ly) as El.
        { clear - E. revert ly E; induction lx; intros [|]; simpl; try discriminate; auto. intros E; inversion E; f_equal; auto. }
        apply vread_map. rewrite Ea. congruence.
      - exists (map Some ly). rewrite O2 by auto. split; [exact Gy|]. now apply vread_map. }
    rewrite Gy'. cbn [bind]. rewrite (vread_map _ _ _ Ea). cbn [bind]. rewrite Rb. cbn [bind].
    rewrite put_nth by (rewrite map_length, app_length, Lf, skipn_length; lia). cbn [bind].
    edestruct (vput_at s x) as (s' & P & G & B); [exact A|]. exists s'. split; [exact P|]. split.
    + rewrite G. f_equal. rewrite (firstn_snoc _ _ _ Ez), (skipn_nth _ _ _ Ex), set_nth_map. f_equal.
      rewrite <- app_assoc. rewrite <- Lf at 1. clear. generalize (firstn i lz). intros p. simpl. induction p; simpl; [auto|]. congruence.
    + eapply others_trans; [split; [exact O1|exact O2]|exact B].
  - exists st'. split; [exact E|]. split; [|auto]. rewrite <- Lz in H1. rewrite firstn_all, skipn_all2, app_nil_r in H1 by lia. exact H1.
Qed.

Lemma assign_spec (st : vstore T) x y ox oy : x <> y -> get st x = Some ox -> get st y = Some oy ->
  exists st', @vassign T st x y = Some st' /\ get st' x = Some oy /\ others st st' x.
Proof.
  intros Hxy Hx Hy. unfold vassign. rewrite Hy. cbn [bind].
  destruct (vput_at st x _ (repeat None (Z.to_nat (zlen oy))) Hx) as (st1 & -> & G1 & B1). cbn [bind].
  unfold zlen in *. rewrite Nat2Z.id in *.
  destruct (fold_pos (fun (st0 : vstore T) i => do oy <- get st0 y; do c <- get oy i; do ox <- get st0 x;
      do ox0 <- put ox i c; put st0 x ox0)
    (fun i (s : vstore T) => get s x = Some (firstn i oy ++ repeat None (length oy - i)) /\ others st s x) (length oy) st1) as (st' & E & H1 & H2).
  - split; [rewrite Nat.sub_0_r; exact G1|exact B1].
  - intros i s Hi [A [S1 S2]]. rewrite S2 by congruence. rewrite Hy. cbn [bind].
    destruct (nth_error oy i) as [c|] eqn:Ei; [|apply nth_error_None in Ei; lia].
    rewrite get_nth, Ei. cbn [bind]. rewrite A. cbn [bind].
    assert (length (firstn i oy) = i) as L by (apply firstn_length_le; lia).
    rewrite put_nth by (rewrite app_length, repeat_length; lia). cbn [bind].
    edestruct (vput_at s x) as (s' & P & G & B); [exact A|]. exists s'. split; [exact P|]. split.
    + rewrite G. f_equal. rewrite (firstn_snoc _ _ _ Ei).
      replace (length oy - i)%nat with (S (length oy - S i)) by lia. simpl.
      rewrite <- app_assoc. simpl. rewrite <- L at 1. generalize (firstn i oy). clear. intros p. induction p; simpl; [auto|]. congruence.
    + eapply others_trans; [split; [exact S1|exact S2]|exact B].
  - exists st'. split; [exact E|]. split; [|auto]. rewrite firstn_all, Nat.sub_diag, app_nil_r in H1. exact H1.
Qed.
Lemma copy_spec (st : vstore T) x y ox oy : x <> y -> get st x = Some ox -> get st y = Some oy ->
  exists st', @vcopy T st x y = Some st' /\ get st' x = Some oy /\ others st st' x.
Proof.
  intros Hxy Hx Hy. unfold vcopy. rewrite Hx, Hy. cbn [bind]. rewrite vnew_ok by (unfold zlen; lia). cbn [bind].
  destruct (vput_at st x _ (repeat None (Z.to_nat (zlen oy))) Hx) as (st1 & -> & G1 & B1 & B2). cbn [bind].
  rewrite B2 by congruence. rewrite Hy. cbn [bind]. rewrite copy_whole by auto. cbn [bind].
  destruct (vput_at st1 x _ oy G1) as (st2 & -> & G2 & C). exists st2. split; auto. split; auto.
  eapply others_trans; [split; [exact B1|exact B2]|exact C].
Qed.
(* self assignment: every element becomes uninitialised *)
Lemma assign_self (st : vstore T) x ox : get st x = Some ox ->
  exists st', @vassign T st x x = Some st' /\ get st' x = Some (repeat None (length ox)).
Proof.
  intros Hx. unfold vassign. rewrite Hx. cbn [bind].
  destruct (vput_at st x _ (repeat None (Z.to_nat (zlen ox))) Hx) as (st1 & -> & G1 & B1). cbn [bind].
  unfold zlen in *. rewrite Nat2Z.id in *.
  destruct (fold_pos (fun (st0 : vstore T) i => do oy <- get st0 x; do c <- get oy i; do ox <- get st0 x;
      do ox0 <- put ox i c; put st0 x ox0)
    (fun i (s : vstore T) => get s x = Some (repeat None (length ox))) (length ox) st1) as (st' & E & H1).
  - exact G1.
  - intros i s Hi A. rewrite A. cbn [bind]. rewrite get_nth.
    assert (nth_error (repeat (@None T) (length ox)) i = Some None) as Ei.
    { clear - Hi. revert i Hi; induction (length ox); intros [|i] Hi; simpl; try lia; auto. apply IHn. lia. }
    rewrite Ei. cbn [bind]. rewrite put_nth by (rewrite repeat_length; lia). cbn [bind].
    edestruct (vput_at s x) as (s' & P & G & B); [exact A|]. exists s'. split; [exact P|].
    rewrite G. f_equal. clear. revert i. induction (length ox); intros [|i]; simpl; auto. now rewrite IHn.
  - exists st'. split; [exact E|exact H1].
Qed.

Lemma swap_spec (st : vstore T) x y ox oy : get st x = Some ox -> get st y = Some oy ->
  exists st', @vswap T st x y = Some st' /\ get st' x = Some oy /\ get st' y = Some ox /\ forall z, z <> x -> z <> y -> get st' z = get st z.
Proof.
  intros Hx Hy. unfold vswap. rewrite Hx, Hy. cbn [bind].
  destruct (vput_at st x _ oy Hx) as (st1 & -> & G1 & B1 & B2). cbn [bind].
  assert (exists o, get st1 y = Some o) as [o Go].
  { destruct (Z.eq_dec y x) as [->|]; [eauto|]. rewrite B2 by auto. eauto. }
  destruct (vput_at st1 y _ ox Go) as (st2 & -> & G2 & C1 & C2). exists st2. split; auto. split; [|split; auto].
  - destruct (Z.eq_dec x y) as [->|]; [congruence|]. rewrite C2 by auto. auto.
  - intros z Z1 Z2. rewrite C2, B2; auto.
Qed.

(* equality *)
Lemma eq_loop (x y : list T) (L : num_laws N) : length x = length y ->
  exists r, fold_opt (fun r i => do a <- vread (map Some x) i; do b <- vread (map Some y) i; Some (r && n_eq N a b)) (zrange 0 (zlen x)) true = Some r
    /\ (r = true <-> x = y).
Proof.
  intros Ll. unfold zlen.
  destruct (fold_pos (fun r i => do a <- vread (map Some x) i; do b <- vread (map Some y) i; Some (r && n_eq N a b))
    (fun i r => r = true <-> firstn i x = firstn i y) (length x) true) as (r & E & H).
  - simpl. tauto.
  - intros i r Hi IH. destruct (nth_error x i) as [a|] eqn:Ex; [|apply nth_error_None in Ex; lia].
    destruct (nth_error y i) as [b|] eqn:Ey; [|apply nth_error_None in Ey; lia].
    rewrite (vread_map _ _ _ Ex), (vread_map _ _ _ Ey). cbn [bind]. eexists. split; [reflexivity|].
    rewrite andb_true_iff, IH, (eq_spec N L), (firstn_snoc _ _ _ Ex), (firstn_snoc _ _ _ Ey). split.
    + intros [-> ->]. auto.
    + intros E. apply app_inj_tail in E as [-> ->]. auto.
  - exists r. split; auto. rewrite H. rewrite Ll at 2. rewrite !firstn_all. tauto.
Qed.
Theorem veq_spec (L : num_laws N) x y : exists r, veq N (map Some x) (map Some y) = Some r /\ (r = true <-> x = y).
Proof.
  unfold veq. rewrite !zlen_map. destruct (Z.eqb_spec (zlen x) (zlen y)) as [E|E].
  - apply eq_loop; auto. unfold zlen in E. lia.
  - exists false. split; auto. split; [discriminate|]. intros ->. congruence.
Qed.

(* dot product *)
Fixpoint dot (x y : list T) : T :=
  match x, y with a :: x', b :: y' => n_add N (dot x' y') (n_mul N a b) | _, _ => n_zero N end.
Definition dotl (x y : list T) : T := fold_left (fun z p => n_add N z (n_mul N (fst p) (snd p))) (combine x y) (n_zero N).
Lemma vdot_spec x y : vdot N (map Some x) (map Some y) = Some (dotl x y).
Proof.
  unfold vdot. rewrite !zlen_map. unfold dotl.
  replace (if zlen y <? zlen x then zlen y else zlen x) with (Z.of_nat (length (combine x y)))
    by (rewrite combine_length; unfold zlen; destruct (Z.ltb_spec (Z.of_nat (length y)) (Z.of_nat (length x))); lia).
  destruct (fold_pos (fun z i => do a <- vread (map Some x) i; do b <- vread (map Some y) i; Some (n_add N z (n_mul N a b)))
    (fun i z => z = fold_left (fun z p => n_add N z (n_mul N (fst p) (snd p))) (firstn i (combine x y)) (n_zero N)) (length (combine x y)) (n_zero N)) as (r & -> & ->).
  - reflexivity.
  - intros i z Hi ->. destruct (nth_error (combine x y) i) as [[a b]|] eqn:E; [|apply nth_error_None in E; lia].
    assert (nth_error x i = Some a /\ nth_error y i = Some b) as [Ex Ey].
    { clear - E. revert y i E; induction x; intros [|b' y] [|i]; simpl; try discriminate; [intros E; inversion E; auto|auto]. }
    rewrite (vread_map _ _ _ Ex), (vread_map _ _ _ Ey). cbn [bind]. eexists. split; [reflexivity|].
    rewrite (firstn_snoc _ _ _ E), fold_left_app. reflexivity.
  - now rewrite firstn_all.
Qed.
End Vector.
