From Verif Require Import Model.Base Model.Num Model.Sparse Spec.Sparse Proof.BaseL.
From Coq Require Import Permutation.

Lemma firstn_snoc {X} (l : list X) i a : nth_error l i = Some a -> firstn (S i) l = firstn i l ++ [a].
Proof.
  revert i; induction l as [|b l IH]; intros [|i] E; simpl in E; try discriminate; [simpl; congruence|].
  change (firstn (S (S i)) (b :: l)) with (b :: firstn (S i) l). rewrite IH by auto. reflexivity.
Qed.
Lemma split_nth {X} (l : list X) i a : nth_error l i = Some a -> l = firstn i l ++ a :: skipn (S i) l.
Proof.
  revert i; induction l as [|b l IH]; intros [|i] E; simpl in E; try discriminate; [simpl; congruence|].
  change (skipn (S (S i)) (b :: l)) with (skipn (S i) l). simpl firstn. rewrite <- app_comm_cons, <- IH by auto. reflexivity.
Qed.
Lemma skipn_nth {X} (l : list X) i a : nth_error l i = Some a -> skipn i l = a :: skipn (S i) l.
Proof.
  revert i; induction l as [|b l IH]; intros [|i] E; simpl in E; try discriminate; [simpl; congruence|].
  change (skipn (S (S i)) (b :: l)) with (skipn (S i) l). simpl skipn at 1. auto.
Qed.

Section Sparse.
Context {T : Type} (N : num T).
Notation alist := (list (Z * T)).

Fixpoint lookup (l : alist) (k : Z) : option T :=
  match l with [] => None | (j, v) :: t => if j =? k then Some v else lookup t k end.
Fixpoint aset (l : alist) (k : Z) (f : T -> T) : alist :=
  match l with
  | [] => [(k, f (n_zero N))]
  | (j, v) :: t => if j =? k then (j, f v) :: t else (j, v) :: aset t k f
  end.
Definition aval (l : alist) k := match lookup l k with Some v => v | None => n_zero N end.

Lemma lookup_in l k v : NoDup (map fst l) -> In (k, v) l <-> lookup l k = Some v.
Proof.
  induction l as [|[j w] l IH]; simpl; intros ND; [split; [tauto|discriminate]|].
  inversion ND; subst. destruct (Z.eqb_spec j k).
  - subst. split; [intros [E|E]; [congruence|]|intros E; left; congruence].
    exfalso. apply H1. apply in_map_iff. exists (k, v). auto.
  - rewrite <- IH by auto. split; [intros [E|E]; [congruence|auto]|auto].
Qed.
Lemma lookup_none l k : lookup l k = None <-> ~ In k (map fst l).
Proof.
  induction l as [|[j w] l IH]; simpl; [tauto|]. destruct (Z.eqb_spec j k); [split; [discriminate|tauto]|rewrite IH; tauto].
Qed.
Lemma holds_lookup o m : holds o m <-> exists l, o = map Some l /\ NoDup (map fst l) /\ forall k, m k = lookup l k.
Proof.
  split; intros (l & E & ND & H); exists l; split; auto; split; auto.
  - intros k. destruct (m k) eqn:M.
    + apply H in M. apply lookup_in in M; auto.
    + symmetry. apply lookup_none. intros I. apply in_map_iff in I as ([k' v] & <- & I). apply H in I. simpl in M. congruence.
  - intros k v. rewrite H. now apply lookup_in.
Qed.
Lemma keys_aset l k f x : In x (map fst (aset l k f)) <-> x = k \/ In x (map fst l).
Proof.
  induction l as [|[j v] l IH]; simpl; [intuition|]. destruct (Z.eqb_spec j k); simpl; [subst; intuition|rewrite IH; intuition].
Qed.
Lemma NoDup_aset l k f : NoDup (map fst l) -> NoDup (map fst (aset l k f)).
Proof.
  induction l as [|[j v] l IH]; simpl; intros ND; [constructor; [simpl; tauto|constructor]|]. inversion ND; subst.
  destruct (Z.eqb_spec j k); simpl; [auto|]. constructor; [|auto]. rewrite keys_aset. intros [->|?]; auto.
Qed.
Lemma lookup_aset l k f k' : lookup (aset l k f) k' = if k' =? k then Some (f (aval l k)) else lookup l k'.
Proof.
  unfold aval. induction l as [|[j v] l IH]; simpl.
  - rewrite (Z.eqb_sym k k'). destruct (k' =? k); auto.
  - destruct (Z.eqb_spec j k); simpl.
    + subst. rewrite (Z.eqb_sym k k'). destruct (k' =? k); auto.
    + rewrite IH. destruct (Z.eqb_spec j k'), (Z.eqb_spec k' k); subst; auto. congruence.
Qed.

Lemma get_nth {X} (l : list X) n : get l (Z.of_nat n) = nth_error l n.
Proof. unfold get. destruct (Z.ltb_spec (Z.of_nat n) 0); [lia|]. now rewrite Nat2Z.id. Qed.

Lemma sfind_map l k : exists r, sfind (map Some l) k = Some r /\
  match r with
  | None => lookup l k = None
  | Some p => exists v, nth_error l p = Some (k, v) /\ lookup l k = Some v /\ forall f, aset l k f = set_nth p l (k, f v)
  end.
Proof.
  induction l as [|[j v] l IH]; simpl; [exists None; auto|].
  destruct (Z.eqb_spec j k).
  - subst. exists (Some O). split; auto. exists v. simpl. auto.
  - destruct IH as (r & -> & IH). simpl. exists (option_map S r). split; auto.
    destruct r as [p|]; simpl; auto. destruct IH as (w & H1 & H2 & H3). exists w. split; auto. split; auto.
    intros f. now rewrite H3.
Qed.
Lemma sitem_map (l : list (Z * T)) i it : nth_error l i = Some it -> sitem (map Some l) (Z.of_nat i) = Some it.
Proof. intros H. unfold sitem. rewrite get_nth, nth_error_map, H. reflexivity. Qed.
Lemma put_nth {X} (l : list X) p v : (p < length l)%nat -> put l (Z.of_nat p) v = Some (set_nth p l v).
Proof. intros H. rewrite put_ok by (unfold zlen; lia). now rewrite Nat2Z.id. Qed.
Lemma set_nth_map {X Y} (g : X -> Y) l p v : set_nth p (map g l) (g v) = map g (set_nth p l v).
Proof. revert p; induction l; intros [|p]; simpl; auto. now rewrite IHl. Qed.
Lemma set_nth_last {X} (l : list X) a b : set_nth (length l) (l ++ [a]) b = l ++ [b].
Proof. induction l; simpl; congruence. Qed.
Lemma nth_error_last {X} (l : list X) a : nth_error (l ++ [a]) (length l) = Some a.
Proof. rewrite nth_error_app2 by lia. now rewrite Nat.sub_diag. Qed.

Lemma sset_map (l : list (Z * T)) k : exists z p v, sset N (map Some l) k = Some (map Some z, Z.of_nat p) /\
  nth_error z p = Some (k, v) /\ v = aval l k /\ forall f, set_nth p z (k, f v) = aset l k f.
Proof.
  unfold sset. destruct (sfind_map l k) as (r & -> & H). cbn [bind]. destruct r as [p|].
  - destruct H as (v & H1 & H2 & H3). exists l, p, v. split; auto. split; auto. split; [unfold aval; now rewrite H2|auto].
  - exists (l ++ [(k, n_zero N)]), (length l), (n_zero N). split; [unfold zlen; rewrite map_app, map_length; auto|].
    split; [apply nth_error_last|]. split; [unfold aval; now rewrite H|]. intros f. rewrite set_nth_last.
    clear - H. induction l as [|[j v] l IH]; simpl in *; auto. destruct (j =? k); [discriminate|]. now rewrite IH.
Qed.
Lemma supd_map (z : list (Z * T)) p k v f : nth_error z p = Some (k, v) ->
  supd (map Some z) (Z.of_nat p) f = Some (map Some (set_nth p z (k, f v))).
Proof.
  intros H. unfold supd. rewrite (sitem_map _ _ _ H). cbn [bind fst snd].
  rewrite put_nth by (rewrite map_length; apply nth_error_Some; congruence). f_equal. apply (set_nth_map Some).
Qed.
Lemma sset_op_map l k f : sset_op N (map Some l) k f = Some (map Some (aset l k f)).
Proof.
  unfold sset_op. destruct (sset_map l k) as (z & p & v & -> & H1 & H2 & H3). cbn [bind fst snd].
  rewrite (supd_map _ _ _ _ _ H1). now rewrite H3.
Qed.
Lemma sread_map l k : sread N (map Some l) k = Some (aval l k).
Proof.
  unfold sread. destruct (sfind_map l k) as (r & -> & H). cbn [bind]. unfold aval. destruct r as [p|].
  - destruct H as (v & H1 & H2 & _). unfold svalue. rewrite (sitem_map _ _ _ H1). cbn [bind snd]. now rewrite H2.
  - now rewrite H.
Qed.

(* loops over the items of an array *)
Definition fill (g : Z -> T -> T -> T) (z x : alist) : alist :=
  fold_left (fun z it => aset z (fst it) (fun a => g (fst it) a (snd it))) x z.
Lemma sfill_map f g z x : (forall k a v, In (k, v) x -> f k a v = Some (g k a v)) ->
  sfill N f (map Some z) (map Some x) = Some (map Some (fill g z x)).
Proof.
  intros Hf. unfold sfill.
  set (F := fun (z0 : sobj T) i => _).
  assert (forall (z0 : alist) i it, nth_error x i = Some it ->
    F (map Some z0) (Z.of_nat i) = Some (map Some (aset z0 (fst it) (fun a => g (fst it) a (snd it))))) as HF.
  { intros z0 i it Hi. unfold F. rewrite (sitem_map _ _ _ Hi). cbn [bind].
    destruct (sset_map z0 (fst it)) as (z1 & p & v & -> & H1 & H2 & H3). cbn [bind fst snd].
    unfold svalue. rewrite (sitem_map _ _ _ H1). cbn [bind snd].
    rewrite Hf by (destruct it; eapply nth_error_In; eauto). cbn [bind].
    rewrite (supd_map _ _ _ _ _ H1). rewrite <- H3. reflexivity. }
  clearbody F. unfold zrange, zlen. rewrite map_length.
  replace (Z.to_nat (Z.of_nat (length x) - 0)) with (length x) by lia.
  assert (forall pre y z, x = pre ++ y ->
    fold_opt F (map (fun k => 0 + Z.of_nat k) (seq (length pre) (length y))) (map Some z) = Some (map Some (fill g z y))) as X.
  { intros pre y; revert pre; induction y as [|it y IH]; intros pre z' E; simpl; auto.
    rewrite Z.add_0_l, (HF z' (length pre) it); [|subst; rewrite nth_error_app2, Nat.sub_diag by lia; auto].
    cbn [bind]. specialize (IH (pre ++ [it]) (aset z' (fst it) (fun a => g (fst it) a (snd it)))).
    rewrite app_length, Nat.add_comm in IH. cbn [length Nat.add] in IH. rewrite IH; [reflexivity|]. now rewrite <- app_assoc. }
  apply (X [] x z). reflexivity.
Qed.
Lemma fill_cons g z it x : fill g z (it :: x) = fill g (aset z (fst it) (fun a => g (fst it) a (snd it))) x.
Proof. reflexivity. Qed.
Lemma NoDup_fill g z x : NoDup (map fst z) -> NoDup (map fst (fill g z x)).
Proof. revert z; induction x as [|it x IH]; intros z H; [auto|]. rewrite fill_cons. apply IH. now apply NoDup_aset. Qed.
Lemma lookup_fill g z x k : NoDup (map fst x) ->
  lookup (fill g z x) k = match lookup x k with Some v => Some (g k (aval z k) v) | None => lookup z k end.
Proof.
  revert z; induction x as [|[j v] x IH]; intros z ND; [reflexivity|]. inversion ND; subst. rewrite fill_cons, IH by auto.
  cbn [fst snd lookup] in *. unfold aval at 1. rewrite lookup_aset.
  destruct (Z.eqb_spec j k).
  - subst. rewrite Z.eqb_refl. destruct (lookup x k) eqn:E; auto.
    exfalso. apply H1. apply lookup_in in E; auto. apply in_map_iff. exists (k, t). auto.
  - destruct (Z.eqb_spec k j); [congruence|]. fold (aval z k). destruct (lookup x k); auto.
Qed.

Lemma zlen_map {X Y} (f : X -> Y) l : zlen (map f l) = zlen l.
Proof. unfold zlen. now rewrite map_length. Qed.

(* a store whose variable x holds the list l *)
Definition at_ (st : sstore T) (x : Z) (l : alist) : Prop := get st x = Some (map Some l).
Definition same_but (st st' : sstore T) (x : Z) : Prop := zlen st' = zlen st /\ forall y, y <> x -> get st' y = get st y.

Lemma get_range {X} (st : list X) x o : get st x = Some o -> 0 <= x < zlen st.
Proof.
  unfold get. destruct (Z.ltb_spec x 0); [discriminate|]. intros E.
  assert (Z.to_nat x < length st)%nat by (apply nth_error_Some; congruence). unfold zlen. lia.
Qed.
Lemma put_at (st : sstore T) x o o' : get st x = Some o -> exists st', put st x o' = Some st' /\ get st' x = Some o' /\ same_but st st' x.
Proof.
  intros H. pose proof (get_range _ _ _ H) as R. exists (set_nth (Z.to_nat x) st o').
  assert (put st x o' = Some (set_nth (Z.to_nat x) st o')) as P by (apply put_ok; auto).
  split; [auto|]. assert (zlen (set_nth (Z.to_nat x) st o') = zlen st) as L.
  { unfold zlen. f_equal. clear. generalize (Z.to_nat x). induction st; intros [|n]; simpl; auto. }
  split.
  - unfold get in *. destruct (x <? 0); [discriminate|]. clear - H. revert H. generalize (Z.to_nat x).
    induction st; intros [|n]; simpl; try discriminate; auto.
  - split; [auto|]. intros y Hy. unfold get. destruct (Z.ltb_spec y 0); auto.
    assert (Z.to_nat y <> Z.to_nat x) as Hn by lia. clear - Hn. revert Hn. generalize (Z.to_nat x), (Z.to_nat y).
    induction st; intros [|n] [|m] H; simpl; auto; try congruence. 
Qed.
Lemma same_refl (st : sstore T) x : same_but st st x.
Proof. split; auto. Qed.
Lemma same_trans (a b c : sstore T) x : same_but a b x -> same_but b c x -> same_but a c x.
Proof. intros [A1 A2] [B1 B2]. split; [congruence|]. intros y Hy. rewrite B2, A2; auto. Qed.

(* loops over positions, relating the state after i items *)
Lemma fold_pos {S} (F : S -> Z -> option S) (I : nat -> S -> Prop) n s :
  I O s -> (forall i s, (i < n)%nat -> I i s -> exists s', F s (Z.of_nat i) = Some s' /\ I (Datatypes.S i) s') ->
  exists s', fold_opt F (zrange 0 (Z.of_nat n)) s = Some s' /\ I n s'.
Proof.
  intros H0 HS. unfold zrange. replace (Z.to_nat (Z.of_nat n - 0)) with n by lia.
  assert (forall k i s, (i + k = n)%nat -> I i s ->
    exists s', fold_opt F (map (fun j => 0 + Z.of_nat j) (seq i k)) s = Some s' /\ I n s') as X.
  { induction k as [|k IH]; intros i s' E Hi; simpl.
    - exists s'. split; auto. replace n with i by lia. auto.
    - destruct (HS i s' ltac:(lia) Hi) as (s1 & E1 & H1). rewrite Z.add_0_l, E1. cbn [bind]. apply IH; [lia|auto]. }
  now apply (X n O s).
Qed.

(* x += y, x -= y *)
Lemma saccum_distinct f st x y lx ly : x <> y -> at_ st x lx -> at_ st y ly ->
  exists st', saccum N f st x y = Some st' /\ at_ st' x (fill (fun _ a v => f a v) lx ly) /\ same_but st st' x.
Proof.
  intros Hxy Hx Hy. unfold saccum. rewrite Hy. cbn [bind]. rewrite zlen_map. unfold zlen.
  destruct (fold_pos (fun st0 i => do oy <- get st0 y; do it <- sitem oy i; do ox <- get st0 x;
      do ox0 <- sset_op N ox (fst it) (fun a => f a (snd it)); put st0 x ox0)
    (fun i s => at_ s x (fill (fun _ a v => f a v) lx (firstn i ly)) /\ same_but st s x) (length ly) st) as (st' & E & H1 & H2).
  - split; [exact Hx|apply same_refl].
  - intros i s Hi [A S]. destruct S as [S1 S2]. rewrite S2 by congruence. rewrite Hy. cbn [bind].
    destruct (nth_error ly i) as [it|] eqn:Ei; [|apply nth_error_None in Ei; lia].
    rewrite (sitem_map _ _ _ Ei). cbn [bind]. rewrite A. cbn [bind]. rewrite sset_op_map. cbn [bind].
    edestruct (put_at s x) as (s' & P & G & B); [exact A|]. exists s'. split; [exact P|]. split.
    + unfold at_. rewrite G. f_equal. f_equal. 
      assert (firstn (Datatypes.S i) ly = firstn i ly ++ [it]) as -> by now apply firstn_snoc.
      unfold fill. rewrite fold_left_app. reflexivity.
    + eapply same_trans; [split; [exact S1|exact S2]|exact B].
  - exists st'. split; [exact E|]. split; [|auto]. rewrite firstn_all in H1. exact H1.
Qed.

Lemma aset_at l1 k v l2 f : NoDup (map fst (l1 ++ (k, v) :: l2)) -> aset (l1 ++ (k, v) :: l2) k f = l1 ++ (k, f v) :: l2.
Proof.
  induction l1 as [|[j w] l1 IH]; simpl; intros ND.
  - now rewrite Z.eqb_refl.
  - inversion ND; subst. destruct (Z.eqb_spec j k); [|now rewrite IH].
    subst. exfalso. apply H1. rewrite map_app. apply in_or_app. right. simpl. auto.
Qed.
Definition amap (g : T -> T) (l : alist) : alist := map (fun it => (fst it, g (snd it))) l.
Lemma keys_amap g l : map fst (amap g l) = map fst l.
Proof. unfold amap. rewrite map_map. reflexivity. Qed.
Lemma lookup_amap g l k : lookup (amap g l) k = option_map g (lookup l k).
Proof. induction l as [|[j v] l IH]; simpl; auto. destruct (j =? k); auto. Qed.
Lemma step_amap g l i k v : NoDup (map fst l) -> nth_error l i = Some (k, v) ->
  aset (amap g (firstn i l) ++ skipn i l) k (fun _ => g v) = amap g (firstn (S i) l) ++ skipn (S i) l /\
  nth_error (amap g (firstn i l) ++ skipn i l) i = Some (k, v) /\
  forall f, aset (amap g (firstn i l) ++ skipn i l) k f = amap g (firstn i l) ++ (k, f v) :: skipn (S i) l.
Proof.
  intros ND E. pose proof (split_nth _ _ _ E) as El. pose proof (skipn_nth _ _ _ E) as Es. pose proof (firstn_snoc _ _ _ E) as Ef.
  assert (NoDup (map fst (amap g (firstn i l) ++ (k, v) :: skipn (S i) l))) as ND'.
  { rewrite map_app, keys_amap. rewrite El in ND. rewrite map_app in ND. exact ND. }
  assert (length (firstn i l) = i) as L.
  { apply firstn_length_le. assert (i < length l)%nat by (apply nth_error_Some; congruence). lia. }
  rewrite Es. split; [|split].
  - rewrite aset_at by auto. rewrite Ef. unfold amap. rewrite map_app. simpl. now rewrite <- app_assoc.
  - rewrite nth_error_app2 by (unfold amap; rewrite map_length; lia). unfold amap. rewrite map_length, L, Nat.sub_diag. reflexivity.
  - intros f. now rewrite aset_at.
Qed.
Lemma saccum_self f st x lx : NoDup (map fst lx) -> at_ st x lx ->
  exists st', saccum N f st x x = Some st' /\ at_ st' x (amap (fun v => f v v) lx) /\ same_but st st' x.
Proof.
  intros ND Hx. unfold saccum. rewrite Hx. cbn [bind]. rewrite zlen_map. unfold zlen.
  destruct (fold_pos (fun st0 i => do oy <- get st0 x; do it <- sitem oy i; do ox <- get st0 x;
      do ox0 <- sset_op N ox (fst it) (fun a => f a (snd it)); put st0 x ox0)
    (fun i s => at_ s x (amap (fun v => f v v) (firstn i lx) ++ skipn i lx) /\ same_but st s x) (length lx) st) as (st' & E & H1 & H2).
  - split; [exact Hx|apply same_refl].
  - intros i s Hi [A S]. 
    destruct (nth_error lx i) as [[k v]|] eqn:Ei; [|apply nth_error_None in Ei; lia].
    destruct (step_amap (fun v => f v v) lx i k v ND Ei) as (S1 & S2 & S3).
    rewrite A. cbn [bind]. rewrite (sitem_map _ _ _ S2). cbn [bind fst snd].
    rewrite sset_op_map. cbn [bind].
    edestruct (put_at s x) as (s' & P & G & B); [exact A|]. exists s'. split; [exact P|]. split.
    + unfold at_. rewrite G. f_equal. f_equal. rewrite S3. rewrite <- S1, S3. reflexivity.
    + eapply same_trans; eauto.
  - exists st'. split; [exact E|]. split; [|auto]. rewrite firstn_all, skipn_all, app_nil_r in H1. exact H1.
Qed.

Lemma sscale_map l c : NoDup (map fst l) -> sscale N (map Some l) (Outside c) = Some (map Some (amap (fun v => n_mul N v c) l)).
Proof.
  intros ND. unfold sscale. rewrite zlen_map. unfold zlen.
  destruct (fold_pos (fun ox i => do k <- sindex ox i; do c0 <- deref ox (Outside c); sset_op N ox k (fun a => n_mul N a c0))
    (fun i s => s = map Some (amap (fun v => n_mul N v c) (firstn i l) ++ skipn i l)) (length l) (map Some l)) as (s' & E & H).
  - reflexivity.
  - intros i s Hi ->. destruct (nth_error l i) as [[k v]|] eqn:Ei; [|apply nth_error_None in Ei; lia].
    destruct (step_amap (fun v => n_mul N v c) l i k v ND Ei) as (S1 & S2 & S3).
    unfold sindex. rewrite (sitem_map _ _ _ S2). cbn [bind deref fst]. rewrite sset_op_map.
    eexists. split; [reflexivity|]. f_equal. rewrite <- S1, !S3. reflexivity.
  - rewrite E, H. now rewrite firstn_all, skipn_all, app_nil_r.
Qed.

Lemma sassign_distinct st x y lx ly : x <> y -> at_ st x lx -> at_ st y ly ->
  exists st', sassign st x y = Some st' /\ at_ st' x ly /\ same_but st st' x.
Proof.
  intros Hxy Hx Hy. unfold sassign. rewrite Hy. cbn [bind]. rewrite zlen_map.
  destruct (put_at st x _ (repeat None (Z.to_nat (zlen ly))) Hx) as (st1 & -> & G1 & B1). cbn [bind].
  unfold zlen in *. rewrite Nat2Z.id in *.
  destruct (fold_pos (fun st0 i => do oy <- get st0 y; do it <- sitem oy i; do ox <- get st0 x;
      do ox0 <- put ox i (Some it); put st0 x ox0)
    (fun i s => get s x = Some (map Some (firstn i ly) ++ repeat None (length ly - i)) /\ same_but st s x) (length ly) st1) as (st' & E & H1 & H2).
  - split; [rewrite Nat.sub_0_r; exact G1|exact B1].
  - intros i s Hi [A [S1 S2]]. rewrite S2 by congruence. rewrite Hy. cbn [bind].
    destruct (nth_error ly i) as [it|] eqn:Ei; [|apply nth_error_None in Ei; lia].
    rewrite (sitem_map _ _ _ Ei). cbn [bind]. rewrite A. cbn [bind].
    assert (length (firstn i ly) = i) as L by (apply firstn_length_le; lia).
    rewrite put_nth by (rewrite app_length, map_length, repeat_length; lia). cbn [bind].
    edestruct (put_at s x) as (s' & P & G & B); [exact A|]. exists s'. split; [exact P|]. split.
    + rewrite G. f_equal. assert (firstn (Datatypes.S i) ly = firstn i ly ++ [it]) as -> by now apply firstn_snoc.
      rewrite map_app. simpl. replace (length ly - i)%nat with (S (length ly - S i)) by lia. simpl.
      rewrite <- app_assoc. simpl. 
      assert (forall (a : sobj T) b w c, set_nth (length a) (a ++ w :: b) c = a ++ c :: b) as SN by (clear; induction a; simpl; congruence).
      rewrite <- L at 1. rewrite <- (map_length Some (firstn i ly)). rewrite SN. reflexivity.
    + eapply same_trans; [split; [exact S1|exact S2]|exact B].
  - exists st'. split; [exact E|]. split; [|auto]. rewrite firstn_all, Nat.sub_diag, app_nil_r in H1. exact H1.
Qed.
Lemma map_opt_some {X} (l : list X) : map_opt (fun c => c) (map Some l) = Some l.
Proof. induction l; simpl; auto. now rewrite IHl. Qed.
Lemma scopy_distinct st x y lx ly : x <> y -> at_ st x lx -> at_ st y ly ->
  exists st', scopy st x y = Some st' /\ at_ st' x ly /\ same_but st st' x.
Proof.
  intros Hxy Hx Hy. unfold scopy. rewrite Hy. cbn [bind].
  destruct (put_at st x _ (repeat None (length (map Some ly))) Hx) as (st1 & -> & G1 & B1). cbn [bind].
  destruct B1 as [B1 B2]. rewrite B2 by congruence. rewrite Hy. cbn [bind]. rewrite map_opt_some. cbn [bind].
  destruct (put_at st1 x _ (map Some ly) G1) as (st2 & -> & G2 & C). exists st2. split; auto. split; [exact G2|].
  eapply same_trans; [split; [exact B1|exact B2]|exact C].
Qed.
Lemma fold_opt_none {X S} (F : S -> X -> option S) a l s : F s a = None -> fold_opt F (a :: l) s = None.
Proof. intros H. simpl. now rewrite H. Qed.
(* self assignment of a non-empty object reads uninitialised memory *)
Lemma sassign_self st x it l : at_ st x (it :: l) -> sassign st x x = None.
Proof.
  intros Hx. unfold sassign. rewrite Hx. cbn [bind]. rewrite zlen_map.
  destruct (put_at st x _ (repeat None (Z.to_nat (zlen (it :: l)))) Hx) as (st1 & -> & G1 & _). cbn [bind].
  replace (zrange 0 (zlen (it :: l))) with (0 :: zrange 1 (zlen (it :: l))).
  2:{ rewrite zlen_cons. assert (0 <= zlen l) by apply zlen_nonneg. symmetry. apply zrange_cons. lia. }
  apply fold_opt_none. rewrite G1. cbn [bind]. unfold sitem.
  replace (Z.to_nat (zlen (it :: l))) with (S (length l)) by (unfold zlen; simpl; lia). reflexivity.
Qed.
Lemma scopy_self st x it l : at_ st x (it :: l) -> scopy st x x = None.
Proof.
  intros Hx. unfold scopy. rewrite Hx. cbn [bind].
  destruct (put_at st x _ (repeat None (length (map Some (it :: l)))) Hx) as (st1 & -> & G1 & _). cbn [bind].
  rewrite G1. reflexivity.
Qed.
End Sparse.
