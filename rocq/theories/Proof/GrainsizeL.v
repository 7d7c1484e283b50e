From Coq Require Import String Permutation.
From Verif Require Import Model.Base Model.Num Model.Boundary Model.Layout Model.Access Model.Setup Model.Sparse Model.Codec Model.MPI Model.Ghostswap Model.Global Model.Simulate Model.Grainsize
  Spec.Box Spec.Access Spec.Bytes Spec.Decomp Spec.Schedule Spec.Sparse Spec.Grainsize Proof.BaseL Proof.CodecL Proof.LayoutL Proof.AccessL Proof.SetupL Proof.SparseL Proof.MPIL Proof.GlobalL Proof.TessellateF.
Local Open Scope Z_scope.

Definition isk (k : Z) (o : option Z) : bool := match o with Some j => j =? k | None => false end.
Definition tal {A} (f : A -> option Z) (xs : list A) (k : Z) : Z := zlen (filter (fun x => isk k (f x)) xs).
Definition represents (l : list (Z * Z)) (c : Z -> Z) : Prop :=
  NoDup (map fst l) /\ forall k, 0 <= c k /\ lookup l k = if c k =? 0 then None else Some (c k).

Lemma sumZ_cons a l : sumZ (a :: l) = a + sumZ l. Proof. reflexivity. Qed.
Lemma sumZ_nil : sumZ [] = 0. Proof. reflexivity. Qed.
Ltac sz := cbn [map] in *; rewrite ?sumZ_cons, ?sumZ_nil in *.

Lemma represents_ext l c c' : (forall k, c k = c' k) -> represents l c -> represents l c'.
Proof. intros E [A B]. split; [auto|]. intros k. rewrite <- E. apply B. Qed.
Lemma represents_aval l c k : represents l c -> aval num_Z l k = c k.
Proof. intros [_ B]. unfold aval. destruct (B k) as [_ ->]. destruct (Z.eqb_spec (c k) 0); simpl; auto. Qed.
Lemma tal_app {A} (f : A -> option Z) xs ys k : tal f (xs ++ ys) k = tal f xs k + tal f ys k.
Proof. unfold tal. rewrite filter_app. apply zlen_app. Qed.
Lemma tal_perm {A} (f : A -> option Z) xs ys k : Permutation xs ys -> tal f xs k = tal f ys k.
Proof.
  unfold tal. induction 1; auto; try (etransitivity; eassumption).
  - cbn [filter]. destruct (isk k (f x)); auto. rewrite !zlen_cons. lia.
  - cbn [filter]. destruct (isk k (f x)), (isk k (f y)); auto.
Qed.
Lemma tal_le {A} (f : A -> option Z) xs k : 0 <= tal f xs k <= zlen xs.
Proof.
  unfold tal. split; [apply zlen_nonneg|]. induction xs as [|x xs IH]; [reflexivity|]. cbn [filter]. destruct (isk k (f x)); rewrite ?zlen_cons in *; pose proof (zlen_cons x xs); lia.
Qed.

Lemma count_one_spec l c k : represents l c -> c k + 1 <= int_max ->
  count_one (map Some l) k = Some (map Some (aset num_Z l k (fun a => a + 1))) /\
  represents (aset num_Z l k (fun a => a + 1)) (fun j => c j + if j =? k then 1 else 0).
Proof.
  intros R Hm. unfold count_one. rewrite sset_op_map. cbn [bind]. rewrite sread_map. cbn [bind].
  assert (aval num_Z (aset num_Z l k (fun a => a + 1)) k = c k + 1) as E.
  { unfold aval. rewrite lookup_aset, Z.eqb_refl. now rewrite (represents_aval _ c). }
  rewrite E. unfold guard. destruct (Z.leb_spec (c k + 1) int_max); [|lia]. cbn [bind]. split; [reflexivity|].
  destruct R as [R1 R2]. split; [now apply NoDup_aset|]. intros j. rewrite lookup_aset. destruct (R2 j) as [P Q].
  destruct (Z.eqb_spec j k) as [->|].
  - split; [lia|]. rewrite (represents_aval l c) by (split; auto). destruct (Z.eqb_spec (c k + 1) 0); [lia|reflexivity].
  - rewrite Z.add_0_r. auto.
Qed.

Section Tally.
Context {C : Type} (label : C -> option (option Z)).
Lemma tally_fold mpi axs (data : list C) (f : list Z -> option Z) is : zlen is <= int_max ->
  (forall i, In i is -> exists v, grid_read_int mpi axs data i = Some v /\ label v = Some (f (position axs i))) ->
  exists l, fold_opt (fun o i => do v <- grid_read_int mpi axs data i; do k <- label v; match k with Some k => count_one o k | None => Some o end) is [] = Some (map Some l) /\
    represents l (tal f (map (position axs) is)) /\ zlen l <= zlen is /\ (forall k, In k (map fst l) -> exists i, In i is /\ f (position axs i) = Some k).
Proof.
  induction is as [|i is IH] using rev_ind; intros Hm H.
  - exists []. split; [reflexivity|]. split; [split; [constructor|intros k; split; reflexivity]|]. split; [reflexivity|simpl; tauto].
  - rewrite zlen_app in Hm. change (zlen [i]) with 1 in Hm.
    destruct IH as (l & E & R & L & K). { lia. } { intros j Hj. apply H. apply in_or_app. auto. }
    rewrite fold_opt_app, E. cbn [bind fold_opt]. destruct (H i) as (v & Ev & Lv); [apply in_or_app; simpl; auto|]. rewrite Ev. cbn [bind]. rewrite Lv. cbn [bind].
    destruct (f (position axs i)) as [k|] eqn:Ef.
    + pose proof (tal_le f (map (position axs) is) k) as B. rewrite BaseL.zlen_map in B.
      destruct (count_one_spec l _ k R ltac:(lia)) as [E1 R1]. rewrite E1. cbn [bind]. eexists. split; [reflexivity|]. split; [|split].
      * eapply represents_ext; [|exact R1]. intros j. rewrite map_app, tal_app. f_equal. unfold tal. cbn [map filter isk]. rewrite Ef. cbn [isk]. rewrite (Z.eqb_sym k j). destruct (j =? k); reflexivity.
      * rewrite zlen_app. change (zlen [i]) with 1. clear - L. assert (zlen (aset num_Z l k (fun a => a + 1)) <= zlen l + 1).
        { clear. induction l as [|[j v] l IH]; simpl; [reflexivity|]. destruct (j =? k); rewrite !zlen_cons; lia. } lia.
      * intros j Hj. apply keys_aset in Hj as [->|Hj]; [exists i; split; [apply in_or_app; simpl; auto|auto]|]. destruct (K j Hj) as (i' & I & F). exists i'. split; [apply in_or_app; auto|auto].
    + exists l. split; [reflexivity|]. split; [|split].
      * eapply represents_ext; [|exact R]. intros j. rewrite map_app, tal_app. unfold tal at 3. cbn [map filter isk]. rewrite Ef. cbn [isk]. change (zlen (@nil (list Z))) with 0. lia.
      * rewrite zlen_app. change (zlen [i]) with 1. lia.
      * intros j Hj. destruct (K j Hj) as (i' & I & F). exists i'. split; [apply in_or_app; auto|auto].
Qed.
End Tally.

Lemma add_spec x y c d : represents x c -> represents y d -> (forall k, c k + d k <= int_max) ->
  exists z, o_add int_sparse_ops x y = Some z /\ represents z (fun k => c k + d k) /\ (forall k, In k (map fst z) -> In k (map fst x) \/ In k (map fst y)) /\ zlen z <= zlen x + zlen y.
Proof.
  intros X Y H.
  destruct (saccum_distinct num_Z Z.add [map Some x; map Some y] 0 1 x y ltac:(lia) eq_refl eq_refl) as (st & E & A & _).
  set (z := fill num_Z (fun _ a v => a + v) x y) in *.
  assert (represents z (fun k => c k + d k)) as R.
  { destruct X as [X1 X2], Y as [Y1 Y2]. split; [now apply NoDup_fill|]. intros k. destruct (X2 k) as [P1 P2], (Y2 k) as [Q1 Q2]. split; [lia|].
    unfold z. rewrite lookup_fill by auto. rewrite Q2, P2. destruct (Z.eqb_spec (d k) 0) as [->|].
    - now rewrite Z.add_0_r.
    - rewrite (represents_aval x c) by (split; auto). destruct (Z.eqb_spec (c k + d k) 0); [lia|reflexivity]. }
  exists z. split; [|split; [exact R|split]].
  - simpl. rewrite E. cbn [bind]. rewrite A. cbn [bind]. rewrite SparseL.map_opt_some. cbn [bind].
    replace (forallb _ z) with true; [reflexivity|]. symmetry. apply forallb_forall. intros [k n] Hn. destruct R as [R1 R2]. apply lookup_in in Hn; [|auto].
    destruct (R2 k) as [P Q]. rewrite Hn in Q. specialize (H k). cbn [snd]. destruct (c k + d k =? 0); inversion Q; subst. apply andb_true_intro. split; apply Z.leb_le; lia.
  - intros k Hk. destruct (in_dec Z.eq_dec k (map fst x)) as [|Nx]; [auto|]. destruct (in_dec Z.eq_dec k (map fst y)) as [|Ny]; [auto|]. exfalso.
    apply lookup_none in Nx, Ny. assert (lookup z k = None) as Nz. { unfold z. rewrite lookup_fill by (destruct Y; auto). now rewrite Ny. }
    apply lookup_none in Nz. auto.
  - unfold z. clear. revert x. induction y as [|it y IH]; intros x; [change (zlen (@nil (Z*Z))) with 0; simpl; lia|]. rewrite fill_cons. specialize (IH (aset num_Z x (fst it) (fun a => a + snd it))).
    rewrite zlen_cons. assert (forall k g, zlen (aset num_Z x k g) <= zlen x + 1) as Q.
    { clear. intros k g. induction x as [|[j v] l IH]; simpl; [reflexivity|]. destruct (j =? k); rewrite !zlen_cons; lia. }
    specialize (Q (fst it) (fun a => a + snd it)). lia.
Qed.

Lemma sum_fold (v : Z -> list (Z * Z)) (c : Z -> Z -> Z) rs : forall g cg,
  represents g cg -> (forall r, In r rs -> represents (v r) (c r)) -> (forall k, cg k + sumZ (map (fun r => c r k) rs) <= int_max) ->
  exists z, fold_opt (o_add int_sparse_ops) (map v rs) g = Some z /\ represents z (fun k => cg k + sumZ (map (fun r => c r k) rs)) /\
    (forall k, In k (map fst z) -> In k (map fst g) \/ exists r, In r rs /\ In k (map fst (v r))) /\ zlen z <= zlen g + sumZ (map (fun r => zlen (v r)) rs).
Proof.
  induction rs as [|r rs IH]; intros g cg G V H.
  - exists g. split; [reflexivity|]. split; [eapply represents_ext; [|exact G]; intros k; sz; lia|]. split; [auto|]. sz. lia.
  - assert (forall k, 0 <= sumZ (map (fun r => c r k) rs)) as P.
    { intros k. clear - V. induction rs as [|q rs IH]; sz; [lia|]. destruct (V q) as [_ B]; [simpl; auto|]. destruct (B k). specialize (IH ltac:(intros; apply V; simpl in *; tauto)). lia. }
    destruct (add_spec g (v r) cg (c r) G (V r ltac:(simpl; auto))) as (z & E & R & K & L). { intros k. specialize (H k). specialize (P k). sz. lia. }
    destruct (IH z _ R) as (z' & E' & R' & K' & L'). { intros; apply V; simpl; auto. } { intros k. specialize (H k). sz. lia. }
    exists z'. cbn [map fold_opt]. rewrite E. cbn [bind]. split; [exact E'|]. split; [eapply represents_ext; [|exact R']; intros k; sz; lia|]. split.
    + intros k Hk. destruct (K' k Hk) as [Hz|(q & Hq & I)]; [destruct (K k Hz); [auto|right; exists r; simpl; auto]|right; exists q; simpl; auto].
    + sz. lia.
Qed.

(* the nodes of the domain, and of the ranks *)
Definition local_nodes (axs : list axis) := map (position axs) (zrange 0 (nodes axs)).
Lemma local_nodes_spec g axs : wf_axes g axs -> NoDup (local_nodes axs) /\ forall x, In x (local_nodes axs) <-> in_box (map a_x0 axs) (map a_x1 axs) x.
Proof.
  intros W. unfold local_nodes. split.
  - pose proof (NoDup_zrange 0 (nodes axs)) as N.
    assert (forall l, NoDup l -> (forall i, In i l -> 0 <= i < nodes axs) -> NoDup (map (position axs) l)) as X.
    { induction 1; intros H'; simpl; constructor; [|apply IHNoDup; intros; apply H'; simpl; auto].
      intros I. apply in_map_iff in I as (j & E & I). destruct (position_into g axs x W) as [_ U]; [apply H'; simpl; auto|]. apply U in E; [congruence|apply H'; simpl; auto]. }
    apply X; [exact N|]. intros i Hi. now apply in_zrange in Hi.
  - intros x. rewrite in_map_iff. split.
    + intros (i & <- & Hi). apply in_zrange in Hi. eapply position_into; eauto.
    + intros B. destruct (position_onto g axs x W B) as (i & Hi & E). exists i. split; [auto|]. now apply in_zrange.
Qed.
Definition domain_nodes (gs : list gaxis) := local_nodes (lay 0 (map serial_limits gs)).
Lemma domain_nodes_spec gs : gok gs -> NoDup (domain_nodes gs) /\ (forall x, In x (domain_nodes gs) <-> in_box (map gx_0 gs) (map gx_1 gs) x) /\ zlen (domain_nodes gs) = prodZ (map glen gs).
Proof.
  intros G. assert (wf_axes 0 (lay 0 (map serial_limits gs))) as W by (apply wf_lay; apply Forall_map; exact G).
  destruct (local_nodes_spec 0 _ W) as [A B]. split; [exact A|]. split.
  - intros x. unfold domain_nodes. rewrite B, map_x0_lay, map_x1_lay, !map_map. reflexivity.
  - unfold domain_nodes, local_nodes. rewrite BaseL.zlen_map, zlen_zrange.
    + rewrite Z.sub_0_r. rewrite nodes_lay, map_map. reflexivity.
    + apply (nodes_nonneg 0 _ W).
Qed.

Lemma owned_permutation np gs gh (axs : Z -> list axis) : 0 < np -> gs <> [] -> gok gs ->
  (forall r, 0 <= r < np -> exists ge, setup_mpi np gs gh r = Some ge /\ axs r = ge_axes ge) ->
  Permutation (concat (map (fun r => local_nodes (axs r)) (zrange 0 np))) (domain_nodes gs).
Proof.
  intros Hnp Hne Hg HA. destruct (domain_nodes_spec gs Hg) as (ND & MD & _).
  assert (forall r, 0 <= r < np -> exists ge, setup_mpi np gs gh r = Some ge /\ axs r = ge_axes ge /\ NoDup (local_nodes (axs r)) /\ forall x, In x (local_nodes (axs r)) <-> owns ge x) as HL.
  { intros r Hr. destruct (HA r Hr) as (ge & E & EA). exists ge. split; [auto|]. split; [auto|]. rewrite EA.
    destruct (rank_geometry np gs gh (map (fun _ => (0, 0)) gs) r ge Hnp Hne Hg Hr (map_length _ _) E) as (_ & _ & _ & _ & _ & _ & _ & _ & _ & _ & ls0 & E0 & Lk & _).
    apply (local_nodes_spec gh). rewrite E0. apply wf_lay. exact Lk. }
  set (own := fun r x => if in_dec (list_eq_dec Z.eq_dec) x (local_nodes (axs r)) then true else false).
  rewrite <- (perm_owned own (zrange 0 np) (NoDup_zrange 0 np) (domain_nodes gs)).
  - assert (forall rs, (forall r, In r rs -> 0 <= r < np) -> Permutation (concat (map (fun r => local_nodes (axs r)) rs)) (concat (map (fun r => filter (own r) (domain_nodes gs)) rs))) as X.
    { induction rs as [|r rs IH]; intros Hr; simpl; [constructor|]. apply Permutation_app; [|apply IH; intros; apply Hr; simpl; auto].
      destruct (HL r) as (ge & E & EA & N1 & M1); [apply Hr; simpl; auto|]. apply NoDup_Permutation; [auto|now apply NoDup_filter|].
      intros x. rewrite filter_In, MD. unfold own. destruct (in_dec (list_eq_dec Z.eq_dec) x (local_nodes (axs r))) as [I|I]; [|split; [tauto|intros [_ Q]; discriminate]].
      split; [intros _|auto]. split; [|auto]. eapply owned_inside; [exact Hnp|exact Hne|exact Hg| |exact E|now apply M1]. apply Hr; simpl; auto. }
    apply X. intros r Hr. now apply in_zrange in Hr.
  - intros x Hx. apply MD in Hx. destruct (partition np gs gh x Hnp Hne Hg Hx) as (r & ge & Hr & E & O & U).
    exists r. split; [now apply in_zrange|]. split.
    + unfold own. destruct (in_dec _ x (local_nodes (axs r))) as [|N]; [auto|]. exfalso. apply N. destruct (HL r Hr) as (ge' & E' & _ & _ & M). apply M. congruence.
    + intros r' Hr' Ow. apply in_zrange in Hr'. destruct (HL r' Hr') as (ge' & E' & _ & _ & M). apply (U r' ge' Hr' E'). apply M. unfold own in Ow. destruct (in_dec _ x (local_nodes (axs r'))); [auto|discriminate].
Qed.

Lemma tal_concat {A} (f : A -> option Z) (xs : Z -> list A) rs k : tal f (concat (map xs rs)) k = sumZ (map (fun r => tal f (xs r) k) rs).
Proof. induction rs as [|r rs IH]; [reflexivity|]. cbn [map concat]. rewrite tal_app, IH. reflexivity. Qed.
Lemma zlen_concat {A} (xs : Z -> list A) rs : zlen (concat (map xs rs)) = sumZ (map (fun r => zlen (xs r)) rs).
Proof. induction rs as [|r rs IH]; [reflexivity|]. cbn [map concat]. rewrite zlen_app, IH. reflexivity. Qed.

Lemma population_sum gs (f : list Z -> option Z) l : NoDup (map fst l) -> (forall k n, In (k, n) l -> population gs (fun x => f x = Some k) n) ->
  population gs (fun x => exists k, In k (map fst l) /\ f x = Some k) (sumZ (map snd l)).
Proof.
  induction l as [|[k n] l IH]; intros ND H; simpl in *.
  - exists []. split; [constructor|]. split; [|reflexivity]. intros x. simpl. split; [tauto|intros [_ (k & [] & _)]].
  - inversion ND; subst. destruct (H k n (or_introl eq_refl)) as (xs & N1 & M1 & E1). destruct IH as (ys & N2 & M2 & E2); [auto|intros; apply H; auto|].
    exists (xs ++ ys). split; [|split].
    + assert (forall x, In x xs -> ~ In x ys) as D. { intros x Hx Hy. apply M1 in Hx as [_ Hx]. apply M2 in Hy as [_ (k' & I & Hy)]. rewrite Hx in Hy. inversion Hy; subst. auto. }
      clear - N1 N2 D. induction N1; simpl in *; [auto|]. constructor; [rewrite in_app_iff; intros [|]; [auto|]; apply (D x); auto|]. apply IHN1. intros; apply D; auto.
    + intros x. rewrite in_app_iff, M1, M2. split.
      * intros [[B F]|[B (k' & I & F)]]; (split; [auto|]); [exists k; auto|exists k'; auto].
      * intros [B (k' & [<-|I] & F)]; [left; auto|right; split; [auto|exists k'; auto]].
    + rewrite zlen_app, sumZ_cons. lia.
Qed.

Section Whole.
Context {C : Type} (label : C -> option (option Z)).
Theorem grainsize_counts np gs gh (data : Z -> list C) (F : list Z -> C) (f : list Z -> option Z) :
  0 < np -> gs <> [] -> 0 <= gh -> Forall (fun g => gx_0 g <= gx_1 g) gs -> 4 + 8 * prodZ (map glen gs) <= int_max ->
  (forall r ge x, 0 <= r < np -> setup_mpi np gs gh r = Some ge -> owns ge x -> grid_read true (ge_axes ge) (data r) x = Some (F x)) ->
  (forall x, in_box (map gx_0 gs) (map gx_1 gs) x -> label (F x) = Some (f x) /\ forall k, f x = Some k -> int_range k) ->
  exists l fs, finished np (fun _ => l) fs /\ inevitable (ranks np (grainsize label np gs gh data), no_chans) fs /\
    grain_sizes gs (fun x k => f x = Some k) l.
Proof.
  intros Hnp Hne Hgh Hg Hm HF Hl. destruct (domain_nodes_spec gs Hg) as (ND & MD & LD).
  set (axs := fun r => match setup_mpi np gs gh r with Some ge => ge_axes ge | None => [] end).
  assert (forall r, 0 <= r < np -> exists ge, setup_mpi np gs gh r = Some ge /\ axs r = ge_axes ge) as HA.
  { intros r Hr. destruct (setup_eq np gs gh r Hnp Hne Hg Hr) as (p & _ & _ & _ & _ & S4). eexists. split; [exact S4|]. unfold axs. now rewrite S4. }
  pose proof (owned_permutation np gs gh axs Hnp Hne Hg HA) as PM.
  assert (sumZ (map (fun r => zlen (local_nodes (axs r))) (zrange 0 np)) = prodZ (map glen gs)) as SL.
  { rewrite <- zlen_concat, <- LD. unfold zlen. f_equal. now apply Permutation_length. }
  assert (forall r, 0 <= r < np -> zlen (local_nodes (axs r)) <= prodZ (map glen gs)) as SB.
  { intros r Hr. rewrite <- SL. assert (In r (zrange 0 np)) as I by now apply in_zrange. revert I. generalize (zrange 0 np). clear. intros rs.
    assert (0 <= sumZ (map (fun r => zlen (local_nodes (axs r))) rs)) as P0.
    { induction rs as [|q rs IH]; sz; [lia|]. pose proof (zlen_nonneg (local_nodes (axs q))). lia. }
    induction rs as [|q rs IH]; cbn [In]; sz; [tauto|]. pose proof (zlen_nonneg (local_nodes (axs q))).
    assert (0 <= sumZ (map (fun r => zlen (local_nodes (axs r))) rs)) as P1.
    { clear. induction rs as [|q rs IH]; sz; [lia|]. pose proof (zlen_nonneg (local_nodes (axs q))). lia. }
    intros [->|I]; [lia|]. specialize (IH P1 I). lia. }
  assert (forall r, 0 <= r < np -> exists l, tally label true (axs r) (data r) = Some (map Some l) /\ represents l (tal f (local_nodes (axs r))) /\
     zlen l <= zlen (local_nodes (axs r)) /\ forall k, In k (map fst l) -> int_range k) as HT.
  { intros r Hr. destruct (HA r Hr) as (ge & E & EA).
    destruct (rank_geometry np gs gh (map (fun _ => (0, 0)) gs) r ge Hnp Hne Hg Hr (map_length _ _) E) as (_ & _ & _ & _ & _ & _ & _ & _ & _ & _ & ls0 & E0 & Lk & _).
    assert (wf_axes gh (axs r)) as W by (rewrite EA, E0; now apply wf_lay).
    pose proof (nodes_nonneg gh _ W) as NN.
    assert (zlen (local_nodes (axs r)) = zlen (zrange 0 (nodes (axs r)))) as LZ by apply BaseL.zlen_map.
    assert (forall i, In i (zrange 0 (nodes (axs r))) -> owns ge (position (axs r) i)) as OW.
    { intros i Hi. apply in_zrange in Hi. unfold owns. rewrite <- EA. eapply position_into; eauto. }
    destruct (tally_fold label true (axs r) (data r) f (zrange 0 (nodes (axs r)))) as (l & El & R & L & K).
    - specialize (SB r Hr). pose proof (zlen_nonneg (local_nodes (axs r))). lia.
    - intros i Hi. specialize (OW i Hi). apply in_zrange in Hi. exists (F (position (axs r) i)). split.
      + rewrite EA, E0 in Hi |- *. destruct (read_int_position true gh ls0 (data r) i Hgh ltac:(discriminate) Lk Hi) as [-> _]. rewrite <- E0, <- EA in *. rewrite EA in *. apply (HF r ge); auto.
      + apply Hl. eapply owned_inside; eauto.
    - exists l. split; [exact El|]. split; [exact R|]. split; [lia|]. intros k Hk. destruct (K k Hk) as (i & Hi & Fk). apply (Hl (position (axs r) i)); [|exact Fk]. eapply owned_inside; [exact Hnp|exact Hne|exact Hg|exact Hr|exact E|auto]. }
  set (v := fun r => match tally label true (axs r) (data r) with Some o => match map_opt (fun c => c) o with Some l => l | None => [] end | None => [] end).
  assert (forall r, 0 <= r < np -> tally label true (axs r) (data r) = Some (map Some (v r)) /\ represents (v r) (tal f (local_nodes (axs r))) /\
     zlen (v r) <= zlen (local_nodes (axs r)) /\ forall k, In k (map fst (v r)) -> int_range k) as HV.
  { intros r Hr. destruct (HT r Hr) as (l & E & R). assert (v r = l) as -> by (unfold v; rewrite E; now rewrite SparseL.map_opt_some). auto. }
  assert (forall k, sumZ (map (fun r => tal f (local_nodes (axs r)) k) (zrange 0 np)) = tal f (domain_nodes gs) k) as SK.
  { intros k. rewrite <- (tal_concat f (fun r => local_nodes (axs r))). now apply tal_perm. }
  assert (zrange 0 np = 0 :: zrange 1 np) as ZR by (rewrite zrange_cons by lia; reflexivity).
  assert (0 <= prodZ (map glen gs)) as PN by (rewrite <- LD; apply zlen_nonneg).
  destruct (sum_fold v (fun r => tal f (local_nodes (axs r))) (zrange 1 np) (v 0) (tal f (local_nodes (axs 0)))) as (g & Eg & Rg & Kg & Lg).
  { apply HV; lia. } { intros r Hr. apply in_zrange in Hr. apply HV; lia. }
  { intros k. specialize (SK k). rewrite ZR in SK. cbn [map] in SK. rewrite sumZ_cons in SK. rewrite SK. pose proof (tal_le f (domain_nodes gs) k). lia. }
  assert (represents g (tal f (domain_nodes gs))) as RG. { eapply represents_ext; [|exact Rg]. intros k. rewrite <- SK, ZR. reflexivity. }
  assert (zlen g <= prodZ (map glen gs)) as LG.
  { rewrite <- SL, ZR. cbn [map]. etransitivity; [exact Lg|]. destruct (HV 0 ltac:(lia)) as (_ & _ & L0 & _).
    assert (forall rs, (forall r, In r rs -> 0 <= r < np) -> sumZ (map (fun r => zlen (v r)) rs) <= sumZ (map (fun r => zlen (local_nodes (axs r))) rs)) as X.
    { induction rs as [|r rs IH]; intros H; sz; [lia|]. specialize (IH ltac:(intros; apply H; simpl; auto)). destruct (HV r) as (_ & _ & Lr & _); [apply H; simpl; auto|]. lia. }
    specialize (X (zrange 1 np) ltac:(intros r Hr; apply in_zrange in Hr; lia)). sz. lia. }
  set (valid := fun l : list (Z * Z) => Forall (fun it => int_range (fst it) /\ int_range (snd it)) l /\ int_range (zlen l)).
  assert (forall l c, represents l c -> (forall k, c k <= int_max) -> (forall k, In k (map fst l) -> int_range k) -> zlen l <= prodZ (map glen gs) -> valid l /\ c_size (sparse_codec [] pod_int) l <= int_max) as VL.
  { intros l c [R1 R2] B K L. split; [split|].
    - apply Forall_forall. intros [k n] I. split; [apply K; apply in_map_iff; exists (k, n); auto|]. cbn [snd]. apply lookup_in in I; [|auto]. destruct (R2 k) as [P Q]. rewrite I in Q. specialize (B k). destruct (c k =? 0); inversion Q. unfold int_range. unfold int_max in B. lia.
    - pose proof (zlen_nonneg l). unfold int_range. unfold int_max in Hm. lia.
    - change (4 + zlen l * 8 <= int_max). lia. }
  destruct (global_inevitable (sparse_codec [] pod_int) valid int_sparse_ops "sum" np v g) as (fs & Fin & Inev).
  - exact Hnp.
  - apply sparse_serialises. apply pod_int_ok.
  - intros r Hr. destruct (HV r Hr) as (_ & R & L & K). specialize (SB r Hr). apply (VL _ _ R); auto; [|lia]. intros k. pose proof (tal_le f (local_nodes (axs r)) k). lia.
  - intros r Hr. destruct (HV r Hr) as (_ & R & L & K). specialize (SB r Hr). apply (VL _ _ R); auto; [|lia]. intros k. pose proof (tal_le f (local_nodes (axs r)) k). lia.
  - apply (VL _ _ RG); [| |lia].
    + intros k. pose proof (tal_le f (domain_nodes gs) k). lia.
    + intros k Hk. destruct (Kg k Hk) as [I|(r & Hr & I)]; [apply (HV 0); [lia|auto]|apply in_zrange in Hr; apply (HV r); [lia|auto]].
  - apply (VL _ _ RG); [| |lia].
    + intros k. pose proof (tal_le f (domain_nodes gs) k). lia.
    + intros k Hk. destruct (Kg k Hk) as [I|(r & Hr & I)]; [apply (HV 0); [lia|auto]|apply in_zrange in Hr; apply (HV r); [lia|auto]].
  - rewrite <- Eg. apply fold_opt_ext. reflexivity.
  - exists g, fs. split; [exact Fin|]. split.
    + replace (ranks np (grainsize label np gs gh data)) with (ranks np (fun r => global (sparse_codec [] pod_int) int_sparse_ops "sum" np r (v r) Ret)); [exact Inev|].
      apply ranks_ext. intros r Hr. destruct (HA r Hr) as (ge & E & EA). destruct (HV r Hr) as (T & _). unfold grainsize. rewrite E. cbn [lift]. rewrite <- EA, T. cbn [lift]. rewrite SparseL.map_opt_some. reflexivity.
    + destruct RG as [R1 R2]. split; [exact R1|].
      assert (forall k, population gs (fun x => f x = Some k) (tal f (domain_nodes gs) k)) as PT.
      { intros k. exists (filter (fun x => isk k (f x)) (domain_nodes gs)). split; [now apply NoDup_filter|]. split; [|reflexivity]. intros x. rewrite filter_In, MD. unfold isk. destruct (f x) as [j|]; [|intuition discriminate]. rewrite Z.eqb_eq. intuition congruence. }
      assert (forall k n, In (k, n) g <-> 0 < n /\ population gs (fun x => f x = Some k) n) as IT.
      { intros k n. rewrite lookup_in by auto. destruct (R2 k) as [P ->]. specialize (PT k). split.
        - intros E. destruct (Z.eqb_spec (tal f (domain_nodes gs) k) 0); inversion E; subst n. split; [lia|exact PT].
        - intros [Hn (xs & N1 & M1 & <-)]. destruct PT as (ys & N2 & M2 & E2). assert (zlen xs = zlen ys) as E3. { unfold zlen. f_equal. apply Permutation_length. apply NoDup_Permutation; auto. intros x. rewrite M1, M2. reflexivity. }
          rewrite <- E2, <- E3. destruct (Z.eqb_spec (zlen xs) 0); [lia|reflexivity]. }
      split; [exact IT|].
      destruct (population_sum gs f g R1 ltac:(intros k n Hk; now apply IT)) as (xs & N1 & M1 & E1). exists xs. split; [auto|]. split; [|auto]. intros x. rewrite M1.
      split; [intros [B (k & _ & F')]; split; [auto|exists k; auto]|]. intros [B [k F']]. split; [auto|]. exists k. split; [|auto].
      destruct (in_dec Z.eq_dec k (map fst g)) as [|Ng]; [auto|]. exfalso. apply lookup_none in Ng. destruct (R2 k) as [P Q]. rewrite Ng in Q. destruct (Z.eqb_spec (tal f (domain_nodes gs) k) 0) as [E0|]; [|discriminate].
      destruct (PT k) as (ys & _ & M2 & E2). assert (In x ys) as I by (apply M2; auto). rewrite E0 in E2. destruct ys; [destruct I|]. rewrite zlen_cons in E2. pose proof (zlen_nonneg ys). lia.
Qed.
End Whole.
