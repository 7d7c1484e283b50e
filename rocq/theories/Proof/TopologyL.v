From Coq Require Import QArith.QArith QArith.Qcanon Sorting.Sorted Sorting.Permutation.
From Verif Require Import Model.Base Model.Stencil Model.Evolve Model.Topology Spec.Stencil Spec.Topology Proof.BaseL Proof.StencilL Proof.EvolveL.
Local Open Scope Z_scope.
Local Open Scope list_scope.

(* strict total orders as booleans *)
Record order {K} (lt : K -> K -> bool) : Prop := mkOrder {
  o_irr : forall x, lt x x = false;
  o_trans : forall x y z, lt x y = true -> lt y z = true -> lt x z = true;
  o_tri : forall x y, lt x y = false -> lt y x = false -> x = y }.
Lemma order_Z : order Z.ltb.
Proof.
  split; intros.
  - apply Z.ltb_irrefl.
  - apply Z.ltb_lt in H, H0. apply Z.ltb_lt. lia.
  - apply Z.ltb_ge in H, H0. lia.
Qed.
Lemma order_lex : order lexlt.
Proof.
  split.
  - induction x as [|a x IH]; [reflexivity|]. cbn. now rewrite Z.ltb_irrefl.
  - induction x as [|a x IH]; intros [|b y] [|c z]; cbn; try discriminate; auto.
    destruct (a <? b) eqn:E1, (b <? c) eqn:E2; intros H1 H2.
    + replace (a <? c) with true by (symmetry; apply Z.ltb_lt; apply Z.ltb_lt in E1, E2; lia). reflexivity.
    + destruct (c <? b) eqn:E3; [discriminate|]. replace (a <? c) with true by (symmetry; apply Z.ltb_lt; apply Z.ltb_lt in E1; apply Z.ltb_ge in E2, E3; lia). reflexivity.
    + destruct (b <? a) eqn:E3; [discriminate|]. replace (a <? c) with true by (symmetry; apply Z.ltb_lt; apply Z.ltb_lt in E2; apply Z.ltb_ge in E1, E3; lia). reflexivity.
    + destruct (b <? a) eqn:E3; [discriminate|]. destruct (c <? b) eqn:E4; [discriminate|]. apply Z.ltb_ge in E1, E2, E3, E4.
      replace (a <? c) with false by (symmetry; apply Z.ltb_ge; lia). replace (c <? a) with false by (symmetry; apply Z.ltb_ge; lia). eapply IH; eauto.
  - induction x as [|a x IH]; intros [|b y]; cbn; try discriminate; auto.
    destruct (a <? b) eqn:E1; [discriminate|]. destruct (b <? a) eqn:E2; [discriminate|]. intros H1 H2. apply Z.ltb_ge in E1, E2. f_equal; [lia|auto].
Qed.

Section Order.
Context {K : Type} (lt : K -> K -> bool) (O : order lt).
Definition inc := StronglySorted (fun x y => lt x y = true).
Lemma inc_nodup l : inc l -> NoDup l.
Proof.
  induction 1 as [|a l Hs IH Hf]; constructor; auto. intros H. rewrite Forall_forall in Hf. specialize (Hf _ H). rewrite (o_irr lt O) in Hf. discriminate.
Qed.
Lemma in_oinsert x l y : In y (oinsert lt x l) <-> y = x \/ In y l.
Proof.
  induction l as [|z l IH]; cbn; [intuition|]. destruct (lt x z) eqn:E; cbn; [intuition|]. destruct (lt z x) eqn:E2; cbn; [rewrite IH; intuition|].
  rewrite (o_tri lt O x z E E2). intuition.
Qed.
Lemma inc_oinsert x l : inc l -> inc (oinsert lt x l).
Proof.
  induction 1 as [|z l Hs IH Hf]; cbn; [repeat constructor|]. destruct (lt x z) eqn:E.
  - constructor; [constructor; auto|]. constructor; auto. eapply Forall_impl; [|exact Hf]. cbn. intros y. apply (o_trans lt O); auto.
  - destruct (lt z x) eqn:E2; [|constructor; auto]. constructor; auto. apply Forall_forall. intros y Hy. apply in_oinsert in Hy. destruct Hy as [->|Hy]; auto.
    rewrite Forall_forall in Hf. auto.
Qed.
Context {V : Type} (d : V) (f : V -> V).
Lemma keys_oupdate x (l : list (K * V)) : map fst (oupdate lt d f x l) = oinsert lt x (map fst l).
Proof.
  induction l as [|[z v] l IH]; cbn; auto. destruct (lt x z) eqn:E; cbn; auto. destruct (lt z x) eqn:E2; cbn; [now rewrite IH|]. reflexivity.
Qed.
Lemma in_oupdate x (l : list (K * V)) it : In it (oupdate lt d f x l) -> In it l \/ it = (x, f d) \/ exists v, In (x, v) l /\ it = (x, f v).
Proof.
  induction l as [|[z v] l IH]; cbn; [intros [H|[]]; auto|]. destruct (lt x z) eqn:E; cbn; [intros [H|H]; auto|]. destruct (lt z x) eqn:E2; cbn.
  - intros [H|H]; [auto|]. destruct (IH H) as [H1|[H1|(v' & H1 & H2)]]; eauto. right. right. eauto.
  - rewrite (o_tri lt O x z E E2). intros [H|H]; [right; right; exists v; auto|auto].
Qed.
End Order.
Arguments inc {K} lt l.

Lemma inc_of_sorted l : StronglySorted Z.lt l -> inc Z.ltb l.
Proof. induction 1; constructor; auto. eapply Forall_impl; [|eassumption]. intros. now apply Z.ltb_lt. Qed.

(* what a history has established *)
Record inv (h : list act) (g : grain) : Prop := mkInv {
  i_faces : inc Z.ltb (faces g);
  i_faces_in : forall f, In f (faces g) <-> In f (neighbours h);
  i_edges : inc lexlt (map fst (edges g));
  i_edges_in : forall e, In e (map fst (edges g)) <-> In e (boundaries h);
  i_sets : forall e, In e (map fst (edges g)) -> StronglySorted Z.lt e;
  i_points : forall it, In it (edges g) -> snd it <> [] /\ Forall (fun p => length p = 3%nat) (snd it);
  i_body : length (centroid g) = 3%nat }.

Lemma neighbours_snoc h a f : In f (neighbours (h ++ [a])) <-> In f (neighbours h) \/ a = ANeighbor f.
Proof.
  unfold neighbours. rewrite !nodup_In, flat_map_app, in_app_iff. cbn. rewrite app_nil_r. destruct a; cbn; intuition congruence.
Qed.
Lemma boundaries_snoc h a e : In e (boundaries (h ++ [a])) <-> In e (boundaries h) \/ exists p, a = AEdge e p.
Proof.
  unfold boundaries. rewrite !nodup_In, flat_map_app, in_app_iff. cbn. rewrite app_nil_r.
  split; (intros [H|H]; [now left|]).
  - right. destruct a; cbn in H; try tauto. destruct H as [->|[]]. eauto.
  - right. destruct H as [q ->]. now left.
Qed.

(* the fields that computeTopology leaves alone *)
Definition same_shape (g g' : grain) : Prop :=
  faces g' = faces g /\ edges g' = edges g /\ centroid g' = centroid g /\ volume g' = volume g /\ me g' = me g /\ excluded g' = excluded g.
Lemma check_faces_eq dim g : check_faces dim g = Some (set_checks g true (vert_check g), 0).
Proof. unfold check_faces. destruct (dim =? 2); reflexivity. Qed.
Lemma infer_shape dim g g' n : infer_vertices dim g = Some (g', n) -> same_shape g g' /\ vert_check g' = true /\ face_check g' = face_check g /\ pvector g' = pvector g.
Proof.
  unfold infer_vertices. destruct (dim =? 2); [destruct (_ <? 2); intros H; inversion H; repeat split|]. destruct (_ <? 3); [intros H; inversion H; repeat split|].
  destruct (_ <? 3); [intros H; inversion H; repeat split|]. destruct (fold_opt _ _ _); cbn [bind]; [|discriminate]. intros H; inversion H; repeat split.
Qed.
Lemma make_shape dim g g' n : face_check g = true -> vert_check g = true -> make_pvector dim g = Some (g', n) -> same_shape g g' /\ vertices g' = vertices g.
Proof.
  unfold make_pvector. intros -> Hv. cbn [bind]. rewrite Hv. cbn [bind]. destruct (dim =? 2); [intros H; inversion H; repeat split|]. destruct (_ =? 0); [intros H; inversion H; repeat split|].
  destruct (get _ 1); cbn [bind]; [|discriminate]. destruct (guard _); cbn [bind]; [|discriminate]. intros H; inversion H; repeat split.
Qed.
Lemma shape_trans a b c : same_shape a b -> same_shape b c -> same_shape a c.
Proof. unfold same_shape. intuition congruence. Qed.
Lemma compute_split dim g : compute_topology dim g =
  do r <- infer_vertices dim (set_checks g true (vert_check g)); let '(g1, a1) := r in
  do r <- make_pvector dim g1; let '(g2, a2) := r in Some (g2, [0; a1; a2; num_faces g2]).
Proof. unfold compute_topology. rewrite check_faces_eq. reflexivity. Qed.
Lemma compute_shape dim g g' l : compute_topology dim g = Some (g', l) -> same_shape g g'.
Proof.
  rewrite compute_split. destruct (infer_vertices _ _) as [[g1 a1]|] eqn:E; cbn [bind]; [|discriminate]. apply infer_shape in E. destruct E as (S1 & V1 & F1 & _).
  destruct (make_pvector dim g1) as [[g2 a2]|] eqn:E2; cbn [bind]; [|discriminate]. intros H; inversion H; subst; clear H. apply make_shape in E2; auto.
  destruct E2 as [S2 _]. eapply shape_trans; [|exact S2]. eapply shape_trans; [|exact S1]. repeat split.
Qed.

Lemma q_of_plus a b : q_of (a + b) = (q_of a + q_of b)%Qc.
Proof. unfold q_of, Qcplus. apply Qc_is_canon. cbn [this Q2Qc]. rewrite !Qred_correct, inject_Z_plus. reflexivity. Qed.
Lemma fold_add_mass w (q : list Z -> list Qc) pts : (forall p, In p pts -> length (q p) = 3%nat) -> forall g, length (centroid g) = 3%nat ->
  let g' := fold_left (fun g p => add_mass w (q p) g) pts g in
  length (centroid g') = 3%nat /\ faces g' = faces g /\ edges g' = edges g /\ volume g' = (volume g + w * q_of (zlen pts))%Qc.
Proof.
  induction pts as [|p pts IH]; intros Hq g Hg; cbn [fold_left].
  - repeat split; auto. change (zlen []) with 0. replace (q_of 0) with 0%Qc by (apply Qc_is_canon; reflexivity). ring.
  - destruct (IH ltac:(intros; apply Hq; simpl; auto) (add_mass w (q p) g)) as (A & B & C & D).
    { cbn. rewrite map_length, combine_length, Hg, (Hq p) by (simpl; auto). reflexivity. }
    cbn zeta in *. repeat split; auto. rewrite D. cbn. rewrite zlen_cons.
    rewrite q_of_plus. replace (q_of 1) with 1%Qc by (apply Qc_is_canon; reflexivity). ring.
Qed.

Lemma bounding_len pts : Forall (fun p : list Z => length p = 3%nat) pts -> forall lo hi, length lo = 3%nat -> length hi = 3%nat ->
  length (fst (bounding pts lo hi)) = 3%nat /\ length (snd (bounding pts lo hi)) = 3%nat.
Proof.
  induction 1 as [|p pts Hp _ IH]; intros lo hi Hl Hh; cbn; [auto|]. unfold bounding in IH. apply IH; rewrite map_length, combine_length; lia.
Qed.
Lemma q_of_0 n : q_of n = 0%Qc -> n = 0.
Proof.
  unfold q_of. intros H. apply (f_equal this) in H. change (Qred (inject_Z n) = Qred 0) in H.
  assert (inject_Z n == 0)%Q as E by (rewrite <- (Qred_correct (inject_Z n)), H; reflexivity). unfold Qeq in E. cbn in E. lia.
Qed.
Lemma estimate_ok dim g h : inv h g -> exists g', estimate_centroid dim g = Some g' /\ faces g' = faces g /\ edges g' = edges g /\ volume g' = volume g /\ length (centroid g') = 3%nat.
Proof.
  intros I. unfold estimate_centroid. destruct (num_edges g =? 0) eqn:E0; [exists g; repeat split; auto; apply I|]. destruct ((dim =? 3) && _); [exists g; repeat split; auto; apply I|].
  apply Z.eqb_neq in E0. set (pts := concat (map snd (edges g))).
  assert (Forall (fun p : list Z => length p = 3%nat) pts) as F3.
  { apply Forall_forall. intros p Hp. apply in_concat in Hp. destruct Hp as (l & Hl & Hp). apply in_map_iff in Hl. destruct Hl as (it & <- & Hit).
    destruct (i_points _ _ I _ Hit) as [_ F]. rewrite Forall_forall in F. auto. }
  assert (zlen pts <> 0) as NZ.
  { unfold num_edges in E0. unfold pts. destruct (edges g) as [|it es] eqn:EE; [now elim E0|]. assert (In it (edges g)) as Hit by (rewrite EE; simpl; auto).
    destruct (i_points _ _ I _ Hit) as [F _]. cbn. rewrite zlen_app. destruct (snd it) as [|x r]; [easy|]. rewrite zlen_cons. pose proof (zlen_nonneg r). pose proof (zlen_nonneg (concat (map snd es))). lia. }
  destruct (bounding pts [1000; 1000; 1000] [0; 0; 0]) as [lo hi] eqn:EB.
  destruct (bounding_len pts F3 [1000; 1000; 1000] [0; 0; 0] eq_refl eq_refl) as [Ll Lh]. rewrite EB in Ll, Lh. cbn in Ll, Lh.
  assert (q_of (zlen pts) <> 0%Qc) as NQ by (intros H; apply q_of_0 in H; contradiction).
  rewrite (recip_eq _ NQ). cbn [bind]. eexists. split; [reflexivity|].
  destruct (fold_add_mass (volume g * / q_of (zlen pts)) (fun p => map q_of (firstn (Z.to_nat dim) (fold_point lo hi p) ++ skipn (Z.to_nat dim) p)) pts) with (g := set_body g [0%Qc; 0%Qc; 0%Qc] 0%Qc) as (A & B & C & D); auto.
  - intros p Hp. rewrite Forall_forall in F3. specialize (F3 _ Hp). rewrite map_length, app_length, firstn_length, skipn_length. unfold fold_point. rewrite map_length, !combine_length. lia.
  - cbn zeta in *. cbn in B, C, D. repeat split; auto. rewrite D. field. exact NQ.
Qed.

Lemma perform_inv h g a g' : inv h g -> well_typed a -> perform g a = Some g' -> inv (h ++ [a]) g'.
Proof.
  intros I W H.
  assert (forall g1, faces g1 = faces g -> edges g1 = edges g -> length (centroid g1) = 3%nat -> (forall f, a <> ANeighbor f) -> (forall e p, a <> AEdge e p) -> inv (h ++ [a]) g1) as X.
  { intros g1 E1 E2 L N1 N2. destruct I. split; rewrite ?E1, ?E2; auto.
    - intros f. rewrite i_faces_in0, neighbours_snoc. specialize (N1 f). intuition.
    - intros e. rewrite i_edges_in0, boundaries_snoc. specialize (N2 e). split; [auto|]. intros [?|[p ?]]; [auto|]. now elim (N2 p). }
  destruct a; cbn in H.
  - inversion H; subst. apply X; try discriminate; auto. cbn in W |- *. rewrite map_length, combine_length, W, (i_body _ _ I). reflexivity.
  - inversion H; subst. apply X; try discriminate; auto. apply I.
  - inversion H; subst; clear H X. destruct I. cbn in W. destruct W as [W1 W2]. split; cbn; auto.
    + intros f. rewrite i_faces_in0, neighbours_snoc. intuition discriminate.
    + rewrite keys_oupdate. apply inc_oinsert; auto using order_lex.
    + intros e0. rewrite keys_oupdate, in_oinsert by apply order_lex. rewrite i_edges_in0, boundaries_snoc. split; [intros [->|]; eauto|]. intros [|[q H]]; auto. inversion H; auto.
    + intros e0. rewrite keys_oupdate, in_oinsert by apply order_lex. intros [->|]; auto.
    + intros it Hit. apply in_oupdate in Hit; [|apply order_lex]. destruct Hit as [Hit|[->|(v & Hv & ->)]]; auto.
      * cbn. split; [discriminate|]. auto.
      * cbn. split; [destruct v; discriminate|]. apply Forall_app. split; auto. apply (i_points0 _ Hv).
  - inversion H; subst. apply X; try discriminate; auto. apply I.
  - inversion H; subst; clear H X. destruct I. split; cbn; auto.
    + apply inc_oinsert; auto using order_Z.
    + intros f. rewrite in_oinsert by apply order_Z. rewrite i_faces_in0, neighbours_snoc. split; [intros [->|]; auto|]. intros [|H]; auto. inversion H; auto.
    + intros e. rewrite i_edges_in0, boundaries_snoc. split; [auto|]. intros [|[p H]]; [auto|discriminate].
  - destruct (compute_topology dim g) as [[g1 l]|] eqn:E; cbn [bind] in H; [|discriminate]. inversion H; subst. cbn. apply compute_shape in E.
    destruct E as (E1 & E2 & E3 & _). apply X; try discriminate; auto. rewrite E3. apply I.
  - destruct (estimate_ok dim g h I) as (g1 & E & E1 & E2 & E3 & E4). rewrite E in H. inversion H; subst. apply X; try discriminate; auto.
Qed.
Lemma inv_new i : inv [] (grain_new i).
Proof.
  split; cbn; try (constructor); try tauto; auto.
Qed.
Lemma after_inv i h g : Forall well_typed h -> grain_after i h = Some g -> inv h g.
Proof.
  unfold grain_after. intros W H.
  assert (forall r d g0, Forall well_typed r -> inv d g0 -> fold_opt perform r g0 = Some g -> inv (d ++ r) g) as X.
  { induction r as [|a r IH]; intros d g0 Wr I E; cbn in E; [inversion E; subst; now rewrite app_nil_r|].
    inversion Wr; subst. destruct (perform g0 a) as [g1|] eqn:E1; cbn [bind] in E; [|discriminate]. replace (d ++ a :: r) with ((d ++ [a]) ++ r) by now rewrite <- app_assoc.
    eapply IH; eauto. eapply perform_inv; eauto. }
  apply (X h [] (grain_new i)); auto. apply inv_new.
Qed.
