From Coq Require Import QArith.QArith QArith.Qcanon Sorting.Sorted.
From Verif Require Import Model.Base Model.Num Model.Layout Model.Access Model.Sparse Model.Evolve Model.Stencil Model.Spin Model.Topology Model.Topo
  Spec.Box Spec.Stencil Spec.Evolve Spec.Sparse Spec.Topology Spec.Table Spec.Topo
  Proof.BaseL Proof.LayoutL Proof.AccessL Proof.SparseL Proof.SparseF Proof.EvolveL Proof.SpinL Proof.TopologyL Proof.TopologyF Proof.CentroidL Proof.TableL Proof.TopoL.
Local Open Scope Z_scope.

(* ---- the order of the nodes ---- *)
Lemma lex_trans x y z : lex_lt x y -> lex_lt y z -> lex_lt x z.
Proof.
  revert y z. induction x as [|a x IH]; intros [|b y] [|c z] H1 H2; cbn in *; try tauto.
  destruct H1 as [H1|[-> H1]], H2 as [H2|[-> H2]]; [left; lia|left; lia|left; lia|right; split; [reflexivity|eauto]].
Qed.
Lemma lex_sorted_same l l' : StronglySorted lex_lt l -> StronglySorted lex_lt l' -> (forall x, In x l <-> In x l') -> l = l'.
Proof.
  revert l'. induction l as [|a l IH]; intros [|b l'] S S' E; [reflexivity|exfalso; apply (E b); now left|exfalso; apply (E a); now left|].
  apply StronglySorted_inv in S as [S1 S2]. apply StronglySorted_inv in S' as [S1' S2']. rewrite Forall_forall in *.
  assert (a = b) as ->.
  { destruct (proj1 (E a) (or_introl eq_refl)) as [->|H]; [reflexivity|]. destruct (proj2 (E b) (or_introl eq_refl)) as [->|H']; [reflexivity|].
    apply S2 in H'. apply S2' in H. exfalso. exact (lex_irrefl _ (lex_trans _ _ _ H H')). }
  f_equal. apply IH; auto. intros x. split; intros H.
  - destruct (proj1 (E x) (or_intror H)) as [<-|H']; [|auto]. apply S2 in H. exfalso. exact (lex_irrefl _ H).
  - destruct (proj2 (E x) (or_intror H)) as [<-|H']; [|auto]. apply S2' in H. exfalso. exact (lex_irrefl _ H).
Qed.
Lemma sites ls : lims_ok ls -> all_nodes (map l_x0 ls) (map l_x1 ls) (fun _ => True) (map (position (lay 0 ls)) (zrange 0 (nodes (lay 0 ls)))).
Proof.
  intros Hl. pose proof (wf_lay 0 ls Hl) as W. rewrite <- (map_x0_lay 0 ls), <- (map_x1_lay 0 ls). split.
  - intros x. rewrite in_map_iff. split.
    + intros (i & <- & Hi). apply in_zrange in Hi. split; [|auto]. now apply (position_spec 0).
    + intros [Hx _]. apply (position_onto 0) in Hx as (i & Hi & <-); [|auto]. exists i. split; [auto|]. now apply in_zrange.
  - apply sorted_zrange. intros i j Hi Hij Hj. apply (position_row_major 0); auto; lia.
Qed.
Lemma sites_are ls xs : lims_ok ls -> all_nodes (map l_x0 ls) (map l_x1 ls) (fun _ => True) xs -> xs = map (position (lay 0 ls)) (zrange 0 (nodes (lay 0 ls))).
Proof. intros Hl [M S]. destruct (sites ls Hl) as [M' S']. apply lex_sorted_same; auto. intros x. now rewrite M, M'. Qed.

Lemma in_lookup {V} (m : list (Z * V)) a v : inc Z.ltb (map fst m) -> In (a, v) m <-> lookup m a = Some v.
Proof. intros I. apply lookup_in. now apply (inc_nodup _ order_Z). Qed.

Section Scan.
Context (ls : list limits) (data : list (sobj Qc)) (F : list Z -> list (Z * Qc)) (G : list Z -> Z) (A : list Z -> list Z).
Local Notation axs := (lay 0 ls).
Local Notation d := (zlen ls).
Local Notation box := (in_box (map l_x0 ls) (map l_x1 ls)).
Context (Hd : length ls = 2%nat \/ length ls = 3%nat) (Hl : lims_ok ls) (HM : microstructure ls F G A) (HG : grid_of ls data F).

Lemma run_ok is : forall pre m s, (forall i, In i is -> 0 <= i < nodes axs) -> state ls F G A pre m ->
  (forall p x q, map (position axs) is = p ++ x :: q -> ready ls F A (pre ++ p) x) ->
  exists m', fold_opt (visit axs data) is (m, s) = Some (m', fold_left span_of (map (leading_value F G) (map (position axs) is)) s) /\
             state ls F G A (pre ++ map (position axs) is) m'.
Proof.
  induction is as [|i is IH]; intros pre m s Hi Hst R; cbn [fold_opt map fold_left].
  - exists m. rewrite app_nil_r. auto.
  - destruct (proj1 (visit_cases ls data F G A Hd Hl HM HG pre m s i (Hi i (or_introl eq_refl)) Hst)) as (m1 & E1 & S1).
    { specialize (R [] (position axs i) (map (position axs) is) eq_refl). now rewrite app_nil_r in R. }
    rewrite E1. cbn [bind]. destruct (IH (pre ++ [position axs i]) m1 (span_of s (leading_value F G (position axs i)))) as (m' & E & S').
    + intros j Hj. apply Hi. now right.
    + exact S1.
    + intros p x q E. rewrite <- app_assoc. apply (R ([position axs i] ++ p) x q). cbn. now rewrite E.
    + exists m'. rewrite <- app_assoc in S'. auto.
Qed.
Lemma run_conv is : forall pre m s r, (forall i, In i is -> 0 <= i < nodes axs) -> state ls F G A pre m ->
  fold_opt (visit axs data) is (m, s) = Some r -> forall p x q, map (position axs) is = p ++ x :: q -> ~ ~ ready ls F A (pre ++ p) x.
Proof.
  induction is as [|i is IH]; intros pre m s r Hi Hst E p x q Ep; [destruct p; discriminate|]. cbn [fold_opt] in E. cbn [map] in Ep.
  destruct (visit_cases ls data F G A Hd Hl HM HG pre m s i (Hi i (or_introl eq_refl)) Hst) as [V1 V2]. intros NR.
  destruct p as [|p0 p]; cbn in Ep; injection Ep as E0 Ep.
  - subst x. rewrite app_nil_r in NR. rewrite V2 in E by auto. discriminate.
  - subst p0. assert (~ ~ ready ls F A pre (position axs i)) as NN.
    { intros K. rewrite V2 in E by auto. discriminate. }
    apply NN. intros K. destruct (V1 K) as (m1 & E1 & S1). rewrite E1 in E. cbn [bind] in E.
    apply (IH (pre ++ [position axs i]) m1 _ r (fun j Hj => Hi j (or_intror Hj)) S1 E p x q Ep). now rewrite <- app_assoc.
Qed.
Lemma state_nil : state ls F G A [] [].
Proof. split; [split; [constructor|reflexivity]|reflexivity]. Qed.

Lemma ready_known xs : (forall p x q, xs = p ++ x :: q -> ready ls F A p x) <-> (d = 2 -> known_in_time F A xs).
Proof.
  unfold known_in_time, ready. split.
  - intros R D pre x post E L b Hb. apply seen_iff. now apply (R pre x post).
  - intros K p x q E D L b Hb. apply seen_iff. now apply (K D p x q).
Qed.
Lemma known_stable xs : (forall p x q, xs = p ++ x :: q -> ~ ~ ready ls F A p x) -> forall p x q, xs = p ++ x :: q -> ready ls F A p x.
Proof.
  intros N p x q E D L b Hb. specialize (N p x q E). destruct (seen F b (p ++ [x])) eqn:K; [reflexivity|]. exfalso. apply N. intros R. rewrite (R D L b Hb) in K. discriminate.
Qed.

Context (xs : list (list Z)) (Hxs : all_nodes (map l_x0 ls) (map l_x1 ls) (fun _ => True) xs).
Lemma scan_ok : (d = 2 -> known_in_time F A xs) -> exists m, scan axs data = Some (m, fold_left span_of (map (leading_value F G) xs) (1%Qc, 0%Qc)) /\ state ls F G A xs m.
Proof.
  intros K. rewrite <- ready_known in K. rewrite (sites_are ls xs Hl Hxs) in *. unfold scan.
  destruct (run_ok (zrange 0 (nodes axs)) [] [] (1%Qc, 0%Qc)) as (m & E & S); [intros i Hi; now apply in_zrange|apply state_nil|exact K|]. exists m. split; [exact E|exact S].
Qed.
Lemma scan_conv r : scan axs data = Some r -> d = 2 -> known_in_time F A xs.
Proof.
  intros E. apply ready_known. apply known_stable. rewrite (sites_are ls xs Hl Hxs). intros p x q Ep.
  apply (run_conv (zrange 0 (nodes axs)) [] [] (1%Qc, 0%Qc) r (fun i Hi => proj1 (in_zrange _ _ _) Hi) state_nil E p x q Ep).
Qed.

Lemma box_xs x : In x xs <-> box x.
Proof. destruct Hxs as [M _]. rewrite M. tauto. Qed.
Lemma spatial_len x : box x -> length (spatial x) = 3%nat.
Proof.
  intros B. apply local_len in B. destruct Hd as [E|E]; rewrite E in B; (destruct x as [|a [|b [|c [|e x]]]]; cbn in B; try discriminate; reflexivity).
Qed.
Lemma history_typed a : Forall well_typed (history d F G A xs a) /\ Forall plain (history d F G A xs a).
Proof.
  assert (forall e, In e (history d F G A xs a) -> well_typed e /\ plain e) as X.
  { intros e He. apply in_flat_map in He as (x & Hx & He). apply box_xs in Hx. destruct (HM x Hx) as (_ & _ & S & _). pose proof (spatial_len x Hx) as L3. unfold events in He. rewrite !in_app_iff in He.
    destruct He as [He|[He|He]].
    - destruct (storedb F a x); [|destruct He]. destruct He as [<-|[]]. cbn. split; [now rewrite map_length|auto].
    - destruct (_ && _); [|destruct He]. destruct He as [<-|He]; [cbn; auto|]. destruct (d =? 3); [|destruct He]. apply in_map_iff in He as (j & <- & _). cbn. auto.
    - destruct (_ && _); [|destruct He]. destruct He as [<-|[]]. cbn. auto. }
  split; apply Forall_forall; intros e He; apply X; auto.
Qed.
Lemma grain_iff m a g : state ls F G A xs m -> In (a, g) m <-> (exists x, In x xs /\ stored F a x) /\ grain_after a (history d F G A xs a) = Some g.
Proof.
  intros [[I L] _]. rewrite in_lookup by auto. rewrite L. unfold so_far. rewrite <- seen_iff. rewrite (made_after a) by apply history_typed.
  destruct (seen F a xs); cbn [option_map]; [tauto|]. split; [discriminate|]. intros [K _]. discriminate.
Qed.
Lemma state_sorted m : state ls F G A xs m -> StronglySorted Z.lt (map fst m).
Proof. intros [[I _] _]. now apply sorted_of_inc. Qed.

(* ---- what the history says ---- *)
Lemma in_events e a : In e (history d F G A xs a) <-> exists x, box x /\ In e (events d F G A a x).
Proof. unfold history. rewrite in_flat_map. setoid_rewrite box_xs. reflexivity. Qed.
Lemma history_edges a e : In e (boundaries (history d F G A xs a)) <-> exists x, box x /\ G x = a /\ zlen (A x) = d - 1 /\ e = A x.
Proof.
  unfold boundaries. rewrite nodup_In, in_flat_map. split.
  - intros (ev & He & K). apply in_events in He as (x & B & He). destruct ev; cbn in K; try contradiction. destruct K as [K|[]]. subst. unfold events in He. rewrite !in_app_iff in He. destruct He as [He|[He|He]].
    + destruct (storedb F a x); [|destruct He]. destruct He as [He|[]]. discriminate.
    + destruct (Z.eqb_spec a (G x)); cbn [andb] in He; [|destruct He]. destruct (Z.eqb_spec (zlen (A x)) (d - 1)); [|destruct He]. destruct He as [He|He].
      * injection He as He _. exists x. auto.
      * destruct (d =? 3); [|destruct He]. apply in_map_iff in He as (j & He & _). discriminate.
    + destruct (_ && _); [|destruct He]. destruct He as [He|[]]. discriminate.
  - intros (x & B & Gx & L & ->). exists (AEdge (A x) (spatial x)). split; [|cbn; auto]. apply in_events. exists x. split; [exact B|]. unfold events. rewrite !in_app_iff. right. left.
    subst a. rewrite Z.eqb_refl, L, Z.eqb_refl. cbn [andb]. now left.
Qed.
Lemma history_faces a b : In b (neighbours (history d F G A xs a)) <-> d = 3 /\ exists x, box x /\ G x = a /\ zlen (A x) = 2 /\ In b (A x).
Proof.
  unfold neighbours. rewrite nodup_In, in_flat_map. split.
  - intros (ev & He & K). apply in_events in He as (x & B & He). destruct ev; cbn in K; try contradiction. destruct K as [K|[]]. subst. unfold events in He. rewrite !in_app_iff in He. destruct He as [He|[He|He]].
    + destruct (storedb F a x); [|destruct He]. destruct He as [He|[]]. discriminate.
    + destruct (Z.eqb_spec a (G x)); cbn [andb] in He; [|destruct He]. destruct (Z.eqb_spec (zlen (A x)) (d - 1)); [|destruct He]. destruct He as [He|He]; [discriminate|].
      destruct (Z.eqb_spec d 3) as [D|]; [|destruct He]. apply in_map_iff in He as (j & He & Hj). injection He as ->. split; [exact D|]. exists x. repeat split; auto; lia.
    + destruct (_ && _); [|destruct He]. destruct He as [He|[]]. discriminate.
  - intros (D & x & B & Gx & L & Hb). exists (ANeighbor b). split; [|cbn; auto]. apply in_events. exists x. split; [exact B|]. unfold events. rewrite !in_app_iff. right. left.
    subst a. rewrite Z.eqb_refl, L, D. cbn. right. now apply in_map.
Qed.
Lemma history_vertices a v : In v (reported (history d F G A xs a)) <-> d = 2 /\ exists x, box x /\ zlen (A x) = 2 /\ In a (A x) /\ v = A x.
Proof.
  unfold reported. rewrite in_flat_map. split.
  - intros (ev & He & K). apply in_events in He as (x & B & He). destruct ev; cbn in K; try contradiction. destruct K as [K|[]]. subst. unfold events in He. rewrite !in_app_iff in He. destruct He as [He|[He|He]].
    + destruct (storedb F a x); [|destruct He]. destruct He as [He|[]]. discriminate.
    + destruct (_ && _); [|destruct He]. destruct He as [He|He]; [discriminate|]. destruct (d =? 3); [|destruct He]. apply in_map_iff in He as (j & He & Hj). discriminate.
    + destruct (Z.eqb_spec d 2) as [D|]; cbn [andb] in He; [|destruct He]. destruct (Z.eqb_spec (zlen (A x)) 2) as [L|]; cbn [andb] in He; [|destruct He].
      destruct (existsb (Z.eqb a) (A x)) eqn:Ex; [|destruct He]. destruct He as [He|[]]. injection He as He. split; [exact D|]. exists x. repeat split; auto.
      apply existsb_exists in Ex as (y & Hy & Ey). apply Z.eqb_eq in Ey. now subst y.
  - intros (D & x & B & L & Ha & ->). exists (AVertex (A x)). split; [|cbn; auto]. apply in_events. exists x. split; [exact B|]. unfold events. rewrite !in_app_iff. right. right.
    rewrite D, L. cbn [andb Z.eqb Pos.eqb]. assert (existsb (Z.eqb a) (A x) = true) as -> by (apply existsb_exists; exists a; split; [auto|apply Z.eqb_refl]). now left.
Qed.
Lemma mass_app h h' : mass (h ++ h') = (mass h + mass h')%Qc.
Proof. unfold mass. rewrite map_app. generalize (map (fun a => match a with AMass v _ => v | _ => 0%Qc end) h'); intros l'. generalize (map (fun a => match a with AMass v _ => v | _ => 0%Qc end) h); intros l. induction l as [|q l IH]; cbn [app sumQ]; [ring|]. rewrite IH. ring. Qed.
Lemma moment_app k h h' : first_moment k (h ++ h') = (first_moment k h + first_moment k h')%Qc.
Proof.
  unfold first_moment. rewrite map_app. generalize (map (fun a => match a with AMass v p => (v * nth k p 0)%Qc | _ => 0%Qc end) h'); intros l'.
  generalize (map (fun a => match a with AMass v p => (v * nth k p 0)%Qc | _ => 0%Qc end) h); intros l. induction l as [|q l IH]; cbn [app sumQ]; [ring|]. rewrite IH. ring.
Qed.
Lemma massless h : (forall v p, ~ In (AMass v p) h) -> mass h = 0%Qc /\ forall k, first_moment k h = 0%Qc.
Proof.
  unfold mass, first_moment. induction h as [|e h IH]; intros N; cbn [map sumQ]; [auto|]. destruct IH as [I1 I2]; [intros v p K; apply (N v p); now right|].
  rewrite I1. split; [|intros k; rewrite I2]; (destruct e; try ring; exfalso; apply (N v p); now left).
Qed.
Lemma events_mass a x : mass (events d F G A a x) = at_index (F x) a /\ forall k, first_moment k (events d F G A a x) = (at_index (F x) a * nth k (map q_of (spatial x)) 0)%Qc.
Proof.
  unfold events. match goal with |- mass (_ ++ ?b) = _ /\ _ => set (r := b) end. assert (mass r = 0%Qc /\ forall k, first_moment k r = 0%Qc) as [R1 R2].
  { apply massless. intros v p K. unfold r in K. rewrite in_app_iff in K. destruct K as [K|K].
    - destruct (_ && _); [|destruct K]. destruct K as [K|K]; [discriminate|]. destruct (d =? 3); [|destruct K]. apply in_map_iff in K as (j & K & _). discriminate.
    - match type of K with In _ (if ?c then _ else _) => destruct c end; [|destruct K]. destruct K as [K|[]]. discriminate. }
  rewrite mass_app, R1. setoid_rewrite moment_app. setoid_rewrite R2. destruct (storedb F a x) eqn:S.
  - unfold mass, first_moment. cbn [map sumQ]. split; [ring|intros k; ring].
  - rewrite at_absent by (intros K; apply storedb_iff in K; congruence). unfold mass, first_moment. cbn [map sumQ]. split; [ring|intros k; ring].
Qed.
Lemma history_mass a : mass (history d F G A xs a) = sumQ (map (fun x => at_index (F x) a) xs) /\
  forall k, first_moment k (history d F G A xs a) = sumQ (map (fun x => at_index (F x) a * nth k (map q_of (spatial x)) 0)%Qc xs).
Proof.
  clear Hxs. unfold history. induction xs as [|x l [I1 I2]]; cbn [flat_map map sumQ]; [split; [reflexivity|intros; reflexivity]|]. rewrite mass_app, I1, (proj1 (events_mass a x)). split; [reflexivity|].
  intros k. rewrite moment_app, I2, (proj2 (events_mass a x)). reflexivity.
Qed.
End Scan.
