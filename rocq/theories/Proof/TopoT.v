From Coq Require Import QArith.QArith QArith.Qcanon Sorting.Sorted Sorting.Permutation.
From Verif Require Import Model.Base Model.Num Model.Layout Model.Access Model.Sparse Model.Evolve Model.Stencil Model.Spin Model.Topology Model.Tessellate Model.Topo
  Spec.Box Spec.Stencil Spec.Evolve Spec.Sparse Spec.Spin Spec.Topology Spec.Table Spec.Topo Spec.TopoRest
  Proof.BaseL Proof.LayoutL Proof.AccessL Proof.SparseL Proof.SparseF Proof.EvolveL Proof.SpinL Proof.TopologyL Proof.TopologyF Proof.CentroidL Proof.TableL Proof.TopoL Proof.TopoF Proof.TopoA
  Props.Topology.
Local Open Scope Z_scope.

Lemma plain_keeps h : forall g0 g, Forall plain h -> fold_opt perform h g0 = Some g -> me g = me g0 /\ excluded g = excluded g0.
Proof.
  induction h as [|e h IH]; intros g0 g P E; cbn in E; [injection E as <-; auto|]. inversion P; subst. destruct e; cbn in H1; try contradiction; cbn in E; apply IH in E as [-> ->]; auto.
Qed.
Definition small (g : grain) : bool := qgt 1%Qc (volume g).
Definition sized (h : list act) : list act := h ++ (if qgt 1%Qc (mass h) then [AExclude true] else []).
Lemma sized_same h : neighbours (sized h) = neighbours h /\ boundaries (sized h) = boundaries h /\ mass (sized h) = mass h /\ (forall k, first_moment k (sized h) = first_moment k h) /\ reported (sized h) = reported h /\ points (sized h) = points h.
Proof.
  unfold sized. destruct (qgt 1%Qc (mass h)); [|rewrite app_nil_r; repeat split; reflexivity].
  unfold neighbours, boundaries, reported, points. rewrite !flat_map_app. cbn [flat_map]. rewrite !app_nil_r. repeat split.
  - rewrite mass_app. unfold mass at 2. cbn. ring.
  - intros k. rewrite moment_app. unfold first_moment at 2. cbn. ring.
Qed.

Section Table.
Context (ls : list limits) (data : list (sobj Qc)) (F : list Z -> list (Z * Qc)) (G : list Z -> Z) (A : list Z -> list Z).
Context (Hd : length ls = 2%nat \/ length ls = 3%nat) (Hl : lims_ok ls) (HM : microstructure ls F G A) (HG : grid_of ls data F).
Context (xs : list (list Z)) (Hxs : all_nodes (map l_x0 ls) (map l_x1 ls) (fun _ => True) xs).
Local Notation axs := (lay 0 ls).
Local Notation d := (zlen ls).
Local Notation hist := (history d F G A xs).

Lemma dim_ls : dimension axs = d.
Proof. unfold dimension, zlen. now rewrite length_lay. Qed.
Lemma sized_typed a : Forall well_typed (sized (hist a)).
Proof. unfold sized. apply Forall_app. split; [apply (history_typed ls F G A Hd HM xs Hxs a)|]. destruct (qgt _ _); repeat constructor. Qed.
Lemma small_after a g : grain_after a (hist a) = Some g ->
  me g = a /\ excluded g = false /\ volume g = mass (hist a) /\
  grain_after a (sized (hist a)) = Some (if negb (excluded g) && qgt 1%Qc (volume g) then set_exclusion true g else g).
Proof.
  intros E. destruct (history_typed ls F G A Hd HM xs Hxs a) as [W P]. destruct (plain_keeps (hist a) (grain_new a) g P E) as [M X]. pose proof (C64_volume a _ g W E) as V.
  split; [exact M|]. split; [exact X|]. split; [exact V|]. rewrite X, V. cbn [negb andb]. unfold sized, grain_after. rewrite fold_opt_app. unfold grain_after in E. rewrite E. cbn [bind].
  destruct (qgt _ _); reflexivity.
Qed.

Lemma compute2_stats g g' st : compute_topology 2 g = Some (g', st) -> nth 2 st 0 = 3 /\ nth 3 st 0 = num_faces g.
Proof.
  intros C. pose proof (compute_shape _ _ _ _ C) as (S1 & _). rewrite compute_split in C. destruct (infer_vertices _ _) as [[g1 a1]|] eqn:Iv; cbn [bind] in C; [|discriminate]. pose proof (infer_shape _ _ _ _ Iv) as (_ & VC & FC & _).
  unfold make_pvector in C. rewrite FC in C. cbn [bind set_checks face_check] in C. rewrite VC in C. cbn [bind] in C. change (2 =? 2) with true in C. cbv iota zeta in C. cbn [bind] in C. injection C as Eg Es. rewrite <- Es. cbn [nth]. split; [reflexivity|]. unfold num_faces. rewrite <- Eg in S1. cbn [faces set_topo] in *. now rewrite S1.
Qed.
(* every analysed grain *)
Definition analysed (p n : Z) (it : Z * grain) : Prop :=
  exists g0 g a2, grain_after (fst it) (sized (hist (fst it))) = Some g0 /\ me g0 = fst it /\ excluded g0 = qgt 1%Qc (mass (hist (fst it))) /\
    compute_topology d g0 = Some (g, [0; nth 1 a2 0; nth 2 a2 0; num_faces g]) /\ snd it = flagged g /\ nth 2 a2 0 <= p /\ num_faces g <= n.
Lemma analysed_all m m' p n : state ls F G A xs m -> analyse axs (exclude_small m) = Some (m', p, n) ->
  0 <= p /\ 0 <= n /\ (d = 2 -> p <= 3 /\ n <= 0) /\ map fst m' = map fst m /\ Forall (analysed p n) m'.
Proof.
  intros St An. apply analyse_ok in An as (P & N & PB & NB & Fl). split; [exact P|]. split; [exact N|].
  assert (forall it, In it m -> grain_after (fst it) (hist (fst it)) = Some (snd it)) as Ga.
  { intros [a g] I. apply (grain_iff ls F G A Hd HM xs Hxs m a g St) in I as [_ I]. exact I. }
  split.
  { intros D2. split.
    - apply PB; [lia|]. intros it g st _ C. rewrite dim_ls, D2 in C. apply compute2_stats in C as [C _]. rewrite C. lia.
    - apply NB; [lia|]. intros it g st I C. rewrite dim_ls, D2 in C. apply compute2_stats in C as [_ C]. rewrite C. unfold exclude_small in I. apply in_map_iff in I as ([a0 g0] & <- & I). cbn [fst snd].
      specialize (Ga _ I). cbn [fst snd] in Ga. destruct (history_typed ls F G A Hd HM xs Hxs a0) as [W _]. pose proof (num_faces_eq _ _ (after_inv _ _ _ W Ga)) as NF.
      assert (neighbours (hist a0) = []) as K. { destruct (neighbours (hist a0)) as [|c0 l0] eqn:E0; [reflexivity|]. exfalso. assert (In c0 (neighbours (hist a0))) as H by (rewrite E0; now left). apply (history_faces ls F G A Hd xs Hxs) in H as [H _]. lia. }
      rewrite K in NF. destruct (_ && _); unfold num_faces in *; cbn [set_exclusion faces]; rewrite NF; reflexivity. }
  clear St PB NB. unfold exclude_small in Fl. assert (map fst m' = map fst m /\ Forall (analysed p n) m') as [Q1 Q2].
  { revert m' Fl. induction m as [|it m IH]; intros m' Fl; cbn [map] in Fl; inversion Fl as [|? it' ? l' H1 H2]; subst; [split; [reflexivity|constructor]|].
    destruct (IH (fun it I => Ga it (or_intror I)) l' H2) as [E1 E2]. destruct H1 as [H1 (g & a1 & a2 & C & Sn & P2 & N2)]. cbn [map fst] in *. split; [now rewrite H1, E1|].
    constructor; [|exact E2]. destruct (small_after (fst it) (snd it) (Ga it (or_introl eq_refl))) as (M & X & V & Gs). cbn [snd fst] in C.
    exists (if negb (excluded (snd it)) && qgt 1%Qc (volume (snd it)) then set_exclusion true (snd it) else snd it), g, [0; a1; a2]. rewrite H1. split; [exact Gs|].
    rewrite X, V in *. cbn [negb andb] in *. split; [destruct (qgt _ _); exact M|]. split; [destruct (qgt _ _); [reflexivity|exact X]|]. rewrite dim_ls in C. cbn [nth]. auto. }
  auto.
Qed.

Lemma run_stages hd bulk rest s : mmsp2topo axs data = Some (hd, bulk, rest, s) ->
  exists m m' p n, state ls F G A xs m /\ analyse axs (exclude_small m) = Some (m', p, n) /\ hd = titles p n /\ table axs m' p n = Some (bulk, rest) /\ s = fold_left span_of (map (leading_value F G) xs) (1%Qc, 0%Qc).
Proof.
  intros E. unfold mmsp2topo in E. destruct (scan axs data) as [[m s0]|] eqn:S; cbn [bind] in E; [|discriminate].
  destruct (scan_ok ls data F G A Hd Hl HM HG xs Hxs (scan_conv ls data F G A Hd Hl HM HG xs Hxs _ S)) as (m0 & S' & St). rewrite S in S'. injection S' as -> ->.
  destruct (analyse axs (exclude_small m0)) as [[[m' p] n]|] eqn:An; cbn [bind] in E; [|discriminate].
  destruct (table axs m' p n) as [[b r]|] eqn:T; cbn [bind] in E; [|discriminate]. injection E as <- <- <- <-. exists m0, m', p, n. auto.
Qed.
Lemma run_parts hd bulk rest s : mmsp2topo axs data = Some (hd, bulk, rest, s) ->
  exists m m' p n, state ls F G A xs m /\ hd = titles p n /\ table axs m' p n = Some (bulk, rest) /\ 0 <= p /\ 0 <= n /\
    (d = 2 -> p <= 3 /\ n <= 0) /\ map fst m' = map fst m /\ Forall (analysed p n) m' /\ s = fold_left span_of (map (leading_value F G) xs) (1%Qc, 0%Qc).
Proof.
  intros E. apply run_stages in E as (m & m' & p & n & St & An & Eh & T & Es). destruct (analysed_all m m' p n St An) as (P & N & K & Q1 & Q2). exists m, m', p, n. auto 10.
Qed.
Lemma ids_stored m (m' : grains) : state ls F G A xs m -> map fst m' = map fst m -> forall a, In a (map fst m') <-> exists x, In x xs /\ stored F a x.
Proof.
  intros St Mf a. rewrite Mf. split.
  - intros Ia. apply in_map_iff in Ia as ([a' g0] & Ea & Ia). cbn in Ea. subst a'. apply (grain_iff ls F G A Hd HM xs Hxs m a g0 St) in Ia as [Ia _]. exact Ia.
  - intros St'. destruct (history_typed ls F G A Hd HM xs Hxs a) as [_ Pl]. apply in_map_iff. exists (a, made a (hist a)). split; [reflexivity|].
    apply (grain_iff ls F G A Hd HM xs Hxs m a _ St). split; [exact St'|]. now apply made_after.
Qed.

Lemma in_table (f : Z * grain -> option (list (list cell))) m r row : map_opt f m = Some r -> (In row (concat r) <-> exists it rows, In it m /\ f it = Some rows /\ In row rows).
Proof.
  revert r. induction m as [|it m IH]; intros r; cbn [map_opt].
  - intros E. injection E as <-. cbn. split; [tauto|intros (? & ? & [] & _)].
  - destruct (f it) as [rows|] eqn:E1; cbn [bind]; [|discriminate]. destruct (map_opt f m) as [r'|]; cbn [bind]; [|discriminate]. intros E. injection E as <-. cbn [concat]. rewrite in_app_iff, (IH r' eq_refl). split.
    + intros [H|(it' & rows' & H1 & H2 & H3)]; [exists it, rows; cbn; auto|exists it', rows'; cbn; auto].
    + intros (it' & rows' & [<-|H1] & H2 & H3); [left; congruence|right; eauto].
Qed.
Lemma table_some (f : Z * grain -> option (list (list cell))) m r it : map_opt f m = Some r -> In it m -> exists rows, f it = Some rows.
Proof.
  revert r. induction m as [|x m IH]; intros r; cbn [map_opt In]; [tauto|]. destruct (f x) as [rows|] eqn:E1; cbn [bind]; [|discriminate]. destruct (map_opt f m) as [r'|]; cbn [bind]; [|discriminate].
  intros _ [<-|H]; eauto.
Qed.
Lemma inv_shape h g g' : inv h g -> faces g' = faces g -> edges g' = edges g -> centroid g' = centroid g -> inv h g'.
Proof. intros [I1 I2 I3 I4 I5 I6 I7] S1 S2 S3. constructor; rewrite ?S1, ?S2, ?S3; auto. Qed.
Lemma flagged_shape g : faces (flagged g) = faces g /\ edges (flagged g) = edges g /\ centroid (flagged g) = centroid g /\ volume (flagged g) = volume g /\ me (flagged g) = me g /\ pvector (flagged g) = pvector g /\ vertices (flagged g) = vertices g /\
  excluded (flagged g) = (num_edges g =? 0) || excluded g.
Proof. unfold flagged. destruct (num_edges g =? 0); repeat split; reflexivity. Qed.
Lemma estimate_pvector dim g g' : estimate_centroid dim g = Some g' -> pvector g' = pvector g /\ me g' = me g /\ excluded g' = excluded g.
Proof.
  unfold estimate_centroid. destruct (_ =? 0); [intros H; inversion H; auto|]. destruct (_ && _); [intros H; inversion H; auto|].
  destruct (bounding _ _ _). destruct (recip _); cbn [bind]; [|discriminate]. intros H. injection H as H. rewrite <- H.
  match goal with |- pvector (fold_left _ ?pts ?g0) = _ /\ _ => change (pvector g) with (pvector g0); change (me g) with (me g0); change (excluded g) with (excluded g0); generalize g0; generalize pts; intros ps; induction ps as [|p ps IH]; intros g1; cbn [fold_left] end; [auto|].
  destruct (IH (add_mass (volume g * q) (map q_of (firstn (Z.to_nat dim) (fold_point l l0 p) ++ skipn (Z.to_nat dim) p)) g1)) as (I1 & I2 & I3). rewrite I1, I2, I3. auto.
Qed.

(* what is known of an analysed grain *)
Lemma analysed_facts p n a g' : analysed p n (a, g') ->
  inv (sized (hist a)) g' /\ me g' = a /\ volume g' = mass (hist a) /\ excluded g' = (zlen (boundaries (hist a)) =? 0) || qgt 1%Qc (mass (hist a)) /\
  num_edges g' = zlen (boundaries (hist a)) /\ num_faces g' = zlen (neighbours (hist a)) /\ num_faces g' <= n /\
  (mass (hist a) <> 0%Qc -> get_centroid g' = Some (map (fun k => first_moment k (hist a) / mass (hist a))%Qc [0%nat; 1%nat; 2%nat])).
Proof.
  intros (g0 & g & st & E & M & X & C & Sn & P2 & N2). cbn [fst snd] in *. pose proof (after_inv _ _ _ (sized_typed a) E) as I0. pose proof (compute_shape _ _ _ _ C) as S.
  destruct (flagged_shape g) as (F1 & F2 & F3 & F4 & F5 & F6 & F7 & F8). destruct S as (S1 & S2 & S3 & S4 & S5 & S6).
  destruct (sized_same (hist a)) as (Z1 & Z2 & Z3 & Z4 & Z5 & Z6). pose proof (C64_volume _ _ _ (sized_typed a) E) as V. rewrite Z3 in V.
  assert (inv (sized (hist a)) g') as I' by (rewrite Sn; apply (inv_shape _ g0); congruence).
  pose proof (num_edges_eq _ _ I') as NE. pose proof (num_faces_eq _ _ I') as NF. rewrite Z1 in NF. rewrite Z2 in NE.
  split; [exact I'|]. split; [congruence|]. split; [congruence|]. split.
  { rewrite Sn, F8, S6, X. f_equal. f_equal. rewrite <- NE, Sn. unfold num_edges. now rewrite F2. }
  split; [exact NE|]. split; [exact NF|]. split; [rewrite Sn; unfold num_faces in *; now rewrite F1|].
  intros N0. assert (get_centroid g' = get_centroid g0) as -> by (unfold get_centroid; rewrite Sn, F3, F4, S3, S4; reflexivity).
  rewrite (C66_centroid a (sized (hist a)) g0 (sized_typed a)); [rewrite Z3; f_equal; apply map_ext; intros k; now rewrite Z4| |exact E|now rewrite Z3].
  unfold sized. apply Forall_app. split; [|destruct (qgt _ _); repeat constructor]. destruct (history_typed ls F G A Hd HM xs Hxs a) as [_ P]. eapply Forall_impl; [|exact P]. intros []; cbn; tauto.
Qed.

Lemma two_sorted (l : list Z) : StronglySorted Z.lt l -> zlen l = 2 -> exists b c, l = [b; c] /\ b < c.
Proof.
  intros S L. destruct l as [|b [|c [|e l]]]; unfold zlen in L; cbn in L; try lia. exists b, c. split; [reflexivity|]. apply StronglySorted_inv in S as [_ S]. now inversion S.
Qed.
Lemma one_elem (l : list Z) : zlen l = 1 -> exists b, l = [b].
Proof. intros L. destruct l as [|b [|c l]]; unfold zlen in L; cbn in L; try lia. eauto. Qed.
Lemma hist_total a : mass (hist a) = amount F xs a.
Proof. apply (history_mass ls F G A xs a). Qed.
Lemma hist_moment k a : (k < Z.to_nat d)%nat -> first_moment k (hist a) = amount_moment F xs k a.
Proof.
  intros K. rewrite (proj2 (history_mass ls F G A xs a) k). unfold amount_moment. f_equal. apply map_ext_in. intros x Hx. f_equal. apply (box_xs ls Hd xs Hxs) in Hx. apply local_len in Hx.
  destruct Hd as [E|E]; rewrite E in Hx; unfold zlen in K; (destruct x as [|x0 [|x1 [|x2 [|x3 x]]]]; cbn in Hx; try discriminate).
  - destruct k as [|[|k]]; [reflexivity|reflexivity|lia].
  - destruct k as [|[|[|k]]]; [reflexivity|reflexivity|reflexivity|lia].
Qed.
Lemma hist_paired a : d = 3 -> paired (hist a).
Proof.
  intros D e He. apply (history_edges ls F G A Hd xs Hxs) in He as (x & B & Gx & L & ->). destruct (HM x B) as (_ & _ & S & _). rewrite D in L. destruct (two_sorted _ S ltac:(lia)) as (b & c & E & Lt). exists b, c.
  split; [exact E|]. split; [exact Lt|]. split; apply (history_faces ls F G A Hd xs Hxs); (split; [exact D|]; exists x; split; [exact B|]; split; [exact Gx|]; split; [lia|rewrite E; cbn; auto]).
Qed.
Lemma no_edges_faces a : boundaries (hist a) = [] -> neighbours (hist a) = [].
Proof.
  intros B. destruct (neighbours (hist a)) as [|b l] eqn:E; [reflexivity|]. exfalso. assert (In b (neighbours (hist a))) as H by (rewrite E; now left).
  apply (history_faces ls F G A Hd xs Hxs) in H as (D & x & Bx & Gx & L & _). assert (In (A x) (boundaries (hist a))) as K by (apply (history_edges ls F G A Hd xs Hxs); exists x; repeat split; auto; lia). rewrite B in K. destruct K.
Qed.
Lemma zlen_zero {X} (l : list X) : zlen l = 0 -> l = [].
Proof. destruct l; [auto|]. unfold zlen; cbn; lia. Qed.

(* ---- when the table is written ---- *)
Lemma map_opt_iff {X Y} (f : X -> option Y) l : (exists r, map_opt f l = Some r) <-> forall x, In x l -> exists y, f x = Some y.
Proof.
  induction l as [|x l IH]; cbn [map_opt In]; [split; [intros _ ? []|eauto]|]. split.
  - intros (r & E). destruct (f x) as [y|] eqn:E1; cbn [bind] in E; [|discriminate]. destruct (map_opt f l) as [r'|]; cbn [bind] in E; [|discriminate]. intros x' [<-|I]; [eauto|apply IH; eauto].
  - intros H. destruct (H x (or_introl eq_refl)) as (y & ->). destruct (proj2 IH (fun x' I => H x' (or_intror I))) as (r & ->). cbn. eauto.
Qed.
Lemma analyse_iff m : (exists r, analyse axs m = Some r) <-> forall it, In it m -> exists r, compute_topology d (snd it) = Some r.
Proof.
  unfold analyse. rewrite dim_ls. generalize (@nil (Z * grain), 0, 0). induction m as [|it m IH]; intros acc; cbn [fold_opt In]; [split; [intros _ ? []|eauto]|]. destruct acc as [[done mp] mn]. split.
  - intros (r & E). destruct (compute_topology d (snd it)) as [[g st]|] eqn:C; cbn [bind] in E; [|discriminate]. intros it' [<-|I]; [eauto|].
    destruct (get st 0); cbn [bind] in E; [|discriminate]. destruct (get st 2); cbn [bind] in E; [|discriminate]. destruct (get st 3); cbn [bind] in E; [|discriminate]. eapply IH; eauto.
  - intros H. destruct (H it (or_introl eq_refl)) as ([g st] & C). rewrite C. cbn [bind].
    assert (exists a1 a2, st = [0; a1; a2; num_faces g]) as (a1 & a2 & ->).
    { rewrite compute_split in C. destruct (infer_vertices _ _) as [[g1 a1]|]; cbn [bind] in C; [|discriminate]. destruct (make_pvector _ g1) as [[g2 a2]|]; cbn [bind] in C; [|discriminate]. injection C as <- <-. eauto. }
    match goal with |- exists r, bind ?x _ = _ => assert (x = Some (done ++ [(fst it, flagged g)], if mp <? a2 then a2 else mp, if mn <? num_faces g then num_faces g else mn)) as -> by reflexivity end. cbn [bind].
    apply IH. intros it' I. apply H. now right.
Qed.
Lemma centre_iff g c x : get_centroid g = Some c -> (centre g = Some x <-> Forall fits c /\ x = map truncZ c).
Proof.
  intros E. unfold centre. rewrite E. cbn [bind]. clear E. revert x. induction c as [|q c IH]; intros x; cbn [map_opt map].
  - split; [intros E; injection E as <-; auto|intros [_ ->]; reflexivity].
  - cbv zeta. destruct ((-2147483648 <=? truncZ q) && (truncZ q <=? 2147483647)) eqn:B; cbn [guard bind].
    + apply andb_prop in B as [B1 B2]. apply Z.leb_le in B1, B2. destruct (map_opt _ c) as [r|]; cbn [bind].
      * destruct (IH r) as [I1 _]. destruct (I1 eq_refl) as [Fc ->]. split; [intros E; injection E as <-; split; [constructor; [split; assumption|exact Fc]|reflexivity]|intros [_ ->]; reflexivity].
      * split; [discriminate|]. intros [Fc _]. inversion Fc; subst. destruct (IH (map truncZ c)) as [_ I2]. discriminate I2. auto.
    + split; [discriminate|]. intros [Fc _]. inversion Fc as [|? ? K _]; subst. destruct K as [K1 K2]. apply Z.leb_le in K1, K2. rewrite K1, K2 in B. discriminate.
Qed.
Lemma hist_points a : points (hist a) = map spatial (edge_nodes d G A xs a).
Proof.
  unfold points, history, edge_nodes. clear Hxs. induction xs as [|x l IH]; cbn [flat_map filter]; [reflexivity|]. rewrite flat_map_app, IH. rewrite (Z.eqb_sym (G x) a). unfold events. rewrite !flat_map_app.
  replace (flat_map _ (if storedb F a x then _ else _)) with (@nil (list Z)) by (destruct (storedb F a x); reflexivity).
  match goal with |- (_ ++ _ ++ flat_map _ (if ?c then _ else _)) ++ _ = _ => replace (flat_map (fun a0 : act => match a0 with AEdge _ p => [p] | _ => [] end) (if c then [AVertex (A x)] else [])) with (@nil (list Z)) by (destruct c; reflexivity) end.
  rewrite app_nil_r. cbn [app]. destruct ((a =? G x) && (zlen (A x) =? d - 1)); [|reflexivity]. cbn [flat_map app map]. f_equal.
  destruct (d =? 3); [|reflexivity]. cbn [app]. induction (A x) as [|b r IHr]; cbn [map flat_map app]; auto.
Qed.
Lemma edge_nodes_box a x : In x (edge_nodes d G A xs a) -> in_box (map l_x0 ls) (map l_x1 ls) x.
Proof. intros I. apply filter_In in I as [I _]. now apply (box_xs ls Hd xs Hxs). Qed.
Lemma spatial_nth x k : in_box (map l_x0 ls) (map l_x1 ls) x -> nth k (spatial x) 0 = if (k <? Z.to_nat d)%nat then nth k x 0 else 0.
Proof.
  intros B. apply local_len in B. destruct Hd as [E|E]; rewrite E in B; unfold zlen; rewrite E; (destruct x as [|x0 [|x1 [|x2 [|x3 x]]]]; cbn in B; try discriminate); cbn [spatial].
  - change (Z.to_nat (Z.of_nat 2)) with 2%nat. destruct k as [|[|[|k]]]; try reflexivity. cbn [nth]. destruct k; reflexivity.
  - change (Z.to_nat (Z.of_nat 3)) with 3%nat. destruct k as [|[|[|k]]]; try reflexivity. cbn [nth]. destruct k; reflexivity.
Qed.
Lemma estimated_eq a k : (sumQ (map (fun p : list Z => q_of (if (k <? Z.to_nat d)%nat then folded k (hist a) (nth k p 0%Z) else nth k p 0%Z)) (points (hist a))) / q_of (zlen (points (hist a))))%Qc
  = if (k <? Z.to_nat d)%nat then estimated (edge_nodes d G A xs a) k else 0%Qc.
Proof.
  rewrite hist_points. unfold estimated. rewrite BaseL.zlen_map. set (ps := edge_nodes d G A xs a).
  assert (forall x, In x ps -> nth k (spatial x) 0 = if (k <? Z.to_nat d)%nat then nth k x 0 else 0) as Sp by (intros x I; apply spatial_nth; now apply (edge_nodes_box a)).
  destruct (k <? Z.to_nat d)%nat eqn:K.
  - f_equal. rewrite map_map. f_equal. apply map_ext_in. intros x I. rewrite (Sp x I). f_equal. unfold folded, turned, greatest, least, highest, lowest. rewrite hist_points. fold ps. rewrite !map_map.
    rewrite (map_ext_in (fun x => nth k (spatial x) 0) (fun x => nth k x 0) ps Sp). reflexivity.
  - rewrite map_map. rewrite (map_ext_in _ (fun _ => 0%Qc) ps); [|intros x I; rewrite (Sp x I); reflexivity].
    assert (sumQ (map (fun _ => 0%Qc) ps) = 0%Qc) as -> by (clear; induction ps as [|x l IH]; [reflexivity|]; cbn [map]; change (sumQ (0%Qc :: ?l)) with (0 + sumQ l)%Qc; rewrite IH; ring).
    unfold Qcdiv. ring.
Qed.
Lemma analysed_estimate p n a g' : analysed p n (a, g') -> boundaries (hist a) <> [] -> (d = 3 -> neighbours (hist a) <> []) -> mass (hist a) <> 0%Qc ->
  exists g1, estimate_centroid d g' = Some g1 /\ get_centroid g1 = Some (map (fun k => if (k <? Z.to_nat d)%nat then estimated (edge_nodes d G A xs a) k else 0%Qc) [0%nat; 1%nat; 2%nat]).
Proof.
  intros An B Nb N0. destruct (analysed_facts p n a g' An) as (_ & _ & V & _ & NE & _). destruct An as (g0 & g & st & E & M & X & C & Sn & _). cbn [fst snd] in *.
  assert (g' = g) as ->. { rewrite Sn in NE |- *. unfold flagged in *. destruct (Z.eqb_spec (num_edges g) 0) as [K|K]; [|reflexivity]. exfalso. unfold num_edges in *. cbn [set_exclusion edges] in NE. rewrite K in NE. symmetry in NE. apply zlen_zero in NE. contradiction. }
  assert (grain_after a (sized (hist a) ++ [ATopology d]) = Some g) as Ga. { unfold grain_after in *. rewrite fold_opt_app, E. cbn [bind fold_opt perform]. rewrite C. reflexivity. }
  destruct (sized_same (hist a)) as (Z1 & Z2 & Z3 & Z4 & Z5 & Z6).
  assert (points (sized (hist a) ++ [ATopology d]) = points (hist a)) as Pt by (rewrite <- Z6; unfold points; rewrite flat_map_app; cbn [flat_map]; apply app_nil_r).
  destruct (estimate_centroid_ok a (sized (hist a) ++ [ATopology d]) g d) as (g1 & Es & Gc); auto.
  - apply Forall_app. split; [apply sized_typed|repeat constructor].
  - unfold zlen. lia.
  - unfold boundaries in *. rewrite flat_map_app. cbn [flat_map]. rewrite app_nil_r, Z2. exact B.
  - unfold neighbours in *. rewrite flat_map_app. cbn [flat_map]. rewrite app_nil_r, Z1. exact Nb.
  - now rewrite V.
  - exists g1. split; [exact Es|]. rewrite Gc. f_equal. apply map_ext. intros k. rewrite <- estimated_eq. unfold folded, least, greatest. rewrite Pt. reflexivity.
Qed.

Section Space.
Context (D3 : d = 3).
Lemma faces_of_hist a g h : inv h g -> neighbours h = neighbours (hist a) -> faces_of ls G A a (faces g).
Proof.
  intros I E. split; [apply sorted_of_inc, I|]. intros b. rewrite (i_faces_in _ _ I), E, (history_faces ls F G A Hd xs Hxs). rewrite D3. split.
  - intros (_ & x & K). exists x. replace (3 - 1) with 2 by lia. exact K.
  - intros (x & K). split; [reflexivity|]. exists x. replace (3 - 1) with 2 in K by lia. exact K.
Qed.
Lemma edges_of_hist a g h : inv h g -> boundaries h = boundaries (hist a) -> edges_of ls G A a (map fst (edges g)).
Proof.
  intros I E. split; [apply (inc_nodup _ order_lex), I|]. intros e. rewrite (i_edges_in _ _ I), E. apply (history_edges ls F G A Hd xs Hxs).
Qed.
(* the p-vector *)
Lemma analysed_pvector p n a g' : analysed p n (a, g') -> boundaries (hist a) <> [] ->
  zlen (pvector g') <= p /\ 1 < zlen (pvector g') /\ (forall k, 0 <= k -> nth (Z.to_nat k) (pvector g') 0 = faces_with (hist a) k) /\
  (3 <= zlen (boundaries (hist a)) -> 3 <= zlen (neighbours (hist a)) -> NoDup (vertices g') /\ forall v, In v (vertices g') <-> corner (hist a) v).
Proof.
  intros (g0 & g & st & E & M & X & C & Sn & P2 & N2) B. cbn [fst snd] in *. rewrite D3 in C. destruct (sized_same (hist a)) as (Z1 & Z2 & _). rewrite <- Z2 in B.
  pose proof (after_inv _ _ _ (sized_typed a) E) as I0. destruct (flagged_shape g) as (_ & _ & _ & _ & _ & F6 & F7 & _). pose proof C as C0.
  destruct (C43_pvector a _ g0 g _ (sized_typed a) E B C0) as (PV & _). rewrite compute_split in C. destruct (infer_vertices 3 (set_checks g0 true (vert_check g0))) as [[g1 a1]|] eqn:Iv; cbn [bind] in C; [|discriminate].
  pose proof (infer_shape _ _ _ _ Iv) as (S1 & VC & FC & _). destruct (make_pvector 3 g1) as [[g2 a2]|] eqn:Mk; cbn [bind] in C; [|discriminate]. injection C as Cg Ca1 Ca2. subst g2.
  assert (inv (sized (hist a)) g1) as I1 by (destruct S1 as (Sa & Sb & Sc & _); apply (inv_shape _ g0); [exact I0|exact Sa|exact Sb|exact Sc]).
  pose proof Mk as Mk0. rewrite (make_eq (sized (hist a))) in Mk by auto. cbn zeta in Mk. destruct (get (tally (sides (sized (hist a))) (faces g1) [0]) 1) as [v1|] eqn:G1; cbn [bind] in Mk; [|discriminate].
  destruct (guard (v1 =? 0)); cbn [bind] in Mk; [|discriminate]. injection Mk as Mg Ma. assert (pvector g = tally (sides (sized (hist a))) (faces g1) [0]) as Pg by (rewrite <- Mg; reflexivity).
  assert (vertices g = vertices g1) as Vg by (rewrite <- Mg; reflexivity).
  rewrite Sn, F6, F7. split; [rewrite Pg; lia|]. split; [rewrite Pg; unfold get in G1; cbn in G1; destruct (tally _ _ _) as [|? [|? ?]]; try discriminate; unfold zlen; cbn; lia|].
  assert (forall k, faces_with (sized (hist a)) k = faces_with (hist a) k) as Fw by (intros k; unfold faces_with, sides; rewrite Z1, Z2; reflexivity).
  split; [intros k Hk; rewrite PV by lia; apply Fw|].
  intros B3 N3. destruct (C43_vertices a (sized (hist a)) g0 (sized_typed a) E) as [_ V]; [|rewrite Z2; exact B3|rewrite Z1; exact N3|].
  - intros e He. rewrite Z2 in He. rewrite Z1. now apply hist_paired.
  - destruct (V g _ C0) as (V1 & V2 & _). split; [exact V2|]. intros v. rewrite V1. unfold corner. rewrite Z2. reflexivity.
Qed.

Lemma nth_map_range {Y} (f : Z -> Y) a b k y : (k < Z.to_nat (b - a))%nat -> nth k (map f (zrange a b)) y = f (a + Z.of_nat k).
Proof.
  intros H. unfold zrange. rewrite map_map. rewrite (nth_indep _ y (f (a + Z.of_nat 0))) by (rewrite map_length, seq_length; lia).
  rewrite (map_nth (fun x => f (a + Z.of_nat x)) (seq 0 (Z.to_nat (b - a))) 0%nat). now rewrite seq_nth by lia.
Qed.
Lemma fields_range {Y} (f : Z -> Y) (pv : list Z) p : 2 <= zlen pv <= p ->
  map f (skipn 2 pv) ++ map (fun _ => f 0) (zrange (zlen pv) p) = map (fun k => f (nth (Z.to_nat k) pv 0)) (zrange 2 p).
Proof.
  intros [L P]. assert (forall a b, length (zrange a b) = Z.to_nat (b - a)) as Lr by (intros; unfold zrange; now rewrite map_length, seq_length). apply nth_ext with (d := f 0) (d' := f 0).
  - rewrite app_length, !map_length, skipn_length, !Lr. unfold zlen in *. lia.
  - intros k Hk. rewrite app_length, !map_length, skipn_length, !Lr in Hk. unfold zlen in *.
    rewrite (nth_map_range (fun k => f (nth (Z.to_nat k) pv 0))) by lia. destruct (Nat.lt_ge_cases k (length pv - 2)) as [K|K].
    + rewrite app_nth1 by (rewrite map_length, skipn_length; lia). rewrite map_nth. f_equal. rewrite <- (firstn_skipn 2 pv) at 2. rewrite app_nth2; rewrite firstn_length; [f_equal; lia|lia].
    + rewrite app_nth2 by (rewrite map_length, skipn_length; lia). rewrite map_length, skipn_length. rewrite nth_map_range by lia. now rewrite (nth_overflow pv) by lia.
Qed.
Lemma faces_having_eq h fs es : Permutation fs (neighbours h) -> Permutation es (boundaries h) -> forall k, faces_having fs es k = faces_with h k.
Proof.
  intros P1 P2 k. unfold faces_having, faces_with. assert (forall f, zlen (filter (fun e => existsb (Z.eqb f) e) es) = sides h f) as S.
  { intros f. unfold sides. transitivity (zlen (filter (fun e => existsb (Z.eqb f) e) (boundaries h))).
    - apply perm_zlen. now apply perm_filter.
    - f_equal. apply filter_ext. intros e. destruct (in_dec Z.eq_dec f e) as [I|I].
      + apply existsb_exists. exists f. split; [exact I|]. apply Z.eqb_refl.
      + destruct (existsb (Z.eqb f) e) eqn:K; [|reflexivity]. exfalso. apply I. apply existsb_exists in K as (y & Hy & K). apply Z.eqb_eq in K. now subst. }
  rewrite (filter_ext _ (fun f => sides h f =? k)) by (intros f; now rewrite S). apply perm_zlen. now apply perm_filter.
Qed.
Lemma map_opt_total {X Y} (f : X -> option Y) (g : X -> Y) l r : (forall x y, f x = Some y -> y = g x) -> map_opt f l = Some r -> r = map g l.
Proof. intros H. revert r. induction l as [|x l IH]; intros r; cbn; [intros E; now injection E as <-|]. destruct (f x) eqn:E1; cbn; [|discriminate]. destruct (map_opt f l); cbn; [|discriminate]. intros E. injection E as <-. f_equal; auto. Qed.
Lemma centre_eq p n a g' x : analysed p n (a, g') -> mass (hist a) <> 0%Qc -> centre g' = Some x -> x = map (fun k => truncZ (first_moment k (hist a) / mass (hist a))%Qc) [0%nat; 1%nat; 2%nat].
Proof.
  intros An N0 C. destruct (analysed_facts p n a g' An) as (_ & _ & _ & _ & _ & _ & _ & Gc). unfold centre in C. rewrite (Gc N0) in C. cbn [bind] in C.
  apply map_opt_total with (g := truncZ) in C; [rewrite C; reflexivity|]. intros q z. cbv zeta. destruct (_ && _); cbn; [|discriminate]. intros E. now injection E as <-.
Qed.
Lemma big_nonzero q : qgt 1%Qc q = false -> q <> 0%Qc.
Proof. intros E Z0. subst. vm_compute in E. discriminate. Qed.

Lemma space_line p n a g' rows : analysed p n (a, g') -> excluded g' = false -> print_csv axs g' p n = Some rows ->
  rows = if (num_verts g' <? 2) || (num_edges g' <? 3) || (num_faces g' <? 3) then [] else [space_row F xs a (faces g') (map fst (edges g')) (vertices g') p n].
Proof.
  intros An X E. destruct (analysed_facts p n a g' An) as (I & M & V & Ex & NE & NF & Nn & Gc). rewrite X in Ex. symmetry in Ex. apply orb_false_elim in Ex as [B0 Sm]. apply Z.eqb_neq in B0.
  assert (boundaries (hist a) <> []) as Bne by (intros K; apply B0; rewrite K; reflexivity). destruct (analysed_pvector p n a g' An Bne) as (P1 & P2 & P3 & _).
  unfold print_csv in E. rewrite dim_ls, D3 in E. change (3 =? 2) with false in E. cbv iota zeta in E. rewrite X in E. cbn [andb] in E.
  destruct (_ || _); [now injection E as <-|]. destruct (centre g') as [x|] eqn:C; cbn [bind] in E; [|discriminate]. destruct (1 <? zlen (pvector g')); cbn [guard bind] in E; [|discriminate]. injection E as <-. f_equal.
  pose proof (big_nonzero _ Sm) as N0. apply (centre_eq p n a g' x An N0) in C. unfold space_row. rewrite M, V. subst x. unfold num_verts, num_faces, num_edges, get_euler. rewrite BaseL.zlen_map, <- hist_total. f_equal. f_equal.
  - cbn [map firstn]. rewrite !hist_moment by (rewrite D3; cbn; lia). reflexivity.
  - cbn [app]. do 5 (apply f_equal). rewrite app_assoc, (fields_range num_of (pvector g') p) by lia. f_equal. apply map_ext_in. intros k Hk. apply in_zrange in Hk. rewrite P3 by lia. f_equal.
    symmetry. destruct (sized_same (hist a)) as (Z1 & Z2 & _). apply faces_having_eq; [rewrite <- Z1|rewrite <- Z2]; [now apply faces_perm|now apply edges_perm].
Qed.

Definition lists (it : Z * grain) : bool := negb (excluded (snd it)) && negb ((num_verts (snd it) <? 2) || (num_edges (snd it) <? 3) || (num_faces (snd it) <? 3)).
Lemma space_bulk p n m' r : Forall (analysed p n) m' -> map_opt (fun it => if excluded (snd it) then Some [] else print_csv axs (snd it) p n) m' = Some r ->
  concat r = map (fun it => space_row F xs (fst it) (faces (snd it)) (map fst (edges (snd it))) (vertices (snd it)) p n) (filter lists m').
Proof.
  intros An. revert r. induction An as [|[a g'] m' H An IH]; intros r E; cbn [map_opt] in E; [injection E as <-; reflexivity|]. cbn [snd] in E.
  destruct (if excluded g' then Some [] else print_csv axs g' p n) as [rows|] eqn:E1; cbn [bind] in E; [|discriminate].
  destruct (map_opt _ m') as [r'|]; cbn [bind] in E; [|discriminate]. injection E as <-. cbn [concat filter]. rewrite (IH r' eq_refl). unfold lists at 2. cbn [snd].
  destruct (excluded g') eqn:X; cbn [negb andb]; [injection E1 as <-; reflexivity|]. rewrite (space_line p n a g' rows H X E1). destruct (_ || _); reflexivity.
Qed.
Lemma sorted_filtered (f : Z * grain -> bool) m : StronglySorted Z.lt (map fst m) -> StronglySorted Z.lt (map fst (filter f m)).
Proof.
  induction m as [|it m IH]; cbn [map filter]; [auto|]. intros S. apply StronglySorted_inv in S as [S1 S2]. destruct (f it); [|auto]. cbn [map]. constructor; [auto|].
  rewrite Forall_forall in *. intros k Hk. apply S2. apply in_map_iff in Hk as (it' & <- & Hk). apply filter_In in Hk as [Hk _]. now apply in_map.
Qed.
Lemma space_rest p n m' r row : Forall (analysed p n) m' ->
  map_opt (fun it => if excluded (snd it) then do g <- estimate_centroid (dimension axs) (snd it); print_csv axs g p n else Some []) m' = Some r ->
  In row (concat r) -> zlen row = zlen (titles p n).
Proof.
  intros An E I. apply (in_table _ _ _ _ E) in I as ([a g'] & rows & Hm & Er & I). cbn [snd] in Er. rewrite Forall_forall in An. specialize (An _ Hm). destruct (excluded g') eqn:X; [|injection Er as <-; destruct I].
  destruct (estimate_centroid (dimension axs) g') as [g1|] eqn:Es; cbn [bind] in Er; [|discriminate]. destruct (analysed_facts p n a g' An) as (Iv & _ & _ & _ & NE & NF & Nn & _).
  destruct (estimate_ok (dimension axs) g' _ Iv) as (g2 & Es' & E1 & E2 & E3 & E4). rewrite Es in Es'. injection Es' as <-. destruct (estimate_pvector _ _ _ Es) as (Pv & _ & Xe).
  destruct (boundaries (hist a)) as [|e es] eqn:B.
  - rewrite (no_edges_faces a B) in NF. unfold print_csv in Er. rewrite dim_ls, D3 in Er. change (3 =? 2) with false in Er. cbv iota zeta in Er.
    unfold num_faces, num_edges in *. rewrite E1, E2, NE, NF in Er. cbn in Er. rewrite andb_false_r, orb_true_r in Er. injection Er as <-. destruct I.
  - apply (row3_len axs g1 p n rows row); auto; [now rewrite dim_ls| |unfold num_faces in *; now rewrite E1]. rewrite Pv. apply (analysed_pvector p n a g' An). rewrite B. discriminate.
Qed.
Lemma edges_unique es es' a : edges_of ls G A a es -> edges_of ls G A a es' -> Permutation es es'.
Proof. intros [N E] [N' E']. apply NoDup_Permutation; auto. intros e. now rewrite E, E'. Qed.
Lemma faces_unique fs fs' a : faces_of ls G A a fs -> faces_of ls G A a fs' -> fs = fs'.
Proof. intros [N E] [N' E']. apply sorted_same; auto. intros e. now rewrite E, E'. Qed.
Lemma faces_having_perm fs es es' k : Permutation es es' -> faces_having fs es k = faces_having fs es' k.
Proof. intros P. unfold faces_having. f_equal. apply filter_ext. intros f. now rewrite (perm_zlen _ _ (perm_filter (fun e => existsb (Z.eqb f) e) _ _ P)). Qed.

(* the lines of excluded grains *)
Lemma edges_faces a : boundaries (hist a) <> [] -> neighbours (hist a) <> [].
Proof. intros B N. destruct (boundaries (hist a)) as [|e es] eqn:E; [easy|]. destruct (hist_paired a D3 e) as (b & c & _ & _ & I & _); [rewrite E; now left|]. rewrite N in I. destruct I. Qed.
Lemma space_rest_line p n a g' rows : analysed p n (a, g') -> excluded g' = true ->
  ((do g <- estimate_centroid (dimension axs) g'; print_csv axs g p n) = Some rows <->
   if zlen (faces g') =? 0 then rows = [] else
     amount F xs a <> 0%Qc /\ Forall (fun k => fits (estimated (edge_nodes 3 G A xs a) k)) [0%nat; 1%nat; 2%nat] /\ rows = [space_rest_row F xs a (faces g') (edge_nodes 3 G A xs a) p n]).
Proof.
  intros An X. destruct (analysed_facts p n a g' An) as (Iv & M & V & _ & NE & NF & Nn & Gc0). destruct (estimate_ok (dimension axs) g' _ Iv) as (g1 & Es & E1 & E2 & E3 & E4). rewrite Es. cbn [bind].
  destruct (estimate_pvector _ _ _ Es) as (Pv & Me & Xe). unfold print_csv. rewrite dim_ls, D3. change (3 =? 2) with false. cbv iota zeta. rewrite Xe, X. cbn [andb]. assert (num_faces g1 = num_faces g') as Nf by (unfold num_faces; now rewrite E1). rewrite Nf, E1.
  destruct (Z.eqb_spec (zlen (faces g')) 0) as [Z0|Z0].
  - fold (num_faces g') in Z0. rewrite Z0. change (0 <? 0) with false. cbv iota. change (0 <? 3) with true. rewrite orb_true_r. split; [intros E; now injection E as <-|intros ->; reflexivity].
  - fold (num_faces g') in Z0. assert (0 < num_faces g') as L by (unfold num_faces, zlen in *; lia). replace (0 <? num_faces g') with true by (symmetry; now apply Z.ltb_lt). cbv iota.
    assert (boundaries (hist a) <> []) as B by (intros K; rewrite (no_edges_faces a K) in NF; change (zlen (@nil Z)) with 0 in NF; lia).
    destruct (analysed_pvector p n a g' An B) as (_ & P2 & _). rewrite Pv. replace (1 <? zlen (pvector g')) with true by (symmetry; now apply Z.ltb_lt). cbn [guard bind].
    destruct (Qc_eq_dec (amount F xs a) 0) as [A0|A0].
    + split; [|intros [K _]; contradiction]. unfold centre, get_centroid. rewrite E3, V, hist_total, A0. unfold recip. destruct (Qc_eq_dec 0 0); [discriminate|congruence].
    + assert (mass (hist a) <> 0%Qc) as N0 by (rewrite hist_total; exact A0). destruct (analysed_estimate p n a g' An B (fun _ => edges_faces a B) N0) as (g2 & Es' & Gc). rewrite dim_ls in Es. rewrite Es in Es'. injection Es' as <-.
      rewrite D3 in Gc. change (Z.to_nat 3) with 3%nat in Gc. cbn [map Nat.ltb Nat.leb] in Gc. pose proof (fun x => centre_iff g1 _ x Gc) as Ci. split.
      * intros E. destruct (centre g1) as [x|] eqn:C; cbn [bind] in E; [|discriminate]. destruct (proj1 (Ci x) eq_refl) as [Ff Ex]. injection E as <-. split; [exact A0|]. split.
        { inversion_clear Ff as [|? ? K0 Ff']. inversion_clear Ff' as [|? ? K1 Ff]. inversion_clear Ff as [|? ? K2 _]. do 3 (constructor; [assumption|]). constructor. }
        f_equal. subst x. unfold space_rest_row. rewrite Me, M, E3, V, hist_total. reflexivity.
      * intros (_ & Ff & ->). inversion_clear Ff as [|? ? K0 Ff']. inversion_clear Ff' as [|? ? K1 Ff]. inversion_clear Ff as [|? ? K2 _].
        match type of Gc with _ = Some ?c => assert (centre g1 = Some (map truncZ c)) as -> by (apply Ci; split; [do 3 (constructor; [assumption|]); constructor|reflexivity]) end. cbn [bind]. f_equal. f_equal. unfold space_rest_row. rewrite Me, M, E3, V, hist_total. reflexivity.
Qed.

Lemma faces_neighbours a fs : faces_of ls G A a fs -> Permutation fs (neighbours (hist a)).
Proof.
  intros [S M]. apply NoDup_Permutation; [now apply sorted_nodup|apply NoDup_nodup|]. intros b. rewrite M, (history_faces ls F G A Hd xs Hxs), D3. replace (3 - 1) with 2 by lia. tauto.
Qed.
Lemma edges_boundaries a es : edges_of ls G A a es -> Permutation es (boundaries (hist a)).
Proof. intros [N M]. apply NoDup_Permutation; [exact N|apply NoDup_nodup|]. intros e. rewrite M, (history_edges ls F G A Hd xs Hxs). reflexivity. Qed.
Lemma corners_exist es : exists vs, corners_of es vs.
Proof.
  set (isin := fun e : list Z => if in_dec (list_eq_dec Z.eq_dec) e es then true else false). assert (forall e, isin e = true <-> In e es) as Is by (intros e; unfold isin; destruct (in_dec _ e es); split; auto; discriminate).
  exists (nodup (list_eq_dec Z.eq_dec) (filter (fun v => match v with [a; b; c] => (a <? b) && (b <? c) && isin [a; b] && isin [a; c] && isin [b; c] | _ => false end) (flat_map (fun e => map (fun c => e ++ [c]) (concat es)) es))).
  split; [apply NoDup_nodup|]. intros v. rewrite nodup_In, filter_In, in_flat_map. split.
  - intros [_ K]. destruct v as [|a [|b [|c [|? ?]]]]; try discriminate. repeat (apply andb_prop in K as [K ?]). rewrite !Is in *. rewrite !Z.ltb_lt in *. exists a, b, c. repeat split; auto; lia.
  - intros (a & b & c & -> & L & I1 & I2 & I3). split.
    + exists [a; b]. split; [exact I1|]. apply in_map_iff. exists c. split; [reflexivity|]. apply in_concat. exists [a; c]. split; [exact I2|cbn; auto].
    + rewrite !andb_true_iff, !Is, !Z.ltb_lt. repeat split; auto; lia.
Qed.
Definition analysed_corners (a : Z) (g' : grain) : Prop := NoDup (vertices g') /\ forall v, In v (vertices g') <-> corner (hist a) v.
Lemma corners_zlen a es vs g' : analysed_corners a g' -> edges_of ls G A a es -> corners_of es vs -> zlen vs = num_verts g'.
Proof.
  intros [V1 V2] Ee [C1 C2]. apply perm_zlen. apply NoDup_Permutation; auto. intros v. rewrite C2, V2. unfold corner. pose proof (edges_boundaries a es Ee) as P.
  assert (forall e, In e es <-> In e (boundaries (hist a))) as Q by (intros e; split; apply Permutation_in; [exact P|now symmetry]). setoid_rewrite Q. reflexivity.
Qed.
Lemma compute_space a g0 : grain_after a (sized (hist a)) = Some g0 -> ((exists r, compute_topology 3 g0 = Some r) <-> faces_with (hist a) 1 = 0).
Proof.
  intros E. pose proof (after_inv _ _ _ (sized_typed a) E) as I0. destruct (sized_same (hist a)) as (Z1 & Z2 & _).
  assert (faces_with (sized (hist a)) 1 = faces_with (hist a) 1) as Fw by (unfold faces_with, sides; rewrite Z1, Z2; reflexivity).
  assert (paired (sized (hist a))) as Pa by (intros e He; rewrite Z2 in He; rewrite Z1; now apply hist_paired). split.
  - intros ([g st] & C). destruct (boundaries (hist a)) as [|e es] eqn:B; [unfold faces_with; rewrite (no_edges_faces a B); reflexivity|].
    destruct (C43_pvector a _ g0 g st (sized_typed a) E) as (_ & _ & _ & _ & _ & K); [rewrite Z2; discriminate|exact C|]. now rewrite <- Fw.
  - intros K. rewrite compute_split. set (g1 := set_checks g0 true (vert_check g0)). assert (inv (sized (hist a)) g1) as I1 by (apply (inv_shape _ g0); auto).
    assert (exists r, infer_vertices 3 g1 = Some r) as ([g2 a1] & Ei).
    { destruct (Z.lt_ge_cases (num_edges g1) 3) as [L|L]; [|destruct (Z.lt_ge_cases (num_faces g1) 3) as [L'|L']].
      - unfold infer_vertices. change (3 =? 2) with false. cbv iota zeta. change (num_edges (set_checks g1 _ true)) with (num_edges g1). replace (num_edges g1 <? 3) with true by (symmetry; now apply Z.ltb_lt). eauto.
      - unfold infer_vertices. change (3 =? 2) with false. cbv iota zeta. change (num_edges (set_checks g1 _ true)) with (num_edges g1). change (num_faces (set_checks g1 _ true)) with (num_faces g1).
        replace (num_edges g1 <? 3) with false by (symmetry; now apply Z.ltb_ge). replace (num_faces g1 <? 3) with true by (symmetry; now apply Z.ltb_lt). eauto.
      - destruct (infer_ok g1 L L') as (g2 & Ei & _); [|eauto]. intros e He. rewrite (i_edges_in _ _ I1) in He. destruct (Pa e He) as (b & c & -> & Lt & _). exists b, c, []. split; [reflexivity|lia]. }
    rewrite Ei. cbn [bind]. pose proof (infer_shape _ _ _ _ Ei) as (S1 & VC & FC & _). assert (inv (sized (hist a)) g2) as I2 by (destruct S1 as (Sa & Sb & Sc & _); apply (inv_shape _ g1); auto).
    assert (exists r, make_pvector 3 g2 = Some r) as ([g3 a2] & Em); [|rewrite Em; cbn [bind]; eauto].
    destruct (boundaries (hist a)) as [|e es] eqn:B.
    + unfold make_pvector. rewrite FC. change (face_check g1) with true. cbn [bind]. rewrite VC. cbn [bind]. change (3 =? 2) with false. cbv iota zeta. rewrite (num_edges_eq _ _ I2), Z2. cbn. eauto.
    + apply (make_success (sized (hist a))); auto; [rewrite Z2; discriminate|now rewrite Fw].
Qed.
Lemma space_line_iff p n a g' : analysed p n (a, g') -> excluded g' = false ->
  ((exists rows, print_csv axs g' p n = Some rows) <-> (2 <= num_verts g' -> 3 <= num_edges g' -> 3 <= num_faces g' -> Forall (fun k => fits (mean F xs a k)) [0%nat; 1%nat; 2%nat])).
Proof.
  intros An X. destruct (analysed_facts p n a g' An) as (I & M & V & Ex & NE & NF & Nn & Gc). rewrite X in Ex. symmetry in Ex. apply orb_false_elim in Ex as [B0 Sm]. apply Z.eqb_neq in B0.
  assert (boundaries (hist a) <> []) as Bne by (intros K; apply B0; rewrite K; reflexivity). destruct (analysed_pvector p n a g' An Bne) as (P1 & P2 & P3 & _).
  unfold print_csv. rewrite dim_ls, D3. change (3 =? 2) with false. cbv iota zeta. rewrite X. cbn [andb]. replace (1 <? zlen (pvector g')) with true by (symmetry; now apply Z.ltb_lt). cbn [guard bind].
  specialize (Gc (big_nonzero _ Sm)). cbn [map] in Gc. rewrite !hist_moment, hist_total in Gc by (rewrite D3; cbn; lia). pose proof (fun x => centre_iff g' _ x Gc) as Ci.
  destruct ((num_verts g' <? 2) || (num_edges g' <? 3) || (num_faces g' <? 3)) eqn:T.
  - split; [|eauto]. intros _ L1 L2 L3. rewrite !orb_true_iff, !Z.ltb_lt in T. lia.
  - rewrite !orb_false_iff, !Z.ltb_ge in T. destruct T as [[T1 T2] T3]. split.
    + intros (rows & E) _ _ _. destruct (centre g') as [x|] eqn:C; cbn [bind] in E; [|discriminate]. destruct (proj1 (Ci x) eq_refl) as [Ff _].
      inversion_clear Ff as [|? ? K0 Ff']. inversion_clear Ff' as [|? ? K1 Ff]. inversion_clear Ff as [|? ? K2 _]. do 3 (constructor; [assumption|]). constructor.
    + intros H. specialize (H T1 T2 T3). inversion_clear H as [|? ? K0 Ff']. inversion_clear Ff' as [|? ? K1 Ff]. inversion_clear Ff as [|? ? K2 _].
      match type of Gc with _ = Some ?c => assert (centre g' = Some (map truncZ c)) as -> by (apply Ci; split; [do 3 (constructor; [assumption|]); constructor|reflexivity]) end. cbn [bind]. eauto.
Qed.
Lemma sized_in m it : state ls F G A xs m -> In it (exclude_small m) -> (exists x, In x xs /\ stored F (fst it) x) /\ grain_after (fst it) (sized (hist (fst it))) = Some (snd it).
Proof.
  intros St I. unfold exclude_small in I. apply in_map_iff in I as ([a g] & <- & I). cbn [fst snd]. apply (grain_iff ls F G A Hd HM xs Hxs m a g St) in I as [I Ga]. split; [exact I|].
  now destruct (small_after a g Ga) as (_ & _ & _ & K).
Qed.
Lemma sides_around a es : edges_of ls G A a es -> forall f, edges_around es f = sides (hist a) f.
Proof.
  intros Ee f. unfold edges_around, sides. rewrite (perm_zlen _ _ (perm_filter (fun e => existsb (Z.eqb f) e) _ _ (edges_boundaries a es Ee))). f_equal. apply filter_ext. intros e. destruct (in_dec Z.eq_dec f e) as [I|I].
  - apply existsb_exists. exists f. split; [exact I|]. apply Z.eqb_refl.
  - destruct (existsb (Z.eqb f) e) eqn:K; [|reflexivity]. exfalso. apply I. apply existsb_exists in K as (y & Hy & K). apply Z.eqb_eq in K. now subst.
Qed.
(* the numbers the widths are the maxima of *)
Lemma compute_stats a g0 g st : grain_after a (sized (hist a)) = Some g0 -> compute_topology 3 g0 = Some (g, st) ->
  nth 3 st 0 = zlen (neighbours (hist a)) /\ forall p, 0 <= p -> (nth 2 st 0 <= p <-> forall f, In f (neighbours (hist a)) -> sides (hist a) f + 1 <= p).
Proof.
  intros E C. pose proof (after_inv _ _ _ (sized_typed a) E) as I0. destruct (sized_same (hist a)) as (Z1 & Z2 & _). pose proof (compute_shape _ _ _ _ C) as (S1 & _).
  rewrite compute_split in C. destruct (infer_vertices 3 (set_checks g0 true (vert_check g0))) as [[g1 a1]|] eqn:Iv; cbn [bind] in C; [|discriminate].
  pose proof (infer_shape _ _ _ _ Iv) as (S2 & VC & FC & _). assert (inv (sized (hist a)) g1) as I1 by (destruct S2 as (Sa & Sb & Sc & _); apply (inv_shape _ g0); auto).
  destruct (make_pvector 3 g1) as [[g2 a2]|] eqn:Mk; cbn [bind] in C; [|discriminate]. injection C as Cg Cs. subst g2 st. cbn [nth].
  split; [unfold num_faces; rewrite S1; fold (num_faces g0); rewrite (num_faces_eq _ _ I0), Z1; reflexivity|]. intros p Hp. destruct (boundaries (hist a)) as [|e es] eqn:B.
  - rewrite (no_edges_faces a B). split; [intros _ f []|]. intros _. unfold make_pvector in Mk. rewrite FC in Mk. cbn [bind set_checks face_check] in Mk. rewrite VC in Mk. cbn [bind] in Mk. change (3 =? 2) with false in Mk. cbv iota zeta in Mk.
    rewrite (num_edges_eq _ _ I1), Z2 in Mk. cbn in Mk. injection Mk as _ <-. exact Hp.
  - assert (boundaries (sized (hist a)) <> []) as Bn by (rewrite Z2; discriminate). destruct (make_spec (sized (hist a)) g1 g a2 I1 FC VC Bn Mk) as (Pv & -> & _). rewrite Pv.
    assert (forall f, sides (sized (hist a)) f = sides (hist a) f) as Sd by (intros f; unfold sides; rewrite Z2, B; reflexivity). rewrite (tally_ext _ _ _ _ Sd).
    assert (forall n, n <= zlen (tally (sides (hist a)) (faces g1) [0]) <-> n <= 1 \/ exists f, In f (neighbours (hist a)) /\ n <= sides (hist a) f + 1) as Tl.
    { intros n. rewrite tally_len by (intros; apply sides_nonneg). change (zlen [0]) with 1. setoid_rewrite (i_faces_in _ _ I1). rewrite Z1. reflexivity. }
    assert (neighbours (hist a) <> []) as Nn by (apply edges_faces; rewrite B; discriminate). split.
    + intros L f Hf. specialize (Tl (sides (hist a) f + 1)). assert (sides (hist a) f + 1 <= zlen (tally (sides (hist a)) (faces g1) [0])) by (apply Tl; right; exists f; split; [exact Hf|lia]). lia.
    + intros H. destruct (proj1 (Tl _) (Z.le_refl _)) as [K|(f & Hf & K)]; [|specialize (H f Hf); lia]. destruct (neighbours (hist a)) as [|f l]; [contradiction|]. specialize (H f (or_introl eq_refl)). pose proof (sides_nonneg (hist a) f). lia.
Qed.
Lemma widths_ok m m' p n : state ls F G A xs m -> analyse axs (exclude_small m) = Some (m', p, n) -> space_widths ls F G A xs p n.
Proof.
  intros St An. pose proof An as An'. apply analyse_ok in An' as (P & N & PB & NB & Fl). rewrite dim_ls, D3 in *. split; [exact P|]. split; [exact N|]. split; [|split].
  - intros a fs es Sto Ff Ee. destruct (history_typed ls F G A Hd HM xs Hxs a) as [_ Pl]. pose proof (made_after a _ Pl) as Ga. assert (In (a, made a (hist a)) m) as Im by (apply (grain_iff ls F G A Hd HM xs Hxs m a _ St); auto).
    assert (exists it, In it (exclude_small m) /\ fst it = a) as ([a' g0] & Ie & Ea) by (unfold exclude_small; eexists; split; [apply in_map; exact Im|reflexivity]). cbn in Ea. subst a'.
    destruct (sized_in m _ St Ie) as [_ Gs]. cbn [fst snd] in Gs. assert (exists g a1 a2, compute_topology 3 g0 = Some (g, [0; a1; a2; num_faces g]) /\ a2 <= p /\ num_faces g <= n) as (g & a1 & a2 & C & L1 & L2).
    { clear -Fl Ie. induction Fl as [|it it' l l' H Fl IH]; [destruct Ie|]. destruct Ie as [->|Ie]; [|auto]. destruct H as (_ & g & a1 & a2 & C & _ & L1 & L2). exists g, a1, a2. auto. }
    destruct (compute_stats a g0 g _ Gs C) as [S3 S2]. cbn [nth] in S3, S2. split; [rewrite (perm_zlen _ _ (faces_neighbours a fs Ff)); lia|].
    apply Forall_forall. intros f Hf. rewrite (sides_around a es Ee). apply (proj1 (S2 p P) L1). now apply (Permutation_in _ (faces_neighbours a fs Ff)).
  - intros B HB H. apply NB; [exact HB|]. intros it g st Ie C. destruct (sized_in m it St Ie) as [Sto Gs]. destruct (compute_stats _ _ g st Gs C) as [-> _].
    pose proof (after_inv _ _ _ (sized_typed (fst it)) Gs) as I0. destruct (sized_same (hist (fst it))) as (Z1 & _). specialize (H _ _ Sto (faces_of_hist (fst it) (snd it) _ I0 Z1)). rewrite <- Z1, <- (num_faces_eq _ _ I0). exact H.
  - intros B HB H. apply PB; [exact HB|]. intros it g st Ie C. destruct (sized_in m it St Ie) as [Sto Gs]. destruct (compute_stats _ _ g st Gs C) as [_ S2]. apply S2; [exact HB|].
    pose proof (after_inv _ _ _ (sized_typed (fst it)) Gs) as I0. destruct (sized_same (hist (fst it))) as (Z1 & Z2 & _). pose proof (faces_of_hist (fst it) (snd it) _ I0 Z1) as Ff. pose proof (edges_of_hist (fst it) (snd it) _ I0 Z2) as Ee.
    specialize (H _ _ _ Sto Ff Ee). rewrite Forall_forall in H. intros f Hf. rewrite <- (sides_around (fst it) _ Ee). apply H. now apply (Permutation_in _ (Permutation_sym (faces_neighbours _ _ Ff))).
Qed.

Definition rest_lists (it : Z * grain) : bool := excluded (snd it) && negb (zlen (faces (snd it)) =? 0).
Lemma space_rest_rows p n m' r : Forall (analysed p n) m' -> map_opt (fun it => if excluded (snd it) then do g <- estimate_centroid (dimension axs) (snd it); print_csv axs g p n else Some []) m' = Some r ->
  concat r = map (fun it => space_rest_row F xs (fst it) (faces (snd it)) (edge_nodes 3 G A xs (fst it)) p n) (filter rest_lists m').
Proof.
  intros An. revert r. induction An as [|[a g'] m' H An IH]; intros r E; cbn [map_opt] in E; [injection E as <-; reflexivity|]. cbn [snd] in E.
  match type of E with bind ?x _ = _ => destruct x as [rows|] eqn:E1; cbn [bind] in E; [|discriminate] end.
  destruct (map_opt _ m') as [r'|]; cbn [bind] in E; [|discriminate]. injection E as <-. cbn [concat filter]. rewrite (IH r' eq_refl). unfold rest_lists at 2. cbn [snd].
  destruct (excluded g') eqn:X; cbn [andb]; [|injection E1 as <-; reflexivity]. apply (space_rest_line p n a g' rows H X) in E1. destruct (zlen (faces g') =? 0); cbn [negb]; [subst rows; reflexivity|]. destruct E1 as (_ & _ & ->). reflexivity.
Qed.

Theorem space_table hd bulk rest s : mmsp2topo axs data = Some (hd, bulk, rest, s) -> exists P N, hd = titles P N /\ space_widths ls F G A xs P N /\
  (forall row, In row (bulk ++ rest) -> zlen row = zlen hd) /\
  (forall row, In row bulk <-> exists a fs es vs, (exists x, In x xs /\ stored F a x) /\ faces_of ls G A a fs /\ edges_of ls G A a es /\ corners_of es vs /\
     (1 <= amount F xs a)%Qc /\ 2 <= zlen vs /\ 3 <= zlen es /\ 3 <= zlen fs /\ row = space_row F xs a fs es vs P N) /\
  (forall row, In row rest <-> exists a fs, (exists x, In x xs /\ stored F a x) /\ faces_of ls G A a fs /\ fs <> [] /\ (amount F xs a < 1)%Qc /\
     row = space_rest_row F xs a fs (edge_nodes 3 G A xs a) P N) /\
  (exists ids, StronglySorted Z.lt ids /\ map (fun row => nth 0 row Blank) bulk = map num_of ids) /\
  exists ids, StronglySorted Z.lt ids /\ map (fun row => nth 0 row Blank) rest = map num_of ids.
Proof.
  intros E. apply run_stages in E as (m & m' & p & n & St & Ana & -> & T & _). destruct (analysed_all m m' p n St Ana) as (P0 & N0 & _ & Mf & An). exists p, n. split; [reflexivity|]. split; [now apply (widths_ok m m')|].
  unfold table in T. destruct (map_opt (fun it => if excluded (snd it) then Some [] else print_csv axs (snd it) p n) m') as [b|] eqn:Eb; cbn [bind] in T; [|discriminate].
  destruct (map_opt (fun it => if excluded (snd it) then do g <- estimate_centroid (dimension axs) (snd it); print_csv axs g p n else Some []) m') as [r|] eqn:Er; cbn [bind] in T; [|discriminate]. injection T as <- <-.
  pose proof (space_bulk p n m' b An Eb) as Bu. pose proof (space_rest_rows p n m' r An Er) as Re. pose proof (state_sorted ls F G A xs m St) as So. pose proof (ids_stored m m' St Mf) as Ids. split; [|split; [|split; [|split]]].
  - intros row I. apply in_app_iff in I as [I|I]; [|now apply (space_rest p n m' r row An Er)]. apply (in_table _ _ _ _ Eb) in I as ([a g'] & rows & Hm & E1 & I). cbn [snd] in E1.
    rewrite Forall_forall in An. specialize (An _ Hm). destruct (excluded g') eqn:X; [injection E1 as <-; destruct I|]. destruct (analysed_facts p n a g' An) as (Iv & _ & _ & Ex & NE & NF & Nn & _).
    apply (row3_len axs g' p n rows row); auto; [now rewrite dim_ls|apply Iv|]. apply (analysed_pvector p n a g' An). intros B. rewrite X, B in Ex. discriminate.
  - intros row. rewrite Bu, in_map_iff. split.
    + intros ([a g'] & <- & Hk). apply filter_In in Hk as [Hm Hk]. rewrite Forall_forall in An. specialize (An _ Hm). unfold lists in Hk. cbn [fst snd] in *. apply andb_prop in Hk as [X Hk]. apply negb_true_iff in X. apply negb_true_iff in Hk.
      apply orb_false_elim in Hk as [Hk H3]. apply orb_false_elim in Hk as [H1 H2]. rewrite Z.ltb_ge in *. destruct (analysed_facts p n a g' An) as (Iv & _ & _ & Ex & NE & NF & Nn & _). destruct (sized_same (hist a)) as (Z1 & Z2 & _).
      rewrite X in Ex. symmetry in Ex. apply orb_false_elim in Ex as [B0 Sm]. assert (boundaries (hist a) <> []) as Bne by (intros K; rewrite K in B0; discriminate).
      destruct (analysed_pvector p n a g' An Bne) as (_ & _ & _ & Vs). destruct Vs as [V1 V2]; [lia|lia|]. exists a, (faces g'), (map fst (edges g')), (vertices g'). split.
      { assert (In a (map fst m)) as Ia by (rewrite <- Mf; apply (in_map fst) in Hm; exact Hm). apply in_map_iff in Ia as ([a' g0] & Ea & Ia). cbn in Ea. subst a'.
        apply (grain_iff ls F G A Hd HM xs Hxs m a g0 St) in Ia as [Ia _]. exact Ia. }
      split; [now apply (faces_of_hist a g' (sized (hist a)))|]. split; [now apply (edges_of_hist a g' (sized (hist a)))|]. split.
      { split; [exact V1|]. intros v. rewrite V2. unfold corner. setoid_rewrite (i_edges_in _ _ Iv). rewrite Z2. reflexivity. }
      split; [rewrite <- hist_total; now apply qgt_false|]. unfold num_verts, num_edges, num_faces in *. rewrite BaseL.zlen_map. auto.
    + intros (a & fs & es & vs & St' & Ff & Ee & Cc & Am & L1 & L2 & L3 & ->).
      assert (In a (map fst m')) as Ia. { rewrite Mf. destruct (history_typed ls F G A Hd HM xs Hxs a) as [_ Pl]. apply in_map_iff. exists (a, made a (hist a)). split; [reflexivity|].
        apply (grain_iff ls F G A Hd HM xs Hxs m a _ St). split; [exact St'|]. now apply made_after. }
      apply in_map_iff in Ia as ([a' g'] & Ea & Hm). cbn in Ea. subst a'. pose proof An as An'. rewrite Forall_forall in An'. specialize (An' _ Hm).
      destruct (analysed_facts p n a g' An') as (Iv & _ & _ & Ex & NE & NF & Nn & _). destruct (sized_same (hist a)) as (Z1 & Z2 & _).
      assert (fs = faces g') as -> by (apply (faces_unique fs _ a Ff); now apply (faces_of_hist a g' (sized (hist a)))).
      assert (Permutation es (map fst (edges g'))) as Pe by (apply (edges_unique es _ a Ee); now apply (edges_of_hist a g' (sized (hist a)))).
      pose proof (perm_zlen _ _ Pe) as Le. rewrite BaseL.zlen_map in Le. unfold num_edges in NE. unfold num_faces in NF.
      assert (boundaries (hist a) <> []) as Bne by (intros K; rewrite K in NE; unfold zlen in *; cbn [length] in *; lia). destruct (analysed_pvector p n a g' An' Bne) as (_ & _ & _ & Vs). destruct Vs as [V1 V2]; [lia|lia|].
      assert (Permutation vs (vertices g')) as Pv. { destruct Cc as [C1 C2]. apply NoDup_Permutation; auto. intros v. rewrite C2, V2. unfold corner. rewrite <- Z2. setoid_rewrite <- (i_edges_in _ _ Iv).
        assert (forall e, In e es <-> In e (map fst (edges g'))) as Q by (intros e; split; apply Permutation_in; [exact Pe|now symmetry]). setoid_rewrite Q. reflexivity. }
      pose proof (perm_zlen _ _ Pv) as Lv. exists (a, g'). split.
      * cbn [fst snd]. unfold space_row. rewrite Lv, Le, BaseL.zlen_map. f_equal. f_equal. f_equal. f_equal. apply map_ext. intros k. f_equal. symmetry. now apply faces_having_perm.
      * apply filter_In. split; [exact Hm|]. unfold lists. cbn [snd]. rewrite Ex. replace (zlen (boundaries (hist a)) =? 0) with false by (symmetry; apply Z.eqb_neq; lia).
        rewrite hist_total. replace (qgt 1 (amount F xs a)) with false by (symmetry; now apply qgt_false). cbn [orb negb andb]. apply negb_true_iff. unfold num_verts, num_edges, num_faces. apply orb_false_intro; [apply orb_false_intro|]; apply Z.ltb_ge; lia.
  - intros row. rewrite Re, in_map_iff. split.
    + intros ([a g'] & <- & Hk). apply filter_In in Hk as [Hm Hk]. rewrite Forall_forall in An. specialize (An _ Hm). unfold rest_lists in Hk. cbn [fst snd] in *. apply andb_prop in Hk as [X Nf]. apply negb_true_iff, Z.eqb_neq in Nf.
      destruct (analysed_facts p n a g' An) as (Iv & _ & _ & Ex & NE & NF & _). destruct (sized_same (hist a)) as (Z1 & _). exists a, (faces g'). split; [apply Ids; apply (in_map fst) in Hm; exact Hm|].
      split; [now apply (faces_of_hist a g' (sized (hist a)))|]. split; [intros K; apply Nf; rewrite K; reflexivity|]. split; [|reflexivity]. rewrite X in Ex. symmetry in Ex. apply orb_prop in Ex as [Ex|Ex].
      * apply Z.eqb_eq, zlen_zero, no_edges_faces in Ex. unfold num_faces in NF. rewrite Ex in NF. contradiction.
      * rewrite <- hist_total. now apply qgt_true.
    + intros (a & fs & Sto & Ff & Nf & Am & ->). apply Ids in Sto. apply in_map_iff in Sto as ([a' g'] & Ea & Hm). cbn in Ea. subst a'. pose proof An as An'. rewrite Forall_forall in An'. specialize (An' _ Hm).
      destruct (analysed_facts p n a g' An') as (Iv & _ & _ & Ex & _). destruct (sized_same (hist a)) as (Z1 & _). assert (fs = faces g') as -> by (apply (faces_unique fs _ a Ff); now apply (faces_of_hist a g' (sized (hist a)))).
      exists (a, g'). split; [reflexivity|]. apply filter_In. split; [exact Hm|]. unfold rest_lists. cbn [snd]. rewrite Ex, hist_total, (proj2 (qgt_true _ _) Am), orb_true_r. cbn [andb]. apply negb_true_iff, Z.eqb_neq. intros K. now apply zlen_zero in K.
  - exists (map fst (filter lists m')). split; [apply sorted_filtered; rewrite Mf; now apply (state_sorted ls F G A xs)|]. rewrite Bu, !map_map. apply map_ext. reflexivity.
  - exists (map fst (filter rest_lists m')). split; [apply sorted_filtered; now rewrite Mf|]. rewrite Re, !map_map. apply map_ext. reflexivity.
Qed.
(* when there is a table at all *)
Theorem space_runs : (exists r, mmsp2topo axs data = Some r) <-> space_analysable ls F G A xs.
Proof.
  split.
  - intros ([[[hd bulk] rest] s] & E). apply run_stages in E as (m & m' & p & n & St & Ana & -> & T & _). destruct (analysed_all m m' p n St Ana) as (P0 & N0 & _ & Mf & An). pose proof (ids_stored m m' St Mf) as Ids.
    unfold table in T. destruct (map_opt (fun it => if excluded (snd it) then Some [] else print_csv axs (snd it) p n) m') as [b|] eqn:Eb; cbn [bind] in T; [|discriminate].
    destruct (map_opt (fun it => if excluded (snd it) then do g <- estimate_centroid (dimension axs) (snd it); print_csv axs g p n else Some []) m') as [r|] eqn:Er; cbn [bind] in T; [|discriminate].
    intros a fs es vs Sto Ff Ee Cc. apply Ids in Sto. apply in_map_iff in Sto as ([a' g'] & Ea & Hm). cbn in Ea. subst a'. rewrite Forall_forall in An. specialize (An _ Hm).
    destruct (analysed_facts p n a g' An) as (Iv & _ & _ & Ex & NE & NF & _). destruct (sized_same (hist a)) as (Z1 & Z2 & _). rewrite hist_total in Ex.
    pose proof (perm_zlen _ _ (faces_neighbours a fs Ff)) as Lf. pose proof (perm_zlen _ _ (edges_boundaries a es Ee)) as Le. split; [|split].
    + rewrite (faces_having_eq (hist a) fs es (faces_neighbours a fs Ff) (edges_boundaries a es Ee)). destruct An as (g0 & g & st & Ga & _ & _ & C & _). cbn [fst] in Ga. rewrite D3 in C. apply (compute_space a g0 Ga). eauto.
    + intros Am L1 L2 L3. assert (excluded g' = false) as X. { rewrite Ex. apply orb_false_intro; [apply Z.eqb_neq; lia|now apply qgt_false]. }
      destruct (table_some _ _ _ _ Eb Hm) as (rows & Hr). cbn [snd] in Hr. rewrite X in Hr. apply (proj1 (space_line_iff p n a g' An X) (ex_intro _ rows Hr)); [|lia|lia].
      assert (boundaries (hist a) <> []) as Bne by (intros K; rewrite K in Le; change (zlen (@nil (list Z))) with 0 in Le; lia). destruct (analysed_pvector p n a g' An Bne) as (_ & _ & _ & Vs). rewrite <- (corners_zlen a es vs g' (Vs ltac:(lia) ltac:(lia)) Ee Cc). exact L1.
    + intros Am Nf. assert (excluded g' = true) as X by (rewrite Ex, (proj2 (qgt_true _ _) Am); apply orb_true_r).
      destruct (table_some _ _ _ _ Er Hm) as (rows & Hr). cbn [snd] in Hr. rewrite X in Hr. apply (space_rest_line p n a g' rows An X) in Hr. assert (fs = faces g') as -> by (apply (faces_unique fs _ a Ff); now apply (faces_of_hist a g' (sized (hist a)))).
      destruct (Z.eqb_spec (zlen (faces g')) 0) as [K|K]; [apply zlen_zero in K; contradiction|]. tauto.
  - intros Ok. destruct (scan_ok ls data F G A Hd Hl HM HG xs Hxs ltac:(lia)) as (m & Es & St).
    assert (forall it, In it (exclude_small m) -> exists r, compute_topology d (snd it) = Some r) as Cp.
    { intros it Ie. destruct (sized_in m it St Ie) as [Sto Gs]. pose proof (after_inv _ _ _ (sized_typed (fst it)) Gs) as I0. destruct (sized_same (hist (fst it))) as (Z1 & Z2 & _).
      pose proof (faces_of_hist (fst it) (snd it) _ I0 Z1) as Ff. pose proof (edges_of_hist (fst it) (snd it) _ I0 Z2) as Ee. destruct (corners_exist (map fst (edges (snd it)))) as (vs & Cc). destruct (Ok _ _ _ _ Sto Ff Ee Cc) as (H1 & _).
      rewrite D3. apply (compute_space _ _ Gs). rewrite <- (faces_having_eq _ _ _ (faces_neighbours _ _ Ff) (edges_boundaries _ _ Ee)). exact H1. }
    destruct (proj2 (analyse_iff (exclude_small m)) Cp) as ([[m' p] n] & Ana). destruct (analysed_all m m' p n St Ana) as (P0 & N0 & _ & Mf & An). pose proof (ids_stored m m' St Mf) as Ids.
    unfold mmsp2topo. rewrite Es. cbn [bind]. rewrite Ana. cbn [bind].
    assert (forall a g', In (a, g') m' -> analysed p n (a, g') /\ faces_of ls G A a (faces g') /\ edges_of ls G A a (map fst (edges g')) /\ (exists x, In x xs /\ stored F a x)) as Each.
    { intros a g' Hm. rewrite Forall_forall in An. specialize (An _ Hm). destruct (analysed_facts p n a g' An) as (Iv & _). destruct (sized_same (hist a)) as (Z1 & Z2 & _).
      split; [exact An|]. split; [now apply (faces_of_hist a g' (sized (hist a)))|]. split; [now apply (edges_of_hist a g' (sized (hist a)))|]. apply Ids. apply (in_map fst) in Hm. exact Hm. }
    destruct (proj2 (map_opt_iff (fun it => if excluded (snd it) then Some [] else print_csv axs (snd it) p n) m')) as (b & Eb).
    { intros [a g'] Hm. cbn [snd]. destruct (excluded g') eqn:X; [eauto|]. destruct (Each a g' Hm) as (An' & Ff & Ee & Sto). destruct (analysed_facts p n a g' An') as (_ & _ & _ & Ex & NE & NF & _).
      apply (space_line_iff p n a g' An' X). intros L1 L2 L3. destruct (corners_exist (map fst (edges g'))) as (vs & Cc). destruct (Ok _ _ _ _ Sto Ff Ee Cc) as (_ & H2 & _).
      rewrite X in Ex. symmetry in Ex. apply orb_false_elim in Ex as [B0 Sm]. assert (boundaries (hist a) <> []) as Bne by (intros K; rewrite K in B0; discriminate). destruct (analysed_pvector p n a g' An' Bne) as (_ & _ & _ & Vs).
      apply H2; [rewrite <- hist_total; now apply qgt_false|rewrite (corners_zlen a _ vs g' (Vs ltac:(lia) ltac:(lia)) Ee Cc); exact L1|rewrite BaseL.zlen_map; exact L2|exact L3]. }
    destruct (proj2 (map_opt_iff (fun it => if excluded (snd it) then do g <- estimate_centroid (dimension axs) (snd it); print_csv axs g p n else Some []) m')) as (r & Er).
    { intros [a g'] Hm. cbn [snd]. destruct (excluded g') eqn:X; [|eauto]. destruct (Each a g' Hm) as (An' & Ff & Ee & Sto). destruct (analysed_facts p n a g' An') as (_ & _ & _ & Ex & NE & NF & _).
      destruct (corners_exist (map fst (edges g'))) as (vs & Cc). destruct (Ok _ _ _ _ Sto Ff Ee Cc) as (_ & _ & H3).
      pose proof (fun rows => proj2 (space_rest_line p n a g' rows An' X)) as Rl. destruct (Z.eqb_spec (zlen (faces g')) 0) as [K|K]; [exists []; now apply Rl|]. destruct H3 as [H3 H4].
      - rewrite X in Ex. symmetry in Ex. apply orb_prop in Ex as [Ex|Ex]; [|rewrite <- hist_total; now apply qgt_true]. exfalso. apply Z.eqb_eq, zlen_zero, no_edges_faces in Ex. unfold num_faces in NF. rewrite Ex in NF. contradiction.
      - intros Q. apply K. rewrite Q. reflexivity.
      - eexists. apply Rl. split; [exact H3|]. split; [exact H4|]. reflexivity. }
    unfold table. rewrite Eb. cbn [bind]. rewrite Er. cbn [bind]. eauto.
Qed.
End Space.

Section Plane.
Context (D2 : d = 2).
Lemma no_faces a : neighbours (hist a) = [].
Proof. destruct (neighbours (hist a)) as [|b l] eqn:E; [reflexivity|]. exfalso. assert (In b (neighbours (hist a))) as H by (rewrite E; now left). apply (history_faces ls F G A Hd xs Hxs) in H as [H _]. lia. Qed.
Lemma plane_facts p n a g' : analysed p n (a, g') -> pvector g' = [0; 0; zlen (boundaries (hist a))] /\ 3 <= p /\ NoDup (vertices g') /\ (forall v, In v (vertices g') <-> In v (reported (hist a))).
Proof.
  intros (g0 & g & st & E & M & X & C & Sn & P2 & N2). cbn [fst snd] in *. rewrite D2 in C. destruct (sized_same (hist a)) as (Z1 & Z2 & _ & _ & Z5 & _).
  destruct (flagged_shape g) as (_ & _ & _ & _ & _ & F6 & F7 & _). destruct (compute2_stats _ _ _ C) as [K _]. cbn [nth] in K.
  assert (Forall (fun a => match a with ATopology dim => dim = 2 | _ => True end) (sized (hist a))) as Po; [|destruct (C43_plane a (sized (hist a)) g0 g _ (sized_typed a) Po E C) as (V1 & V2 & V3 & V4 & _)].
  - unfold sized. apply Forall_app. split; [|destruct (qgt _ _); repeat constructor]. destruct (history_typed ls F G A Hd HM xs Hxs a) as [_ P]. eapply Forall_impl; [|exact P]. intros []; cbn; tauto.
  - rewrite Sn, F6, F7, V1, Z2. split; [reflexivity|]. split; [lia|]. split; [exact V3|]. now rewrite Z5 in V4.
Qed.
Lemma plane_edges_single a e : In e (boundaries (hist a)) -> exists b, e = [b].
Proof. intros H. apply (history_edges ls F G A Hd xs Hxs) in H as (x & _ & _ & L & ->). apply one_elem. lia. Qed.
Definition heads (l : list (list Z * list (list Z))) : list Z := map (fun e => hd 0 (fst e)) l.
Lemma heads_ok (l : list (list Z * list (list Z))) : (forall e, In e (map fst l) -> exists b, e = [b]) -> map_opt (fun e => get (fst e) 0) l = Some (heads l).
Proof.
  induction l as [|e l IH]; intros H; cbn [map_opt heads map]; [reflexivity|]. destruct (H (fst e) (or_introl eq_refl)) as (b & Eb). rewrite Eb. rewrite IH by (intros e' I; apply H; now right). reflexivity.
Qed.
Lemma heads_sorted (l : list (list Z * list (list Z))) : inc lexlt (map fst l) -> (forall e, In e (map fst l) -> exists b, e = [b]) -> StronglySorted Z.lt (heads l).
Proof.
  induction l as [|e l IH]; intros I H; cbn [heads map]; [constructor|]. apply StronglySorted_inv in I as [I1 I2]. constructor; [apply IH; auto; intros e' I'; apply H; now right|].
  rewrite Forall_forall in *. intros b Hb. apply in_map_iff in Hb as (e' & <- & He). assert (In (fst e') (map fst l)) as Hf by now apply in_map. specialize (I2 _ Hf). destruct (H (fst e) (or_introl eq_refl)) as (b1 & E1). destruct (H (fst e') (or_intror Hf)) as (b2 & E2).
  rewrite E1, E2 in *. cbn in *. destruct (Z.ltb_spec b1 b2); [lia|]. destruct (b2 <? b1); discriminate.
Qed.
Lemma plane_edges a g h : inv h g -> boundaries h = boundaries (hist a) -> edges_of ls G A a (map fst (edges g)) /\ faces_of ls G A a (heads (edges g)) /\ map_opt (fun e => get (fst e) 0) (edges g) = Some (heads (edges g)).
Proof.
  intros I E. assert (forall e, In e (map fst (edges g)) -> exists b, e = [b]) as H1 by (intros e He; apply (i_edges_in _ _ I) in He; rewrite E in He; now apply (plane_edges_single a)).
  assert (edges_of ls G A a (map fst (edges g))) as Ee. { split; [apply (inc_nodup _ order_lex), I|]. intros e. rewrite (i_edges_in _ _ I), E. apply (history_edges ls F G A Hd xs Hxs). }
  split; [exact Ee|]. split; [|now apply heads_ok]. split; [apply heads_sorted; [apply I|exact H1]|]. destruct Ee as [_ Ee]. intros b. unfold heads. rewrite in_map_iff. split.
  - intros (e & <- & He). assert (In (fst e) (map fst (edges g))) as Hf by now apply in_map. destruct (H1 _ Hf) as (c & Ec). apply Ee in Hf as (x & B & Gx & L & Ex). exists x. repeat split; auto. rewrite <- Ex, Ec. now left.
  - intros (x & B & Gx & L & Ib). assert (In (A x) (map fst (edges g))) as Hf by (apply Ee; exists x; auto). apply in_map_iff in Hf as (e & Ex & He). exists e. split; [|exact He]. rewrite Ex. rewrite D2 in L. destruct (one_elem (A x) L) as (c & Ec). rewrite Ec in *. destruct Ib as [->|[]]. reflexivity.
Qed.
Lemma plane_line n a g' rows : analysed 3 n (a, g') -> n = 0 -> excluded g' = false -> print_csv axs g' 3 n = Some rows ->
  rows = if (num_verts g' <? 1) || (num_edges g' <? 2) then [] else [plane_row F xs a (heads (edges g')) (map fst (edges g')) (vertices g')].
Proof.
  intros An Hn X E. destruct (analysed_facts 3 n a g' An) as (I & M & V & Ex & NE & NF & Nn & Gc). rewrite X in Ex. symmetry in Ex. apply orb_false_elim in Ex as [B0 Sm].
  destruct (plane_facts 3 n a g' An) as (Pv & _). rewrite no_faces in NF. destruct (sized_same (hist a)) as (_ & Z2 & _). destruct (plane_edges a g' _ I Z2) as (_ & _ & Eh).
  unfold print_csv in E. rewrite dim_ls, D2 in E. change (2 =? 2) with true in E. cbv iota zeta in E. rewrite X in E.
  destruct (_ || _); [now injection E as <-|]. destruct (centre g') as [x|] eqn:C; cbn [bind] in E; [|discriminate]. destruct (1 <? zlen (pvector g')); cbn [guard bind] in E; [|discriminate]. rewrite Eh in E. cbn [bind] in E. injection E as <-. f_equal.
  pose proof (big_nonzero _ Sm) as N0. apply (centre_eq 3 n a g' x An N0) in C. unfold plane_row. rewrite M, V, Pv. subst x n. change (num_faces g' = 0) in NF. unfold get_euler. unfold num_faces in NF. unfold num_verts, num_faces, num_edges. rewrite BaseL.zlen_map, <- hist_total. f_equal. f_equal.
  - cbn [map firstn]. rewrite !hist_moment by (rewrite D2; cbn; lia). reflexivity.
  - rewrite NF. unfold num_edges in NE. cbn [skipn map app]. rewrite <- NE. replace (zlen (vertices g') + 0 - zlen (edges g')) with (zlen (vertices g') - zlen (edges g')) by lia. do 7 (apply f_equal).
    change (zrange (zlen [0; 0; zlen (edges g')]) 3) with (@nil Z). cbn [map app]. replace (zrange (zlen (edges g')) 0) with (@nil Z); [apply app_nil_r|]. unfold zrange. replace (Z.to_nat (0 - zlen (edges g'))) with 0%nat by (unfold zlen; lia). reflexivity.
Qed.
Definition plane_lists (it : Z * grain) : bool := negb (excluded (snd it)) && negb ((num_verts (snd it) <? 1) || (num_edges (snd it) <? 2)).
Lemma plane_bulk m' r : Forall (analysed 3 0) m' -> map_opt (fun it => if excluded (snd it) then Some [] else print_csv axs (snd it) 3 0) m' = Some r ->
  concat r = map (fun it => plane_row F xs (fst it) (heads (edges (snd it))) (map fst (edges (snd it))) (vertices (snd it))) (filter plane_lists m').
Proof.
  intros An. revert r. induction An as [|[a g'] m' H An IH]; intros r E; cbn [map_opt] in E; [injection E as <-; reflexivity|]. cbn [snd] in E.
  destruct (if excluded g' then Some [] else print_csv axs g' 3 0) as [rows|] eqn:E1; cbn [bind] in E; [|discriminate].
  destruct (map_opt _ m') as [r'|]; cbn [bind] in E; [|discriminate]. injection E as <-. cbn [concat filter]. rewrite (IH r' eq_refl). unfold plane_lists at 2. cbn [snd].
  destruct (excluded g') eqn:X; cbn [negb andb]; [injection E1 as <-; reflexivity|]. rewrite (plane_line 0 a g' rows H eq_refl X E1). destruct (_ || _); reflexivity.
Qed.
Theorem plane_table hd bulk rest s : xs <> [] -> mmsp2topo axs data = Some (hd, bulk, rest, s) -> hd = titles 3 0 /\
  (forall row, In row bulk <-> exists a fs es vs, (exists x, In x xs /\ stored F a x) /\ faces_of ls G A a fs /\ edges_of ls G A a es /\ plane_corners_of ls A a vs /\
     (1 <= amount F xs a)%Qc /\ 1 <= zlen vs /\ 2 <= zlen es /\ row = plane_row F xs a fs es vs) /\
  (forall row, In row rest -> exists a es, edges_of ls G A a es /\ nth 0 row Blank = num_of a /\ zlen row = zlen hd - 1 + zlen es) /\
  exists ids, StronglySorted Z.lt ids /\ map (fun row => nth 0 row Blank) bulk = map num_of ids.
Proof.
  intros Ne E. apply run_parts in E as (m & m' & p & n & St & -> & T & P0 & N0 & PN & Mf & An & _). destruct (PN D2) as [P3 N3]. assert (n = 0) as -> by lia. clear PN N0 N3.
  assert (forall a, In a (map fst m') <-> exists x, In x xs /\ stored F a x) as Ids.
  { intros a. rewrite Mf. split.
    - intros Ia. apply in_map_iff in Ia as ([a' g0] & Ea & Ia). cbn in Ea. subst a'. apply (grain_iff ls F G A Hd HM xs Hxs m a g0 St) in Ia as [Ia _]. exact Ia.
    - intros St'. destruct (history_typed ls F G A Hd HM xs Hxs a) as [_ Pl]. apply in_map_iff. exists (a, made a (hist a)). split; [reflexivity|].
      apply (grain_iff ls F G A Hd HM xs Hxs m a _ St). split; [exact St'|]. now apply made_after. }
  assert (p = 3) as ->.
  { assert (exists x0, In x0 xs) as (x0 & I0) by (destruct xs as [|x0 l0]; [congruence|exists x0; now left]). pose proof (proj1 (box_xs ls Hd xs Hxs x0) I0) as B0.
    destruct (HM _ B0) as ((_ & _ & Ec) & _). apply Exists_exists in Ec as ([a v] & Ia & _). assert (In a (map fst m')) as Im by (apply Ids; exists x0; split; [exact I0|unfold stored; apply (in_map fst) in Ia; exact Ia]).
    apply in_map_iff in Im as ([a' g'] & _ & Hit). rewrite Forall_forall in An. specialize (An _ Hit). apply plane_facts in An as (_ & P & _). lia. }
  split; [reflexivity|]. unfold table in T. destruct (map_opt (fun it => if excluded (snd it) then Some [] else print_csv axs (snd it) 3 0) m') as [b|] eqn:Eb; cbn [bind] in T; [|discriminate].
  destruct (map_opt (fun it => if excluded (snd it) then do g <- estimate_centroid (dimension axs) (snd it); print_csv axs g 3 0 else Some []) m') as [r|] eqn:Er; cbn [bind] in T; [|discriminate]. injection T as <- <-.
  pose proof (plane_bulk m' b An Eb) as Bu. split; [|split].
  - intros row. rewrite Bu, in_map_iff. split.
    + intros ([a g'] & <- & Hk). apply filter_In in Hk as [Hm Hk]. rewrite Forall_forall in An. specialize (An _ Hm). unfold plane_lists in Hk. cbn [fst snd] in *. apply andb_prop in Hk as [X Hk]. apply negb_true_iff in X. apply negb_true_iff in Hk.
      apply orb_false_elim in Hk as [H1 H2]. rewrite Z.ltb_ge in *. destruct (analysed_facts 3 0 a g' An) as (Iv & _ & _ & Ex & NE & NF & Nn & _). destruct (sized_same (hist a)) as (Z1 & Z2 & _).
      rewrite X in Ex. symmetry in Ex. apply orb_false_elim in Ex as [B0 Sm]. destruct (plane_facts 3 0 a g' An) as (_ & _ & V1 & V2). destruct (plane_edges a g' _ Iv Z2) as (Ee & Ff & _).
      exists a, (heads (edges g')), (map fst (edges g')), (vertices g'). split; [apply Ids; apply (in_map fst) in Hm; exact Hm|]. split; [exact Ff|]. split; [exact Ee|]. split.
      { split; [exact V1|]. intros v. rewrite V2, (history_vertices ls F G A Hd xs Hxs). tauto. }
      split; [rewrite <- hist_total; now apply qgt_false|]. unfold num_verts, num_edges, num_faces in *. rewrite BaseL.zlen_map. auto.
    + intros (a & fs & es & vs & St' & Ff & Ee & Cc & Am & L1 & L2 & ->). apply Ids in St'. apply in_map_iff in St' as ([a' g'] & Ea & Hm). cbn in Ea. subst a'. pose proof An as An'. rewrite Forall_forall in An'. specialize (An' _ Hm).
      destruct (analysed_facts 3 0 a g' An') as (Iv & _ & _ & Ex & NE & NF & Nn & _). destruct (sized_same (hist a)) as (Z1 & Z2 & _). destruct (plane_edges a g' _ Iv Z2) as (Ee' & Ff' & _). destruct (plane_facts 3 0 a g' An') as (_ & _ & V1 & V2).
      assert (fs = heads (edges g')) as -> by (destruct Ff as [N1 E1], Ff' as [N1' E1']; apply sorted_same; auto; intros e; now rewrite E1, E1').
      assert (Permutation es (map fst (edges g'))) as Pe by (destruct Ee as [N1 E1], Ee' as [N1' E1']; apply NoDup_Permutation; auto; intros e; now rewrite E1, E1').
      pose proof (perm_zlen _ _ Pe) as Le. rewrite BaseL.zlen_map in Le. unfold num_edges in NE.
      assert (Permutation vs (vertices g')) as Pv. { destruct Cc as [C1 C2]. apply NoDup_Permutation; auto. intros v. rewrite C2, V2, (history_vertices ls F G A Hd xs Hxs). tauto. }
      pose proof (perm_zlen _ _ Pv) as Lv. exists (a, g'). split.
      * cbn [fst snd]. unfold plane_row. rewrite Lv, Le, BaseL.zlen_map. reflexivity.
      * apply filter_In. split; [exact Hm|]. unfold plane_lists. cbn [snd]. rewrite Ex. replace (zlen (boundaries (hist a)) =? 0) with false by (symmetry; apply Z.eqb_neq; lia).
        rewrite hist_total. replace (qgt 1 (amount F xs a)) with false by (symmetry; now apply qgt_false). cbn [orb negb andb]. apply negb_true_iff. unfold num_verts, num_edges, num_faces. apply orb_false_intro; apply Z.ltb_ge; lia.
  - intros row I. apply (in_table _ _ _ _ Er) in I as ([a g'] & rows & Hm & E1 & I). cbn [snd] in E1. rewrite Forall_forall in An. specialize (An _ Hm). destruct (excluded g') eqn:X; [|injection E1 as <-; destruct I].
    destruct (estimate_centroid (dimension axs) g') as [g1|] eqn:Es; cbn [bind] in E1; [|discriminate]. destruct (analysed_facts 3 0 a g' An) as (Iv & M & _ & _ & NE & NF & Nn & _). destruct (sized_same (hist a)) as (Z1 & Z2 & _).
    destruct (estimate_ok (dimension axs) g' _ Iv) as (g2 & Es' & Q1 & Q2 & Q3 & Q4). rewrite Es in Es'. injection Es' as <-. destruct (estimate_pvector _ _ _ Es) as (Pv & Me & Xe). destruct (plane_edges a g' _ Iv Z2) as (Ee & _ & _). destruct (plane_facts 3 0 a g' An) as (Pv' & _).
    exists a, (map fst (edges g')). split; [exact Ee|]. destruct (row2_len axs g1 3 0 rows row) as [L _]; auto; [now rewrite dim_ls|rewrite Pv, Pv'; reflexivity|]. split.
    + unfold print_csv in E1. rewrite dim_ls, D2 in E1. change (2 =? 2) with true in E1. cbv iota zeta in E1. rewrite Xe, X in E1. destruct (centre g1); cbn [bind] in E1; [|discriminate]. destruct (guard _); cbn [bind] in E1; [|discriminate].
      destruct (map_opt _ (edges g1)); cbn [bind] in E1; [|discriminate]. injection E1 as <-. destruct I as [<-|[]]. cbn [nth]. congruence.
    + rewrite Xe, X in L. unfold num_edges in L. rewrite Q2 in L. rewrite BaseL.zlen_map. lia.
  - exists (map fst (filter plane_lists m')). split; [apply sorted_filtered; rewrite Mf; now apply (state_sorted ls F G A xs)|]. rewrite Bu, !map_map. apply map_ext. reflexivity.
Qed.
Lemma fits_0 : fits 0%Qc.
Proof. unfold fits. change (truncZ 0%Qc) with 0. lia. Qed.
Lemma flat_moment a : first_moment 2 (hist a) = 0%Qc.
Proof.
  rewrite (proj2 (history_mass ls F G A xs a) 2%nat). rewrite (map_ext_in _ (fun _ => 0%Qc)).
  - generalize xs. intros l. induction l as [|x l IH]; [reflexivity|]. cbn [map]. change (sumQ (0%Qc :: ?l)) with (0 + sumQ l)%Qc. rewrite IH. ring.
  - intros x Hx. apply (box_xs ls Hd xs Hxs) in Hx. apply local_len in Hx. unfold zlen in D2. assert (length x = 2%nat) as L by lia. destruct x as [|x0 [|x1 [|x2 x]]]; try discriminate. cbn [spatial map nth]. change (q_of 0) with 0%Qc. ring.
Qed.
Lemma compute_plane g : exists r, compute_topology 2 g = Some r.
Proof.
  rewrite compute_split. set (g1 := set_checks g true (vert_check g)). assert (exists r, infer_vertices 2 g1 = Some r) as ([g2 a1] & Ei) by (unfold infer_vertices; change (2 =? 2) with true; cbv iota zeta; destruct (_ <? 2); eauto).
  rewrite Ei. cbn [bind]. pose proof (infer_shape _ _ _ _ Ei) as (_ & VC & FC & _). unfold make_pvector. rewrite FC. change (face_check g1) with true. cbn [bind]. rewrite VC. cbn [bind]. change (2 =? 2) with true. cbv iota zeta. cbn [bind]. eauto.
Qed.
Lemma plane_line_iff a g' : analysed 3 0 (a, g') -> excluded g' = false ->
  ((exists rows, print_csv axs g' 3 0 = Some rows) <-> (1 <= num_verts g' -> 2 <= num_edges g' -> Forall (fun k => fits (mean F xs a k)) [0%nat; 1%nat])).
Proof.
  intros An X. destruct (analysed_facts 3 0 a g' An) as (I & M & V & Ex & NE & NF & Nn & Gc). rewrite X in Ex. symmetry in Ex. apply orb_false_elim in Ex as [B0 Sm].
  destruct (plane_facts 3 0 a g' An) as (Pv & _). destruct (sized_same (hist a)) as (_ & Z2 & _). destruct (plane_edges a g' _ I Z2) as (_ & _ & Eh).
  unfold print_csv. rewrite dim_ls, D2. change (2 =? 2) with true. cbv iota zeta. rewrite X, Pv, Eh. change (1 <? zlen [0; 0; zlen (boundaries (hist a))]) with true. cbn [guard bind].
  specialize (Gc (big_nonzero _ Sm)). cbn [map] in Gc. rewrite flat_moment in Gc. rewrite !hist_moment, hist_total in Gc by (rewrite D2; cbn; lia). replace (0 / amount F xs a)%Qc with 0%Qc in Gc by (unfold Qcdiv; ring). pose proof (fun x => centre_iff g' _ x Gc) as Ci.
  destruct ((num_verts g' <? 1) || (num_edges g' <? 2)) eqn:T.
  - split; [|eauto]. intros _ L1 L2. rewrite !orb_true_iff, !Z.ltb_lt in T. lia.
  - rewrite !orb_false_iff, !Z.ltb_ge in T. destruct T as [T1 T2]. split.
    + intros (rows & E) _ _. destruct (centre g') as [x|] eqn:C; cbn [bind] in E; [|discriminate]. destruct (proj1 (Ci x) eq_refl) as [Ff _].
      inversion_clear Ff as [|? ? K0 Ff']. inversion_clear Ff' as [|? ? K1 _]. do 2 (constructor; [assumption|]). constructor.
    + intros H. specialize (H T1 T2). inversion_clear H as [|? ? K0 Ff']. inversion_clear Ff' as [|? ? K1 Ff].
      match type of Gc with _ = Some ?c => assert (centre g' = Some (map truncZ c)) as -> by (apply Ci; split; [do 2 (constructor; [assumption|]); constructor; [exact fits_0|constructor]|reflexivity]) end. cbn [bind]. eauto.
Qed.
Lemma heads_nil (l : list (list Z * list (list Z))) : heads l = [] <-> l = [].
Proof. destruct l; cbn; split; auto; discriminate. Qed.
Lemma plane_rest_line a g' rows : analysed 3 0 (a, g') -> excluded g' = true ->
  ((do g <- estimate_centroid (dimension axs) g'; print_csv axs g 3 0) = Some rows <->
   amount F xs a <> 0%Qc /\ Forall (fun k => fits (match heads (edges g') with [] => mean F xs a k | _ => estimated (edge_nodes 2 G A xs a) k end)) [0%nat; 1%nat] /\
   rows = [plane_rest_row F xs a (heads (edges g')) (edge_nodes 2 G A xs a)]).
Proof.
  intros An X. destruct (analysed_facts 3 0 a g' An) as (Iv & M & V & _ & NE & NF & Nn & Gc0). destruct (estimate_ok (dimension axs) g' _ Iv) as (g1 & Es & E1 & E2 & E3 & E4). rewrite Es. cbn [bind].
  destruct (estimate_pvector _ _ _ Es) as (Pv & Me & Xe). destruct (plane_facts 3 0 a g' An) as (Pv' & _). destruct (sized_same (hist a)) as (_ & Z2 & _). destruct (plane_edges a g' _ Iv Z2) as (_ & _ & Eh).
  unfold print_csv. rewrite dim_ls, D2. change (2 =? 2) with true. cbv iota zeta. rewrite Xe, X, Pv, Pv', E2, Eh. change (1 <? zlen [0; 0; zlen (boundaries (hist a))]) with true. cbn [guard bind].
  assert (num_edges g1 = num_edges g') as Ne by (unfold num_edges; now rewrite E2). rewrite Ne.
  assert (zrange (num_edges g') 0 = []) as -> by (unfold zrange; replace (Z.to_nat (0 - num_edges g')) with 0%nat by (unfold num_edges, zlen; lia); reflexivity). cbn [map]. rewrite app_nil_r.
  destruct (Qc_eq_dec (amount F xs a) 0) as [A0|A0].
  - split; [|intros [K _]; contradiction]. unfold centre, get_centroid. rewrite E3, V, hist_total, A0. unfold recip. destruct (Qc_eq_dec 0 0); [discriminate|congruence].
  - assert (mass (hist a) <> 0%Qc) as N0 by (rewrite hist_total; exact A0).
    assert (get_centroid g1 = Some [match heads (edges g') with [] => mean F xs a 0 | _ => estimated (edge_nodes 2 G A xs a) 0 end; match heads (edges g') with [] => mean F xs a 1 | _ => estimated (edge_nodes 2 G A xs a) 1 end; 0%Qc]) as Gc.
    { destruct (heads (edges g')) as [|h0 hs] eqn:H.
      - apply heads_nil in H. assert (g1 = g') as ->. { unfold estimate_centroid in Es. replace (num_edges g' =? 0) with true in Es by (unfold num_edges; rewrite H; reflexivity). now injection Es as <-. }
        rewrite (Gc0 N0). cbn [map]. rewrite flat_moment. rewrite !hist_moment, hist_total by (rewrite D2; cbn; lia). replace (0 / amount F xs a)%Qc with 0%Qc by (unfold Qcdiv; ring). reflexivity.
      - assert (boundaries (hist a) <> []) as B. { intros K. rewrite K in NE. apply zlen_zero in NE. rewrite NE in H. discriminate. }
        destruct (analysed_estimate 3 0 a g' An B ltac:(lia) N0) as (g2 & Es' & Gc). rewrite dim_ls in Es. rewrite Es in Es'. injection Es' as <-. rewrite Gc, D2. change (Z.to_nat 2) with 2%nat. reflexivity. }
    pose proof (fun x => centre_iff g1 _ x Gc) as Ci. split.
    + intros E. destruct (centre g1) as [x|] eqn:C; cbn [bind] in E; [|discriminate]. destruct (proj1 (Ci x) eq_refl) as [Ff Ex]. injection E as <-. split; [exact A0|]. split.
      { inversion_clear Ff as [|? ? K0 Ff']. inversion_clear Ff' as [|? ? K1 _]. do 2 (constructor; [assumption|]). constructor. }
      f_equal. subst x. unfold plane_rest_row. rewrite Me, M, E3, V, hist_total. reflexivity.
    + intros (_ & Ff & ->). inversion_clear Ff as [|? ? K0 Ff']. inversion_clear Ff' as [|? ? K1 _].
      match type of Gc with _ = Some ?c => assert (centre g1 = Some (map truncZ c)) as -> by (apply Ci; split; [do 2 (constructor; [assumption|]); constructor; [exact fits_0|constructor]|reflexivity]) end. cbn [bind]. f_equal. f_equal. unfold plane_rest_row. rewrite Me, M, E3, V, hist_total. reflexivity.
Qed.
Lemma plane_each p n m m' a g' : state ls F G A xs m -> analyse axs (exclude_small m) = Some (m', p, n) -> In (a, g') m' ->
  p = 3 /\ n = 0 /\ analysed 3 0 (a, g') /\ faces_of ls G A a (heads (edges g')) /\ edges_of ls G A a (map fst (edges g')) /\ plane_corners_of ls A a (vertices g') /\ (exists x, In x xs /\ stored F a x) /\
  (excluded g' = true <-> (amount F xs a < 1)%Qc \/ heads (edges g') = []).
Proof.
  intros St Ana Hm. destruct (analysed_all m m' p n St Ana) as (P0 & N0 & PN & Mf & An). destruct (PN D2) as [P3 N3]. pose proof (proj1 (ids_stored m m' St Mf a)) as Ids. rewrite Forall_forall in An. specialize (An _ Hm).
  destruct (plane_facts p n a g' An) as (_ & P & V1 & V2). assert (p = 3) as -> by lia. assert (n = 0) as -> by lia. destruct (analysed_facts 3 0 a g' An) as (Iv & _ & _ & Ex & NE & _). destruct (sized_same (hist a)) as (_ & Z2 & _). destruct (plane_edges a g' _ Iv Z2) as (Ee & Ff & _).
  do 2 (split; [reflexivity|]). split; [exact An|]. split; [exact Ff|]. split; [exact Ee|]. split; [split; [exact V1|]; intros v; rewrite V2, (history_vertices ls F G A Hd xs Hxs); tauto|].
  split; [apply Ids; apply (in_map fst) in Hm; exact Hm|]. rewrite Ex, orb_true_iff, hist_total, heads_nil, Z.eqb_eq, qgt_true, <- NE. unfold num_edges. split; (intros [H|H]; [right|left]); auto; [now apply zlen_zero|now rewrite H].
Qed.
Lemma heads_unique a fs g' : faces_of ls G A a fs -> faces_of ls G A a (heads (edges g')) -> fs = heads (edges g').
Proof. intros [N1 E1] [N2 E2']. apply sorted_same; auto. intros e. now rewrite E1, E2'. Qed.
Lemma plane_edges_zlen a es g' : edges_of ls G A a es -> edges_of ls G A a (map fst (edges g')) -> zlen es = num_edges g'.
Proof. intros [N1 E1] [N2 E2']. unfold num_edges. rewrite <- (BaseL.zlen_map fst (edges g')). apply perm_zlen. apply NoDup_Permutation; auto. intros e. now rewrite E1, E2'. Qed.
Lemma plane_corners_zlen a vs g' : plane_corners_of ls A a vs -> plane_corners_of ls A a (vertices g') -> zlen vs = num_verts g'.
Proof. intros [N1 E1] [N2 E2']. apply perm_zlen. apply NoDup_Permutation; auto. intros e. now rewrite E1, E2'. Qed.

Theorem plane_rest_table hd bulk rest s : mmsp2topo axs data = Some (hd, bulk, rest, s) ->
  (forall row, In row rest <-> exists a fs, (exists x, In x xs /\ stored F a x) /\ faces_of ls G A a fs /\ ((amount F xs a < 1)%Qc \/ fs = []) /\ row = plane_rest_row F xs a fs (edge_nodes 2 G A xs a)) /\
  exists ids, StronglySorted Z.lt ids /\ map (fun row => nth 0 row Blank) rest = map num_of ids.
Proof.
  intros E. apply run_stages in E as (m & m' & p & n & St & Ana & -> & T & _). destruct (analysed_all m m' p n St Ana) as (_ & _ & _ & Mf & _). pose proof (ids_stored m m' St Mf) as Ids.
  pose proof (fun a g' => plane_each p n m m' a g' St Ana) as Each. unfold table in T.
  destruct (map_opt (fun it => if excluded (snd it) then Some [] else print_csv axs (snd it) p n) m') as [b|] eqn:Eb; cbn [bind] in T; [|discriminate].
  destruct (map_opt (fun it => if excluded (snd it) then do g <- estimate_centroid (dimension axs) (snd it); print_csv axs g p n else Some []) m') as [r|] eqn:Er; cbn [bind] in T; [|discriminate]. injection T as <- <-.
  assert (concat r = map (fun it => plane_rest_row F xs (fst it) (heads (edges (snd it))) (edge_nodes 2 G A xs (fst it))) (filter (fun it => excluded (snd it)) m')) as Re.
  { clear Eb Ana Mf Ids. revert r Er. induction m' as [|[a g'] m' IH]; intros r E; cbn [map_opt] in E; [injection E as <-; reflexivity|]. cbn [snd] in E.
    match type of E with bind ?x _ = _ => destruct x as [rows|] eqn:E1; cbn [bind] in E; [|discriminate] end.
    destruct (map_opt _ m') as [r'|]; cbn [bind] in E; [|discriminate]. injection E as <-. cbn [concat filter snd]. rewrite (IH (fun a g' I => Each a g' (or_intror I)) r' eq_refl).
    destruct (excluded g') eqn:X; [|injection E1 as <-; reflexivity]. destruct (Each a g' (or_introl eq_refl)) as (-> & -> & An & _). apply (plane_rest_line a g' rows An X) in E1 as (_ & _ & ->). reflexivity. }
  split.
  - intros row. rewrite Re, in_map_iff. split.
    + intros ([a g'] & <- & Hk). apply filter_In in Hk as [Hm X]. cbn [fst snd] in *. destruct (Each a g' Hm) as (_ & _ & _ & Ff & _ & _ & Sto & Ex). exists a, (heads (edges g')). split; [exact Sto|]. split; [exact Ff|]. split; [now apply Ex|reflexivity].
    + intros (a & fs & Sto & Ff & C & ->). apply Ids in Sto. apply in_map_iff in Sto as ([a' g'] & Ea & Hm). cbn in Ea. subst a'. destruct (Each a g' Hm) as (_ & _ & _ & Ff' & _ & _ & _ & Ex). pose proof (heads_unique a fs g' Ff Ff') as ->.
      exists (a, g'). split; [reflexivity|]. apply filter_In. split; [exact Hm|]. now apply Ex.
  - exists (map fst (filter (fun it => excluded (snd it)) m')). split; [apply sorted_filtered; rewrite Mf; now apply (state_sorted ls F G A xs)|]. rewrite Re, !map_map. apply map_ext. reflexivity.
Qed.
Theorem plane_runs : (exists r, mmsp2topo axs data = Some r) <-> plane_analysable ls F G A xs.
Proof.
  split.
  - intros ([[[hd bulk] rest] s] & E). split.
    { unfold mmsp2topo in E. destruct (scan axs data) as [r|] eqn:S; cbn [bind] in E; [|discriminate]. exact (scan_conv ls data F G A Hd Hl HM HG xs Hxs r S D2). }
    apply run_stages in E as (m & m' & p & n & St & Ana & -> & T & _). destruct (analysed_all m m' p n St Ana) as (_ & _ & _ & Mf & _). pose proof (ids_stored m m' St Mf) as Ids. unfold table in T.
    destruct (map_opt (fun it => if excluded (snd it) then Some [] else print_csv axs (snd it) p n) m') as [b|] eqn:Eb; cbn [bind] in T; [|discriminate].
    destruct (map_opt (fun it => if excluded (snd it) then do g <- estimate_centroid (dimension axs) (snd it); print_csv axs g p n else Some []) m') as [r|] eqn:Er; cbn [bind] in T; [|discriminate].
    intros a fs es vs Sto Ff Ee Cc. apply Ids in Sto. apply in_map_iff in Sto as ([a' g'] & Ea & Hm). cbn in Ea. subst a'.
    destruct (plane_each p n m m' a g' St Ana Hm) as (-> & -> & An & Ff' & Ee' & Cc' & Sto & Ex). pose proof (heads_unique a fs g' Ff Ff') as ->. rewrite (plane_edges_zlen a es g' Ee Ee'), (plane_corners_zlen a vs g' Cc Cc'). split.
    + intros Am L1 L2. assert (excluded g' = false) as X. { destruct (excluded g'); [|reflexivity]. exfalso. destruct (proj1 Ex eq_refl) as [K|K]; [exact (Qclt_not_le _ _ K Am)|]. apply heads_nil in K. unfold num_edges in L2. rewrite K in L2. unfold zlen in L2. cbn in L2. lia. }
      destruct (table_some _ _ _ _ Eb Hm) as (rows & Hr). cbn [snd] in Hr. rewrite X in Hr. exact (proj1 (plane_line_iff a g' An X) (ex_intro _ rows Hr) L1 L2).
    + intros C. apply Ex in C. destruct (table_some _ _ _ _ Er Hm) as (rows & Hr). cbn [snd] in Hr. rewrite C in Hr. apply (plane_rest_line a g' rows An C) in Hr. tauto.
  - intros [Kn Ok]. destruct (scan_ok ls data F G A Hd Hl HM HG xs Hxs (fun _ => Kn)) as (m & Es & St).
    destruct (proj2 (analyse_iff (exclude_small m))) as ([[m' p] n] & Ana); [intros it _; rewrite D2; apply compute_plane|].
    pose proof (fun a g' => plane_each p n m m' a g' St Ana) as Each. unfold mmsp2topo. rewrite Es. cbn [bind]. rewrite Ana. cbn [bind].
    destruct (proj2 (map_opt_iff (fun it => if excluded (snd it) then Some [] else print_csv axs (snd it) p n) m')) as (b & Eb).
    { intros [a g'] Hm. cbn [snd]. destruct (excluded g') eqn:X; [eauto|]. destruct (Each a g' Hm) as (-> & -> & An & Ff & Ee & Cc & Sto & Ex). destruct (Ok _ _ _ _ Sto Ff Ee Cc) as [H1 _]. apply (plane_line_iff a g' An X). intros L1 L2.
      apply H1; [|exact L1|rewrite BaseL.zlen_map; exact L2]. apply qgt_false. destruct (qgt 1 (amount F xs a)) eqn:Q; [|reflexivity]. apply qgt_true in Q. rewrite X in Ex. discriminate (proj2 Ex (or_introl Q)). }
    destruct (proj2 (map_opt_iff (fun it => if excluded (snd it) then do g <- estimate_centroid (dimension axs) (snd it); print_csv axs g p n else Some []) m')) as (r & Er).
    { intros [a g'] Hm. cbn [snd]. destruct (excluded g') eqn:X; [|eauto]. destruct (Each a g' Hm) as (-> & -> & An & Ff & Ee & Cc & Sto & Ex). destruct (Ok _ _ _ _ Sto Ff Ee Cc) as [_ H2]. eexists. apply (plane_rest_line a g' _ An X).
      destruct (H2 (proj1 Ex X)) as [H3 H4]. split; [exact H3|]. split; [exact H4|]. reflexivity. }
    unfold table. rewrite Eb. cbn [bind]. rewrite Er. cbn [bind]. eauto.
Qed.
End Plane.
End Table.
