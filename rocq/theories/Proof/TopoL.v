From Coq Require Import QArith.QArith QArith.Qcanon Sorting.Sorted.
From Verif Require Import Model.Base Model.Num Model.Layout Model.Access Model.Sparse Model.Evolve Model.Stencil Model.Spin Model.Topology Model.Topo
  Spec.Box Spec.Stencil Spec.Evolve Spec.Sparse Spec.Topology Spec.Table Spec.Topo
  Proof.BaseL Proof.LayoutL Proof.AccessL Proof.SparseL Proof.SparseF Proof.EvolveL Proof.SpinL Proof.TopologyL Proof.TableL.
Local Open Scope Z_scope.

(* ---- maps of grains ---- *)
Lemma lookup_above {V} (l : list (Z * V)) x : inc Z.ltb (map fst l) -> (forall y, In y (map fst l) -> x < y) -> lookup l x = None.
Proof. intros _ H. apply lookup_none. intros K. apply H in K. lia. Qed.
Lemma lookup_oupdate {V} (d : V) f x (l : list (Z * V)) k : inc Z.ltb (map fst l) ->
  lookup (oupdate Z.ltb d f x l) k = if k =? x then Some (f (match lookup l x with Some v => v | None => d end)) else lookup l k.
Proof.
  induction l as [|[y v] l IH]; cbn [oupdate map fst lookup]; intros I.
  - cbn [lookup]. rewrite (Z.eqb_sym x k). destruct (k =? x); auto.
  - unfold inc in I. apply StronglySorted_inv in I as [I1 I2]. rewrite Forall_forall in I2.
    destruct (Z.ltb_spec x y) as [L|L].
    + cbn [lookup]. rewrite (Z.eqb_sym x k). destruct (Z.eqb_spec k x) as [K|N]; [subst k|reflexivity].
      replace (y =? x) with false by (symmetry; apply Z.eqb_neq; lia).
      rewrite (proj2 (lookup_none l x)); auto. intros K. apply I2 in K. apply Z.ltb_lt in K. lia.
    + destruct (Z.ltb_spec y x) as [L'|L'].
      * cbn [lookup]. rewrite IH by auto. replace (y =? x) with false by (symmetry; apply Z.eqb_neq; lia).
        destruct (Z.eqb_spec k x) as [K|N]; [subst k|reflexivity]. now replace (y =? x) with false by (symmetry; apply Z.eqb_neq; lia).
      * assert (x = y) as -> by lia. cbn [lookup]. rewrite Z.eqb_refl, (Z.eqb_sym y k). destruct (k =? y); reflexivity.
Qed.
Lemma inc_insert i f (m : grains) : inc Z.ltb (map fst m) -> inc Z.ltb (map fst (insert_grain i f m)).
Proof. intros I. unfold insert_grain. rewrite keys_oupdate. apply inc_oinsert; auto using order_Z. Qed.
Lemma known_lookup (m : grains) i : existsb (fun it => fst it =? i) m = match lookup m i with Some _ => true | None => false end.
Proof. induction m as [|[y g] m IH]; cbn; [reflexivity|]. destruct (y =? i); [reflexivity|exact IH]. Qed.

(* the calls made on a grain *)
Definition apply_act (g : grain) (a : act) : grain :=
  match a with
  | AMass v p => add_mass v p g
  | AEdge e p => update_edges e p g
  | AVertex v => update_vertices v g
  | ANeighbor i => add_neighbor i g
  | _ => g
  end.
Definition plain (a : act) : Prop := match a with AMass _ _ | AEdge _ _ | AVertex _ | ANeighbor _ => True | _ => False end.
Definition made (a : Z) (h : list act) : grain := fold_left apply_act h (grain_new a).
Lemma made_after a h : Forall plain h -> grain_after a h = Some (made a h).
Proof.
  unfold grain_after, made. generalize (grain_new a) as g. induction h as [|e h IH]; intros g P; cbn; [reflexivity|]. inversion P; subst.
  rewrite <- IH by auto. destruct e; cbn in *; tauto || reflexivity.
Qed.
Lemma made_snoc a h e : made a (h ++ [e]) = apply_act (made a h) e.
Proof. unfold made. now rewrite fold_left_app. Qed.

(* H a: the calls on grain a so far, none if it is not known *)
Definition logs (H : Z -> option (list act)) (m : grains) : Prop :=
  inc Z.ltb (map fst m) /\ forall a, lookup m a = option_map (made a) (H a).
Definition log (H : Z -> option (list act)) (i : Z) (e : act) : Z -> option (list act) :=
  fun a => if a =? i then Some (match H i with Some h => h | None => [] end ++ [e]) else H a.
Lemma logs_insert H m i e : logs H m -> logs (log H i e) (insert_grain i (fun g => apply_act g e) m).
Proof.
  intros [I L]. split; [now apply inc_insert|]. intros a. unfold insert_grain. rewrite lookup_oupdate by auto. unfold log.
  destruct (Z.eqb_spec a i) as [->|N]; [|apply L]. rewrite L. destruct (H i); cbn [option_map]; [now rewrite made_snoc|reflexivity].
Qed.
Lemma logs_find H m i e : logs H m -> H i <> None -> exists m', find_grain i (fun g => apply_act g e) m = Some m' /\ logs (log H i e) m'.
Proof.
  intros L K. unfold find_grain. rewrite known_lookup. rewrite (proj2 L). destruct (H i) eqn:E; [|tauto]. cbn [option_map guard bind].
  eexists. split; [reflexivity|]. now apply logs_insert.
Qed.
Lemma find_bad H m i f : logs H m -> H i = None -> find_grain i f m = None.
Proof. intros L K. unfold find_grain. rewrite known_lookup, (proj2 L), K. reflexivity. Qed.
Lemma logs_ext H H' m : (forall a, H a = H' a) -> logs H m -> logs H' m.
Proof. intros E [I L]. split; [auto|]. intros a. now rewrite <- E. Qed.

(* a list of events, one after the other *)
Definition logl (H : Z -> option (list act)) (es : list (Z * act)) := fold_left (fun H e => log H (fst e) (snd e)) es H.
Lemma logl_eq es : forall H a, logl H es a =
  match map snd (filter (fun e => fst e =? a) es) with [] => H a | h => Some (match H a with Some h0 => h0 | None => [] end ++ h) end.
Proof.
  induction es as [|[i e] es IH]; intros H a; [reflexivity|]. change (logl H ((i, e) :: es)) with (logl (log H i e) es). rewrite IH. cbn [filter fst].
  unfold log at 1 2. rewrite (Z.eqb_sym i a). destruct (Z.eqb_spec a i) as [->|N]; [|reflexivity]. cbn [map snd].
  destruct (map snd (filter _ es)); [reflexivity|]. now rewrite <- app_assoc.
Qed.

(* ---- sorted lists ---- *)
Lemma sorted_same l l' : StronglySorted Z.lt l -> StronglySorted Z.lt l' -> (forall x, In x l <-> In x l') -> l = l'.
Proof.
  revert l'. induction l as [|a l IH]; intros [|b l'] S S' E; [reflexivity|exfalso; apply (E b); now left|exfalso; apply (E a); now left|].
  apply StronglySorted_inv in S as [S1 S2]. apply StronglySorted_inv in S' as [S1' S2']. rewrite Forall_forall in *.
  assert (a = b) as ->.
  { destruct (proj1 (E a) (or_introl eq_refl)) as [->|H]; [reflexivity|]. destruct (proj2 (E b) (or_introl eq_refl)) as [->|H']; [reflexivity|].
    apply S2 in H'. apply S2' in H. lia. }
  f_equal. apply IH; auto. intros x. split; intros H.
  - destruct (proj1 (E x) (or_intror H)) as [<-|H']; [|auto]. apply S2 in H. lia.
  - destruct (proj2 (E x) (or_intror H)) as [<-|H']; [|auto]. apply S2' in H. lia.
Qed.
Lemma sorted_of_inc l : inc Z.ltb l -> StronglySorted Z.lt l.
Proof. induction 1; constructor; auto. eapply Forall_impl; [|eassumption]. intros. now apply Z.ltb_lt. Qed.

(* ---- displacements to the nodes around ---- *)
Lemma around_iff (x y : list Z) d : length x = d -> (Forall2 (fun a b => -1 <= b - a <= 1) x y <-> exists o, In o (offsets d) /\ y = vadd x o).
Proof.
  intros L. rewrite offsets_cube. setoid_rewrite in_cube. subst d. split.
  - induction 1 as [|a b x y H F IH]; [exists []; repeat split; constructor|]. destruct IH as (o & (Lo & Fo) & ->).
    exists (b - a :: o). repeat split; [cbn; now rewrite Lo|constructor; auto|]. cbn. f_equal. lia.
  - intros (o & (Lo & Fo) & ->). revert o Lo Fo. induction x as [|c x IH]; intros [|e o] Lo Fo; cbn in *; try discriminate; [constructor|].
    inversion Fo; subst. constructor; [lia|]. apply IH; auto.
Qed.
Lemma vadd_len x o : length x = length o -> length (vadd x o) = length x.
Proof. intros L. rewrite vadd_plus by auto. now apply plus_length. Qed.
Lemma vadd_zero x o : length x = length o -> (vadd x o = x <-> forallb (fun d => d =? 0) o = true).
Proof.
  revert o. induction x as [|c x IH]; intros [|e o] L; cbn in *; try discriminate; [tauto|]. rewrite andb_true_iff, <- IH by lia. rewrite Z.eqb_eq. split.
  - intros E. injection E as E1 E2. split; [lia|auto].
  - intros [-> E]. rewrite Z.add_0_r. congruence.
Qed.
Lemma vadd_corner x o : length x = length o -> (forallb (fun d => negb (d =? 0)) o = false <-> exists i, (i < length x)%nat /\ nth i x 0 = nth i (vadd x o) 0).
Proof.
  revert o. induction x as [|c x IH]; intros [|e o] L; cbn in *; try discriminate.
  - split; [discriminate|]. intros (i & H & _). lia.
  - rewrite andb_false_iff, IH by lia. rewrite negb_false_iff, Z.eqb_eq. split.
    + intros [->|(i & Hi & E)]; [exists 0%nat; split; [lia|cbn; lia]|exists (S i); split; [lia|exact E]].
    + intros ([|i] & Hi & E); [left; cbn in E; lia|right; exists i; split; [lia|exact E]].
Qed.
Lemma inside_box ls x : length x = length ls -> (inside_local (lay 0 ls) x = true <-> in_box (map l_x0 ls) (map l_x1 ls) x).
Proof.
  revert x. induction ls as [|l ls IH]; intros [|c x] L; cbn [lay inside_local map in_box]; cbn in L; try discriminate; [tauto|].
  rewrite andb_true_iff, IH by lia. cbn [a_x0 a_x1]. rewrite negb_true_iff, orb_false_iff, Z.ltb_ge, Z.leb_gt. tauto.
Qed.

(* ---- reading a cell by position ---- *)
Lemma fold_items {S X} (l : list (Z * X)) (K : S -> Z -> option S) s :
  fold_opt (fun s h => do k <- sindex (map Some l) h; K s k) (zrange 0 (zlen (map Some l))) s = fold_opt (fun s it => K s (fst it)) l s.
Proof.
  assert (forall r p s, l = p ++ r -> fold_opt (fun s h => do k <- sindex (map Some l) h; K s k) (zrange (zlen p) (zlen l)) s = fold_opt (fun s it => K s (fst it)) r s) as T.
  { induction r as [|it r IH]; intros p s0 E.
    - rewrite app_nil_r in E. subst. now rewrite zrange_nil by lia.
    - assert (zlen l = zlen p + 1 + zlen r) as Ln by (rewrite E; unfold zlen; rewrite app_length; cbn; lia).
      rewrite zrange_cons by (unfold zlen in *; lia). cbn [fold_opt].
      assert (sindex (map Some l) (zlen p) = Some (fst it)) as ->.
      { unfold sindex, zlen. rewrite (sitem_map l (length p) it); [reflexivity|]. rewrite E, nth_error_app2, Nat.sub_diag by lia. reflexivity. }
      cbn [bind]. destruct (K s0 (fst it)); [|reflexivity]. cbn [bind]. replace (zlen p + 1) with (zlen (p ++ [it])) by (unfold zlen; rewrite app_length; cbn; lia).
      apply IH. rewrite <- app_assoc. exact E. }
  rewrite BaseL.zlen_map. apply (T l [] s eq_refl).
Qed.

Lemma Qc_laws : num_laws num_Qc.
Proof.
  split; cbn [n_zero n_add n_sub n_mul n_gt n_eq num_Qc]; intros; try ring.
  - apply qgt_false, Qcle_refl.
  - apply qgt_true. apply qgt_true in H, H0. eapply Qclt_trans; eauto.
  - apply qgt_false in H, H0. now apply Qcle_antisym.
  - destruct (Qc_eq_dec a b); split; congruence.
Qed.

Lemma leads_unique l a b : leads l a -> leads l b -> a = b.
Proof.
  intros (l1 & v & l2 & E1 & H1 & H2) (l3 & w & l4 & E2 & H3 & H4). subst l. rewrite Forall_forall in *.
  revert l3 E2 H3 H4. induction l1 as [|it l1 IH]; intros [|it' l3] E H3 H4; cbn in E.
  - congruence.
  - injection E as E1 E2. exfalso. assert (In (b, w) l2) as K by (rewrite E2; apply in_or_app; right; now left). apply H2 in K. specialize (H3 it' (or_introl eq_refl)).
    subst it'. cbn in *. exact (Qclt_not_le _ _ H3 K).
  - injection E as E1 E2. exfalso. assert (In (a, v) l4) as K by (rewrite <- E2; apply in_or_app; right; now left). apply H4 in K. specialize (H1 it (or_introl eq_refl)).
    subst it. cbn in *. exact (Qclt_not_le _ _ H1 K).
  - injection E as E1 E2. apply (IH (fun x H => H1 x (or_intror H)) l3); auto. intros x Hx. apply H3. now right.
Qed.
Lemma leading_id l a : cell_ok l -> leads l a -> grain_id num_Qc (map Some l) = Some a /\ 0 <= a < 65536 /\ In a (map fst l).
Proof.
  intros (N & R & X) La. rewrite Forall_forall in R. destruct (grain_id_spec num_Qc Qc_laws l) as (l1 & k & v & l2 & E & Gi & H1 & H2).
  - intros k v H. apply R in H. cbn in H. change (2 ^ 31) with 2147483648. lia.
  - apply Exists_exists in X as ([k v] & H & Hv). exists k, v. split; [exact H|]. now apply qgt_true.
  - assert (leads l k) as Lk.
    { exists l1, v, l2. split; [exact E|]. split; apply Forall_forall; intros [k' v'] Hk.
      - apply H1 in Hk. now apply qgt_true in Hk.
      - apply H2 in Hk. now apply qgt_false in Hk. }
    rewrite (leads_unique _ _ _ La Lk). split; [exact Gi|]. assert (In (k, v) l) as I by (rewrite E; apply in_or_app; right; now left).
    split; [apply (R _ I)|]. apply (in_map fst) in I. exact I.
Qed.

Section Visit.
Context (ls : list limits) (data : list (sobj Qc)) (F : list Z -> list (Z * Qc)) (G : list Z -> Z) (A : list Z -> list Z).
Local Notation axs := (lay 0 ls).
Local Notation box := (in_box (map l_x0 ls) (map l_x1 ls)).
Context (Hd : length ls = 2%nat \/ length ls = 3%nat) (Hl : lims_ok ls) (HM : microstructure ls F G A) (HG : grid_of ls data F).

Lemma dim_eq : dimension axs = zlen ls.
Proof. unfold dimension, zlen. now rewrite length_lay. Qed.
Lemma short_G x : box x -> short (G x) = G x.
Proof. intros B. destruct (HM x B) as (C & L & _). apply (leading_id _ _ C) in L. unfold short. apply Z.mod_small. lia. Qed.

Definition shows (x o : list Z) (b : Z) : Prop :=
  box (vadd x o) /\ forallb (fun d => d =? 0) o = false /\ G (vadd x o) = b /\ b <> G x /\ (length x = 3%nat -> forallb (fun d => negb (d =? 0)) o = false).
Lemma neighbors_fold x : box x -> forall os acc, (forall o, In o os -> length o = length x) -> inc Z.ltb acc -> exists r,
  fold_opt (fun adjacent o =>
    let y := vadd x o in
    if negb (inside_local axs y) then Some adjacent
    else if forallb (fun d => d =? 0) o then Some adjacent
    else
      do c <- grid_read false axs data y;
      do i <- grain_id num_Qc c;
      if i =? G x then Some adjacent
      else if (dimension axs =? 3) && forallb (fun d => negb (d =? 0)) o then Some adjacent
      else Some (oinsert Z.ltb (short i) adjacent)) os acc = Some r /\ inc Z.ltb r /\ forall b, In b r <-> In b acc \/ exists o, In o os /\ shows x o b.
Proof.
  intros Bx. induction os as [|o os IH]; intros acc Ho Ia.
  - exists acc. split; [reflexivity|]. split; [exact Ia|]. intros b. split; [auto|]. intros [H|(o & [] & _)]. exact H.
  - assert (length x = length ls) as Lx by now apply local_len.
    assert (length o = length x) as Lo by (apply Ho; now left). cbn [fold_opt]. cbv zeta.
    assert (forall acc', inc Z.ltb acc' -> (forall b, In b acc' <-> In b acc \/ shows x o b) -> exists r,
      fold_opt (fun adjacent o =>
        let y := vadd x o in
        if negb (inside_local axs y) then Some adjacent
        else if forallb (fun d => d =? 0) o then Some adjacent
        else
          do c <- grid_read false axs data y;
          do i <- grain_id num_Qc c;
          if i =? G x then Some adjacent
          else if (dimension axs =? 3) && forallb (fun d => negb (d =? 0)) o then Some adjacent
          else Some (oinsert Z.ltb (short i) adjacent)) os acc' = Some r /\ inc Z.ltb r /\ forall b, In b r <-> In b acc \/ exists o', In o' (o :: os) /\ shows x o' b) as Next.
    { intros acc' I' E'. destruct (IH acc' (fun o' H => Ho o' (or_intror H)) I') as (r & Er & Ir & Mr). exists r. split; [exact Er|]. split; [exact Ir|].
      intros b. rewrite Mr, E'. split.
      - intros [[H|H]|(o' & H & S)]; [now left|right; exists o; split; [now left|exact H]|right; exists o'; split; [now right|exact S]].
      - intros [H|(o' & [<-|H] & S)]; [now left; left|now left; right|right; eauto]. }
    assert (length (vadd x o) = length ls) as Ly by (rewrite vadd_len; auto).
    destruct (inside_local axs (vadd x o)) eqn:In1; cbn [negb].
    2: { apply Next; [exact Ia|]. intros b. split; [auto|]. intros [H|(B & _)]; [exact H|]. apply inside_box in B; auto. congruence. }
    apply inside_box in In1; auto. destruct (forallb (fun d => d =? 0) o) eqn:Z0.
    { apply Next; [exact Ia|]. intros b. split; [auto|]. intros [H|(_ & K & _)]; [exact H|]. congruence. }
    rewrite (HG _ In1). cbn [bind]. destruct (HM _ In1) as (Cy & Ly' & _). destruct (leading_id _ _ Cy Ly') as (-> & _ & _). cbn [bind].
    destruct (Z.eqb_spec (G (vadd x o)) (G x)) as [Eg|Ng].
    { apply Next; [exact Ia|]. intros b. split; [auto|]. intros [H|(_ & _ & <- & K & _)]; [exact H|]. congruence. }
    destruct ((dimension axs =? 3) && forallb (fun d => negb (d =? 0)) o) eqn:Cn; rewrite dim_eq in Cn.
    { apply andb_prop in Cn as [C1 C2]. apply Z.eqb_eq in C1. apply Next; [exact Ia|]. intros b. split; [auto|]. intros [H|(_ & _ & _ & _ & K)]; [exact H|].
      rewrite K in C2 by (unfold zlen in C1; lia). discriminate. }
    rewrite short_G by auto. apply Next; [now apply inc_oinsert; [apply order_Z|]|]. intros b. rewrite in_oinsert by apply order_Z. split.
    + intros [->|H]; [right|now left]. split; [exact In1|]. split; [exact Z0|]. split; [reflexivity|]. split; [exact Ng|]. intros L3. apply andb_false_iff in Cn as [C|C]; [|exact C].
      apply Z.eqb_neq in C. unfold zlen in C. lia.
    + intros [H|(_ & _ & <- & _)]; [now right|now left].
Qed.
Lemma check_neighbors_ok x : box x -> check_neighbors axs data (G x) x = Some (A x).
Proof.
  intros Bx. assert (length x = length ls) as Lx by now apply local_len. unfold check_neighbors. rewrite length_lay.
  destruct (neighbors_fold x Bx (offsets (length ls)) []) as (r & Er & Ir & Mr).
  { intros o Ho. rewrite offsets_cube in Ho. apply in_cube in Ho as [L _]. lia. } { constructor. }
  etransitivity; [exact Er|]. f_equal. destruct (HM x Bx) as (_ & _ & SA & MA). apply sorted_same; [now apply sorted_of_inc|exact SA|]. intros b. rewrite Mr, MA. split.
  - intros [[]|(o & Ho & B & Z0 & Gb & Nb & Cn)]. exists (vadd x o). split; [exact B|]. split; [|auto].
    assert (length o = length ls) as Lo by (rewrite offsets_cube in Ho; apply in_cube in Ho as [L _]; lia). split.
    + intros K. apply vadd_zero in K; [|lia]. congruence.
    + split; [apply (around_iff x _ (length ls)); eauto|]. intros L3. specialize (Cn L3). apply (vadd_corner x) in Cn; [|lia]. now rewrite L3 in Cn.
  - intros (y & B & (Ny & T & Cn) & Gb & Nb). right. apply (around_iff x y (length ls)) in T as (o & Ho & ->); [|auto]. exists o. split; [exact Ho|].
    assert (length o = length ls) as Lo by (rewrite offsets_cube in Ho; apply in_cube in Ho as [L _]; lia).
    split; [exact B|]. split; [|split; [exact Gb|split; [exact Nb|]]].
    + destruct (forallb _ o) eqn:E; [|reflexivity]. apply (vadd_zero x) in E; [congruence|lia].
    + intros L3. apply (vadd_corner x); [lia|]. rewrite L3. auto.
Qed.

(* ---- the events of a node ---- *)
Local Notation d := (zlen ls).
Definition mass_events (x : list Z) : list (Z * act) :=
  let p := map q_of (point_of x) in
  (G x, AMass (at_index (F x) (G x)) p) :: map (fun it => (fst it, AMass (at_index (F x) (fst it)) p)) (filter (fun it => negb (fst it =? G x)) (F x)).
Definition boundary_events (x : list Z) : list (Z * act) :=
  if zlen (A x) =? d - 1 then (G x, AEdge (A x) (point_of x)) :: (if d =? 3 then map (fun j => (G x, ANeighbor j)) (A x) else [])
  else if (d =? 2) && (zlen (A x) =? d) then map (fun j => (j, AVertex (A x))) (A x) else [].
Definition acts (a : Z) (es : list (Z * act)) : list act := map snd (filter (fun e => fst e =? a) es).
Lemma acts_app a e1 e2 : acts a (e1 ++ e2) = acts a e1 ++ acts a e2.
Proof. unfold acts. now rewrite filter_app, map_app. Qed.

Lemma masses_fold H x (l : list (Z * Qc)) m : box x -> incl l (F x) -> logs H m -> exists m',
  fold_opt (fun m it => let minor := short (fst it) in if minor =? G x then Some m
     else do v <- sread num_Qc (map Some (F x)) minor; Some (insert_grain minor (add_mass v (map q_of (point_of x))) m)) l m = Some m' /\
  logs (logl H (map (fun it => (fst it, AMass (at_index (F x) (fst it)) (map q_of (point_of x)))) (filter (fun it => negb (fst it =? G x)) l))) m'.
Proof.
  intros Bx. destruct (HM x Bx) as ((_ & R & _) & _). rewrite Forall_forall in R. revert H m. induction l as [|it l IH]; intros H m Il L; [exists m; split; [reflexivity|exact L]|].
  cbn [fold_opt]. assert (short (fst it) = fst it) as -> by (unfold short; apply Z.mod_small, R, Il; now left).
  cbn [filter]. destruct (Z.eqb_spec (fst it) (G x)) as [E|N]; cbn [negb bind].
  - apply IH; auto. intros y Hy. apply Il. now right.
  - rewrite sread_map, <- at_index_aval. cbn [bind map fst]. apply IH; [intros y Hy; apply Il; now right|]. apply (logs_insert H m (fst it) (AMass (at_index (F x) (fst it)) (map q_of (point_of x))) L).
Qed.
Lemma masses_ok H x m : box x -> logs H m -> exists m',
  add_masses (map Some (F x)) (G x) (at_index (F x) (G x)) x m = Some m' /\ logs (logl H (mass_events x)) m'.
Proof.
  intros Bx L. unfold add_masses. cbv zeta. destruct (masses_fold (log H (G x) (AMass (at_index (F x) (G x)) (map q_of (point_of x)))) x (F x) (insert_grain (G x) (add_mass (at_index (F x) (G x)) (map q_of (point_of x))) m) Bx) as (m' & E & L').
  { apply incl_refl. } { apply (logs_insert H m (G x) (AMass (at_index (F x) (G x)) (map q_of (point_of x))) L). }
  exists m'. split; [|exact L']. rewrite <- E. rewrite <- (fold_items (F x) (fun m k => let minor := short k in if minor =? G x then Some m
     else do v <- sread num_Qc (map Some (F x)) minor; Some (insert_grain minor (add_mass v (map q_of (point_of x))) m))). reflexivity.
Qed.

Lemma finds_ok es : forall H m, logs H m -> (forall e, In e es -> H (fst e) <> None) -> exists m',
  fold_opt (fun m e => find_grain (fst e) (fun g => apply_act g (snd e)) m) es m = Some m' /\ logs (logl H es) m'.
Proof.
  induction es as [|[i e] es IH]; intros H m L K; [exists m; split; [reflexivity|exact L]|]. cbn [fold_opt fst snd].
  destruct (logs_find H m i e L) as (m1 & E1 & L1); [apply (K (i, e)); now left|]. rewrite E1. cbn [bind].
  apply (IH (log H i e)); auto. intros e' He'. unfold log. destruct (_ =? _); [discriminate|]. apply K. now right.
Qed.
Lemma finds_bad es : forall H m, logs H m -> (exists e, In e es /\ H (fst e) = None) ->
  fold_opt (fun m e => find_grain (fst e) (fun g => apply_act g (snd e)) m) es m = None.
Proof.
  induction es as [|[i e] es IH]; intros H m L (e' & He' & K); [destruct He'|]. cbn [fold_opt fst snd].
  destruct (H i) eqn:Hi.
  - destruct (logs_find H m i e L) as (m1 & E1 & L1); [congruence|]. rewrite E1. cbn [bind]. apply (IH (log H i e)); auto. destruct He' as [<-|He'].
    + cbn in K. congruence.
    + exists e'. split; [exact He'|]. unfold log. destruct (Z.eqb_spec (fst e') i) as [E|N]; [congruence|exact K].
  - now rewrite (find_bad H m i _ L Hi).
Qed.
Lemma fold_map {S X Y} (f : S -> Y -> option S) (g : X -> Y) l s : fold_opt f (map g l) s = fold_opt (fun s x => f s (g x)) l s.
Proof. revert s. induction l as [|x l IH]; intros s; cbn; [reflexivity|]. destruct (f s (g x)); cbn; auto. Qed.
Lemma boundary_eq x m : add_boundary axs (G x) (A x) x m = fold_opt (fun m e => find_grain (fst e) (fun g => apply_act g (snd e)) m) (boundary_events x) m.
Proof.
  unfold add_boundary, boundary_events. rewrite dim_eq. destruct (_ =? d - 1).
  - cbn [fold_opt fst snd]. change (fun g => apply_act g (AEdge (A x) (point_of x))) with (update_edges (A x) (point_of x)). destruct (find_grain _ _ m); [|reflexivity]. cbn [bind].
    destruct (d =? 3); [|reflexivity]. rewrite fold_map. reflexivity.
  - destruct (_ && _); [|reflexivity]. rewrite fold_map. reflexivity.
Qed.

Lemma nodup_one (l : list (Z * Qc)) p a : NoDup (map fst l) ->
  acts a (map (fun it => (fst it, AMass (at_index (F p) (fst it)) (map q_of (point_of p)))) l) =
  if existsb (Z.eqb a) (map fst l) then [AMass (at_index (F p) a) (map q_of (point_of p))] else [].
Proof.
  induction l as [|it l IH]; intros N; [reflexivity|]. inversion N as [|? ? N1 N2]; subst. cbn [map existsb acts filter fst]. rewrite (Z.eqb_sym a).
  unfold acts in IH. destruct (Z.eqb_spec (fst it) a) as [E|Ne]; cbn [orb map snd].
  - rewrite IH by auto. subst a. destruct (existsb _ _) eqn:K; [|reflexivity]. apply existsb_exists in K as (y & Hy & Ey). apply Z.eqb_eq in Ey. congruence.
  - apply IH; auto.
Qed.
Lemma NoDup_keys_filter (l : list (Z * Qc)) f : NoDup (map fst l) -> NoDup (map fst (filter f l)).
Proof.
  induction l as [|it l IH]; intros N; cbn; [constructor|]. inversion N as [|? ? N1 N2]; subst. destruct (f it); [|auto]. cbn. constructor; [|auto].
  intros K. apply N1. apply in_map_iff in K as (y & Ey & Hy). apply filter_In in Hy as [Hy _]. apply in_map_iff. eauto.
Qed.
Lemma storedb_iff a x : storedb F a x = true <-> stored F a x.
Proof. unfold storedb, stored. rewrite existsb_exists. split; [intros (y & H & E); apply Z.eqb_eq in E; now subst|]. intros H. exists a. split; [auto|apply Z.eqb_refl]. Qed.
Lemma G_stored x : box x -> storedb F (G x) x = true.
Proof. intros B. apply storedb_iff. destruct (HM x B) as (C & L & _). apply (leading_id _ _ C) in L. apply L. Qed.
Lemma mass_acts a x : box x -> acts a (mass_events x) = if storedb F a x then [AMass (at_index (F x) a) (map q_of (spatial x))] else [].
Proof.
  intros B. unfold mass_events. cbv zeta. destruct (HM x B) as ((N & _ & _) & _). unfold acts. cbn [filter fst]. rewrite Z.eqb_sym. destruct (Z.eqb_spec a (G x)) as [->|Na].
  - rewrite G_stored by auto. cbn [map snd]. f_equal. fold (acts (G x) (map (fun it => (fst it, AMass (at_index (F x) (fst it)) (map q_of (point_of x)))) (filter (fun it => negb (fst it =? G x)) (F x)))).
    rewrite nodup_one by now apply NoDup_keys_filter. destruct (existsb _ _) eqn:K; [|reflexivity]. exfalso. apply existsb_exists in K as (y & Hy & Ey). apply Z.eqb_eq in Ey. subst y.
    apply in_map_iff in Hy as (it & E & Hit). apply filter_In in Hit as [_ Hit]. rewrite E, Z.eqb_refl in Hit. discriminate.
  - fold (acts a (map (fun it => (fst it, AMass (at_index (F x) (fst it)) (map q_of (point_of x)))) (filter (fun it => negb (fst it =? G x)) (F x)))).
    rewrite nodup_one by now apply NoDup_keys_filter. replace (existsb (Z.eqb a) (map fst (filter (fun it => negb (fst it =? G x)) (F x)))) with (storedb F a x); [reflexivity|].
    apply eq_true_iff_eq. unfold storedb. rewrite !existsb_exists. split.
    + intros (y & Hy & E). apply Z.eqb_eq in E. subst y. exists a. split; [|apply Z.eqb_refl]. apply in_map_iff in Hy as (it & E & Hit). apply in_map_iff. exists it. split; [auto|].
      apply filter_In. split; [auto|]. rewrite E. destruct (Z.eqb_spec a (G x)); [congruence|reflexivity].
    + intros (y & Hy & E). apply in_map_iff in Hy as (it & E' & Hit). apply filter_In in Hit as [Hit _]. exists y. split; [|auto]. apply in_map_iff. eauto.
Qed.
Lemma acts_const a (i : Z) (f : Z -> act) l : acts a (map (fun j => (i, f j)) l) = if a =? i then map f l else [].
Proof. unfold acts. rewrite (Z.eqb_sym a). induction l as [|j l IH]; cbn [map filter fst]; [now destruct (i =? a)|]. destruct (i =? a); cbn [map snd]; [now f_equal|exact IH]. Qed.
Lemma acts_each a (e : act) l : NoDup l -> acts a (map (fun j => (j, e)) l) = if existsb (Z.eqb a) l then [e] else [].
Proof.
  unfold acts. induction l as [|j l IH]; intros N; cbn [map filter fst existsb]; [reflexivity|]. inversion N as [|? ? N1 N2]; subst. rewrite (Z.eqb_sym a).
  destruct (Z.eqb_spec j a) as [->|Ne]; cbn [map snd orb]; rewrite IH by auto; [|reflexivity].
  destruct (existsb _ _) eqn:K; [|reflexivity]. apply existsb_exists in K as (y & Hy & Ey). apply Z.eqb_eq in Ey. congruence.
Qed.
Lemma A_nodup x : box x -> NoDup (A x).
Proof. intros B. destruct (HM x B) as (_ & _ & S & _). apply inc_of_sorted in S. now apply (inc_nodup _ order_Z). Qed.
Lemma node_acts a x : box x -> acts a (mass_events x ++ boundary_events x) = events d F G A a x.
Proof.
  intros B. rewrite acts_app, mass_acts by auto. unfold events. f_equal. unfold boundary_events.
  assert (d = 2 \/ d = 3) as D by (unfold zlen; lia). destruct (Z.eqb_spec (zlen (A x)) (d - 1)) as [E|N].
  - rewrite andb_true_r. replace ((d =? 2) && (zlen (A x) =? 2)) with false by (symmetry; apply andb_false_iff; rewrite !Z.eqb_neq; lia). cbn [andb]. rewrite app_nil_r.
    unfold acts. cbn [filter fst]. rewrite Z.eqb_sym. destruct (Z.eqb_spec a (G x)) as [->|Na]; cbn [map snd].
    + f_equal. destruct (d =? 3); [|reflexivity]. pose proof (acts_const (G x) (G x) ANeighbor (A x)) as X. rewrite Z.eqb_refl in X. exact X.
    + destruct (d =? 3); [|reflexivity]. pose proof (acts_const a (G x) ANeighbor (A x)) as X. replace (a =? G x) with false in X by (symmetry; now apply Z.eqb_neq). exact X.
  - rewrite andb_false_r. cbn [app]. destruct (Z.eqb_spec d 2) as [E2|N2]; cbn [andb]; [|reflexivity]. rewrite E2. destruct (zlen (A x) =? 2); cbn [andb]; [|reflexivity].
    apply acts_each. now apply A_nodup.
Qed.

(* ---- the nodes visited so far ---- *)
Definition seen (a : Z) (pre : list (list Z)) : bool := existsb (storedb F a) pre.
Lemma seen_iff a pre : seen a pre = true <-> exists y, In y pre /\ stored F a y.
Proof. unfold seen. rewrite existsb_exists. setoid_rewrite storedb_iff. reflexivity. Qed.
Lemma seen_snoc a pre x : seen a (pre ++ [x]) = seen a pre || storedb F a x.
Proof. unfold seen. rewrite existsb_app. cbn. now rewrite orb_false_r. Qed.
Definition so_far (pre : list (list Z)) (a : Z) : option (list act) := if seen a pre then Some (history d F G A pre a) else None.
Definition state (pre : list (list Z)) (m : grains) : Prop := logs (so_far pre) m /\ forall a, seen a pre = false -> history d F G A pre a = [].
Definition ready (pre : list (list Z)) (x : list Z) : Prop := d = 2 -> zlen (A x) = 2 -> forall b, In b (A x) -> seen b (pre ++ [x]) = true.
Lemma history_snoc pre x a : history d F G A (pre ++ [x]) a = history d F G A pre a ++ events d F G A a x.
Proof. unfold history. rewrite flat_map_app. cbn. now rewrite app_nil_r. Qed.

Lemma masses_seen pre x a : box x -> (logl (so_far pre) (mass_events x) a <> None <-> seen a (pre ++ [x]) = true).
Proof.
  intros B. rewrite logl_eq. fold (acts a (mass_events x)). rewrite mass_acts, seen_snoc by auto. unfold so_far. destruct (storedb F a x).
  - rewrite orb_true_r. split; [reflexivity|discriminate].
  - rewrite orb_false_r. destruct (seen a pre); split; congruence.
Qed.
Lemma step_state pre x m : box x -> ready pre x -> (forall a, seen a pre = false -> history d F G A pre a = []) ->
  logs (logl (logl (so_far pre) (mass_events x)) (boundary_events x)) m -> state (pre ++ [x]) m.
Proof.
  intros B R U L.
  assert (forall a, seen a (pre ++ [x]) = false -> events d F G A a x = []) as Ev.
  { intros a K. rewrite seen_snoc in K. apply orb_false_iff in K as [K1 K2]. unfold events. rewrite K2. destruct (Z.eqb_spec a (G x)) as [->|Na]; [rewrite G_stored in K2 by auto; discriminate|]. cbn [andb app].
    destruct (Z.eqb_spec d 2) as [D|D]; cbn [andb]; [|reflexivity]. destruct (Z.eqb_spec (zlen (A x)) 2) as [L2|L2]; cbn [andb]; [|reflexivity].
    destruct (existsb (Z.eqb a) (A x)) eqn:Ex; [|reflexivity]. apply existsb_exists in Ex as (y & Hy & Ey). apply Z.eqb_eq in Ey. subst y. specialize (R D L2 a Hy). rewrite seen_snoc, K1, K2 in R. discriminate. }
  split.
  - apply (logs_ext _ _ m) with (2 := L). intros a. replace (logl (logl (so_far pre) (mass_events x)) (boundary_events x)) with (logl (so_far pre) (mass_events x ++ boundary_events x)) by (unfold logl; now rewrite fold_left_app).
    rewrite logl_eq. fold (acts a (mass_events x ++ boundary_events x)). rewrite node_acts by auto. unfold so_far at 3. rewrite history_snoc. specialize (Ev a). destruct (events d F G A a x) as [|e h] eqn:E.
    + rewrite app_nil_r. unfold so_far. rewrite seen_snoc. destruct (storedb F a x) eqn:S; [|now rewrite orb_false_r]. unfold events in E. rewrite S in E. discriminate.
    + destruct (seen a (pre ++ [x])) eqn:S; [|discriminate (Ev eq_refl)]. f_equal. unfold so_far. destruct (seen a pre) eqn:S'; [reflexivity|]. now rewrite U.
  - intros a K. rewrite history_snoc, Ev, app_nil_r by auto. apply U. rewrite seen_snoc in K. now apply orb_false_iff in K as [K _].
Qed.

Definition leading_value (x : list Z) : Qc := at_index (F x) (G x).
Lemma visit_cases pre m s i : 0 <= i < nodes axs -> state pre m -> let x := position axs i in
  (ready pre x -> exists m', visit axs data (m, s) i = Some (m', span_of s (leading_value x)) /\ state (pre ++ [x]) m') /\
  (~ ready pre x -> visit axs data (m, s) i = None).
Proof.
  intros Hi [L U] x. assert (box x) as B.
  { unfold x. pose proof (position_spec 0 axs i (wf_lay 0 ls Hl) Hi) as [P _]. now rewrite map_x0_lay, map_x1_lay in P. }
  assert (forall k : Prop, (forall m1, logs (logl (so_far pre) (mass_events x)) m1 -> visit axs data (m, s) i = (do m2 <- add_boundary axs (G x) (A x) x m1; Some (m2, span_of s (leading_value x))) -> k) -> k) as V.
  { intros k K. destruct (masses_ok (so_far pre) x m B L) as (m1 & E1 & L1). apply (K m1 L1). unfold visit. fold x.
    destruct (read_int_position false 0 ls data i ltac:(lia) ltac:(auto) Hl Hi) as [-> _]. fold x. rewrite (HG x B). cbn [bind].
    destruct (HM x B) as (C & Lx & _). destruct (leading_id _ _ C Lx) as (-> & _ & _). cbn [bind]. rewrite short_G by auto. rewrite sread_map, <- at_index_aval. cbn [bind].
    rewrite E1. cbn [bind]. rewrite check_neighbors_ok by auto. cbn [bind]. unfold leading_value. destruct (add_boundary _ _ _ _ m1); reflexivity. }
  assert (forall e, In e (boundary_events x) -> fst e = G x \/ (d = 2 /\ zlen (A x) = 2 /\ In (fst e) (A x))) as Ids.
  { intros e He. unfold boundary_events in He. destruct (_ =? d - 1).
    - left. destruct He as [<-|He]; [reflexivity|]. destruct (d =? 3); [|destruct He]. apply in_map_iff in He as (j & <- & _). reflexivity.
    - destruct (Z.eqb_spec d 2) as [D|]; cbn [andb] in He; [|destruct He]. destruct (Z.eqb_spec (zlen (A x)) d) as [E|]; [|destruct He]. right. apply in_map_iff in He as (j & <- & Hj). cbn. repeat split; auto; lia. }
  split.
  - intros R. apply V. intros m1 L1 ->. rewrite boundary_eq. destruct (finds_ok (boundary_events x) _ m1 L1) as (m2 & -> & L2).
    + intros e He. apply masses_seen; [auto|]. destruct (Ids e He) as [->|(D & L2 & H)]; [|now apply R]. rewrite seen_snoc, G_stored, orb_true_r by auto. reflexivity.
    + cbn [bind]. exists m2. split; [reflexivity|]. now apply step_state.
  - intros NR. apply V. intros m1 L1 ->. rewrite boundary_eq. rewrite (finds_bad (boundary_events x) _ m1 L1); [reflexivity|].
    assert (d = 2 /\ zlen (A x) = 2 /\ exists b, In b (A x) /\ seen b (pre ++ [x]) = false) as (D & L2 & b & Hb & Sb).
    { unfold ready in NR. destruct (Z.eq_dec d 2) as [D|]; [|tauto]. split; [auto|]. destruct (Z.eq_dec (zlen (A x)) 2) as [E|]; [|tauto]. split; [auto|].
      destruct (forallb (fun b => seen b (pre ++ [x])) (A x)) eqn:Fb.
      - exfalso. apply NR. intros _ _ b Hb. rewrite forallb_forall in Fb. auto.
      - clear - Fb. induction (A x) as [|b l IH]; cbn in Fb; [discriminate|]. apply andb_false_iff in Fb as [K|K]; [exists b; split; [now left|exact K]|]. destruct (IH K) as (c & Hc & Sc). exists c. split; [now right|exact Sc]. }
    exists (b, AVertex (A x)). split.
    + unfold boundary_events. rewrite D, L2. cbn. apply in_map_iff. eauto.
    + cbn [fst]. destruct (logl _ _ b) eqn:K; [|reflexivity]. assert (logl (so_far pre) (mass_events x) b <> None) as K' by congruence. apply masses_seen in K'; [congruence|auto].
Qed.
End Visit.
