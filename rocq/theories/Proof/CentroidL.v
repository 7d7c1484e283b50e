From Coq Require Import QArith.QArith QArith.Qcanon Sorting.Sorted Permutation.
From Verif Require Import Model.Base Model.Stencil Model.Evolve Model.Topology Spec.Stencil Spec.Topology
  Proof.BaseL Proof.StencilL Proof.EvolveL Proof.TopologyL Proof.TopologyF.
Local Open Scope Z_scope.
Local Open Scope list_scope.

Lemma three {A} (l : list A) : length l = 3%nat -> exists a b c, l = [a; b; c].
Proof. destruct l as [|a [|b [|c [|d l]]]]; try discriminate. eauto. Qed.

Lemma add_mass_nth v p g k : length (centroid g) = 3%nat -> length p = 3%nat ->
  nth k (centroid (add_mass v p g)) 0%Qc = (nth k (centroid g) 0 + v * nth k p 0)%Qc.
Proof.
  intros A B. destruct (three _ A) as (a & b & c & Ea), (three _ B) as (d & e & f & ->). unfold add_mass. cbn [centroid set_body]. rewrite Ea.
  cbn. destruct k as [|[|[|k]]]; cbn; try reflexivity. destruct k; ring.
Qed.

Lemma add_mass_len v p g : length (centroid g) = 3%nat -> length p = 3%nat -> length (centroid (add_mass v p g)) = 3%nat.
Proof. intros A B. cbn. rewrite map_length, combine_length. lia. Qed.

Definition no_estimate (a : act) : Prop := match a with ACentroid _ => False | _ => True end.

Lemma moment_after r : forall d g0 g k, Forall well_typed r -> Forall no_estimate r -> inv d g0 -> fold_opt perform r g0 = Some g ->
  nth k (centroid g) 0%Qc = (nth k (centroid g0) 0 + first_moment k r)%Qc.
Proof.
  induction r as [|a r IH]; intros d g0 g k W Ne I E; cbn in E; [inversion E; subst; unfold first_moment; cbn; ring|].
  inversion W; subst. inversion Ne; subst. destruct (perform g0 a) as [g1|] eqn:E1; cbn [bind] in E; [|discriminate].
  pose proof (perform_inv _ _ _ _ I H1 E1) as I1. rewrite (IH _ _ _ k H2 H4 I1 E). unfold first_moment. cbn [map sumQ].
  destruct a; cbn in E1.
  - inversion E1; subst. rewrite add_mass_nth; [ring|apply I|exact H1].
  - inversion E1; subst; cbn; ring.
  - inversion E1; subst; cbn; ring.
  - inversion E1; subst; cbn; ring.
  - inversion E1; subst; cbn; ring.
  - destruct (compute_topology dim g0) as [[g2 l]|] eqn:E2; cbn [bind] in E1; [|discriminate]. inversion E1; subst. apply compute_shape in E2. cbn.
    destruct E2 as (_ & _ & -> & _). ring.
  - destruct H3.
Qed.

Lemma get_centroid_eq g : length (centroid g) = 3%nat -> volume g <> 0%Qc ->
  get_centroid g = Some (map (fun k => nth k (centroid g) 0 / volume g)%Qc [0%nat; 1%nat; 2%nat]).
Proof.
  intros L N. unfold get_centroid. rewrite (recip_eq _ N). cbn [bind]. destruct (three _ L) as (a & b & c & E). rewrite E. reflexivity.
Qed.

(* points *)
Lemma points_oupdate e (p : list Z) l : Permutation (concat (map snd (oupdate lexlt [] (fun ps => ps ++ [p]) e l))) (p :: concat (map snd l)).
Proof.
  induction l as [|[y v] r IH]; cbn; [reflexivity|]. destruct (lexlt e y); [reflexivity|]. destruct (lexlt y e); cbn.
  - rewrite IH. symmetry. apply Permutation_middle.
  - rewrite <- app_assoc. cbn. symmetry. apply Permutation_middle.
Qed.

Lemma points_after r : forall d g0 g, Forall well_typed r -> inv d g0 -> fold_opt perform r g0 = Some g ->
  Permutation (concat (map snd (edges g))) (concat (map snd (edges g0)) ++ points r).
Proof.
  induction r as [|a r IH]; intros d g0 g W I E; cbn in E; [inversion E; subst; cbn; now rewrite app_nil_r|].
  inversion W; subst. destruct (perform g0 a) as [g1|] eqn:E1; cbn [bind] in E; [|discriminate].
  pose proof (perform_inv _ _ _ _ I H1 E1) as I1. rewrite (IH _ _ _ H2 I1 E).
  destruct a; cbn in E1; try (inversion E1; subst; cbn; reflexivity).
  - inversion E1; subst. cbn [edges update_edges set_topo]. rewrite points_oupdate. cbn. apply Permutation_middle.
  - destruct (compute_topology dim g0) as [[g2 l]|] eqn:E2; cbn [bind] in E1; [|discriminate]. inversion E1; subst. apply compute_shape in E2. cbn.
    destruct E2 as (_ & -> & _). reflexivity.
  - destruct (estimate_ok dim g0 d I) as (g2 & E2 & _ & Ee & _). rewrite E2 in E1. inversion E1; subst. rewrite Ee. reflexivity.
Qed.

Lemma points_perm i h g : Forall well_typed h -> grain_after i h = Some g -> Permutation (concat (map snd (edges g))) (points h).
Proof. intros W E. exact (points_after h [] (grain_new i) g W (inv_new i) E). Qed.

Lemma fold_min_perm l m b : Permutation l m -> fold_right Z.min b l = fold_right Z.min b m.
Proof. induction 1; cbn; lia. Qed.
Lemma fold_max_perm l m b : Permutation l m -> fold_right Z.max b l = fold_right Z.max b m.
Proof. induction 1; cbn; lia. Qed.

Lemma bounding_nth pts : Forall (fun p : list Z => length p = 3%nat) pts -> forall lo hi k, length lo = 3%nat -> length hi = 3%nat -> (k < 3)%nat ->
  nth k (fst (bounding pts lo hi)) 0 = fold_right Z.min (nth k lo 0) (map (fun p => nth k p 0) pts) /\
  nth k (snd (bounding pts lo hi)) 0 = fold_right Z.max (nth k hi 0) (map (fun p => nth k p 0) pts).
Proof.
  induction 1 as [|p pts Hp _ IH]; intros lo hi k Hl Hh Hk; [split; reflexivity|].
  unfold bounding in *. cbn [fold_left]. destruct (IH (map (fun '(a, b) => Z.min a b) (combine lo p)) (map (fun '(a, b) => Z.max a b) (combine hi p)) k) as (A & B); auto.
  { rewrite map_length, combine_length. lia. } { rewrite map_length, combine_length. lia. }
  rewrite A, B. cbn [map fold_right].
  destruct (three _ Hl) as (a & b & c & ->), (three _ Hh) as (d & e & f & ->), (three _ Hp) as (u & v & w & ->).
  assert (M : forall l x y, fold_right Z.min (Z.min x y) l = Z.min y (fold_right Z.min x l)) by (induction l; intros; cbn; [lia|rewrite IHl; lia]).
  assert (N : forall l x y, fold_right Z.max (Z.max x y) l = Z.max y (fold_right Z.max x l)) by (induction l; intros; cbn; [lia|rewrite IHl; lia]).
  destruct k as [|[|[|k]]]; cbn [map combine nth]; rewrite ?M, ?N; [split; reflexivity|split; reflexivity|split; reflexivity|lia].
Qed.

Lemma fold_add_mass_nth w (q : list Z -> list Qc) pts k : (forall p, In p pts -> length (q p) = 3%nat) -> forall g, length (centroid g) = 3%nat ->
  nth k (centroid (fold_left (fun g p => add_mass w (q p) g) pts g)) 0%Qc =
  (nth k (centroid g) 0 + w * sumQ (map (fun p => nth k (q p) 0%Qc) pts))%Qc.
Proof.
  induction pts as [|p pts IH]; intros Hq g Hg; cbn [fold_left map sumQ]; [ring|].
  rewrite IH; [|intros; apply Hq; now right|apply add_mass_len; [auto|apply Hq; now left]].
  rewrite add_mass_nth; [ring|auto|apply Hq; now left].
Qed.

Lemma sumQ_perm l m : Permutation l m -> sumQ l = sumQ m.
Proof. induction 1; cbn; [reflexivity|now rewrite IHPermutation|ring|congruence]. Qed.

Lemma estimate_centroid_ok i h g dim : Forall well_typed h -> grain_after i h = Some g -> dim = 2 \/ dim = 3 ->
  boundaries h <> [] -> (dim = 3 -> neighbours h <> []) -> volume g <> 0%Qc ->
  exists g', estimate_centroid dim g = Some g' /\
    get_centroid g' = Some (map (fun k => sumQ (map (fun p : list Z => q_of (if (k <? Z.to_nat dim)%nat then folded k h (nth k p 0%Z) else nth k p 0%Z)) (points h)) / q_of (zlen (points h)))%Qc
                              [0%nat; 1%nat; 2%nat]).
Proof.
  intros W A Hd B Nb V. pose proof (after_inv i h g W A) as I.
  destruct (estimate_ok dim g h I) as (g' & E & _ & _ & Ev & Lc). exists g'. split; [auto|].
  rewrite get_centroid_eq by (auto; congruence). f_equal.
  pose proof (points_perm i h g W A) as P.
  assert (NE : num_edges g =? 0 = false).
  { apply Z.eqb_neq. rewrite (num_edges_eq _ _ I). destruct (boundaries h); [easy|]. rewrite zlen_cons. pose proof (zlen_nonneg l0). lia. }
  assert (NF : (dim =? 3) && (num_faces g =? 0) = false).
  { destruct (Z.eqb_spec dim 3) as [->|]; [|reflexivity]. cbn [andb]. apply Z.eqb_neq. rewrite (num_faces_eq _ _ I).
    specialize (Nb eq_refl). destruct (neighbours h); [easy|]. rewrite zlen_cons. pose proof (zlen_nonneg l). lia. }
  unfold estimate_centroid in E. rewrite NE, NF in E. set (pts := concat (map snd (edges g))) in *.
  assert (Forall (fun p : list Z => length p = 3%nat) pts) as F3.
  { apply Forall_forall. intros p Hp. apply in_concat in Hp. destruct Hp as (l & Hl & Hp). apply in_map_iff in Hl. destruct Hl as (it & <- & Hit).
    destruct (i_points _ _ I _ Hit) as [_ F]. rewrite Forall_forall in F. auto. }
  pose proof (bounding_nth pts F3 [1000; 1000; 1000] [0; 0; 0]) as BN. pose proof (bounding_len pts F3 [1000; 1000; 1000] [0; 0; 0] eq_refl eq_refl) as (Ll & Lh).
  destruct (bounding pts [1000; 1000; 1000] [0; 0; 0]) as [lo hi]. cbn [fst snd] in *.
  assert (NZ : q_of (zlen pts) <> 0%Qc).
  { unfold recip in E. destruct (Qc_eq_dec (q_of (zlen pts)) 0); [discriminate|auto]. }
  rewrite (recip_eq _ NZ) in E. cbn [bind] in E. injection E as E.
  assert (Lo : forall k, (k < 3)%nat -> nth k lo 0 = least k h /\ nth k hi 0 = greatest k h).
  { intros k Hk. destruct (BN k eq_refl eq_refl Hk) as (B1 & B2). rewrite B1, B2. unfold least, greatest.
    rewrite (fold_min_perm _ (map (fun p => nth k p 0) (points h))) by now apply Permutation_map.
    rewrite (fold_max_perm _ (map (fun p => nth k p 0) (points h))) by now apply Permutation_map.
    destruct k as [|[|[|k]]]; [split; reflexivity|split; reflexivity|split; reflexivity|lia]. }
  assert (Lp : zlen pts = zlen (points h)) by (unfold zlen; f_equal; now apply Permutation_length).
  apply map_ext_in. intros k Hk. assert (Hk3 : (k < 3)%nat) by (cbn in Hk; lia).
  rewrite <- E. rewrite (fold_add_mass_nth _ (fun p => map q_of (firstn (Z.to_nat dim) (fold_point lo hi p) ++ skipn (Z.to_nat dim) p))); [| |reflexivity].
  2: { intros p Hp. rewrite Forall_forall in F3. specialize (F3 _ Hp). rewrite map_length, app_length, firstn_length, skipn_length. unfold fold_point. rewrite map_length, !combine_length. lia. }
  cbn [centroid set_body].
  replace (nth k [0%Qc; 0%Qc; 0%Qc] 0%Qc) with 0%Qc by (destruct k as [|[|[|k]]]; [reflexivity|reflexivity|reflexivity|lia]).
  rewrite (sumQ_perm _ (map (fun p => nth k (map q_of (firstn (Z.to_nat dim) (fold_point lo hi p) ++ skipn (Z.to_nat dim) p)) 0%Qc) (points h))) by now apply Permutation_map.
  rewrite E, Ev. rewrite Lp in *. unfold Qcdiv.
  transitivity (sumQ (map (fun p => nth k (map q_of (firstn (Z.to_nat dim) (fold_point lo hi p) ++ skipn (Z.to_nat dim) p)) 0%Qc) (points h)) * / q_of (zlen (points h)))%Qc.
  { field. split; auto. }
  f_equal. apply sumQ_ext. intros p Hp.
  assert (L3 : length p = 3%nat) by (rewrite Forall_forall in F3; apply F3; apply (Permutation_in p (Permutation_sym P)); auto).
  destruct (three _ L3) as (a & b & c & ->), (three _ Ll) as (l0 & l1 & l2 & El), (three _ Lh) as (h0 & h1 & h2 & Eh).
  pose proof (Lo 0%nat ltac:(lia)) as (X0 & Y0). pose proof (Lo 1%nat ltac:(lia)) as (X1 & Y1). pose proof (Lo 2%nat ltac:(lia)) as (X2 & Y2).
  rewrite El in X0, X1, X2. rewrite Eh in Y0, Y1, Y2. cbn [nth] in X0, X1, X2, Y0, Y1, Y2. subst l0 l1 l2 h0 h1 h2. rewrite El, Eh.
  unfold fold_point, folded. cbn [combine map].
  destruct Hd as [-> | ->].
  - change (Z.to_nat 2) with 2%nat. destruct k as [|[|[|k]]]; [reflexivity|reflexivity|reflexivity|lia].
  - change (Z.to_nat 3) with 3%nat. destruct k as [|[|[|k]]]; [reflexivity|reflexivity|reflexivity|lia].
Qed.

(* vertices as reported *)
Definition plane_only (a : act) : Prop := match a with ATopology dim => dim = 2 | _ => True end.

Lemma compute2_vertices g g' l : compute_topology 2 g = Some (g', l) -> vertices g' = vertices g.
Proof.
  rewrite compute_split. destruct (infer_vertices 2 _) as [[g1 a1]|] eqn:E; cbn [bind]; [|discriminate].
  assert (S1 : vertices g1 = vertices g /\ face_check g1 = true /\ vert_check g1 = true).
  { unfold infer_vertices in E. change (2 =? 2) with true in E. cbv iota zeta in E. destruct (_ <? 2) in E; inversion E; subst; repeat split. }
  destruct S1 as (V & F & C). destruct (make_pvector 2 g1) as [[g2 a2]|] eqn:E2; cbn [bind]; [|discriminate].
  destruct (make_shape _ _ _ _ F C E2) as (_ & V2). intros H; inversion H; subst. congruence.
Qed.

Lemma estimate_vertices dim g g' : estimate_centroid dim g = Some g' -> vertices g' = vertices g.
Proof.
  unfold estimate_centroid. destruct (_ =? 0); [intros H; inversion H; reflexivity|]. destruct (_ && _); [intros H; inversion H; reflexivity|].
  destruct (bounding _ _ _). destruct (recip _); cbn [bind]; [|discriminate]. intros H. injection H as H. rewrite <- H.
  match goal with |- vertices (fold_left _ ?pts ?g0) = _ => change (vertices g) with (vertices g0); generalize g0; generalize pts; intros ps; induction ps as [|p ps IH]; intros g1; cbn [fold_left] end; [reflexivity|].
  rewrite IH. reflexivity.
Qed.

Lemma vertices_after r : forall g0 g, Forall plane_only r -> inc lexlt (vertices g0) -> fold_opt perform r g0 = Some g ->
  inc lexlt (vertices g) /\ forall v, In v (vertices g) <-> In v (vertices g0) \/ In v (reported r).
Proof.
  induction r as [|a r IH]; intros g0 g W I E; cbn in E; [inversion E; subst; split; [auto|]; cbn; tauto|].
  inversion W; subst. destruct (perform g0 a) as [g1|] eqn:E1; cbn [bind] in E; [|discriminate].
  assert (S1 : inc lexlt (vertices g1) /\ forall v, In v (vertices g1) <-> In v (vertices g0) \/ a = AVertex v).
  { destruct a; cbn in E1; try (inversion E1; subst; split; [exact I|]; intros v0; cbn; intuition discriminate).
    - inversion E1; subst. cbn [vertices update_vertices set_topo]. split; [apply inc_oinsert; [apply order_lex|auto]|].
      intros v0. rewrite in_oinsert by apply order_lex. intuition congruence.
    - cbn in H1. subst dim. destruct (compute_topology 2 g0) as [[g2 l]|] eqn:E2; cbn [bind] in E1; [|discriminate]. inversion E1; subst.
      apply compute2_vertices in E2. cbn. rewrite E2. split; [auto|]. intros v; intuition discriminate.
    - apply estimate_vertices in E1. rewrite E1. split; [auto|]. intros v; intuition discriminate. }
  destruct S1 as (I1 & S1). destruct (IH g1 g H2 I1 E) as (I2 & S2). split; [auto|]. intros v. rewrite S2, S1. cbn [reported flat_map].
  unfold reported. rewrite in_app_iff. destruct a; cbn; intuition congruence.
Qed.
