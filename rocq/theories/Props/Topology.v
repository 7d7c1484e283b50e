(* C43: grain topology; C64: grain volume; C66: grain centroid *)
From Coq Require Import QArith.QArith QArith.Qcanon Sorting.Sorted.
From Verif Require Import Model.Base Model.Stencil Model.Evolve Model.Topology Spec.Stencil Spec.Topology
  Proof.BaseL Proof.StencilL Proof.EvolveL Proof.GrainsizeL Proof.TopologyL Proof.TopologyF Proof.CentroidL.
Local Open Scope Z_scope.
Local Open Scope list_scope.

Lemma inv_shape h g g' : inv h g -> same_shape g g' -> inv h g'.
Proof. intros [] (E1 & E2 & E3 & _). split; rewrite ?E1, ?E2, ?E3; auto. Qed.
Lemma prep h g : inv h g -> inv h (set_checks g true (vert_check g)).
Proof. intros I. apply (inv_shape h g); auto. repeat split. Qed.

(* For every history of calls after which computeTopology<3> returns: the p-vector counts the faces by their number of edges,
   its entries add up to the number of faces, which is the number of distinct neighbours reported; no face has one edge *)
Theorem C43_pvector : forall i h g g' ans,
  Forall well_typed h -> grain_after i h = Some g -> boundaries h <> [] ->
  compute_topology 3 g = Some (g', ans) ->
  (forall p, 0 <= p -> nth (Z.to_nat p) (pvector g') 0 = faces_with h p) /\
  sumZ (pvector g') = num_faces g' /\
  num_faces g' = zlen (neighbours h) /\ num_edges g' = zlen (boundaries h) /\
  get_euler g' = num_verts g' - num_edges g' + num_faces g' /\
  faces_with h 1 = 0.
Proof.
  intros i h g g' ans W A B C. pose proof (after_inv i h g W A) as I. pose proof (compute_shape _ _ _ _ C) as S. pose proof (inv_shape _ _ _ I S) as I'.
  rewrite compute_split in C. destruct (infer_vertices _ _) as [[g1 a1]|] eqn:E1; cbn [bind] in C; [|discriminate].
  destruct (make_pvector 3 g1) as [[g2 a2]|] eqn:E2; cbn [bind] in C; [|discriminate]. inversion C; subst; clear C.
  apply infer_shape in E1. destruct E1 as (S1 & V1 & F1 & _). assert (inv h g1) as I1 by (apply (inv_shape _ _ _ (prep _ _ I) S1)).
  apply (make_spec h) in E2; auto. destruct E2 as (P & N & Z1). assert (faces g' = faces g) as Ef by apply S. assert (faces g1 = faces g) as Ef1 by apply S1.
  assert (num_faces g' = zlen (neighbours h)) as NF by now apply num_faces_eq.
  repeat split; auto.
  - intros p Hp. rewrite P, tally_nth by (intros; apply sides_nonneg). unfold faces_with.
    rewrite (perm_zlen _ _ (perm_filter _ _ _ (faces_perm _ _ I1))). rewrite Z2Nat.id by lia. destruct (Z.to_nat p) as [|[|k]]; cbn [nth]; lia.
  - rewrite P, tally_sum by (intros; apply sides_nonneg). change (sumZ [0]) with 0. rewrite NF. rewrite (perm_zlen _ _ (faces_perm _ _ I1)). lia.
  - now apply num_edges_eq.
  - unfold get_euler, num_verts, num_faces, num_edges. lia.
Qed.
Print Assumptions C43_pvector.

(* When the edges are pairs of reported neighbours, as mmsp2topo reports them, the vertices found are the triples of neighbours that
   meet pairwise, each once; computeTopology returns exactly if no face has a single edge; the mean number of edges per face is 2E/F *)
Theorem C43_vertices : forall i h g,
  Forall well_typed h -> grain_after i h = Some g -> paired h ->
  3 <= zlen (boundaries h) -> 3 <= zlen (neighbours h) ->
  ((exists r, compute_topology 3 g = Some r) <-> forall f, In f (neighbours h) -> sides h f <> 1) /\
  forall g' ans, compute_topology 3 g = Some (g', ans) ->
    (forall v, In v (vertices g') <-> corner h v) /\ NoDup (vertices g') /\
    ans = [0; num_verts g'; zlen (pvector g'); num_faces g'] /\
    get_pbar 3 g' = Some (g', q_of (2 * zlen (boundaries h)) / q_of (zlen (neighbours h)))%Qc.
Proof.
  intros i h g W A P HB HN. pose proof (after_inv i h g W A) as I. set (g0 := set_checks g true (vert_check g)). pose proof (prep _ _ I) as I0. fold g0 in I0.
  assert (boundaries h <> []) as Bn by (intros E; rewrite E in HB; unfold zlen in HB; cbn in HB; lia).
  destruct (infer_ok g0) as (g1 & E1 & S1 & V1 & F1 & N1 & M1).
  { rewrite (num_edges_eq _ _ I0). auto. } { rewrite (num_faces_eq _ _ I0). auto. }
  { intros e He. rewrite (i_edges_in _ _ I0) in He. destruct (P e He) as (a & b & -> & L & _). exists a, b, []. split; auto; lia. }
  pose proof (inv_shape _ _ _ I0 S1) as I1. change (face_check g0) with true in F1.
  assert (faces_with h 1 = 0 <-> forall f, In f (neighbours h) -> sides h f <> 1) as FW.
  { unfold faces_with. split.
    - intros E f Hf K. assert (In f (filter (fun f => sides h f =? 1) (neighbours h))) as Hin by (apply filter_In; split; auto; now apply Z.eqb_eq).
      destruct (filter _ _); [destruct Hin|]. rewrite zlen_cons in E. pose proof (zlen_nonneg l). lia.
    - intros K. destruct (filter _ _) as [|f l] eqn:E; [reflexivity|]. assert (In f (filter (fun f => sides h f =? 1) (neighbours h))) as Hin by (rewrite E; simpl; auto).
      apply filter_In in Hin. destruct Hin as [H1 H2]. apply Z.eqb_eq in H2. elim (K f H1 H2). }
  split.
  - rewrite <- FW. rewrite compute_split. fold g0. rewrite E1. cbn [bind]. split.
    + intros [r E]. destruct (make_pvector 3 g1) as [[g2 n]|] eqn:E2; cbn [bind] in E; [|discriminate]. apply (make_spec h) in E2; auto. apply E2.
    + intros Z1. destruct (make_success h g1) as [[g2 n] E2]; auto. rewrite E2. cbn [bind]. eauto.
  - intros g' ans C. rewrite compute_split in C. fold g0 in C. rewrite E1 in C. cbn [bind] in C.
    destruct (make_pvector 3 g1) as [[g2 n]|] eqn:E2; cbn [bind] in C; [|discriminate]. inversion C; subst; clear C.
    destruct (make_shape _ _ _ _ F1 V1 E2) as [S2 Vs]. pose proof (inv_shape _ _ _ I1 S2) as I2.
    pose proof E2 as E3. apply (make_spec h) in E3; auto. destruct E3 as (Pv & Nn & Z1).
    split; [|split; [|split]].
    + intros v. rewrite Vs, M1. symmetry. now apply corner_found.
    + now rewrite Vs.
    + unfold num_verts. rewrite Vs, Nn. reflexivity.
    + assert (face_check g' = true /\ vert_check g' = true) as [F2 V2].
      { clear - E2 F1 V1. unfold make_pvector in E2. rewrite F1 in E2. cbn [bind] in E2. rewrite V1 in E2. cbn [bind] in E2. change (3 =? 2) with false in E2. cbv iota in E2.
        destruct (_ =? 0); [inversion E2; subst; cbn; auto|]. cbv zeta in E2. destruct (get _ 1); cbn [bind] in E2; [|discriminate]. destruct (guard _); cbn [bind] in E2; [|discriminate]. inversion E2; subst; cbn; auto. }
      assert (sumZ (pvector g') = zlen (neighbours h)) as Sm.
      { rewrite Pv, tally_sum by (intros; apply sides_nonneg). change (sumZ [0]) with 0. rewrite (perm_zlen _ _ (faces_perm _ _ I1)). lia. }
      unfold get_pbar. rewrite F2, V2. cbn [andb bind]. replace (zlen (pvector g') =? 0) with false.
      2: { symmetry. apply Z.eqb_neq. intros K. destruct (pvector g'); [|rewrite zlen_cons in K; pose proof (zlen_nonneg l); lia]. change (sumZ []) with 0 in Sm. lia. }
      cbn [bind]. change (3 =? 2) with false. cbv iota. rewrite (weigh_eq (sides h) (sides_nonneg h)). rewrite !Z.add_0_l, Sm.
      rewrite recip_eq by (intros K; apply q_of_0 in K; lia). cbn [bind]. unfold Qcdiv. do 4 f_equal.
      rewrite Pv, tally_moment by (intros; apply sides_nonneg). change (moment 0 [0]) with 0.
      change (map (sides h) (faces g1)) with (map (fun f => zlen (filter (holds f) (boundaries h))) (faces g1)).
      rewrite count_ends.
      * assert (forall l : list (list Z), (forall e, In e l -> zlen e = 2) -> sumZ (map zlen l) = 2 * zlen l) as T.
        { induction l as [|e l IH]; intros K; cbn [map]; [reflexivity|]. rewrite sumZ_cons, zlen_cons, IH, (K e) by (intros; try apply K; simpl; auto). lia. }
        rewrite T; [lia|]. intros e He. destruct (P e He) as (a & b & -> & _). reflexivity.
      * apply (inc_nodup _ order_Z), I1.
      * intros e He. destruct (P e He) as (a & b & -> & L & Ha & Hb). split.
        -- repeat constructor; simpl; intuition lia.
        -- intros x [<-|[<-|[]]]; now apply (i_faces_in _ _ I1).
Qed.
Print Assumptions C43_vertices.

(* Faces with a single edge are not removed: whatever the grain, checkFaces reports none and changes no face and no edge *)
Theorem C43_check_faces_noop : forall dim g, exists g', check_faces dim g = Some (g', 0) /\ faces g' = faces g /\ edges g' = edges g.
Proof. intros dim g. rewrite check_faces_eq. eexists. repeat split. Qed.
Print Assumptions C43_check_faces_noop.

(* so that a grain reported as by mmsp2topo, one of whose faces has a single edge, stops the analysis with a failed assertion *)
Theorem C43_single_edge_refuted : exists i h g,
  Forall well_typed h /\ paired h /\ grain_after i h = Some g /\
  (exists f, In f (neighbours h) /\ sides h f = 1) /\ compute_topology 3 g = None.
Proof.
  exists 9, [AEdge [1; 2] [5; 5; 5]; ANeighbor 1; ANeighbor 2; AEdge [1; 3] [5; 6; 5]; ANeighbor 3; AEdge [2; 3] [6; 6; 5]; AEdge [3; 4] [7; 7; 7]; ANeighbor 4].
  eexists. split; [|split; [|split; [reflexivity|split]]].
  - repeat constructor; lia.
  - intros e He. cbn in He. destruct He as [<-|[<-|[<-|[<-|[]]]]]; do 2 eexists; (split; [reflexivity|]); (split; [lia|]); cbn; auto 6.
  - exists 4. split; [cbn; auto|reflexivity].
  - vm_compute. reflexivity.
Qed.
Print Assumptions C43_single_edge_refuted.

(* In the plane every edge is a face of its own: the p-vector holds the number of edges at index two, and the vertices are those
   reported, each once *)
Theorem C43_plane : forall i h g g' ans,
  Forall well_typed h -> Forall (fun a => match a with ATopology dim => dim = 2 | _ => True end) h ->
  grain_after i h = Some g -> compute_topology 2 g = Some (g', ans) ->
  pvector g' = [0; 0; zlen (boundaries h)] /\ num_edges g' = zlen (boundaries h) /\
  NoDup (vertices g') /\ (forall v, In v (vertices g') <-> In v (reported h)) /\
  ans = [0; if zlen (boundaries h) <? 2 then -1 else num_verts g'; 3; zlen (neighbours h)].
Proof.
  intros i h g g' ans W P A C. pose proof (after_inv i h g W A) as I. pose proof (num_edges_eq _ _ I) as NE. pose proof (num_faces_eq _ _ I) as NF.
  destruct (vertices_after h (grain_new i) g P) as (In1 & In2); [constructor|exact A|].
  pose proof (compute2_vertices _ _ _ C) as V. rewrite V. rewrite compute_split in C.
  assert (X : pvector g' = [0; 0; zlen (boundaries h)] /\ num_edges g' = zlen (boundaries h) /\
              ans = [0; if zlen (boundaries h) <? 2 then -1 else num_verts g'; 3; zlen (neighbours h)]).
  { unfold infer_vertices in C. cbv zeta in C. change (2 =? 2) with true in C. cbv iota in C.
    unfold num_edges, num_faces in *. cbn [edges set_checks] in C. rewrite NE in C. destruct (zlen (boundaries h) <? 2); cbn [bind] in C; unfold make_pvector in C; cbn [bind face_check vert_check set_checks] in C; change (2 =? 2) with true in C; cbv iota in C; cbn [bind] in C;
      inversion C; subst; unfold num_edges, num_faces, num_verts; cbn; rewrite NE, NF; auto. }
  destruct X as (X1 & X2 & X3). split; [auto|]. split; [auto|]. split; [|split; [|auto]].
  - apply (inc_nodup _ order_lex), In1.
  - intros v. rewrite In2. cbn. tauto.
Qed.
Print Assumptions C43_plane.
Example C43_plane_case :
  let h := [AEdge [1; 2] [5; 5; 0]; AVertex [1; 2; 3]; AVertex [1; 2; 4]; AEdge [1; 3] [5; 6; 0]; AVertex [1; 2; 3]] in
  (do g <- grain_after 1 h; do r <- compute_topology 2 g; Some (pvector (fst r), vertices (fst r), snd r)) =
  Some ([0; 0; 2], [[1; 2; 3]; [1; 2; 4]], [0; 2; 3; 0]).
Proof. reflexivity. Qed.

(* C64: the volume of a grain is the mass given to it, whatever is called in between: in particular estimating the centroid
   preserves it *)
Theorem C64_volume : forall i h g, Forall well_typed h -> grain_after i h = Some g -> volume g = mass h.
Proof.
  intros i h. unfold grain_after. assert (forall r d g0 g, Forall well_typed r -> inv d g0 -> fold_opt perform r g0 = Some g -> volume g = (volume g0 + mass r)%Qc) as X.
  { induction r as [|a r IH]; intros d g0 g W I E; cbn in E; [inversion E; subst; cbn; ring|]. inversion W; subst.
    destruct (perform g0 a) as [g1|] eqn:E1; cbn [bind] in E; [|discriminate]. pose proof (perform_inv _ _ _ _ I H1 E1) as I1.
    rewrite (IH _ _ _ H2 I1 E). unfold mass. cbn [map sumQ].
    destruct a; cbn in E1; try (inversion E1; subst; cbn; ring).
    - destruct (compute_topology dim g0) as [[g2 l]|] eqn:E2; cbn [bind] in E1; [|discriminate]. inversion E1; subst. apply compute_shape in E2. cbn. destruct E2 as (_ & _ & _ & -> & _). ring.
    - destruct (estimate_ok dim g0 d I) as (g2 & E2 & _ & _ & Ev & _). rewrite E2 in E1. inversion E1; subst. rewrite Ev. ring. }
  intros g W E. rewrite (X h [] (grain_new i) g W (inv_new i) E). cbn. ring.
Qed.
Print Assumptions C64_volume.

(* a tetrahedral grain: 4 faces with 3 edges each, 6 edges, 4 vertices *)
Definition tetrahedron : list act :=
  [AMass 1%Qc [Q2Qc 5; Q2Qc 5; Q2Qc 5]; AEdge [1; 2] [5; 5; 5]; ANeighbor 1; ANeighbor 2; AEdge [1; 3] [5; 6; 5]; ANeighbor 3; AEdge [2; 3] [6; 6; 5];
   AEdge [1; 4] [5; 5; 9]; AEdge [2; 4] [6; 5; 9]; AEdge [3; 4] [6; 6; 9]; ANeighbor 4; AEdge [3; 4] [6; 6; 8]; ACentroid 3; AMass (Q2Qc (1 # 2)) [Q2Qc 6; Q2Qc 5; Q2Qc 5]].
Example C43_case : Forall well_typed tetrahedron /\ paired tetrahedron /\
  (do g <- grain_after 9 tetrahedron; do r <- compute_topology 3 g;
   Some (snd r, pvector (fst r), vertices (fst r), get_euler (fst r), this (volume (fst r)))) =
  Some ([0; 4; 4; 4], [0; 0; 0; 4], [[1; 2; 3]; [1; 2; 4]; [1; 3; 4]; [2; 3; 4]], 2, (3 # 2)%Q).
Proof.
  split; [repeat constructor; lia|]. split; [|vm_compute; reflexivity].
  intros e He. vm_compute in He. repeat (destruct He as [<-|He]; [do 2 eexists; split; [reflexivity|]; split; [lia|]; cbn; auto 8|]). destruct He.
Qed.

(* C66: the centroid of a grain is the mean of the points of the mass given to it, weighted with the mass, whatever else is reported
   or computed *)
Theorem C66_centroid : forall i h g, Forall well_typed h -> Forall (fun a => match a with ACentroid _ => False | _ => True end) h ->
  grain_after i h = Some g -> mass h <> 0%Qc ->
  get_centroid g = Some (map (fun k => first_moment k h / mass h)%Qc [0%nat; 1%nat; 2%nat]).
Proof.
  intros i h g W Ne A M. pose proof (C64_volume i h g W A) as V. pose proof (after_inv i h g W A) as I.
  rewrite get_centroid_eq by (rewrite ?V; auto; apply I). rewrite V. f_equal. apply map_ext_in. intros k Hk. f_equal.
  rewrite (moment_after h [] (grain_new i) g k W Ne (inv_new i) A). change (centroid (grain_new i)) with [0%Qc; 0%Qc; 0%Qc].
  replace (nth k [0%Qc; 0%Qc; 0%Qc] 0%Qc) with 0%Qc by (cbn in Hk; destruct Hk as [<-|[<-|[<-|[]]]]; reflexivity). ring.
Qed.
Print Assumptions C66_centroid.

(* Estimated from the edges, it is the mean of the reported points, each coordinate counted from the greatest one when that is nearer *)
Theorem C66_estimate : forall i h g dim, Forall well_typed h -> grain_after i h = Some g -> dim = 2 \/ dim = 3 ->
  boundaries h <> [] -> (dim = 3 -> neighbours h <> []) -> mass h <> 0%Qc ->
  exists g', estimate_centroid dim g = Some g' /\
    get_centroid g' = Some (map (fun k => sumQ (map (fun p : list Z => q_of (if (k <? Z.to_nat dim)%nat then folded k h (nth k p 0%Z) else nth k p 0%Z)) (points h))
                                          / q_of (zlen (points h)))%Qc [0%nat; 1%nat; 2%nat]).
Proof.
  intros i h g dim W A D B Nb M. apply (estimate_centroid_ok i); auto. now rewrite (C64_volume i h g W A).
Qed.
Print Assumptions C66_estimate.

Example C66_case : Forall well_typed (firstn 12 tetrahedron) /\ mass (firstn 12 tetrahedron) <> 0%Qc /\ boundaries (firstn 12 tetrahedron) <> [] /\
  neighbours (firstn 12 tetrahedron) <> [].
Proof. split; [repeat constructor; lia|]. split; [vm_compute; discriminate|]. split; vm_compute; discriminate. Qed.

(* Counting from the greatest coordinate suits a grain cut by a periodic boundary only.  For a grain elsewhere the estimate is wrong:
   here it lies outside the box of the points it is the mean of. *)
Theorem C66_estimate_refuted : exists i h g g' c,
  Forall well_typed h /\ grain_after i h = Some g /\ estimate_centroid 2 g = Some g' /\ get_centroid g' = Some c /\
  Forall (fun p => 40 <= nth 0 p 0 <= 60) (points h) /\ (nth 0 c 0 < q_of 40)%Qc.
Proof.
  exists 1, [AMass (q_of 400) [q_of 50; q_of 50; 0%Qc]; AEdge [2; 3] [40; 40; 0]; AEdge [2; 4] [60; 40; 0]; AEdge [3; 4] [60; 60; 0]; AEdge [3; 5] [40; 60; 0]].
  do 3 eexists. split; [repeat constructor; lia|]. split; [reflexivity|]. split; [vm_compute; reflexivity|]. split; [vm_compute; reflexivity|].
  split; [repeat constructor; cbn; lia|]. reflexivity.
Qed.
Print Assumptions C66_estimate_refuted.
