(* C114: what mmsp2topo reports on the screen *)
From Coq Require Import QArith.QArith QArith.Qcanon Sorting.Sorted.
From Verif Require Import Model.Base Model.Num Model.Layout Model.Access Model.Sparse Model.Evolve Model.Topology Model.Tessellate Model.Topo Model.Report
  Spec.Box Spec.Stencil Spec.Evolve Spec.Topology Spec.Table Spec.Topo Spec.Report
  Proof.BaseL Proof.LayoutL Proof.TopoL Proof.EvolveL Proof.TopoF Proof.TopoT Proof.ReportL Props.Topo.
Local Open Scope Z_scope.

(* The grains called bulk grains are those whose field sums to at least 1 over the nodes, the others are called surface grains and are
   counted once more as grains of zero volume; the counters for the boundary of the domain, the exclusion zone and missing faces are
   always 0; the last one counts the bulk grains without edges.  A table has been written. *)
Theorem C114_counts : forall ls data F G A xs scale r,
  zlen ls = 2 \/ zlen ls = 3 -> Forall (fun l => l_x0 l <= l_x1 l) ls -> microstructure ls F G A -> grid_of ls data F ->
  all_nodes (map l_x0 ls) (map l_x1 ls) (fun _ => True) xs -> screen (lay 0 ls) data scale = Some r ->
  number (large F xs) (r_bulk r) /\ number (tiny F xs) (r_surface r) /\ r_zero_volume r = r_surface r /\
  r_boundary r = 0 /\ r_zone r = 0 /\ r_zero_faces r = 0 /\
  number (fun a => large F xs a /\ edges_of ls G A a []) (r_zero_edges r) /\
  exists hd bulk rest span, mmsp2topo (lay 0 ls) data = Some (hd, bulk, rest, span).
Proof.
  intros ls data F G A xs scale r D Hl HM HG Hxs E. assert (length ls = 2%nat \/ length ls = 3%nat) as L by (unfold zlen in D; lia).
  destruct (screen_spec ls data F G A L Hl HM HG xs Hxs scale r E) as (ids & [So Pr] & T & R1 & R2 & R3 & _ & _ & _ & R4 & R5 & R6 & R7 & _).
  assert (listing (large F xs) (filter (fun a => negb (qgt 1%Qc (amount F xs a))) ids)) as B1.
  { split; [now apply sorted_filter|]. intros a. rewrite filter_In, Pr. unfold large. rewrite negb_true_iff, qgt_false. tauto. }
  assert (listing (tiny F xs) (filter (fun a => qgt 1%Qc (amount F xs a)) ids)) as B2.
  { split; [now apply sorted_filter|]. intros a. rewrite filter_In, Pr. unfold tiny. rewrite qgt_true. tauto. }
  assert (zlen (filter (fun a => qgt 1%Qc (amount F xs a)) ids) = zlen ids - zlen (filter (fun a => negb (qgt 1%Qc (amount F xs a))) ids)) as Z0.
  { clear. induction ids as [|a l IH]; [reflexivity|]. cbn [filter]. destruct (qgt 1%Qc (amount F xs a)); cbn [negb]; rewrite !zlen_cons; lia. }
  split; [eexists; split; [exact B1|exact R1]|]. split; [eexists; split; [exact B2|lia]|]. split; [lia|]. do 3 (split; [assumption|]). split; [|exact T].
  eexists. split; [|exact R7]. destruct B1 as [S1 M1]. split; [now apply sorted_filter|]. intros a. rewrite filter_In, M1. unfold no_edge. rewrite Z.eqb_eq. split; intros [H K]; (split; [exact H|]).
  - pose proof (edges_hist ls F G A L xs Hxs a) as Eh. destruct (boundaries (history (zlen ls) F G A xs a)) as [|e es]; [exact Eh|]. rewrite zlen_cons in K. pose proof (zlen_nonneg es). lia.
  - now rewrite <- (edges_len ls F G A L xs Hxs a [] K).
Qed.
Print Assumptions C114_counts.

(* The average volume is the sum of the volumes of the bulk grains over their number, the average centre that of their centres; without
   bulk grains the program divides by zero and has no averages. *)
Theorem C114_averages : forall ls data F G A xs scale r l,
  zlen ls = 2 \/ zlen ls = 3 -> Forall (fun l => l_x0 l <= l_x1 l) ls -> microstructure ls F G A -> grid_of ls data F ->
  all_nodes (map l_x0 ls) (map l_x1 ls) (fun _ => True) xs -> screen (lay 0 ls) data scale = Some r -> listing (large F xs) l -> l <> [] ->
  r_volume r = Some (cell_size scale * sumQ (map (amount F xs) l) / q_of (zlen l))%Qc /\
  r_centre r = Some (map (fun k => sumQ (map (middle F xs k) l) / q_of (zlen l))%Qc [0; 1; 2]%nat).
Proof.
  intros ls data F G A xs scale r l D Hl HM HG Hxs E Li Ne. assert (length ls = 2%nat \/ length ls = 3%nat) as L by (unfold zlen in D; lia).
  destruct (screen_spec ls data F G A L Hl HM HG xs Hxs scale r E) as (ids & [So Pr] & _ & _ & _ & _ & R1 & R2 & _).
  assert (filter (fun a => negb (qgt 1%Qc (amount F xs a))) ids = l) as El.
  { destruct Li as [S M]. apply sorted_same; [now apply sorted_filter|exact S|]. intros a. rewrite filter_In, Pr, M. unfold large. rewrite negb_true_iff, qgt_false. tauto. }
  rewrite El in *. auto.
Qed.
Print Assumptions C114_averages.

(* The lower end of the span of the centres is, on every axis, the least of 1000 and the coordinates of the centres of the bulk grains,
   cut to whole numbers; the upper end is 0 or one of those coordinates. *)
Theorem C114_low : forall ls data F G A xs scale r k,
  zlen ls = 2 \/ zlen ls = 3 -> Forall (fun l => l_x0 l <= l_x1 l) ls -> microstructure ls F G A -> grid_of ls data F ->
  all_nodes (map l_x0 ls) (map l_x1 ls) (fun _ => True) xs -> screen (lay 0 ls) data scale = Some r -> (k < length ls)%nat ->
  nth k (r_min r) 0 <= 1000 /\ (forall a, large F xs a -> nth k (r_min r) 0 <= truncZ (middle F xs k a)) /\
  (nth k (r_min r) 0 = 1000 \/ exists a, large F xs a /\ nth k (r_min r) 0 = truncZ (middle F xs k a)) /\
  0 <= nth k (r_max r) 0 /\ (nth k (r_max r) 0 = 0 \/ exists a, large F xs a /\ nth k (r_max r) 0 = truncZ (middle F xs k a)).
Proof.
  intros ls data F G A xs scale r k D Hl HM HG Hxs E K. assert (length ls = 2%nat \/ length ls = 3%nat) as L by (unfold zlen in D; lia).
  destruct (screen_spec ls data F G A L Hl HM HG xs Hxs scale r E) as (ids & [So Pr] & _ & _ & _ & _ & _ & _ & R & _). specialize (R k ltac:(unfold zlen; lia)).
  set (big := filter _ ids) in R. assert (forall a, In a big <-> large F xs a) as B by (intros a; unfold big; rewrite filter_In, Pr; unfold large; rewrite negb_true_iff, qgt_false; tauto).
  destruct (span_low (map (middle F xs k) big) (1000, 0)) as (S1 & S2 & S3). destruct (span_high (map (middle F xs k) big) (1000, 0)) as (S4 & S5). rewrite <- R in S1, S2, S3, S4, S5. cbn [fst snd] in *.
  split; [exact S1|]. split. { intros a Ha. rewrite Forall_forall in S2. apply S2, in_map, B, Ha. }
  split. { destruct S3 as [S3|(c & Ic & S3)]; [now left|]. right. apply in_map_iff in Ic as (a & <- & Ia). exists a. split; [now apply B|exact S3]. }
  split; [exact S4|]. destruct S5 as [S5|(c & Ic & S5)]; [now left|]. right. apply in_map_iff in Ic as (a & <- & Ia). exists a. split; [now apply B|exact S5].
Qed.
Print Assumptions C114_low.
(* The upper end is right for the bulk grains other than the first when none of them has its centre below that of the first. *)
Theorem C114_high : forall ls data F G A xs scale r k a l,
  zlen ls = 2 \/ zlen ls = 3 -> Forall (fun l => l_x0 l <= l_x1 l) ls -> microstructure ls F G A -> grid_of ls data F ->
  all_nodes (map l_x0 ls) (map l_x1 ls) (fun _ => True) xs -> screen (lay 0 ls) data scale = Some r -> (k < length ls)%nat ->
  listing (large F xs) (a :: l) -> (middle F xs k a < q_of 1000)%Qc -> Forall (fun b => q_of (truncZ (middle F xs k a)) <= middle F xs k b)%Qc l ->
  nth k (r_min r) 0 = truncZ (middle F xs k a) /\ Forall (fun b => truncZ (middle F xs k b) <= nth k (r_max r) 0) l.
Proof.
  intros ls data F G A xs scale r k a l D Hl HM HG Hxs E K Li La Ll. assert (length ls = 2%nat \/ length ls = 3%nat) as L by (unfold zlen in D; lia).
  destruct (screen_spec ls data F G A L Hl HM HG xs Hxs scale r E) as (ids & [So Pr] & _ & _ & _ & _ & _ & _ & R & _). specialize (R k ltac:(unfold zlen; lia)).
  assert (filter (fun a => negb (qgt 1%Qc (amount F xs a))) ids = a :: l) as El.
  { destruct Li as [S M]. apply sorted_same; [now apply sorted_filter|exact S|]. intros b. rewrite filter_In, Pr, M. unfold large. rewrite negb_true_iff, qgt_false. tauto. }
  rewrite El in R. cbn [map fold_left] in R. unfold widen1 at 2 in R. cbn [fst snd] in R. apply qgt_true in La. rewrite La in R.
  destruct (span_high_all (map (middle F xs k) l) (truncZ (middle F xs k a), 0)) as [S1 S2]; [apply Forall_map; exact Ll|]. rewrite <- R in S1, S2. cbn [fst snd] in *. split; [exact S1|]. now rewrite Forall_map in S2.
Qed.
Print Assumptions C114_high.
(* In general it is not: when the centre of every bulk grain is below the whole part of those before it, the program reports 0. *)
Theorem C114_high_refuted : forall ls data F G A xs scale r k l,
  zlen ls = 2 \/ zlen ls = 3 -> Forall (fun l => l_x0 l <= l_x1 l) ls -> microstructure ls F G A -> grid_of ls data F ->
  all_nodes (map l_x0 ls) (map l_x1 ls) (fun _ => True) xs -> screen (lay 0 ls) data scale = Some r -> (k < length ls)%nat ->
  listing (large F xs) l -> Forall (fun a => middle F xs k a < q_of 1000)%Qc l -> StronglySorted (fun a b => middle F xs k b < q_of (truncZ (middle F xs k a)))%Qc l ->
  nth k (r_max r) 0 = 0.
Proof.
  intros ls data F G A xs scale r k l D Hl HM HG Hxs E K Li La Ll. assert (length ls = 2%nat \/ length ls = 3%nat) as L by (unfold zlen in D; lia).
  destruct (screen_spec ls data F G A L Hl HM HG xs Hxs scale r E) as (ids & [So Pr] & _ & _ & _ & _ & _ & _ & R & _). specialize (R k ltac:(unfold zlen; lia)).
  assert (filter (fun a => negb (qgt 1%Qc (amount F xs a))) ids = l) as El.
  { destruct Li as [S M]. apply sorted_same; [now apply sorted_filter|exact S|]. intros b. rewrite filter_In, Pr, M. unfold large. rewrite negb_true_iff, qgt_false. tauto. }
  rewrite El in R. change (nth k (r_max r) 0) with (snd (nth k (r_min r) 0, nth k (r_max r) 0)). rewrite R, span_falls; [reflexivity| |].
  - apply Forall_map. exact La.
  - clear - Ll. induction Ll as [|a l S IH H]; cbn [map]; constructor; [exact IH|]. apply Forall_map. exact H.
Qed.
Print Assumptions C114_high_refuted.

(* In space: of the bulk grains with edges, those with E <> 3F - 6 violate Plateau's law, and those with 2 |3F - 6 - E| / F > 1/100
   differ from Smith's formula; the second are some of the first, and all of them as long as no grain has 200 faces. *)
Theorem C114_rules : forall ls data F G A xs scale r,
  zlen ls = 3 -> Forall (fun l => l_x0 l <= l_x1 l) ls -> microstructure ls F G A -> grid_of ls data F ->
  all_nodes (map l_x0 ls) (map l_x1 ls) (fun _ => True) xs -> screen (lay 0 ls) data scale = Some r ->
  let judged rule a := large F xs a /\ exists fs es, faces_of ls G A a fs /\ edges_of ls G A a es /\ es <> [] /\ rule (zlen fs) (zlen es) in
  number (judged (fun f e => e <> 3 * f - 6)) (r_plateau r) /\ number (judged (fun f e => f < 200 * Z.abs (3 * f - 6 - e))) (r_smith r) /\
  r_smith r <= r_plateau r /\ ((forall a fs, large F xs a -> faces_of ls G A a fs -> zlen fs < 200) -> r_smith r = r_plateau r) /\
  r_smith_of r = r_bulk r /\ r_plateau_of r = r_bulk r + r_surface r.
Proof.
  intros ls data F G A xs scale r D Hl HM HG Hxs E judged. assert (length ls = 3%nat) as L3 by (unfold zlen in D; lia). assert (length ls = 2%nat \/ length ls = 3%nat) as L by auto.
  destruct (screen_spec ls data F G A L Hl HM HG xs Hxs scale r E) as (ids & [So Pr] & (hd & bulk & rest & span & T) & R1 & R2 & _ & _ & _ & _ & _ & _ & _ & _ & R3 & R4 & R5 & R6).
  set (big := filter (fun a => negb (qgt 1%Qc (amount F xs a))) ids) in *. assert (StronglySorted Z.lt big /\ forall a, In a big <-> large F xs a) as [Sb B].
  { split; [now apply sorted_filter|]. intros a. unfold big. rewrite filter_In, Pr. unfold large. rewrite negb_true_iff, qgt_false. tauto. }
  destruct (run_parts ls data F G A L Hl HM HG xs Hxs hd bulk rest span T) as (m & m' & p & n & St & _ & _ & _ & _ & _ & Em & An & _).
  assert (forall a, large F xs a -> exists fs, faces_of ls G A a fs) as Fx.
  { intros a [Pa _]. assert (In a (map fst m')) as Ia by (rewrite Em; now apply (ids_present ls F G A L HM xs Hxs)). apply in_map_iff in Ia as ([a' g] & Ea & Ia). cbn in Ea. subst a'. rewrite Forall_forall in An. specialize (An _ Ia).
    destruct (analysed_facts ls F G A L HM xs Hxs p n a g An) as (I & _). exists (faces g). apply (faces_of_hist ls F G A L xs Hxs D a g _ I). apply (sized_same (history (zlen ls) F G A xs a)). }
  assert (forall (rule : Z -> Z -> Prop) (q : Z -> bool),
    (forall a, q a = true <-> rule (zlen (neighbours (history (zlen ls) F G A xs a))) (zlen (boundaries (history (zlen ls) F G A xs a)))) ->
    listing (judged rule) (filter (fun a => negb (no_edge ls F G A xs a) && q a) big)) as X.
  { intros rule q Q. split; [now apply sorted_filter|]. intros a. rewrite filter_In, B, andb_true_iff, negb_true_iff, Q. unfold judged, no_edge. rewrite Z.eqb_neq. split.
    - intros (La & Ne & Ru). split; [exact La|]. destruct (Fx a La) as (fs & Hf). exists fs, (boundaries (history (zlen ls) F G A xs a)). split; [exact Hf|]. split; [apply (edges_hist ls F G A L xs Hxs)|]. split; [intros K; rewrite K in Ne; now apply Ne|].
      now rewrite (faces_len ls F G A L xs Hxs a fs D Hf).
    - intros (La & fs & es & Hf & He & Ne & Ru). rewrite <- (edges_len ls F G A L xs Hxs a es He), <- (faces_len ls F G A L xs Hxs a fs D Hf). split; [exact La|]. split; [|exact Ru]. intros K. apply Ne. destruct es; [reflexivity|]. rewrite zlen_cons in K. pose proof (zlen_nonneg es). lia. }
  assert (zlen ls =? 2 = false) as D2 by (rewrite D; reflexivity).
  split. { eexists. split; [|exact R4]. apply X. intros a. unfold plateau_ok. rewrite D2, negb_true_iff, Z.eqb_neq. tauto. }
  split. { eexists. split; [|exact R3]. apply X. intros a. unfold smith_bad. rewrite D2, Z.ltb_lt. tauto. }
  split.
  { rewrite R3, R4. clear - D2. induction big as [|a l IH]; cbn [filter]; [lia|]. unfold smith_bad at 1, plateau_ok at 1. rewrite D2. destruct (negb (no_edge ls F G A xs a)); cbn [andb]; [|exact IH].
    set (f := zlen (neighbours _)). set (e := zlen (boundaries _)). assert (0 <= f) by apply zlen_nonneg. destruct (Z.ltb_spec f (200 * Z.abs (3 * f - 6 - e))); destruct (Z.eqb_spec e (3 * f - 6)); cbn [negb]; rewrite ?zlen_cons; lia. }
  split; [|split; [congruence|lia]].
  intros Few. rewrite R3, R4. f_equal. apply filter_ext_in. intros a Ia. f_equal. unfold smith_bad, plateau_ok. rewrite D2. destruct (Fx a (proj1 (B a) Ia)) as (fs & Hf). specialize (Few a fs (proj1 (B a) Ia) Hf). rewrite (faces_len ls F G A L xs Hxs a fs D Hf) in Few.
  set (f := zlen (neighbours _)) in *. set (e := zlen (boundaries _)) in *. assert (0 <= f) by apply zlen_nonneg. destruct (Z.ltb_spec f (200 * Z.abs (3 * f - 6 - e))); destruct (Z.eqb_spec e (3 * f - 6)); cbn [negb]; auto; lia.
Qed.
Print Assumptions C114_rules.
(* In the plane, the bulk grains with edges that do not have as many corners; Smith's formula is not tested. *)
Theorem C114_plane_rules : forall ls data F G A xs scale r,
  zlen ls = 2 -> Forall (fun l => l_x0 l <= l_x1 l) ls -> microstructure ls F G A -> grid_of ls data F ->
  all_nodes (map l_x0 ls) (map l_x1 ls) (fun _ => True) xs -> screen (lay 0 ls) data scale = Some r ->
  number (fun a => large F xs a /\ exists vs es, plane_corners_of ls A a vs /\ edges_of ls G A a es /\ es <> [] /\ zlen vs <> zlen es) (r_plateau r) /\ r_smith r = 0.
Proof.
  intros ls data F G A xs scale r D Hl HM HG Hxs E. assert (length ls = 2%nat) as L2 by (unfold zlen in D; lia). assert (length ls = 2%nat \/ length ls = 3%nat) as L by auto.
  destruct (screen_spec ls data F G A L Hl HM HG xs Hxs scale r E) as (ids & [So Pr] & _ & _ & _ & _ & _ & _ & _ & _ & _ & _ & _ & R3 & R4 & _).
  set (big := filter (fun a => negb (qgt 1%Qc (amount F xs a))) ids) in *. assert (StronglySorted Z.lt big /\ forall a, In a big <-> large F xs a) as [Sb B].
  { split; [now apply sorted_filter|]. intros a. unfold big. rewrite filter_In, Pr. unfold large. rewrite negb_true_iff, qgt_false. tauto. }
  assert (zlen ls =? 2 = true) as D2 by (rewrite D; reflexivity). split.
  - eexists. split; [|exact R4]. split; [now apply sorted_filter|]. intros a. rewrite filter_In, B, andb_true_iff, !negb_true_iff. unfold no_edge, plateau_ok. rewrite D2, !Z.eqb_neq. set (hs := history (zlen ls) F G A xs a). split.
    + intros (La & Ne & Ru). split; [exact La|]. exists (nodup (list_eq_dec Z.eq_dec) (reported hs)), (boundaries hs). split.
      { split; [apply NoDup_nodup|]. intros v. rewrite nodup_In. unfold hs. rewrite (history_vertices ls F G A L xs Hxs). tauto. }
      split; [apply (edges_hist ls F G A L xs Hxs)|]. split; [intros K; rewrite K in Ne; now apply Ne|exact Ru].
    + intros (La & vs & es & Hv & He & Ne & Ru). unfold hs. rewrite <- (edges_len ls F G A L xs Hxs a es He), <- (corners_len ls F G A L xs Hxs a vs D Hv). split; [exact La|]. split; [|exact Ru]. intros K. apply Ne. destruct es; [reflexivity|]. rewrite zlen_cons in K. pose proof (zlen_nonneg es). lia.
  - rewrite R3. clear - D2. induction big as [|a l IH]; cbn [filter]; [reflexivity|]. unfold smith_bad at 1. rewrite D2, andb_false_r. exact IH.
Qed.
Print Assumptions C114_plane_rules.

Local Notation cube := [c79_lim 6; c79_lim 6; c79_lim 6].
(* the ball within four others: five bulk grains of 216/5 nodes *)
Example C114_case : exists r, screen (lay 0 cube) (c79_data cube (fun x => [(c79_ball x, 1%Qc)])) [1%Qc; 1%Qc; 1%Qc] = Some r /\
  (r_bulk r, r_surface r, r_smith r, r_plateau r) = (5, 0, 0, 0) /\ r_volume r = Some (q_of 216 / q_of 5)%Qc.
Proof. eexists. split; [vm_compute; reflexivity|]. split; vm_compute; reflexivity. Qed.
(* two halves of a cube, of which the one named first is the farther: the first axis is said to span 1 to 0, though one of the centres is
   at 4; both fill a side of the box and neither is called a surface grain *)
Definition c114_half (x : list Z) : Z := if nth 0 x 0 <? 3 then 2 else 1.
Example C114_half_case : exists r, screen (lay 0 cube) (c79_data cube (fun x => [(c114_half x, 1%Qc)])) [1%Qc; 1%Qc; 1%Qc] = Some r /\
  (r_bulk r, r_surface r, r_min r, r_max r) = (2, 0, [1; 2; 2], [0; 2; 2]) /\ r_zero_edges r = 2.
Proof. eexists. split; [vm_compute; reflexivity|]. split; vm_compute; reflexivity. Qed.
(* three grains that meet once in the plane *)
Example C114_plane_case : exists r, screen (lay 0 [c79_lim 4; c79_lim 7]) (c79_data [c79_lim 4; c79_lim 7] (fun x => [(c79_plane x, 1%Qc)])) [q_of 2; q_of 3] = Some r /\
  (r_bulk r, r_surface r, r_smith r, r_plateau r) = (3, 0, 0, 0) /\ r_volume r = Some (q_of 6 * q_of 28 / q_of 3)%Qc /\ (r_min r, r_max r) = ([0; 1; 0], [1; 5; 0]).
Proof. eexists. split; [vm_compute; reflexivity|]. split; [|split]; vm_compute; reflexivity. Qed.
(* both meet the hypotheses *)
Example C114_case_ok : forall ls, In ls [cube; [c79_lim 4; c79_lim 7]] -> forall g, In g [c79_ball; c114_half; c79_plane] -> exists G A xs, (zlen ls = 2 \/ zlen ls = 3) /\ Forall (fun l => l_x0 l <= l_x1 l) ls /\
  microstructure ls (fun x => [(g x, 1%Qc)]) G A /\ grid_of ls (c79_data ls (fun x => [(g x, 1%Qc)])) (fun x => [(g x, 1%Qc)]) /\ all_nodes (map l_x0 ls) (map l_x1 ls) (fun _ => True) xs.
Proof.
  intros ls Hl g Hg. assert ((zlen ls = 2 \/ zlen ls = 3) /\ Forall (fun l => l_x0 l <= l_x1 l) ls) as [D L] by (destruct Hl as [<-|[<-|[]]]; (split; [unfold zlen; cbn [length]; lia|repeat constructor; cbn; lia])).
  destruct (c79_hypotheses ls g D L) as (G & A & xs & H).
  - intros x. destruct Hg as [<-|[<-|[<-|[]]]].
    + unfold c79_ball. destruct (map _ x) as [|a [|b [|c [|]]]]; try lia. cbv zeta. repeat (match goal with |- context [if ?c then _ else _] => destruct c end; try lia).
    + unfold c114_half. destruct (_ <? _); lia.
    + unfold c79_plane. destruct x as [|a [|b [|]]]; try lia. repeat (match goal with |- context [if ?c then _ else _] => destruct c end; try lia).
  - exists G, A, xs. auto.
Qed.
