(* C79: mmsp2topo reports the grains of the microstructure stored in the file *)
From Coq Require Import QArith.QArith QArith.Qcanon Sorting.Sorted.
From Verif Require Import Model.Base Model.Num Model.Layout Model.Access Model.Sparse Model.Evolve Model.Topology Model.Tessellate Model.Topo
  Spec.Box Spec.Stencil Spec.Evolve Spec.Topology Spec.Table Spec.Topo Spec.TopoRest
  Proof.BaseL Proof.LayoutL Proof.AccessL Proof.EvolveL Proof.TopoL Proof.TopoF Proof.TopoA Proof.TopoT.
Local Open Scope Z_scope.

(* In space the program writes its table exactly if no face of a stored grain has a single edge, and the coordinates of every centre that is
   to be written are ints; an excluded grain with faces must have a volume other than 0. *)
Theorem C79_space_written : forall ls data F G A xs,
  zlen ls = 3 -> Forall (fun l => l_x0 l <= l_x1 l) ls -> microstructure ls F G A -> grid_of ls data F ->
  all_nodes (map l_x0 ls) (map l_x1 ls) (fun _ => True) xs ->
  (exists r, mmsp2topo (lay 0 ls) data = Some r) <-> space_analysable ls F G A xs.
Proof.
  intros ls data F G A xs D Hl HM HG Hxs. assert (length ls = 3%nat) as L by (unfold zlen in D; lia). exact (space_runs ls data F G A (or_intror L) Hl HM HG xs Hxs D).
Qed.
Print Assumptions C79_space_written.

(* The table has as many fields on every line as there are titles.  Its first part has a line for exactly the stored grains of volume at
   least 1 with two corners, three edges and three faces, and the line holds the centre, the volume and the topology read off the grid.  Its
   second part has a line for exactly the stored grains with faces of volume below 1, with the volume, the number of faces, the neighbours and a
   centre estimated from the nodes on the edges.  Both are in the order of the identifiers; there are as many columns as needed. *)
Theorem C79_space : forall ls data F G A xs hd bulk rest span,
  zlen ls = 3 -> Forall (fun l => l_x0 l <= l_x1 l) ls -> microstructure ls F G A -> grid_of ls data F ->
  all_nodes (map l_x0 ls) (map l_x1 ls) (fun _ => True) xs ->
  mmsp2topo (lay 0 ls) data = Some (hd, bulk, rest, span) ->
  exists P N, hd = titles P N /\ space_widths ls F G A xs P N /\
    (forall row, In row (bulk ++ rest) -> zlen row = zlen hd) /\
    (forall row, In row bulk <-> exists a fs es vs,
       (exists x, In x xs /\ stored F a x) /\ faces_of ls G A a fs /\ edges_of ls G A a es /\ corners_of es vs /\
       (1 <= amount F xs a)%Qc /\ 2 <= zlen vs /\ 3 <= zlen es /\ 3 <= zlen fs /\ row = space_row F xs a fs es vs P N) /\
    (forall row, In row rest <-> exists a fs,
       (exists x, In x xs /\ stored F a x) /\ faces_of ls G A a fs /\ fs <> [] /\ (amount F xs a < 1)%Qc /\
       row = space_rest_row F xs a fs (edge_nodes 3 G A xs a) P N) /\
    (exists ids, StronglySorted Z.lt ids /\ map (fun row => nth 0 row Blank) bulk = map num_of ids) /\
    exists ids, StronglySorted Z.lt ids /\ map (fun row => nth 0 row Blank) rest = map num_of ids.
Proof.
  intros ls data F G A xs hd bulk rest span D Hl HM HG Hxs E. assert (length ls = 3%nat) as L by (unfold zlen in D; lia).
  exact (space_table ls data F G A (or_intror L) Hl HM HG xs Hxs D hd bulk rest span E).
Qed.
Print Assumptions C79_space.

(* In the plane the table is written exactly if the nodes can be visited (C79_plane_order), the coordinates of every centre to be written
   are ints and no excluded grain has volume 0. *)
Theorem C79_plane_written : forall ls data F G A xs,
  zlen ls = 2 -> Forall (fun l => l_x0 l <= l_x1 l) ls -> microstructure ls F G A -> grid_of ls data F ->
  all_nodes (map l_x0 ls) (map l_x1 ls) (fun _ => True) xs ->
  (exists r, mmsp2topo (lay 0 ls) data = Some r) <-> plane_analysable ls F G A xs.
Proof.
  intros ls data F G A xs D Hl HM HG Hxs. assert (length ls = 2%nat) as L by (unfold zlen in D; lia). exact (plane_runs ls data F G A (or_introl L) Hl HM HG xs Hxs D).
Qed.
Print Assumptions C79_plane_written.

(* The lines of the first part are those of the stored grains of volume at least 1 with a vertex and two edges, those of the second part of
   the stored grains of volume below 1 or without edges. *)
Theorem C79_plane : forall ls data F G A xs hd bulk rest span,
  zlen ls = 2 -> Forall (fun l => l_x0 l <= l_x1 l) ls -> microstructure ls F G A -> grid_of ls data F ->
  all_nodes (map l_x0 ls) (map l_x1 ls) (fun _ => True) xs -> xs <> [] ->
  mmsp2topo (lay 0 ls) data = Some (hd, bulk, rest, span) ->
  hd = titles 3 0 /\
  (forall row, In row bulk <-> exists a fs es vs,
     (exists x, In x xs /\ stored F a x) /\ faces_of ls G A a fs /\ edges_of ls G A a es /\ plane_corners_of ls A a vs /\
     (1 <= amount F xs a)%Qc /\ 1 <= zlen vs /\ 2 <= zlen es /\ row = plane_row F xs a fs es vs) /\
  (forall row, In row rest <-> exists a fs,
     (exists x, In x xs /\ stored F a x) /\ faces_of ls G A a fs /\ ((amount F xs a < 1)%Qc \/ fs = []) /\
     row = plane_rest_row F xs a fs (edge_nodes 2 G A xs a)) /\
  (exists ids, StronglySorted Z.lt ids /\ map (fun row => nth 0 row Blank) bulk = map num_of ids) /\
  exists ids, StronglySorted Z.lt ids /\ map (fun row => nth 0 row Blank) rest = map num_of ids.
Proof.
  intros ls data F G A xs hd bulk rest span D Hl HM HG Hxs Ne E. assert (length ls = 2%nat) as L by (unfold zlen in D; lia).
  destruct (plane_table ls data F G A (or_introl L) Hl HM HG xs Hxs D hd bulk rest span Ne E) as (H0 & H1 & _ & H2).
  destruct (plane_rest_table ls data F G A (or_introl L) Hl HM HG xs Hxs D hd bulk rest span E) as (H3 & H4). auto 10.
Qed.
Print Assumptions C79_plane.

(* But no line of that table has as many fields as there are titles, save those of excluded grains with one edge *)
Theorem C79_plane_fields_refuted : forall ls data F G A xs hd bulk rest span,
  zlen ls = 2 -> Forall (fun l => l_x0 l <= l_x1 l) ls -> microstructure ls F G A -> grid_of ls data F ->
  all_nodes (map l_x0 ls) (map l_x1 ls) (fun _ => True) xs -> xs <> [] ->
  mmsp2topo (lay 0 ls) data = Some (hd, bulk, rest, span) ->
  (forall row, In row bulk -> zlen hd < zlen row) /\
  (forall row, In row rest -> exists a es, edges_of ls G A a es /\ nth 0 row Blank = num_of a /\ zlen row = zlen hd - 1 + zlen es).
Proof.
  intros ls data F G A xs hd bulk rest span D Hl HM HG Hxs Ne E. assert (length ls = 2%nat) as L by (unfold zlen in D; lia).
  destruct (plane_table ls data F G A (or_introl L) Hl HM HG xs Hxs D hd bulk rest span Ne E) as (Eh & H1 & H2 & _). split; [|exact H2].
  intros row I. apply H1 in I as (a & fs & es & vs & _ & [_ Ff] & [_ Ee] & _ & _ & _ & L2 & ->). subst hd. rewrite titles_len.
  destruct es as [|e es]; [unfold zlen in L2; cbn in L2; lia|]. destruct (proj1 (Ee e) (or_introl eq_refl)) as (x & B & Gx & La & _). rewrite D in La. assert (exists b, In b (A x)) as (b & Ib) by (destruct (A x) as [|b l]; [discriminate|exists b; now left]).
  destruct fs as [|f fs]; [|unfold plane_row, zlen; cbn; rewrite map_length; lia]. exfalso. apply (proj2 (Ff b)). exists x. rewrite D. auto.
Qed.
Print Assumptions C79_plane_fields_refuted.

(* A plane can be analysed only if the two grains found around a node of a third have been met before the node, or at it: otherwise the
   iterator past the end of the map is dereferenced *)
Theorem C79_plane_order : forall ls data F G A xs,
  zlen ls = 2 -> Forall (fun l => l_x0 l <= l_x1 l) ls -> microstructure ls F G A -> grid_of ls data F ->
  all_nodes (map l_x0 ls) (map l_x1 ls) (fun _ => True) xs ->
  ((exists r, scan (lay 0 ls) data = Some r) <-> known_in_time F A xs) /\
  (~ known_in_time F A xs -> mmsp2topo (lay 0 ls) data = None).
Proof.
  intros ls data F G A xs D Hl HM HG Hxs. assert (length ls = 2%nat) as L by (unfold zlen in D; lia).
  assert ((exists r, scan (lay 0 ls) data = Some r) <-> known_in_time F A xs) as W.
  { split.
    - intros (r & E). exact (scan_conv ls data F G A (or_introl L) Hl HM HG xs Hxs r E D).
    - intros K. destruct (scan_ok ls data F G A (or_introl L) Hl HM HG xs Hxs (fun _ => K)) as (m & E & _). eauto. }
  split; [exact W|]. intros N. unfold mmsp2topo. destruct (scan (lay 0 ls) data) as [r|] eqn:E; [|reflexivity]. exfalso. apply N, W. eauto.
Qed.
Print Assumptions C79_plane_order.
(* in space the nodes can be visited in any case *)
Theorem C79_space_order : forall ls data F G A xs,
  zlen ls = 3 -> Forall (fun l => l_x0 l <= l_x1 l) ls -> microstructure ls F G A -> grid_of ls data F ->
  all_nodes (map l_x0 ls) (map l_x1 ls) (fun _ => True) xs -> exists m span, scan (lay 0 ls) data = Some (m, span) /\ StronglySorted Z.lt (map fst m) /\
  forall a, In a (map fst m) <-> exists x, In x xs /\ stored F a x.
Proof.
  intros ls data F G A xs D Hl HM HG Hxs. assert (length ls = 3%nat) as L by (unfold zlen in D; lia).
  destruct (scan_ok ls data F G A (or_intror L) Hl HM HG xs Hxs ltac:(lia)) as (m & E & St). do 2 eexists. split; [exact E|]. split; [exact (state_sorted ls F G A xs m St)|].
  intros a. split.
  - intros Ia. apply in_map_iff in Ia as ([a' g0] & Ea & Ia). cbn in Ea. subst a'. apply (grain_iff ls F G A (or_intror L) HM xs Hxs m a g0 St) in Ia as [Ia _]. exact Ia.
  - intros St'. destruct (history_typed ls F G A (or_intror L) HM xs Hxs a) as [_ Pl]. apply in_map_iff. exists (a, made a (history (zlen ls) F G A xs a)). split; [reflexivity|].
    apply (grain_iff ls F G A (or_intror L) HM xs Hxs m a _ St). split; [exact St'|]. now apply made_after.
Qed.
Print Assumptions C79_space_order.

(* The lower end of the span reported for the phase is the least of 1 and the values of the leading fields. *)
Theorem C79_span_low : forall ls data F G A xs hd bulk rest span,
  zlen ls = 2 \/ zlen ls = 3 -> Forall (fun l => l_x0 l <= l_x1 l) ls -> microstructure ls F G A -> grid_of ls data F ->
  all_nodes (map l_x0 ls) (map l_x1 ls) (fun _ => True) xs ->
  mmsp2topo (lay 0 ls) data = Some (hd, bulk, rest, span) ->
  (fst span <= 1)%Qc /\ Forall (fun x => fst span <= at_index (F x) (G x))%Qc xs /\ (fst span = 1%Qc \/ exists x, In x xs /\ fst span = at_index (F x) (G x)).
Proof.
  intros ls data F G A xs hd bulk rest span D Hl HM HG Hxs E. assert (length ls = 2%nat \/ length ls = 3%nat) as L by (unfold zlen in D; lia).
  destruct (run_parts ls data F G A L Hl HM HG xs Hxs hd bulk rest span E) as (_ & _ & _ & _ & _ & _ & _ & _ & _ & _ & _ & _ & ->).
  clear. assert (forall l s, let r := fold_left span_of (map (leading_value F G) l) s in (fst r <= fst s)%Qc /\ Forall (fun x => fst r <= at_index (F x) (G x))%Qc l /\ (fst r = fst s \/ exists x, In x l /\ fst r = at_index (F x) (G x))) as X.
  { induction l as [|x l IH]; intros s; cbn [map fold_left]; [split; [apply Qcle_refl|split; [constructor|auto]]|]. cbn zeta. destruct (IH (span_of s (leading_value F G x))) as (I1 & I2 & I3). cbn zeta in *.
    change (leading_value F G x) with (at_index (F x) (G x)) in *. set (r := fold_left _ _ _) in *.
    assert (fst (span_of s (at_index (F x) (G x))) <= fst s)%Qc as S1. { unfold span_of. destruct (qgt (fst s) _) eqn:Q; [apply qgt_true in Q; now apply Qclt_le_weak|]. destruct (qgt (at_index (F x) (G x)) (snd s)); apply Qcle_refl. }
    assert (fst (span_of s (at_index (F x) (G x))) <= at_index (F x) (G x))%Qc as S2. { unfold span_of. destruct (qgt (fst s) _) eqn:Q; [apply Qcle_refl|]. apply qgt_false in Q. destruct (qgt (at_index (F x) (G x)) (snd s)); exact Q. }
    split; [eapply Qcle_trans; eassumption|]. split; [constructor; [eapply Qcle_trans; eassumption|exact I2]|].
    destruct I3 as [I3|(y & Iy & I3)]; [|right; exists y; split; [now right|exact I3]]. rewrite I3. unfold span_of. destruct (qgt (fst s) _); [right; exists x; split; [now left|reflexivity]|]. left. destruct (qgt (at_index (F x) (G x)) (snd s)); reflexivity. }
  destruct (X xs (1%Qc, 0%Qc)) as (X1 & X2 & X3). auto.
Qed.
Print Assumptions C79_span_low.
(* The upper end is not: when every value is below those before it, and below 1, the program reports 0 *)
Theorem C79_span_high_refuted : forall ls data F G A xs hd bulk rest span,
  zlen ls = 2 \/ zlen ls = 3 -> Forall (fun l => l_x0 l <= l_x1 l) ls -> microstructure ls F G A -> grid_of ls data F ->
  all_nodes (map l_x0 ls) (map l_x1 ls) (fun _ => True) xs ->
  Forall (fun x => at_index (F x) (G x) < 1)%Qc xs -> StronglySorted (fun x y => at_index (F y) (G y) < at_index (F x) (G x))%Qc xs ->
  mmsp2topo (lay 0 ls) data = Some (hd, bulk, rest, span) -> snd span = 0%Qc.
Proof.
  intros ls data F G A xs hd bulk rest span D Hl HM HG Hxs B S E. assert (length ls = 2%nat \/ length ls = 3%nat) as L by (unfold zlen in D; lia).
  destruct (run_parts ls data F G A L Hl HM HG xs Hxs hd bulk rest span E) as (_ & _ & _ & _ & _ & _ & _ & _ & _ & _ & _ & _ & ->).
  clear -B S. assert (forall l s, Forall (fun x => at_index (F x) (G x) < fst s)%Qc l -> StronglySorted (fun x y => at_index (F y) (G y) < at_index (F x) (G x))%Qc l -> snd (fold_left span_of (map (leading_value F G) l) s) = snd s) as X.
  { induction l as [|x l IH]; intros s H T; cbn [map fold_left]; [reflexivity|]. inversion H; subst. apply StronglySorted_inv in T as [T1 T2]. change (leading_value F G x) with (at_index (F x) (G x)).
    assert (span_of s (at_index (F x) (G x)) = (at_index (F x) (G x), snd s)) as -> by (unfold span_of; now rewrite (proj2 (qgt_true _ _) H2)). now rewrite IH. }
  exact (X xs (1%Qc, 0%Qc) B S).
Qed.
Print Assumptions C79_span_high_refuted.

(* grids filled from a function of the position *)
Definition c79_lim (n : Z) : limits := mkLim 0 n 0 n 1 1.
Definition c79_data (ls : list limits) (F : list Z -> list (Z * Qc)) : list (sobj Qc) :=
  map (fun i => map Some (F (position (lay 0 ls) i))) (zrange 0 (nodes (lay 0 ls))).
Lemma c79_grid ls F : lims_ok ls -> grid_of ls (c79_data ls F) F.
Proof.
  intros Hl x Bx. assert (In x (map (position (lay 0 ls)) (zrange 0 (nodes (lay 0 ls))))) as I by (apply (proj1 (sites ls Hl)); auto). apply in_map_iff in I as (i & <- & Hi). apply in_zrange in Hi.
  destruct (read_int_position false 0 ls (c79_data ls F) i ltac:(lia) ltac:(auto) Hl Hi) as [<- _]. unfold grid_read_int, addr_int, get, c79_data. replace (i <? 0) with false by (symmetry; apply Z.ltb_ge; lia).
  rewrite nth_error_map. unfold zrange. rewrite nth_error_map. rewrite (nth_error_nth' _ 0%nat) by (rewrite seq_length; lia). cbn [option_map]. rewrite seq_nth by lia. do 4 f_equal. lia.
Qed.
(* every assignment of grains is a microstructure *)
Lemma c79_hypotheses ls g : (zlen ls = 2 \/ zlen ls = 3) -> lims_ok ls -> (forall x, 0 <= g x < 65536) -> exists G A xs,
  microstructure ls (fun x => [(g x, 1%Qc)]) G A /\ grid_of ls (c79_data ls (fun x => [(g x, 1%Qc)])) (fun x => [(g x, 1%Qc)]) /\ all_nodes (map l_x0 ls) (map l_x1 ls) (fun _ => True) xs.
Proof.
  intros D Hl Hg. assert (length ls = 2%nat \/ length ls = 3%nat) as L by (unfold zlen in D; lia). destruct (micro_exists ls (fun x => [(g x, 1%Qc)]) L) as (G & A & M).
  - intros x _. split; [repeat constructor; cbn; tauto|]. split; [constructor; [apply Hg|constructor]|]. constructor. reflexivity.
  - exists G, A. eexists. split; [exact M|]. split; [now apply c79_grid|]. exact (sites ls Hl).
Qed.
(* a ball within four others; every grain has four faces, six edges and four corners *)
Definition c79_ball (x : list Z) : Z :=
  match map (fun v => 2 * v - 5) x with
  | [a; b; c] =>
    if a * a + b * b + c * c <=? 12 then 9
    else
      let v1 := a + b + c in let v2 := a - b - c in let v3 := - a + b - c in let v4 := - a - b + c in
      if (v2 <=? v1) && (v3 <=? v1) && (v4 <=? v1) then 1 else if (v3 <=? v2) && (v4 <=? v2) then 2 else if v4 <=? v3 then 3 else 4
  | _ => 0
  end.
Example C79_space_case : exists rows, mmsp2topo (lay 0 [c79_lim 6; c79_lim 6; c79_lim 6]) (c79_data [c79_lim 6; c79_lim 6; c79_lim 6] (fun x => [(c79_ball x, 1%Qc)])) =
    Some (titles 4 4, rows, [], (1%Qc, 1%Qc)) /\ map (fun row => skipn 4 row) rows =
    [map num_of [56; 4; 4; 6; 2; 0; 4; 2; 3; 4; 9]; map num_of [48; 4; 4; 6; 2; 0; 4; 1; 3; 4; 9]; map num_of [42; 4; 4; 6; 2; 0; 4; 1; 2; 4; 9];
     map num_of [38; 4; 4; 6; 2; 0; 4; 1; 2; 3; 9]; map num_of [32; 4; 4; 6; 2; 0; 4; 1; 2; 3; 4]].
Proof. eexists. split; vm_compute; reflexivity. Qed.
(* three grains that meet once in the plane; each is said to have two vertices, and its line is two fields too long *)
Definition c79_plane (x : list Z) : Z :=
  match x with [a; b] => if a <? 2 then (if b <? 2 then 1 else if b <? 5 then 2 else 3) else if b <? 4 then 1 else 3 | _ => 0 end.
Example C79_plane_case : mmsp2topo (lay 0 [c79_lim 4; c79_lim 7]) (c79_data [c79_lim 4; c79_lim 7] (fun x => [(c79_plane x, 1%Qc)])) =
    Some (titles 3 0, [map num_of [1; 1; 1; 0; 12; 2; 0; 2; 0; 2; 2; 3]; map num_of [2; 0; 3; 0; 6; 2; 0; 2; 0; 2; 1; 3]; map num_of [3; 1; 5; 0; 10; 2; 0; 2; 0; 2; 1; 2]], [], (1%Qc, 1%Qc)) /\
  zlen (titles 3 0) = 10.
Proof. split; vm_compute; reflexivity. Qed.
(* three grains of which two come after the first *)
Theorem C79_plane_order_refuted : exists ls g G A xs, zlen ls = 2 /\ lims_ok ls /\ microstructure ls (fun x => [(g x, 1%Qc)]) G A /\
  grid_of ls (c79_data ls (fun x => [(g x, 1%Qc)])) (fun x => [(g x, 1%Qc)]) /\ all_nodes (map l_x0 ls) (map l_x1 ls) (fun _ => True) xs /\
  ~ known_in_time (fun x => [(g x, 1%Qc)]) A xs /\ mmsp2topo (lay 0 ls) (c79_data ls (fun x => [(g x, 1%Qc)])) = None.
Proof.
  set (ls := [c79_lim 2; c79_lim 2]). set (g := fun x : list Z => match x with [a; b] => if a =? 0 then 1 else if b <? 1 then 2 else 3 | _ => 0 end).
  assert (lims_ok ls) as Hl by (repeat constructor; cbn; lia).
  destruct (c79_hypotheses ls g) as (G & A & xs & M & Gr & X); [now left|exact Hl|intros x; unfold g; destruct x as [|a [|b [|c x]]]; try lia; destruct (a =? 0); [lia|]; destruct (b <? 1); lia|].
  exists ls, g, G, A, xs. do 5 (split; [auto|]). assert (mmsp2topo (lay 0 ls) (c79_data ls (fun x => [(g x, 1%Qc)])) = None) as E by (vm_compute; reflexivity). split; [|exact E].
  intros K. apply (proj1 (C79_plane_order ls _ _ G A xs eq_refl Hl M Gr X)) in K as [r K]. vm_compute in K. discriminate.
Qed.
Print Assumptions C79_plane_order_refuted.
(* Identifiers from 2^16 on are cut: a plane that is a single grain, 65537, is reported as grain 1, of no volume and bounded by itself *)
Theorem C79_identifier_refuted : exists g, scan (lay 0 [c79_lim 2; c79_lim 2]) (c79_data [c79_lim 2; c79_lim 2] (fun _ => [(65537, 1%Qc)])) = Some ([(1, g)], (0%Qc, 0%Qc)) /\
  volume g = 0%Qc /\ map fst (edges g) = [[1]].
Proof. eexists. split; [vm_compute; reflexivity|]. split; vm_compute; reflexivity. Qed.
Print Assumptions C79_identifier_refuted.
(* the values of the leading fields decrease along the grid *)
Example C79_span_case : exists rows r, mmsp2topo (lay 0 [c79_lim 4; c79_lim 7])
    (c79_data [c79_lim 4; c79_lim 7] (fun x => [(c79_plane x, (q_of (100 - 10 * nth 0 x 0%Z - nth 1 x 0%Z) / q_of 101)%Qc)])) = Some (titles 3 0, rows, r, ((q_of 64 / q_of 101)%Qc, 0%Qc)).
Proof. do 2 eexists. vm_compute. reflexivity. Qed.

(* three grains that meet along a single line in space: each has one edge, and the program stops at an assertion *)
Theorem C79_single_edge_refuted : exists ls g G A xs, zlen ls = 3 /\ lims_ok ls /\ microstructure ls (fun x => [(g x, 1%Qc)]) G A /\
  grid_of ls (c79_data ls (fun x => [(g x, 1%Qc)])) (fun x => [(g x, 1%Qc)]) /\ all_nodes (map l_x0 ls) (map l_x1 ls) (fun _ => True) xs /\
  ~ space_analysable ls (fun x => [(g x, 1%Qc)]) G A xs /\ mmsp2topo (lay 0 ls) (c79_data ls (fun x => [(g x, 1%Qc)])) = None.
Proof.
  set (ls := [c79_lim 2; c79_lim 2; c79_lim 2]). set (g := fun x : list Z => match x with a :: b :: _ => if a =? 0 then 1 else if b <? 1 then 2 else 3 | _ => 0 end).
  assert (lims_ok ls) as Hl by (repeat constructor; cbn; lia).
  destruct (c79_hypotheses ls g) as (G & A & xs & M & Gr & X); [now right|exact Hl|intros x; unfold g; destruct x as [|a [|b x]]; try lia; destruct (a =? 0); [lia|]; destruct (b <? 1); lia|].
  exists ls, g, G, A, xs. do 5 (split; [auto|]). assert (mmsp2topo (lay 0 ls) (c79_data ls (fun x => [(g x, 1%Qc)])) = None) as E by (vm_compute; reflexivity). split; [|exact E].
  intros K. apply (C79_space_written ls _ _ G A xs eq_refl Hl M Gr X) in K as [r K]. rewrite E in K. discriminate.
Qed.
Print Assumptions C79_single_edge_refuted.
(* the ball of C79_space_case with the value 1/100, and a field stored at one node only: the second part of the table has a line for the first *)
Definition c79_shown (c : cell) : Q := match c with Num q => this q | Blank => (-1)%Q end.
Example C79_rest_case : exists rows r s, mmsp2topo (lay 0 [c79_lim 6; c79_lim 6; c79_lim 6])
    (c79_data [c79_lim 6; c79_lim 6; c79_lim 6] (fun x => (c79_ball x, if c79_ball x =? 9 then q_of 1 / q_of 100 else 1)%Qc :: (if list_eq_dec Z.eq_dec x [0; 0; 0] then [(7, 0%Qc)] else []))) =
    Some (titles 4 4, rows, r, s) /\ length rows = 4%nat /\ map (map c79_shown) r = [[9; 1; 0; 0; 8 # 25; 0; 4; 0; 0; 0; 0; 1; 2; 3; 4]%Q].
Proof. do 3 eexists. split; [vm_compute; reflexivity|]. split; vm_compute; reflexivity. Qed.
(* in the plane, a grain with edges and one without *)
Example C79_plane_rest_case : exists rows r s, mmsp2topo (lay 0 [c79_lim 4; c79_lim 7])
    (c79_data [c79_lim 4; c79_lim 7] (fun x => (c79_plane x, if c79_plane x =? 2 then q_of 1 / q_of 10 else 1)%Qc :: (if list_eq_dec Z.eq_dec x [3; 5] then [(7, q_of 1 / q_of 2)%Qc] else []))) =
    Some (titles 3 0, rows, r, s) /\ length rows = 2%nat /\ map (map c79_shown) r = [[2; 0; 1; 3 # 5; 0; 1; 0; 0; 0; 1; 3]; [7; 3; 5; 1 # 2; 0; 1; 0; 0; 0]]%Q.
Proof. do 3 eexists. split; [vm_compute; reflexivity|]. split; vm_compute; reflexivity. Qed.
