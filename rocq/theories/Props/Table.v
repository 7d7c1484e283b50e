(* C75 - C77: images and tables of grids (include/MMSP.output.cpp, utility/mmsp2vti.cpp, mmsp2tsv.cpp, mmsp2xyz.cpp). *)
From Coq Require Import String Sorted QArith.QArith QArith.Qcanon.
From Verif Require Import Model.Base Model.Text Model.Num Model.Boundary Model.Layout Model.Access Model.Sparse Model.File Model.Stencil Model.Evolve Model.Image Model.Vtk Model.Table.
From Verif Require Import Spec.Box Spec.Access Spec.Image Spec.Table.
From Verif Require Import Proof.BaseL Proof.TextL Proof.LayoutL Proof.AccessL Proof.ImageL Proof.ImageF Proof.TableL Proof.TableF.
Local Open Scope string_scope.
Local Open Scope list_scope.
Local Open Scope Z_scope.

(* ---- C75: VTK images ---- *)
(* C75, scalars: the image has the limits (last node included) and the spacing of the grid; each node is one point of it, with its value, or its
   magnitude for --mag *)
Theorem C75_scalar : forall root float mode ls dx data, serial_box ls -> zlen data = nodes (lay 0 ls) ->
  exists im, scalar_to_vtk root float mode (lay 0 ls) dx data = Some im /\
    im_extent im = map (fun l => (l_g0 l, l_g1 l - 1)) ls /\ im_spacing im = dx /\ im_comps im = 1 /\ NoDup (map fst (im_points im)) /\
    forall x p, In (x, p) (im_points im) <-> in_box (map l_g0 ls) (map l_g1 ls) x /\
      exists v, grid_read false (lay 0 ls) data x = Some v /\ p = [float (if mode =? 1 then magnitude root [v] else v)].
Proof.
  intros root float mode ls dx data Hs L. destruct (vtk_ok (scalar_pixel root float mode) 1 ls dx data Hs L) as (im & E & A & B & C & D & F); [unfold scalar_pixel; eauto|].
  exists im. do 5 (split; [assumption|]). intros x p. rewrite F. unfold scalar_pixel, magnitude. cbn [fold_left]. unfold sq.
  split; intros (Hx & v & R & P); (split; [auto|]); exists v; (split; [auto|]).
  - injection P as <-. destruct (mode =? 1); [|auto]. do 3 f_equal. ring.
  - subst p. destruct (mode =? 1); [|auto]. do 4 f_equal. ring.
Qed.
Print Assumptions C75_scalar.

(* C75, vectors: by default one component for each field, with all the fields; --mag their magnitude, --max the number of the greatest
   field, the first of several, --field one field.  Two-dimensional images hold doubles, the others floats *)
Theorem C75_vector : forall root float mode field fields ls dx data, serial_box ls -> zlen data = nodes (lay 0 ls) ->
  In mode [0; 1; 2; 3] -> Forall (fun v => zlen v = fields) data -> 0 < fields -> (mode = 3 -> 0 <= field < fields) ->
  exists im, vector_to_vtk root float mode field fields (lay 0 ls) dx data = Some im /\
    im_extent im = map (fun l => (l_g0 l, l_g1 l - 1)) ls /\ im_spacing im = dx /\ im_comps im = (if mode =? 0 then fields else 1) /\ NoDup (map fst (im_points im)) /\
    forall x p, In (x, p) (im_points im) <-> in_box (map l_g0 ls) (map l_g1 ls) x /\
      exists v w, grid_read false (lay 0 ls) data x = Some v /\ vector_pixels root field v mode w /\ zlen w = im_comps im /\ p = if zlen ls =? 2 then w else map float w.
Proof.
  intros root float mode field fields ls dx data Hs L Hm Hf Fp H3. unfold vector_to_vtk. set (st := if zlen (lay 0 ls) =? 2 then fun q => q else float).
  assert (forall v, In v data -> zlen v = fields /\ exists w, vector_pixels root field v mode w /\ vector_pixel root mode field st (vector_comps mode fields) v = Some (map st w) /\ zlen w = vector_comps mode fields /\
    forall w', vector_pixels root field v mode w' -> w' = w) as P.
  { intros v Hv. rewrite Forall_forall in Hf. specialize (Hf v Hv). subst fields. split; [auto|]. apply vector_pixel_ok; auto. intros _ ->. now vm_compute in Fp. }
  destruct (vtk_ok (vector_pixel root mode field st (vector_comps mode fields)) (vector_comps mode fields) ls dx data Hs L) as (im & E & A & B & C & D & F).
  { intros v Hv. destruct (P v Hv) as (_ & w & _ & E & _). eauto. }
  exists im. split; [exact E|]. do 2 (split; [assumption|]). split; [|split; [assumption|]].
  { rewrite C. unfold vector_comps. now destruct Hm as [<-|[<-|[<-|[<-|[]]]]]. }
  intros x p. rewrite F, C.
  assert (forall w : list Qc, map st w = if zlen ls =? 2 then w else map float w) as S.
  { intros w. unfold st. replace (zlen (lay 0 ls)) with (zlen ls) by (unfold zlen; now rewrite length_lay). destruct (zlen ls =? 2); [apply map_id|auto]. }
  assert (forall v, grid_read false (lay 0 ls) data x = Some v -> In v data) as RI.
  { intros v R. unfold grid_read in R. destruct (addr_vec _ _ _ _) as [i|]; [|discriminate]. cbn in R. unfold get in R. destruct (i <? 0); [discriminate|]. now apply nth_error_In in R. }
  split.
  - intros (Hx & v & R & Q). split; [auto|]. destruct (P v (RI v R)) as (_ & w & V & E' & Lw & _). exists v, w. rewrite E' in Q. injection Q as <-. repeat split; auto.
  - intros (Hx & v & w & R & V & Lw & ->). split; [auto|]. destruct (P v (RI v R)) as (_ & w' & V' & E' & Lw' & U). exists v. split; [auto|]. rewrite (U w V), <- S. exact E'.
Qed.
Print Assumptions C75_vector.

(* C75, sparse objects: by default and with --mag the magnitude, --max the index of the greatest value if every node has one, --field one field *)
Theorem C75_sparse : forall root float mode field ls dx data, serial_box ls -> zlen data = nodes (lay 0 ls) ->
  In mode [0; 1; 2; 3] -> (mode = 2 -> Forall (fun v => v <> []) data) ->
  exists im, sparse_to_vtk root float mode field (lay 0 ls) dx data = Some im /\
    im_extent im = map (fun l => (l_g0 l, l_g1 l - 1)) ls /\ im_spacing im = dx /\ im_comps im = 1 /\ NoDup (map fst (im_points im)) /\
    forall x p, In (x, p) (im_points im) <-> in_box (map l_g0 ls) (map l_g1 ls) x /\
      exists v q, grid_read false (lay 0 ls) data x = Some v /\ sparse_pixels root field v mode [q] /\ p = [float q].
Proof.
  intros root float mode field ls dx data Hs L Hm H2. unfold sparse_to_vtk.
  assert (forall v, In v data -> exists w, sparse_pixels root field v mode w /\ sparse_pixel root float mode field v = Some (map float w) /\ zlen w = 1 /\ forall w', sparse_pixels root field v mode w' -> w' = w) as P.
  { intros v Hv. apply sparse_pixel_ok; auto. intros E. specialize (H2 E). rewrite Forall_forall in H2. auto. }
  destruct (vtk_ok (sparse_pixel root float mode field) 1 ls dx data Hs L) as (im & E & A & B & C & D & F).
  { intros v Hv. destruct (P v Hv) as (w & _ & E & _). eauto. }
  exists im. do 5 (split; [assumption|]). intros x p. rewrite F.
  assert (forall v, grid_read false (lay 0 ls) data x = Some v -> In v data) as RI.
  { intros v R. unfold grid_read in R. destruct (addr_vec _ _ _ _) as [i|]; [|discriminate]. cbn in R. unfold get in R. destruct (i <? 0); [discriminate|]. now apply nth_error_In in R. }
  split.
  - intros (Hx & v & R & Q). split; [auto|]. destruct (P v (RI v R)) as (w & V & E' & Lw & _). rewrite E' in Q. injection Q as <-.
    destruct w as [|q [|q' w]]; [now vm_compute in Lw| |rewrite !zlen_cons in Lw; pose proof (zlen_nonneg w); lia]. exists v, q. auto.
  - intros (Hx & v & q & R & V & ->). split; [auto|]. destruct (P v (RI v R)) as (w' & V' & E' & Lw' & U). exists v. split; [auto|]. rewrite E', <- (U _ V). reflexivity.
Qed.
Print Assumptions C75_sparse.

(* C75: "index of field with greatest magnitude" is false of every vector whose greatest value is not negative but smaller in magnitude than
   another one: the image shows a field i although the magnitude of field j is greater *)
Theorem C75_max_magnitude_refuted : forall root float st v i j q r, first_greatest v i -> get v i = Some q -> get v j = Some r -> (0 <= q)%Qc -> (q < - r)%Qc ->
  vector_pixel root 2 0 st 1 v = Some [st (Q2Qc (inject_Z i))] /\ (qabs q < qabs r)%Qc /\ forall s, sparse_pixel root float 2 s (combine (zrange 0 (zlen v)) v) = Some [float (Q2Qc (inject_Z i))].
Proof.
  intros root float st v i j q r G Gi Gj Hq Hr. assert (v <> []) as Nv by (intros ->; unfold get in Gi; destruct (i <? 0); [discriminate|]; now destruct (Z.to_nat i)).
  split; [|split].
  - destruct (vector_pixel_ok root 2 0 st v ltac:(cbn; auto) ltac:(auto) ltac:(lia)) as (w & V & E & _ & U). specialize (U _ (shows_max root 0 v i G)). subst w. exact E.
  - unfold qabs. destruct (Qclt_le_dec q 0) as [X|_]; [now apply Qclt_not_le in X|]. destruct (Qclt_le_dec r 0) as [X|X]; [auto|]. exfalso.
    apply (Qclt_not_eq q q); [|auto]. eapply Qclt_le_trans; [exact Hr|]. apply Qcle_trans with 0%Qc; [|auto]. replace 0%Qc with (- 0)%Qc by ring. now apply Qcopp_le_compat.
  - intros s. set (o := combine (zrange 0 (zlen v)) v).
    assert (map snd o = v /\ map fst o = zrange 0 (zlen v)) as [S F].
    { assert (List.length (zrange 0 (zlen v)) = List.length v) as LL by (rewrite length_zrange; unfold zlen; lia). unfold o. revert LL. generalize (zrange 0 (zlen v)). clear. induction v as [|a v IH]; intros [|b l]; try discriminate; [auto|]. intros LL. injection LL as LL. destruct (IH l LL). cbn. split; congruence. }
    destruct (sparse_pixel_ok root float 2 s o) as (w & V & E & _ & U); [cbn; auto|intros _ X; apply Nv; now rewrite <- S, X|].
    assert (exists it, get o i = Some it) as [it Hit]. { apply get_ok. apply get_some_iff in Gi. rewrite <- S in Gi. now rewrite BaseL.zlen_map in Gi. }
    assert (fst it = i) as Fi.
    { apply get_some_iff in Gi as Bi. assert (get (map fst o) i = Some (fst it)) as X. { unfold get in *. destruct (i <? 0); [discriminate|]. now rewrite nth_error_map, Hit. }
      rewrite F in X. unfold get in X. destruct (i <? 0) eqn:I0; [discriminate|]. rewrite nth_error_zrange in X by lia. injection X as <-. lia. }
    assert (first_greatest (map snd o) i) as G' by now rewrite S.
    specialize (U _ (sshows_max root s o i it G' Hit)). subst w. rewrite E, Fi. reflexivity.
Qed.
Print Assumptions C75_max_magnitude_refuted.
(* C75: with --max, a sparse object without values makes the program read outside its array, whatever the other nodes hold *)
Theorem C75_empty_sparse_refuted : forall root float field ls dx data, serial_box ls -> zlen data = nodes (lay 0 ls) -> In [] data ->
  sparse_to_vtk root float 2 field (lay 0 ls) dx data = None.
Proof.
  intros root float field ls dx data Hs L Hin. unfold sparse_to_vtk, to_vtk.
  destruct (map_opt _ _) as [ps|] eqn:M; [|reflexivity]. exfalso. apply map_opt_some in M.
  apply In_nth_error in Hin as [n Hn]. assert (0 <= Z.of_nat n < nodes (lay 0 ls)) as Hi. { rewrite <- L. unfold zlen. assert (n < List.length data)%nat by (apply nth_error_Some; congruence). lia. }
  destruct (read_node ls Hs data L _ Hi) as (v & G & _ & _ & R).
  assert (v = []) as -> by (unfold get in G; destruct (Z.of_nat n <? 0); [discriminate|]; rewrite Nat2Z.id in G; congruence).
  assert (In (position (lay 0 ls) (Z.of_nat n)) (raster (map (fun a => (a_x0 a, a_x1 a)) (lay 0 ls)))) as I.
  { apply raster_in. rewrite !map_map. cbn [fst snd]. apply (position_spec 0); [apply wf_lay; now apply sb_ok|auto]. }
  clear - M I R. induction M as [|x y l m HF _ IH]; [easy|]. destruct I as [->|I]; [|auto]. rewrite R in HF. now vm_compute in HF.
Qed.
Print Assumptions C75_empty_sparse_refuted.

(* ---- C76: mmsp2tsv ---- *)
(* C76: whatever text the streams make of numbers, as long as it contains no tab and no newline: the file, cut at newlines and tabs, is a table with
   one row for each node, in row-major order: the coordinates and then the value(s) of the node *)
Theorem C76_scalar_table : forall E (show : Qc -> list byte) (cell : E -> list byte) ls dx data, serial_box ls -> ls <> [] -> List.length dx = List.length ls -> zlen data = nodes (lay 0 ls) ->
  (forall q, word (show q)) -> Forall (fun v => word (cell v)) data ->
  exists bs, tsv show (scalar_words cell) (lay 0 ls) dx data = Some bs /\ exists xs, all_nodes (map l_g0 ls) (map l_g1 ls) (fun _ => True) xs /\
    Forall2 (fun x row => exists v, grid_read false (lay 0 ls) data x = Some v /\ row = map show (coordinates dx x) ++ [cell v]) xs (table_of bs).
Proof.
  intros E show cell ls dx data Hs Hd Hx Hl Hw Hc.
  destruct (tsv_ok ls Hs Hd show Hw dx Hx data Hl (scalar_words cell)) as (bs & T & xs & A & F).
  { intros v Hv. rewrite Forall_forall in Hc. exists [cell v]. split; [reflexivity|]. constructor; auto. }
  exists bs. split; [exact T|]. exists xs. split; [exact A|]. eapply Forall2_impl; [|exact F]. cbn. intros x r (v & ws & R & W & ->). injection W as <-. eauto.
Qed.
Print Assumptions C76_scalar_table.
Theorem C76_vector_table : forall E (show : Qc -> list byte) (cell : E -> list byte) ls dx fields data, serial_box ls -> ls <> [] -> List.length dx = List.length ls -> zlen data = nodes (lay 0 ls) ->
  (forall q, word (show q)) -> Forall (fun v => zlen v = fields /\ Forall (fun c => word (cell c)) v) data ->
  exists bs, tsv show (vector_words cell fields) (lay 0 ls) dx data = Some bs /\ exists xs, all_nodes (map l_g0 ls) (map l_g1 ls) (fun _ => True) xs /\
    Forall2 (fun x row => exists v, grid_read false (lay 0 ls) data x = Some v /\ row = map show (coordinates dx x) ++ map cell v) xs (table_of bs).
Proof.
  intros E show cell ls dx fields data Hs Hd Hx Hl Hw Hc.
  assert (forall v, zlen v = fields -> vector_words cell fields v = Some (map cell v)) as VW.
  { intros v <-. unfold vector_words. pose proof (get_all v) as G. revert G. generalize (zrange 0 (zlen v)). intros is G.
    assert (forall m, Forall2 (fun i c => get v i = Some c) is m -> map_opt (fun i => do q <- get v i; Some (cell q)) is = Some (map cell m)) as X.
    { clear G. intros m G. induction G as [|i c is m H _ IH]; [reflexivity|]. cbn [map_opt]. rewrite H. cbn [bind]. now rewrite IH. }
    now apply X. }
  rewrite Forall_forall in Hc.
  destruct (tsv_ok ls Hs Hd show Hw dx Hx data Hl (vector_words cell fields)) as (bs & T & xs & A & F).
  { intros v Hv. destruct (Hc v Hv) as [L W]. exists (map cell v). split; [now apply VW|]. apply Forall_map. exact W. }
  exists bs. split; [exact T|]. exists xs. split; [exact A|]. eapply Forall2_impl; [|exact F]. cbn. intros x r (v & ws & R & W & ->). exists v. split; [auto|]. f_equal.
  rewrite VW in W; [now injection W|]. apply Hc. unfold grid_read in R. destruct (addr_vec _ _ _ _) as [i|]; [|discriminate]. cbn in R. unfold get in R. destruct (i <? 0); [discriminate|]. now apply nth_error_In in R.
Qed.
Print Assumptions C76_vector_table.
(* for sparse objects, the index and the value of each item *)
Theorem C76_sparse_table : forall E (show : Qc -> list byte) (cell : E -> list byte) ls dx data, serial_box ls -> ls <> [] -> List.length dx = List.length ls -> zlen data = nodes (lay 0 ls) ->
  (forall q, word (show q)) -> Forall (Forall (fun it => word (cell (snd it)))) data ->
  exists bs, tsv show (sparse_words cell) (lay 0 ls) dx data = Some bs /\ exists xs, all_nodes (map l_g0 ls) (map l_g1 ls) (fun _ => True) xs /\
    Forall2 (fun x row => exists v, grid_read false (lay 0 ls) data x = Some v /\ row = map show (coordinates dx x) ++ flat_map (fun it => [show_int (fst it); cell (snd it)]) v) xs (table_of bs).
Proof.
  intros E show cell ls dx data Hs Hd Hx Hl Hw Hc.
  destruct (tsv_ok ls Hs Hd show Hw dx Hx data Hl (sparse_words cell)) as (bs & T & xs & A & F).
  { intros v Hv. rewrite Forall_forall in Hc. specialize (Hc v Hv). eexists. split; [reflexivity|]. apply Forall_forall. intros w H. apply in_flat_map in H as (it & I & [<-|[<-|[]]]); [apply show_int_word|].
    rewrite Forall_forall in Hc. now apply Hc. }
  exists bs. split; [exact T|]. exists xs. split; [exact A|]. eapply Forall2_impl; [|exact F]. cbn. intros x r (v & ws & R & W & ->). injection W as <-. eauto.
Qed.
Print Assumptions C76_sparse_table.
(* C76: grids of char and unsigned char are written as characters, not as numbers: the file of every grid with k cells equal to 10 has k lines too many *)
Theorem C76_char_refuted : forall (show : Qc -> list byte) ls dx data bs, serial_box ls -> ls <> [] -> List.length dx = List.length ls -> zlen data = nodes (lay 0 ls) ->
  (forall q, word (show q)) -> tsv show (scalar_words char_word) (lay 0 ls) dx data = Some bs ->
  zlen (lines bs) = nodes (lay 0 ls) + zlen (filter (fun c => c mod 256 =? 10) data).
Proof.
  intros show ls dx data bs Hs Hd Hx Hl Hw E. rewrite (tsv_lines ls Hs Hd show Hw dx Hx data Hl _ bs E ltac:(unfold scalar_words; eauto)). f_equal.
  clear. induction data as [|c data IH]; [reflexivity|]. cbn [map filter]. unfold sumZ in *. cbn [fold_right]. rewrite IH. cbn [scalar_words List.concat char_word List.app count_occ].
  destruct (c mod 256 =? 10) eqn:X; destruct (Z.eq_dec (c mod 256) 10) as [Y|Y]; rewrite ?zlen_cons; lia.
Qed.
Print Assumptions C76_char_refuted.

(* ---- C77: mmsp2xyz ---- *)
(* the rows below the first line of the file *)
Definition body (bs : list byte) : list (list (list byte)) := tl (table_of bs).
(* C77, scalars: the file lists exactly the nodes whose value, or magnitude with --mag, is within the relative tolerance of one of the levels, once and in
   row-major order: three coordinates, 0 for the axes the grid does not have, and with --normal the gradient likewise (C37 says what it is) *)
Theorem C77_scalar_points : forall show mode tol levels normal ls dx data grad, serial_box ls -> 1 <= zlen ls <= 3 -> List.length dx = List.length ls -> zlen data = nodes (lay 0 ls) ->
  (forall q, word (show q)) -> (normal = true -> forall x, in_box (map l_g0 ls) (map l_g1 ls) x -> gradient false (lay 0 ls) dx data x = Some (grad x)) ->
  exists bs, xyz_scalar show mode tol levels normal (lay 0 ls) dx data = Some bs /\ exists xs,
    all_nodes (map l_g0 ls) (map l_g1 ls) (fun x => exists v, grid_read false (lay 0 ls) data x = Some v /\ on_contour tol levels (if mode =? 1 then qabs v else v)) xs /\
    body bs = map (fun x => columns show (coordinates dx x) ++ if normal then columns show (grad x) else []) xs.
Proof.
  intros show mode tol levels normal ls dx data grad Hs Hd Hx Hl Hw Hg. unfold xyz_scalar.
  assert (ls <> []) as Ne by (intros ->; destruct Hd as [Hd _]; now vm_compute in Hd).
  set (b := fun v => existsb (near tol (if mode =? 1 then qabs v else v)) levels).
  destruct (xyz_ok ls Hs Ne show Hw dx Hx data Hl (xyz_scalar_shown mode tol levels) (xyz_normal show normal (lay 0 ls) dx data) b (fun x => if normal then columns show (grad x) else [])) as (bs & E & xs & A & F).
  - lia.
  - reflexivity.
  - intros x Hin. unfold xyz_normal. destruct normal; [|split; [auto|constructor]]. specialize (Hg eq_refl x Hin). rewrite Hg. cbn [bind]. apply gradient_len in Hg. rewrite length_lay in Hg.
    rewrite <- (three_columns show (grad x) (List.length ls)) by (unfold zlen in Hd; auto; lia). split; [auto|now apply three_words].
  - rewrite E. cbn [bind]. eexists. split; [reflexivity|]. exists xs. split; [|unfold body; rewrite xyz_head_table; exact F].
    destruct A as [A1 A2]. split; [|auto]. intros x. rewrite A1. unfold b. split; intros (Hin & v & R & C); (split; [auto|]); exists v; (split; [auto|]); now apply contour_on.
Qed.
Print Assumptions C77_scalar_points.
(* C77, vectors and sparse objects: the nodes where the field of the contour is within the tolerance of a level; --mag, --field, --exclude and --normal have no effect on the rows *)
Theorem C77_vector_points : forall show tol levels lvlfield fields normal ls dx data, serial_box ls -> 1 <= zlen ls <= 3 -> List.length dx = List.length ls -> zlen data = nodes (lay 0 ls) ->
  (forall q, word (show q)) -> Forall (fun v => zlen v = fields) data -> (levels <> [] -> 0 <= lvlfield < fields) ->
  exists bs, xyz_vector show tol levels lvlfield normal (lay 0 ls) dx data = Some bs /\ exists xs,
    all_nodes (map l_g0 ls) (map l_g1 ls) (fun x => exists v q, grid_read false (lay 0 ls) data x = Some v /\ get v lvlfield = Some q /\ on_contour tol levels q) xs /\
    body bs = map (fun x => columns show (coordinates dx x)) xs.
Proof.
  intros show tol levels lvlfield fields normal ls dx data Hs Hd Hx Hl Hw Hf Hlv. unfold xyz_vector.
  assert (ls <> []) as Ne by (intros ->; destruct Hd as [Hd _]; now vm_compute in Hd). rewrite Forall_forall in Hf.
  set (b := fun v => match get v lvlfield with Some q => existsb (near tol q) levels | None => false end).
  destruct (xyz_ok ls Hs Ne show Hw dx Hx data Hl (xyz_vector_shown tol levels lvlfield) (fun _ => Some []) b (fun _ => [])) as (bs & E & xs & A & F).
  - lia.
  - intros v Hv. unfold xyz_vector_shown, b. destruct levels as [|l lv]; [now destruct (get v lvlfield)|]. destruct (get_ok v lvlfield) as [q ->]; [rewrite (Hf v Hv); apply Hlv; discriminate|reflexivity].
  - intros x _. split; [auto|constructor].
  - rewrite E. cbn [bind]. eexists. split; [reflexivity|]. exists xs. split; [|unfold body; rewrite xyz_head_table; cbn [tl]; rewrite F; apply map_ext; intros; apply app_nil_r].
    destruct A as [A1 A2]. split; [|auto]. intros x. rewrite A1. unfold b. split.
    + intros (Hin & v & R & C). split; [auto|]. destruct (get v lvlfield) as [q|] eqn:G; [|discriminate]. exists v, q. repeat split; auto. now apply contour_on.
    + intros (Hin & v & q & R & G & C). split; [auto|]. exists v. split; [auto|]. rewrite G. now apply contour_on.
Qed.
Print Assumptions C77_vector_points.
Theorem C77_sparse_points : forall show tol levels lvlfield normal ls dx data, serial_box ls -> 1 <= zlen ls <= 3 -> List.length dx = List.length ls -> zlen data = nodes (lay 0 ls) ->
  (forall q, word (show q)) ->
  exists bs, xyz_sparse show tol levels lvlfield normal (lay 0 ls) dx data = Some bs /\ exists xs,
    all_nodes (map l_g0 ls) (map l_g1 ls) (fun x => exists v, grid_read false (lay 0 ls) data x = Some v /\ on_contour tol levels (field_of v lvlfield)) xs /\
    body bs = map (fun x => columns show (coordinates dx x)) xs.
Proof.
  intros show tol levels lvlfield normal ls dx data Hs Hd Hx Hl Hw. unfold xyz_sparse.
  assert (ls <> []) as Ne by (intros ->; destruct Hd as [Hd _]; now vm_compute in Hd).
  set (b := fun v => existsb (near tol (field_of v lvlfield)) levels).
  destruct (xyz_ok ls Hs Ne show Hw dx Hx data Hl (xyz_sparse_shown tol levels lvlfield) (fun _ => Some []) b (fun _ => [])) as (bs & E & xs & A & F).
  - lia.
  - intros v Hv. unfold xyz_sparse_shown, b. destruct levels as [|l lv]; [reflexivity|]. now rewrite sread_field.
  - intros x _. split; [auto|constructor].
  - rewrite E. cbn [bind]. eexists. split; [reflexivity|]. exists xs. split; [|unfold body; rewrite xyz_head_table; cbn [tl]; rewrite F; apply map_ext; intros; apply app_nil_r].
    destruct A as [A1 A2]. split; [|auto]. intros x. rewrite A1. unfold b. split; intros (Hin & v & R & C); (split; [auto|]); exists v; (split; [auto|]); now apply contour_on.
Qed.
Print Assumptions C77_sparse_points.
(* C77: the contour of level 0 is empty for every grid, even for a field that is 0 everywhere, and so is the file if no --contour is given *)
Theorem C77_zero_level_refuted : forall show mode tol levels ls dx data, serial_box ls -> 1 <= zlen ls <= 3 -> List.length dx = List.length ls -> zlen data = nodes (lay 0 ls) ->
  (forall q, word (show q)) -> Forall (fun l => l = 0%Qc) levels ->
  exists bs, xyz_scalar show mode tol levels false (lay 0 ls) dx data = Some bs /\ body bs = [].
Proof.
  intros show mode tol levels ls dx data Hs Hd Hx Hl Hw H0.
  destruct (C77_scalar_points show mode tol levels false ls dx data (fun _ => []) Hs Hd Hx Hl Hw ltac:(discriminate)) as (bs & E & xs & [A _] & F).
  exists bs. split; [exact E|]. rewrite F. destruct xs as [|x xs]; [reflexivity|]. exfalso. destruct (proj1 (A x) (or_introl eq_refl)) as (_ & v & _ & l & Il & Nl & _).
  rewrite Forall_forall in H0. now apply Nl, H0.
Qed.
Print Assumptions C77_zero_level_refuted.
(* C77: the first character of the tolerance given by --contol= is lost, in mmsp2xyz and mmsp2png; a tolerance of one character is undefined behaviour *)
Theorem C77_tolerance_refuted : forall (c : byte) (t : list byte), zlen t <= 255 -> ~ In 44 t ->
  (t <> [] -> contol_text (bytes "--contol=" ++ c :: t) = Done t) /\ (t = [] -> contol_text (bytes "--contol=" ++ c :: t) = Undef).
Proof.
  intros c t L N. assert (contol_text (bytes "--contol=" ++ c :: t) = match token t with None => Undef | Some (t, r) => match token r with None => Done t | Some _ => Exit 134 end end) as ->.
  { unfold contol_text. replace (zlen (bytes "--contol=" ++ c :: t)) with (10 + zlen t) by (unfold zlen; rewrite app_length; change (List.length (bytes "--contol=")) with 9%nat; cbn [List.length]; unfold byte; lia). pose proof (zlen_nonneg t).
    replace (10 + zlen t =? 8) with false by lia. replace (10 + zlen t <? 10) with false by lia. change (nth 8 (bytes "--contol=" ++ c :: t) 0) with 61. cbn [orb negb Z.eqb Pos.eqb].
    change (skipn 10 (bytes "--contol=" ++ c :: t)) with t. rewrite firstn_all2 by (unfold zlen in L; lia). reflexivity. }
  split; [intros Nt|intros ->; reflexivity]. now rewrite token_whole.
Qed.
Print Assumptions C77_tolerance_refuted.

(* a plane of 2 x 3 nodes that meets the hypotheses of C75, C76 and C77 *)
Definition c75_ls : list limits := [mkLim 0 2 0 2 0 0; mkLim (-1) 2 (-1) 2 0 0].
Definition c75_vectors : list (list Qc) := map (map int2q) [[1; -5]; [2; 2]; [0; 3]; [-4; -6]; [7; 8]; [9; 1]].
Definition c75_show (q : Qc) : list byte := show_int (Qnum (this q)) ++ bytes "/" ++ show_int (Zpos (Qden (this q))).
Lemma c75_show_word q : word (c75_show q).
Proof.
  unfold c75_show. pose proof (show_int_word (Qnum (this q))) as [A B]. pose proof (show_int_word (Zpos (Qden (this q)))) as [C D].
  split; intros X; apply in_app_or in X as [X|X]; auto; apply in_app_or in X as [X|X]; auto; cbn in X; destruct X as [X|[]]; discriminate.
Qed.
Example C75_case : serial_box c75_ls /\ zlen c75_vectors = nodes (lay 0 c75_ls) /\ Forall (fun v => zlen v = 2) c75_vectors /\
  exists im, vector_to_vtk (fun q => q) (fun q => q) 2 0 2 (lay 0 c75_ls) [1; 1]%Qc c75_vectors = Some im /\ im_extent im = [(0, 1); (-1, 1)] /\
    im_points im = map (fun p => (fst p, [int2q (snd p)])) [([0; -1], 0); ([1; -1], 0); ([0; 0], 0); ([1; 0], 1); ([0; 1], 1); ([1; 1], 0)].
Proof.
  split; [repeat constructor; cbn; lia|]. split; [reflexivity|]. split; [repeat constructor|]. eexists. split; [vm_compute; reflexivity|]. split; [reflexivity|]. vm_compute. reflexivity.
Qed.
Example C75_max_case : first_greatest (map int2q [1; -5]) 0 /\ (int2q 1 < - int2q (-5))%Qc.
Proof.
  split; [|reflexivity]. exists (int2q 1). split; [reflexivity|]. intros j r H. apply get_some_iff in H as B. unfold zlen in B. cbn in B. assert (j = 0 \/ j = 1) as [->| ->] by lia; vm_compute in H; injection H as <-; (split; [vm_compute; discriminate|lia]).
Qed.
Example C76_case : tsv c75_show (vector_words show_int 2) (lay 0 c75_ls) [1; Q2Qc (1 # 2)]%Qc [[1; -5]; [2; 2]; [0; 3]; [-4; -6]; [7; 8]; [9; 1]] =
  Some (flat_map (fun l => bytes l ++ [10]) ["0/1	-1/2	1	-5"; "0/1	0/1	2	2"; "0/1	1/2	0	3"; "1/1	-1/2	-4	-6"; "1/1	0/1	7	8"; "1/1	1/2	9	1"]).
Proof. vm_compute. reflexivity. Qed.
Example C77_case : xyz_vector c75_show (Q2Qc (1 # 10)) [int2q 2; int2q (-4)] 0 false (lay 0 c75_ls) [1; Q2Qc (1 # 2)]%Qc c75_vectors =
  Some (flat_map (fun l => bytes l ++ [10]) ["#X	Y	Z"; "0/1	0/1	0"; "1/1	-1/2	0"]).
Proof. vm_compute. reflexivity. Qed.
Example C77_flag : contol_text (bytes "--contol=0.06") = Done (bytes ".06") /\ contol_text (bytes "--contol=12") = Done (bytes "2") /\ contol_text (bytes "--contol=1") = Undef.
Proof. repeat split. Qed.
