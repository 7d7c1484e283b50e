(* C51: pictures of grids (include/MMSP.output.cpp, utility/mmsp2png.cpp). *)
From Coq Require Import QArith.QArith QArith.Qcanon.
From Verif Require Import Model.Base Model.Num Model.Boundary Model.Layout Model.Access Model.Sparse Model.File Model.Stencil Model.Evolve Model.Image Spec.Box Spec.Access Spec.Image
  Proof.BaseL Proof.LayoutL Proof.AccessL Proof.StencilL Proof.ImageL Proof.ImageF.
Local Open Scope list_scope.
Local Open Scope Z_scope.

(* C51: for every way to assign a number to the cells that is the same for scaling and drawing, every grid of one to three
   dimensions and every zoom range that is not empty: the scale runs from the smallest to the largest of the data and the zoom
   limits, and the pixel in row r and column c has the intensity, 0 to 255 on that scale, of the node it shows *)
Theorem C51_image : forall T (value : T -> option Qc) ls (data : list T) zoomin zoomax axis level invert vals,
  1 <= zlen ls <= 3 -> serial_box ls -> zlen data = nodes (lay 0 ls) -> map_opt value data = Some vals ->
  (zoomin < zoomax)%Qc -> let gs := map (fun l => (l_g0 l, l_g1 l)) ls in slice_of gs axis level ->
  let w := fst (picture gs axis) in let h := snd (picture gs axis) in
  exists lo hi buf, least zoomin vals lo /\ greatest zoomax vals hi /\
    mmsp2png value value (fun _ p => Some p) ls data zoomin zoomax axis level invert = Done (w, h, buf) /\ zlen buf = w * h /\
    forall r c, 0 <= r < h -> 0 <= c < w -> exists cell v p,
      grid_read false (lay 0 ls) data (node_at gs axis level r c) = Some cell /\ value cell = Some v /\ intensity lo hi v p /\
      get buf (r * w + c) = Some (if invert then 255 - p else p).
Proof.
  intros T value ls data zoomin zoomax axis level invert vals Hd Hb Hl V Z gs S w h.
  destruct (scan_spec zoomin zoomax vals (Qclt_le_weak _ _ Z)) as [[L1 L2] [G1 G2]]. set (lo := fst (scan zoomin zoomax vals)) in *. set (hi := snd (scan zoomin zoomax vals)) in *.
  assert (lo < hi)%Qc as LH by (inversion L2; inversion G2; subst; eapply Qcle_lt_trans; [eassumption|]; eapply Qclt_le_trans; eassumption).
  assert (SC : scan zoomin zoomax vals = (lo, hi)) by apply surjective_pairing.
  assert (forall c v, In c data -> value c = Some v -> (lo <= v)%Qc /\ (v <= hi)%Qc) as B.
  { intros c v I E. apply map_opt_some in V. assert (In v vals) as IV.
    { clear - V I E. induction V as [|a b l m H _ IH]; [destruct I|]. destruct I as [->|I]; [left; congruence|right; auto]. }
    rewrite Forall_forall in L2, G2. split; [apply L2|apply G2]; now right. }
  destruct (image value value (fun _ p => Some p) ls data zoomin zoomax Hd Hb Hl vals axis level invert V S) as (buf & P & L & Q).
  { intros c I. apply map_opt_some in V. assert (exists v, value c = Some v) as (v & Ev). { clear - V I. induction V as [|a b l m H _ IH]; [destruct I|]. destruct I as [->|I]; eauto. }
    destruct (B c v I Ev) as [B1 B2]. rewrite SC. destruct (shade_ok lo hi v LH B1 B2) as (p & Sp & _). exists v, p, p. auto. }
  exists lo, hi, buf. split; [split; auto|]. split; [split; auto|]. split; [exact P|]. split; [exact L|]. intros r c Hr Hc. destruct (Q r c Hr Hc) as (cell & v & p & q & A1 & A2 & A3 & A4 & A5 & A6).
  injection A5 as <-. exists cell, v, p. repeat split; auto. all: destruct (B cell v A2 A3) as [B1 B2]; destruct (shade_ok lo hi v LH B1 B2) as (p' & Sp & Hp); rewrite SC, Sp in A4; injection A4 as <-; apply Hp.
Qed.
Print Assumptions C51_image.

(* C51: pixels and nodes of the slice correspond one to one *)
Theorem C51_one_to_one : forall gs axis level, 1 <= zlen gs <= 3 -> slice_of gs axis level ->
  let w := fst (picture gs axis) in let h := snd (picture gs axis) in
  let in_slice x := in_box (map fst gs) (map snd gs) x /\ (zlen gs = 3 -> nth (Z.to_nat axis) x 0 = level) in
  (forall r c, 0 <= r < h -> 0 <= c < w -> in_slice (node_at gs axis level r c)) /\
  (forall x, in_slice x -> exists r c, 0 <= r < h /\ 0 <= c < w /\ node_at gs axis level r c = x) /\
  (forall r c r' c', 0 <= r < h -> 0 <= r' < h -> node_at gs axis level r c = node_at gs axis level r' c' -> r = r' /\ c = c').
Proof.
  intros gs axis level L S w h in_slice. unfold w, h, in_slice. clear w h in_slice.
  destruct gs as [|[a0 b0] [|[a1 b1] [|[a2 b2] [|? ?]]]]; [unfold zlen in L; cbn in L; lia| | | |unfold zlen in L; cbn [length] in L; lia].
  - cbn -[Z.to_nat]. unfold extent. cbn [fst snd]. split; [intros; split; [lia|intros D; discriminate D]|]. split.
    + intros [|x [|? ?]] [H _]; try tauto. exists 0, (x - a0). repeat split; try lia. f_equal. lia.
    + intros r c r' c' Hr Hr' E. injection E as E. lia.
  - cbn -[Z.to_nat]. unfold extent. cbn [fst snd]. split; [intros; split; [lia|intros D; discriminate D]|]. split.
    + intros [|x [|y [|? ?]]] [H _]; try tauto. exists (b1 - 1 - y), (x - a0). repeat split; try lia. f_equal; [lia|f_equal; lia].
    + intros r c r' c' Hr Hr' E. injection E as E. lia.
  - destruct S as [[S _]|(_ & S1 & S2)]; [unfold zlen in S; cbn in S; lia|].
    assert (axis = 0 \/ axis = 1 \/ axis = 2) as [-> | [-> | ->]] by lia; change (Z.to_nat 0) with 0%nat in *; change (Z.to_nat 1) with 1%nat in *; change (Z.to_nat 2) with 2%nat in *; cbn [nth fst snd] in S2;
      cbn; unfold extent; cbn [fst snd].
    + split; [intros; split; [lia|reflexivity]|]. split.
      * intros [|x [|y [|z [|? ?]]]] [H E]; try tauto. specialize (E eq_refl). cbn in E. exists (z - a2), (b1 - 1 - y). repeat split; try lia. f_equal; [lia|f_equal; [lia|f_equal; lia]].
      * intros r c r' c' Hr Hr' E. injection E as E. lia.
    + split; [intros; split; [lia|reflexivity]|]. split.
      * intros [|x [|y [|z [|? ?]]]] [H E]; try tauto. specialize (E eq_refl). cbn in E. exists (z - a2), (x - a0). repeat split; try lia. f_equal; [lia|f_equal; [lia|f_equal; lia]].
      * intros r c r' c' Hr Hr' E. injection E as E. lia.
    + split; [intros; split; [lia|reflexivity]|]. split.
      * intros [|x [|y [|z [|? ?]]]] [H E]; try tauto. specialize (E eq_refl). cbn in E. exists (b1 - 1 - y), (x - a0). repeat split; try lia. f_equal; [lia|f_equal; [lia|f_equal; lia]].
      * intros r c r' c' Hr Hr' E. injection E as E. lia.
Qed.
Print Assumptions C51_one_to_one.

(* C51: the number for a cell.  Scalars: the value, or with --mag (mode 1) its absolute value.  Vectors: of the fields that are
   selected by default (mode 0), --mag (1), --field (2) or --exclude (3), the field if it is one, or else the magnitude, both for the
   scale and for the picture.  Sparse objects: likewise, but always the magnitude except for --field *)
Theorem C51_value :
  (forall mode v, scalar_value mode v = Some (if mode =? 1 then (if Qclt_le_dec v 0 then - v else v)%Qc else v)) /\
  (forall root mode fieldset drawing v, 0 <= mode <= 3 -> NoDup fieldset -> Forall (fun i => 0 <= i < zlen v) fieldset ->
     (mode < 2 -> fieldset = []) -> (mode = 2 -> fieldset <> []) ->
     let fields := if mode =? 2 then fieldset
                   else filter (fun i => if in_dec Z.eq_dec i fieldset then false else true) (zrange 0 (zlen v)) in
     let vals := map (fun i => nth (Z.to_nat i) v 0%Qc) fields in
     vector_value root mode fieldset drawing (zlen v) v = Some (if mode =? 1 then magnitude root vals else shown root vals)) /\
  (forall root mode fieldset v, 0 <= mode <= 3 -> (mode < 2 -> fieldset = []) -> ~ (mode = 3 /\ zlen fieldset = 1) ->
     let rest := filter (fun it => if in_dec Z.eq_dec (fst it) fieldset then false else true) v in
     let s := if mode =? 2 then shown root (map (field_of v) fieldset) else magnitude root (map snd rest) in
     sparse_scan_value root mode fieldset v = Some s /\ sparse_draw_value root mode fieldset v = Some s).
Proof.
  assert (forall fs i, (if in_dec Z.eq_dec i fs then false else true) = negb (mem fs i)) as M.
  { intros fs i. pose proof (mem_in fs i) as [A B]. destruct (in_dec Z.eq_dec i fs) as [I|I]; [now rewrite B|]. destruct (mem fs i); [|reflexivity]. exfalso. apply I, A. reflexivity. }
  split; [reflexivity|]. split.
  - intros root mode fieldset drawing v Hm N F E0 E2 fields vals. pose proof (vector_value_shown root mode fieldset drawing v Hm N F E0 E2) as V. cbv zeta in V. rewrite V.
    assert (selected mode fieldset (zlen v) = fields) as ->; [|reflexivity]. unfold selected, fields. destruct (mode =? 2) eqn:Q2; [reflexivity|]. destruct (mode =? 3) eqn:Q3; [apply filter_ext; intros; now rewrite M|].
    apply Z.eqb_neq in Q2, Q3. rewrite E0 by lia. symmetry. apply filter_true. reflexivity.
  - intros root mode fieldset v Hm E0 N rest s. rewrite sparse_scan_shown, sparse_draw_shown by auto. assert (sparse_shown root mode fieldset v = s) as ->; [|split; reflexivity]. unfold sparse_shown, s. destruct (mode =? 2) eqn:Q2; [reflexivity|]. do 2 f_equal.
    unfold rest. destruct (mode =? 3) eqn:Q3; [apply filter_ext; intros; now rewrite M|]. apply Z.eqb_neq in Q2, Q3. rewrite E0 by lia. symmetry. apply filter_true. reflexivity.
Qed.
Print Assumptions C51_value.

(* C51, contours of a box of scalars: pixels whose value is near a level are black, or white with --coninv; the others are unchanged *)
Theorem C51_contour : forall mode coninv tol levels v p, 0 <= mode <= 3 ->
  let val := if mode =? 1 then (if Qclt_le_dec v 0 then - v else v)%Qc else v in
  exists q, scalar_over 3 mode coninv tol levels v p = Some q /\
    ((on_contour tol levels val /\ q = (if coninv then 255 else 0)) \/ (~ on_contour tol levels val /\ q = p)).
Proof. intros mode coninv tol levels v p Hm val. eexists. split; [reflexivity|]. apply (mark_spec coninv tol levels val p). reflexivity. Qed.
Print Assumptions C51_contour.
(* likewise of vectors and sparse objects, on the field given *)
Theorem C51_field_contour : forall coninv tol levels lvlfield p,
  (forall v, 0 <= lvlfield < zlen v -> exists q, vector_over coninv tol levels lvlfield v p = Some q /\
     let val := nth (Z.to_nat lvlfield) v 0%Qc in
     ((on_contour tol levels val /\ q = (if coninv then 255 else 0)) \/ (~ on_contour tol levels val /\ q = p))) /\
  (forall v, exists q, sparse_over coninv tol levels lvlfield v p = Some q /\
     let val := field_of v lvlfield in
     ((on_contour tol levels val /\ q = (if coninv then 255 else 0)) \/ (~ on_contour tol levels val /\ q = p))).
Proof.
  intros coninv tol levels lvlfield p. assert (forall val, ~ on_contour tol [] val) as N by (intros val (l & [] & _)). split; intros v.
  - intros H. unfold vector_over. destruct levels as [|l levels]; [eexists; split; [reflexivity|]; right; auto|].
    assert (get v lvlfield = Some (nth (Z.to_nat lvlfield) v 0%Qc)) as ->. { unfold get. replace (lvlfield <? 0) with false by (symmetry; apply Z.ltb_ge; lia). apply nth_error_nth'. unfold zlen in H. lia. }
    eexists. split; [reflexivity|]. apply (mark_spec coninv tol (l :: levels) _ p). reflexivity.
  - unfold sparse_over. destruct levels as [|l levels]; [eexists; split; [reflexivity|]; right; auto|]. rewrite sread_field. eexists. split; [reflexivity|]. apply (mark_spec coninv tol (l :: levels) _ p). reflexivity.
Qed.
Print Assumptions C51_field_contour.
(* C51 is false of the contours of a line or plane of scalars: none of the options of the program has any effect *)
Theorem C51_contour_refuted : forall mode coninv tol levels ls data zoomin zoomax axis level invert, 0 <= mode <= 3 -> zlen ls <= 2 ->
  mmsp2png (scalar_value mode) (scalar_value mode) (scalar_over (zlen ls) mode coninv tol levels) ls data zoomin zoomax axis level invert =
  mmsp2png (scalar_value mode) (scalar_value mode) (fun _ p => Some p) ls data zoomin zoomax axis level invert.
Proof.
  intros mode coninv tol levels ls data zoomin zoomax axis level invert Hm Hd. unfold mmsp2png, to_png. destruct (slicing ls axis level) as [a l]. destruct (image_size ls a) as [w h].
  destruct (req _) as [cs| |]; cbn [obind]; try reflexivity. destruct (req _) as [vs| |]; cbn [obind]; try reflexivity. destruct (req _) as [xs| |]; cbn [obind]; try reflexivity.
  assert (forall r n, draw (scalar_value mode) (scalar_over (zlen ls) mode coninv tol levels) ls data r (w * h) n xs = draw (scalar_value mode) (fun _ p => Some p) ls data r (w * h) n xs) as ->; [|reflexivity].
  induction xs as [|x xs IH]; intros r n; [reflexivity|]. cbn [draw]. rewrite IH. destruct (n <? w * h); [|reflexivity].
  assert (pixel (scalar_value mode) (scalar_over (zlen ls) mode coninv tol levels) ls data r x = pixel (scalar_value mode) (fun _ p => Some p) ls data r x) as ->; [|reflexivity].
  unfold pixel, scalar_over. replace (zlen ls =? 3) with false by (symmetry; apply Z.eqb_neq; lia). replace (mode =? 4) with false by (symmetry; apply Z.eqb_neq; lia). reflexivity.
Qed.
Print Assumptions C51_contour_refuted.

(* C51, --zoom without limits starts from limits M and N the wrong way round, outside of the data.  It finds the extremes
   of the data if the smallest value occurs at a node other than the first *)
Theorem C51_zoom_partial : forall M N v l m, (forall u, In u (v :: l) -> (N < u)%Qc /\ (u < M)%Qc) -> In m l -> (forall u, In u (v :: l) -> (m <= u)%Qc) ->
  let r := scan M N (v :: l) in fst r = m /\ greatest v l (snd r).
Proof.
  intros M N v l m B I H. destruct (B v (or_introl eq_refl)) as [B1 B2]. cbv zeta. rewrite scan_reversed by auto. destruct (widen_hi l M v) as [G J]. split; [|exact G].
  apply Qcle_antisym; [apply widen_lo; auto; apply H; now left|]. destruct J as [J|J].
  - rewrite <- J. apply Qclt_le_weak, B. now right.
  - apply H. now right.
Qed.
Print Assumptions C51_zoom_partial.
(* and otherwise the first value is not on the scale *)
Theorem C51_zoom_refuted : forall M N v l, (forall u, In u (v :: l) -> (N < u)%Qc /\ (u < M)%Qc) -> (forall u, In u l -> (v < u)%Qc) ->
  (v < fst (scan M N (v :: l)))%Qc.
Proof.
  intros M N v l B H. destruct (B v (or_introl eq_refl)) as [B1 B2]. rewrite scan_reversed by auto. destruct (widen_hi l M v) as [_ [<-|J]]; auto.
Qed.
Print Assumptions C51_zoom_refuted.

(* the limits of --zoom: the root of the largest double, and its negative *)
Definition zoom_in : Qc := int2q ((2 ^ 53 - 1) * 2 ^ 459).
Definition zoom_out : Qc := (- zoom_in)%Qc.
Definition line (n : Z) : list limits := [mkLim 0 n 0 n 1 1].
Definition ints (l : list Z) : list Qc := map int2q l.
Definition same_shade (_ : Qc) (p : Z) : option Z := Some p.
(* so that increasing data are shown white throughout, and other pixels are out of range *)
Theorem C51_zoom_image_refuted :
  mmsp2png (scalar_value 0) (scalar_value 0) same_shade (line 4) (ints [0; 1; 2; 3]) zoom_in zoom_out (-1) (-1) false = Done (4, 1, [255; 255; 255; 255]) /\
  mmsp2png (scalar_value 0) (scalar_value 0) same_shade (line 3) (ints [0; 2; 1]) zoom_in zoom_out (-1) (-1) false = Undef.
Proof. split; vm_compute; reflexivity. Qed.
Print Assumptions C51_zoom_image_refuted.

(* C51 is false of constant data on an empty scale: the picture is the result of a division by 0 *)
Theorem C51_constant_refuted : forall ls data v axis level invert, 1 <= zlen ls <= 3 -> serial_box ls -> zlen data = nodes (lay 0 ls) ->
  let gs := map (fun l => (l_g0 l, l_g1 l)) ls in slice_of gs axis level -> 0 < fst (picture gs axis) -> 0 < snd (picture gs axis) ->
  (forall u, In u data -> u = v) -> mmsp2png (scalar_value 0) (scalar_value 0) same_shade ls data v v axis level invert = Undef.
Proof.
  intros ls data v axis level invert Hd Hb Hl gs S W H C. destruct (serial_lims ls Hb) as (LO & M0 & M1 & F). assert (zlen (glims ls) = zlen ls) as E by (unfold glims; apply BaseL.zlen_map).
  assert (map_opt (scalar_value 0) data = Some data) as V. { rewrite (map_opt_map (scalar_value 0) (fun v => v)) by reflexivity. now rewrite map_id. }
  assert (scan v v data = (v, v)) as SC.
  { unfold scan. clear - C. induction data as [|u d IH]; [reflexivity|]. cbn [fold_left]. rewrite (C u) by now left. unfold widen at 2. replace (qgt v v) with false by (symmetry; apply qgt_false, Qcle_refl). apply IH. intros; apply C; now right. }
  unfold mmsp2png. assert (slicing ls axis level = (axis, level)) as -> .
  { unfold slicing. destruct S as [[S1 ->]|(S1 & S2 & _)]; [change gs with (glims ls) in S1; replace (zlen ls =? 3) with false by (symmetry; apply Z.eqb_neq; lia); reflexivity|]. replace (axis <? 0) with false by (symmetry; apply Z.ltb_ge; lia). now rewrite andb_false_r. }
  rewrite (image_size_picture ls axis level) by auto. change (glims ls) with gs. rewrite (surjective_pairing (picture gs axis)). rewrite (scanned (scalar_value 0) (scalar_value 0) same_shade ls data v v Hl data V _ _ _ _ (drawn_table (glims ls) axis level ltac:(lia) F S)).
  change (glims ls) with gs. rewrite SC. unfold table. rewrite (zrange_cons 0 (snd (picture gs axis))) by lia. cbn [flat_map]. rewrite (zrange_cons 0 (fst (picture gs axis))) by lia. cbn [map app draw].
  replace (0 <? fst (picture gs axis) * snd (picture gs axis)) with true by (symmetry; apply Z.ltb_lt; nia).
  assert (pixel (scalar_value 0) same_shade ls data (v, v) (node_at gs axis level 0 0) = None) as ->; [|reflexivity].
  unfold pixel. destruct (grid_read _ _ _ _) as [u|]; [|reflexivity]. cbn [bind scalar_value Z.eqb]. unfold shade. unfold recip. destruct (Qc_eq_dec (v - v) 0) as [_|N]; [reflexivity|]. exfalso. apply N. ring.
Qed.
Print Assumptions C51_constant_refuted.

(* C51, the slice of a box if none is asked for: the middle of the third axis, provided it starts at 0 *)
Theorem C51_default_slice : forall T (scanv drawv : T -> option Qc) over ls data zoomin zoomax invert, zlen ls = 3 -> l_g0 (nth 2 ls (mkLim 0 0 0 0 0 0)) = 0 ->
  mmsp2png scanv drawv over ls data zoomin zoomax (-1) (-1) invert =
  mmsp2png scanv drawv over ls data zoomin zoomax 2 (Z.quot (l_g1 (nth 2 ls (mkLim 0 0 0 0 0 0))) 2) invert.
Proof.
  intros T scanv drawv over ls data zoomin zoomax invert L E. destruct ls as [|l0 [|l1 [|l2 [|? ?]]]]; try (unfold zlen in L; cbn [length] in L; lia). cbn [nth] in E. unfold mmsp2png, slicing. rewrite L. cbn. rewrite E, Z.sub_0_r. reflexivity.
Qed.
Print Assumptions C51_default_slice.
(* C51 is false of a level outside of the grid, which is accepted: the picture is not written at all *)
Theorem C51_level_refuted : forall T (scanv drawv : T -> option Qc) over ls data zoomin zoomax axis level invert vals, zlen ls = 3 -> zlen data = nodes (lay 0 ls) -> map_opt scanv data = Some vals ->
  let gs := map (fun l => (l_g0 l, l_g1 l)) ls in Forall (fun g => fst g < snd g) gs -> 0 <= axis <= 2 ->
  ~ (fst (nth (Z.to_nat axis) gs (0, 0)) <= level < snd (nth (Z.to_nat axis) gs (0, 0))) ->
  mmsp2png scanv drawv over ls data zoomin zoomax axis level invert = Undef.
Proof.
  intros T scanv drawv over ls data zoomin zoomax axis level invert vals L Hl V gs F Ha S. unfold mmsp2png. assert (slicing ls axis level = (axis, level)) as ->.
  { unfold slicing. replace (axis <? 0) with false by (symmetry; apply Z.ltb_ge; lia). now rewrite andb_false_r. }
  destruct (image_size ls axis) as [w h] eqn:IS. 
  assert (drawn (glims ls) axis level = Some [] /\ 0 < w * h) as [D WH].
  { destruct ls as [|l0 [|l1 [|l2 [|? ?]]]]; try (unfold zlen in L; cbn [length] in L; lia). split; [apply drawn_outside; auto|]. unfold gs in F. cbn [map] in F. repeat match goal with H : Forall _ (_ :: _) |- _ => inversion H; clear H; subst end; cbn [fst snd] in *.
    assert (axis = 0 \/ axis = 1 \/ axis = 2) as [-> | [-> | ->]] by lia; match type of IS with ?a = _ => change a with (picture (glims [l0; l1; l2]) 0) in IS || change a with (picture (glims [l0; l1; l2]) 1) in IS || change a with (picture (glims [l0; l1; l2]) 2) in IS end; cbn in IS; unfold extent in IS; cbn [fst snd] in IS; injection IS as <- <-; nia. }
  rewrite (scanned scanv drawv over ls data zoomin zoomax Hl vals V _ _ _ _ D). cbn [draw obind]. change (zlen (@nil Z)) with 0. replace (0 =? w * h) with false by (symmetry; apply Z.eqb_neq; lia). reflexivity.
Qed.
Print Assumptions C51_level_refuted.
(* as with --slice=x, announced as the midpoint, whose level is -1, and with the default slice of a grid that starts elsewhere *)
Definition cube (a : Z) : list limits := let l := mkLim a (a + 2) a (a + 2) 1 1 in [l; l; l].
Theorem C51_midpoint_refuted :
  (forall invert, mmsp2png (scalar_value 0) (scalar_value 0) same_shade (cube 0) (ints [0; 1; 0; 1; 0; 1; 0; 1]) 0%Qc 1%Qc 0 (-1) invert = Undef) /\
  (forall invert, mmsp2png (scalar_value 0) (scalar_value 0) same_shade (cube 10) (ints [0; 1; 0; 1; 0; 1; 0; 1]) 0%Qc 1%Qc (-1) (-1) invert = Undef).
Proof. split; intros [|]; vm_compute; reflexivity. Qed.
Print Assumptions C51_midpoint_refuted.

(* C51 is false of sparse objects when exactly one field is excluded: the scale is that of the squares, the picture that of the
   roots.  With the default zoom the largest value is not white; with a narrower zoom pixels are out of range *)
Definition a_root (q : Qc) : Qc := if Qc_eq_dec q (int2q 4) then int2q 2 else if Qc_eq_dec q (Q2Qc (1 # 4)) then Q2Qc (1 # 2) else q.
Definition plain (_ : list (Z * Qc)) (p : Z) : option Z := Some p.
Theorem C51_exclude_refuted :
  (a_root (int2q 4) * a_root (int2q 4) = int2q 4 /\ a_root (Q2Qc (1 # 4)) * a_root (Q2Qc (1 # 4)) = Q2Qc (1 # 4))%Qc /\
  mmsp2png (sparse_scan_value a_root 3 [7]) (sparse_draw_value a_root 3 [7]) plain (line 2) [[(0, int2q 2)]; [(7, int2q 1)]] 0%Qc 1%Qc (-1) (-1) false = Done (2, 1, [127; 0]) /\
  mmsp2png (sparse_scan_value a_root 3 [7]) (sparse_draw_value a_root 3 [7]) plain (line 2) [[(0, Q2Qc (1 # 2))]; [(7, int2q 1)]] 0%Qc (Q2Qc (1 # 10)) (-1) (-1) false = Undef.
Proof. split; [split; apply Qc_is_canon; vm_compute; reflexivity|]. split; vm_compute; reflexivity. Qed.
Print Assumptions C51_exclude_refuted.

(* the hypotheses of C51_image are met, and the picture: a plane of 2 x 3 nodes, the second axis upwards *)
Example C51_case :
  let ls := [mkLim 5 7 5 7 1 1; mkLim 0 3 0 3 2 2] in let gs := map (fun l => (l_g0 l, l_g1 l)) ls in let data := ints [0; 1; 2; 3; 4; 5] in
  serial_box ls /\ zlen data = nodes (lay 0 ls) /\ map_opt (scalar_value 0) data = Some data /\ slice_of gs (-1) (-1) /\ picture gs (-1) = (2, 3) /\
  mmsp2png (scalar_value 0) (scalar_value 0) same_shade ls data 0%Qc 1%Qc (-1) (-1) false = Done (2, 3, [102; 255; 51; 204; 0; 153]) /\
  slice_of [(0, 2); (0, 2); (0, 2)] 0 1 /\ slice_of [(0, 2); (0, 2); (0, 2)] 2 1.
Proof.
  cbv zeta. split; [repeat constructor; cbn; lia|]. split; [reflexivity|]. split; [vm_compute; reflexivity|]. split; [left; split; [vm_compute; discriminate|reflexivity]|].
  split; [reflexivity|]. split; [vm_compute; reflexivity|]. split; right; (split; [reflexivity|]); (split; [lia|]); vm_compute; intuition discriminate.
Qed.
Example C51_value_case : vector_value (fun q => q) 3 [1] true 3 (ints [3; 9; 4]) = Some (int2q 25) /\ vector_value (fun q => q) 3 [1; 2] false 3 (ints [3; 9; 4]) = Some (int2q 3) /\
  sparse_draw_value (fun q => q) 2 [4] [(2, int2q 5); (4, int2q 6)] = Some (int2q 6).
Proof. repeat split; vm_compute; reflexivity. Qed.
