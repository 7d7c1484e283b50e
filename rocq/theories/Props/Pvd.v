From Coq Require Import String QArith.QArith QArith.Qcanon.
From Verif Require Import Model.Base Model.Text Model.Boundary Model.Layout Model.Setup Model.Codec Model.Region Model.File Model.Types Model.Vtk Model.Pvd
  Spec.Box Spec.Access Spec.Decomp Spec.Bytes Spec.File Spec.Types Spec.Pvd
  Proof.BaseL Proof.LayoutL Proof.CodecL Proof.FileL Proof.TypesL Proof.PvdL.
Local Open Scope list_scope.
Local Open Scope Z_scope.

(* ---- C78: time series of images ---- *)

(* the file called name was written by output of a grid that is not distributed, and im is the image of that grid, with spacing unit *)
Definition saved {T D I} (cod : kind -> elem -> codec T) (valid : kind -> elem -> T -> Prop) (dshow : D -> list byte) (dparse : list byte -> option D) (raw : bool)
    (compress : list byte -> list byte) (draw : Z -> Z -> kind -> elem -> Z -> list axis -> list D -> list T -> option I) (unit : D)
    (files : list byte -> option (list byte)) (m : drawing) (name : list byte) (im : I) : Prop :=
  exists k e fields axs dx data file,
    serialises (cod k e) (valid k e) /\ cod KScalar e = cod KPlain e /\ e <> ELDouble /\
    int_range fields /\ 1 <= zlen axs <= 3 /\ wf_axes 0 axs /\ Forall (fun a => a_x0 a = a_g0 a /\ a_x1 a = a_g1 a) axs /\
    Forall (fun a => int_range (a_g0 a) /\ int_range (a_g1 a) /\ int_range (a_b0 a) /\ int_range (a_b1 a)) axs /\
    List.length dx = List.length axs /\ Forall (exact_text dshow dparse) dx /\
    zlen data = cells axs /\ Forall (valid k e) data /\ recognisable (cod k e) raw compress axs data /\
    files name = Some file /\ output_serial (cod k e) dshow raw compress (grid_name k e) fields axs dx data = Some file /\
    draw (drawing_mode m) (drawing_field m) (opened_as Pvd k) e fields
      (ge_axes (setup_single (map (fun a => mkG (a_g0 a) (a_g1 a)) axs) 0)) (repeat unit (List.length axs)) data = Some im.

Lemma saved_draw {T D I} (cod : kind -> elem -> codec T) valid fresh (dshow : D -> list byte) dparse raw compress uncompress
    (draw : Z -> Z -> kind -> elem -> Z -> list axis -> list D -> list T -> option I) unit files m name im :
  lossless compress uncompress -> saved cod valid dshow dparse raw compress draw unit files m name im ->
  exists file, files name = Some file /\ draw_file cod fresh dparse uncompress draw unit (drawing_mode m) (drawing_field m) file = Done [im].
Proof.
  intros Lo (k & e & fields & axs & dx & data & file & A1 & A2 & A3 & A4 & A5 & A6 & A7 & A8 & A9 & A10 & A11 & A12 & A13 & A14 & A15 & A16).
  exists file. split; [auto|]. eapply draw_saved; eauto.
  replace (box_axes axs) with (ge_axes (setup_single (map (fun a => mkG (a_g0 a) (a_g1 a)) axs) 0)); [exact A16|].
  unfold box_axes. f_equal. f_equal. apply map_ext_Forall. eapply Forall_impl; [|exact A7]. intros a [-> ->]. reflexivity.
Qed.

Section Series.
Context {T D I : Type} (cod : kind -> elem -> codec T) (valid : kind -> elem -> T -> Prop) (fresh : kind -> elem -> Z -> T)
  (dshow : D -> list byte) (dparse : list byte -> option D) (raw : bool) (compress : list byte -> list byte) (uncompress : list byte -> Z -> option (list byte))
  (draw : Z -> Z -> kind -> elem -> Z -> list axis -> list D -> list T -> option I) (unit : D) (files : list byte -> option (list byte)).
Notation run := (mmsp2pvd cod fresh dparse uncompress draw unit files).

Lemma zip_range {A} (l : list A) a b : zlen l <= b - a -> combine (zrange a b) l = combine (zrange a (a + zlen l)) l.
Proof.
  revert a. induction l as [|x l IH]; intros a H; [destruct (zrange a b), (zrange a (a + zlen (@nil A))); reflexivity|].
  rewrite zlen_cons in *. pose proof (zlen_nonneg l). rewrite !(zrange_cons a) by lia. cbn [combine]. f_equal.
  rewrite IH by lia. do 2 f_equal. lia.
Qed.

(* what the program does after the command line was understood *)
Lemma run_series m args c names vtis ims : lossless compress uncompress -> pvd_command (opens files) args = Done c ->
  cm_mode c = drawing_mode m -> cm_field c = drawing_field m -> cm_out c < cm_first c -> skipn (Z.to_nat (cm_first c - 1)) args = names ->
  Forall2 image_name names vtis -> NoDup vtis -> Forall (fun v => files v = None) vtis ->
  Forall2 (saved cod valid dshow dparse raw compress draw unit files m) names ims ->
  exists images, run args = Done (cm_name c, combine (zrange 0 (zlen names)) vtis, images) /\
    Forall2 (fun v im => image_at images v = Some im) vtis ims.
Proof.
  intros Lo Ec Em Ef Eo Es Hv Nd Fv Sv.
  assert (Forall2 (fun name l => exists file, files name = Some file /\ draw_file cod fresh dparse uncompress draw unit (cm_mode c) (cm_field c) file = Done l) names (map (fun im => [im]) ims)) as Dr.
  { rewrite Em, Ef. clear - Sv Lo. induction Sv as [|n im names ims S0 Sv IH]; constructor; [|exact IH]. now apply (saved_draw cod valid fresh dshow dparse raw compress uncompress). }
  destruct (series_fresh cod fresh dparse uncompress draw unit files c names vtis (map (fun im => [im]) ims) [] [] (cm_first c) Eo Hv Nd) as (images & E & Im & _).
  { intros v Hin. rewrite Forall_forall in Fv. unfold present, opens. now rewrite (Fv v Hin). }
  { exact Dr. }
  exists images. split.
  - unfold mmsp2pvd. rewrite Ec. cbn [obind]. rewrite Es, E. cbn [obind app]. rewrite Z.sub_diag. reflexivity.
  - clear - Im. revert ims Im. induction vtis as [|v vtis IH]; intros [|im ims] Im; inversion Im as [|? ? ? ? H1 H2]; subst; constructor; auto.
    destruct H1 as (x & E & R); [discriminate|]. cbn in E. congruence.
Qed.

Lemma skip_args {A} (l r : list A) n : n = zlen l -> skipn (Z.to_nat n) (l ++ r) = r.
Proof. intros ->. unfold zlen. rewrite Nat2Z.id, skipn_app, skipn_all, Nat.sub_diag. reflexivity. Qed.
Lemma first_words m : drawing_first m = 1 + zlen (drawing_words m).
Proof. now destruct m. Qed.
Lemma saved_opens m names ims : Forall2 (saved cod valid dshow dparse raw compress draw unit files m) names ims -> Forall (fun a => opens files a = true) names.
Proof. induction 1 as [|n im names ims S0 Sv IH]; constructor; auto. destruct S0 as (? & ? & ? & ? & ? & ? & file & S0). destruct S0 as (_ & _ & _ & _ & _ & _ & _ & _ & _ & _ & _ & _ & _ & E & _). unfold opens. now rewrite E. Qed.

(* The files given after the options and the name of the index (or without a name: it is then that of the first file) are listed in
   the index with the timesteps 0, 1, 2, ..., and each entry names an image of the grid in that file, with spacing 1, if the names without
   extension are different and there are no images of these names yet. *)
Theorem C78_series : forall m out pvd names vtis ims, lossless compress uncompress -> drawing_ok m ->
  (exists o, out = [o] /\ index_words (fun o => files o = None) o pvd) \/ (out = [] /\ exists a t, nth_error names 0 = Some a /\ without_extension a t /\ pvd = t ++ bytes ".pvd") ->
  Forall plain_word names -> Forall2 image_name names vtis -> NoDup vtis -> Forall (fun v => files v = None) vtis ->
  Forall2 (saved cod valid dshow dparse raw compress draw unit files m) names ims ->
  exists images, run (drawing_words m ++ out ++ names) = Done (pvd, combine (zrange 0 (zlen names)) vtis, images) /\
    Forall2 (fun v im => image_at images v = Some im) vtis ims.
Proof.
  intros m out pvd names vtis ims Lo Om Out Pl Hv Nd Fv Sv. pose proof (first_words m) as Fw. pose proof (zlen_nonneg (drawing_words m)) as Zw.
  destruct Out as [(o & -> & [->|(Po & Mo & No & t & Wo & ->)])|(-> & a & t & Ha & Wa & ->)].
  - pose proof (command_flag (opens files) m [] pvd names Om (Forall_nil _)) as Ec. cbn [app] in Ec. change (zlen (@nil (list byte))) with 0 in Ec.
    assert (skipn (Z.to_nat (drawing_first m + 0 + 1 - 1)) (drawing_words m ++ [bytes "--output=" ++ pvd] ++ names) = names) as Sk.
    { rewrite app_assoc. apply skip_args. rewrite zlen_app. change (zlen [bytes "--output=" ++ pvd]) with 1. lia. }
    apply (run_series m (drawing_words m ++ [bytes "--output=" ++ pvd] ++ names) _ names vtis ims Lo Ec eq_refl eq_refl ltac:(cbn [cm_out cm_first]; lia) Sk Hv Nd Fv Sv).
  - pose proof (command_missing (opens files) m [] o names Om (Forall_nil _) Po) as Ec. cbn [app] in Ec. change (zlen (@nil (list byte))) with 0 in Ec.
    rewrite (index_name_ext o t No Wo) in Ec.
    assert (skipn (Z.to_nat (drawing_first m + 0 + 1 - 1)) (drawing_words m ++ [o] ++ names) = names) as Sk.
    { rewrite app_assoc. apply skip_args. rewrite zlen_app. change (zlen [o]) with 1. lia. }
    apply (run_series m (drawing_words m ++ [o] ++ names) _ names vtis ims Lo (Ec ltac:(unfold opens; now rewrite Mo) Pl) eq_refl eq_refl ltac:(cbn [cm_out cm_first]; lia) Sk Hv Nd Fv Sv).
  - destruct names as [|b names]; [discriminate|]. injection Ha as ->. cbn [app].
    assert (Forall (fun a => plain_word a /\ opens files a = true) (a :: names)) as Fo.
    { pose proof (saved_opens m _ _ Sv) as So. rewrite Forall_forall in *. auto. }
    pose proof (command_none (opens files) m a names Om Fo) as Ec. rewrite (stem_ext a t Wa) in Ec.
    assert (skipn (Z.to_nat (drawing_first m - 1)) (drawing_words m ++ a :: names) = a :: names) as Sk by (apply skip_args; lia).
    apply (run_series m (drawing_words m ++ a :: names) _ (a :: names) vtis ims Lo Ec eq_refl eq_refl ltac:(cbn [cm_out cm_first]; lia) Sk Hv Nd Fv Sv).
Qed.

(* With the name of the index last, as the usage message printed for an empty command line has it, the index is empty and no image is
   made. *)
Theorem C78_output_last_refuted : forall m names o pvd, drawing_ok m -> Forall plain_word names -> Forall (fun a => files a <> None) names ->
  index_words (fun o => files o = None) o pvd -> run (drawing_words m ++ names ++ [o]) = Done (pvd, [], []).
Proof.
  intros m names o pvd Om Pl Op Iw. pose proof (first_words m) as Fw.
  assert (exists c, pvd_command (opens files) (drawing_words m ++ names ++ [o]) = Done c /\ cm_name c = pvd /\ cm_first c = drawing_first m + zlen names + 1) as (c & Ec & En & Ef).
  { destruct Iw as [->|(Po & Mo & No & t & Wo & ->)].
    - rewrite (command_flag (opens files) m names pvd [] Om Pl). eexists. split; [reflexivity|]. auto.
    - rewrite (command_missing (opens files) m names o [] Om); [eexists; split; [reflexivity|]; cbn; split; [now apply index_name_ext|auto]| |auto| |constructor].
      + rewrite Forall_forall in *. intros a Ha. split; [auto|]. unfold opens. specialize (Op a Ha). destruct (files a); congruence.
      + unfold opens. now rewrite Mo. }
  unfold mmsp2pvd. rewrite Ec. cbn [obind].
  replace (skipn (Z.to_nat (cm_first c - 1)) (drawing_words m ++ names ++ [o])) with (@nil (list byte)).
  - change (zlen (@nil (list byte))) with 0. rewrite Z.add_0_r, zrange_nil by lia. cbn [combine series obind]. now rewrite En.
  - symmetry. apply skipn_all2. rewrite !app_length. unfold zlen in *. cbn. lia.
Qed.

(* Of two files whose names differ only after the last dot, the second is not drawn, whatever is in it: the index lists the image of the
   first file twice. *)
Theorem C78_same_name_refuted : forall m pvd a b v im, lossless compress uncompress -> drawing_ok m ->
  image_name a v -> image_name b v -> files v = None -> saved cod valid dshow dparse raw compress draw unit files m a im ->
  run (drawing_words m ++ [bytes "--output=" ++ pvd; a; b]) = Done (pvd, [(0, v); (1, v)], [(v, im)]).
Proof.
  intros m pvd a b v im Lo Om Ha Hb Hv Sa. destruct (saved_draw _ _ fresh _ _ _ _ uncompress _ _ _ _ _ _ Lo Sa) as (file & Ef & Ed).
  pose proof (first_words m) as Fw. pose proof (zlen_nonneg (drawing_words m)) as Zw.
  unfold mmsp2pvd. pose proof (command_flag (opens files) m [] pvd [a; b] Om (Forall_nil _)) as Ec. cbn [app] in Ec. change (zlen (@nil (list byte))) with 0 in Ec. rewrite Z.add_0_r in Ec.
  cbn [app]. rewrite Ec. cbn [obind cm_first cm_name].
  assert (skipn (Z.to_nat (drawing_first m + 1 - 1)) (drawing_words m ++ [bytes "--output=" ++ pvd; a; b]) = [a; b]) as ->.
  { change (drawing_words m ++ [bytes "--output=" ++ pvd; a; b]) with (drawing_words m ++ [bytes "--output=" ++ pvd] ++ [a; b]). rewrite app_assoc. apply skip_args. rewrite zlen_app. unfold zlen in *. cbn. lia. }
  change (zlen [a; b]) with 2. rewrite !zrange_cons, zrange_nil by lia. cbn [combine series]. unfold series_step at 1. cbn [cm_out cm_first cm_mode cm_field].
  destruct (Z.eqb_spec (drawing_first m + 1) (drawing_first m)); [lia|]. rewrite (image_name_eq _ _ Ha). unfold present at 1, opens at 1. rewrite Hv. cbn [image_at orb].
  rewrite Ef, Ed. cbn [obind map rev app]. unfold series_step. cbn [cm_out cm_first].
  destruct (Z.eqb_spec (drawing_first m + 1 + 1) (drawing_first m)); [lia|]. rewrite (image_name_eq _ _ Hb). unfold present. cbn [image_at]. rewrite same_text_refl, orb_true_r. cbn [obind app].
  do 4 f_equal; repeat f_equal; lia.
Qed.

(* A file written by several ranks: the image is that of the last block only. *)
Theorem C78_blocks_refuted : forall m pvd name v k e fields gs dx gb blocks blks file, lossless compress uncompress -> drawing_ok m ->
  serialises (cod k e) (valid k e) -> cod KScalar e = cod KPlain e -> e <> ELDouble -> int_range fields -> 1 <= zlen gs <= 3 -> Forall int_box gs ->
  Forall (exact_text dshow dparse) dx -> List.length dx = List.length gs -> int_range (zlen blocks) ->
  Forall (fun b => List.length (fst b) = List.length gs /\ writable (valid k e) gb (fst b) (snd b) /\ recognisable (cod k e) raw compress (fst b) (snd b)) blocks ->
  Forall2 (fun b blk => write_buffer (cod k e) raw compress (fst b) (snd b) = Some blk) blocks blks ->
  file = header dshow (grid_name k e) fields gs dx ++ pd_enc pod_int (zlen blocks) ++ List.concat blks -> files name = Some file -> image_name name v -> files v = None ->
  (forall axs gd, draw (drawing_mode m) (drawing_field m) (opened_as Pvd k) e fields axs (repeat unit (List.length gs)) gd <> None) ->
  forall front axs data, blocks = front ++ [(axs, data)] ->
  exists images gd im, run (drawing_words m ++ [bytes "--output=" ++ pvd; name]) = Done (pvd, [(0, v)], images) /\ copied (axs, data) gd /\
    draw (drawing_mode m) (drawing_field m) (opened_as Pvd k) e fields (box_axes axs) (repeat unit (List.length gs)) gd = Some im /\ image_at images v = Some im.
Proof.
  intros m pvd name v k e fields gs dx gb blocks blks file Lo Om Se Cs Ne Hf Hd Hg Hx Lx Hn Fb Wb Ef En Hv Fv Dr front axs data Eb.
  assert (cod k e = cod (opened_as Pvd k) e) as Ec by (destruct k; cbn; auto).
  destruct (draw_blocks_ok cod fresh raw compress uncompress draw unit Lo (drawing_mode m) (drawing_field m) (cod k e) (valid k e) (opened_as Pvd k) e fields gb (List.length gs) blocks blks [] Se Ec Fb Wb) as (gds & C & R).
  assert (forall l : list (list axis * list T), exists ims, Forall2 (fun g im => draw (drawing_mode m) (drawing_field m) (opened_as Pvd k) e fields (fst g) (repeat unit (List.length gs)) (snd g) = Some im) l ims) as Ex.
  { induction l as [|g l (ims & IH)]; [exists []; constructor|]. destruct (draw (drawing_mode m) (drawing_field m) (opened_as Pvd k) e fields (fst g) (repeat unit (List.length gs)) (snd g)) as [im|] eqn:E; [exists (im :: ims); constructor; auto|now apply Dr in E]. }
  destruct (Ex (combine (map (fun b => box_axes (fst b)) blocks) gds)) as (ims & Hi).
  specialize (R ims Hi). rewrite app_nil_r in R.
  assert (draw_file cod fresh dparse uncompress draw unit (drawing_mode m) (drawing_field m) file = Done ims) as Ed.
  { rewrite Ef. rewrite (draw_file_ok cod fresh uncompress draw unit dshow dparse _ _ (opened_as Pvd k) e); auto; [|now apply pick_pvd|apply grid_name_line].
    replace (Z.to_nat (zlen blocks)) with (List.length blocks) by (unfold zlen; lia). exact R. }
  subst blocks. apply Forall2_app_inv_l in C as (gds1 & gds2 & C1 & C2 & ->). inversion C2 as [|? gd ? ? C3 C4]; subst. inversion C4; subst. clear C2 C4.
  assert (List.length (map (fun b : list axis * list T => box_axes (fst b)) front) = List.length gds1) as Lf by (rewrite map_length; clear - C1; induction C1; cbn; congruence).
  rewrite map_app in Hi. cbn [map fst] in Hi.
  assert (forall {X Y} (u : list X) (w : list Y) x' y', List.length u = List.length w -> combine (u ++ [x']) (w ++ [y']) = combine u w ++ [(x', y')]) as Cm.
  { intros X Y u. induction u as [|? u IH]; intros [|? w] x' y' L; try discriminate; [reflexivity|]. cbn. f_equal. apply IH. now injection L. }
  rewrite Cm in Hi by exact Lf. apply Forall2_app_inv_l in Hi as (ims1 & ims2 & _ & H2 & ->). inversion H2 as [|? im ? ? D3 D4]; subst. inversion D4; subst. cbn [fst snd] in D3. clear H2 D4.
  pose proof (first_words m) as Fw. pose proof (zlen_nonneg (drawing_words m)) as Zw.
  pose proof (command_flag (opens files) m [] pvd [name] Om (Forall_nil _)) as Ecm. cbn [app] in Ecm. change (zlen (@nil (list byte))) with 0 in Ecm. rewrite Z.add_0_r in Ecm.
  exists (rev (map (fun im => (v, im)) (ims1 ++ [im])) ++ []), gd, im. split; [|split; [exact C3|split; [exact D3|]]].
  - unfold mmsp2pvd. rewrite Ecm. cbn [obind cm_first cm_name].
    assert (skipn (Z.to_nat (drawing_first m + 1 - 1)) (drawing_words m ++ [bytes "--output=" ++ pvd; name]) = [name]) as ->.
    { change (drawing_words m ++ [bytes "--output=" ++ pvd; name]) with (drawing_words m ++ [bytes "--output=" ++ pvd] ++ [name]). rewrite app_assoc. apply skip_args. rewrite zlen_app. unfold zlen in *. cbn. lia. }
    change (zlen [name]) with 1. rewrite !zrange_cons, zrange_nil by lia. cbn [combine series]. unfold series_step. cbn [cm_out cm_first cm_mode cm_field].
    destruct (Z.eqb_spec (drawing_first m + 1) (drawing_first m)); [lia|]. rewrite (image_name_eq _ _ Hv). unfold present, opens. rewrite Fv. cbn [image_at orb]. rewrite En, Ed. cbn [obind app].
    do 3 f_equal. f_equal. f_equal. lia.
  - rewrite map_app, rev_app_distr. cbn [map rev app image_at]. now rewrite same_text_refl.
Qed.

(* The spacing of the grid is lost: files that differ only in the spacing give the same image. *)
Theorem C78_spacing_refuted : forall mode field k e fields gs dx dx' n body, e <> ELDouble -> int_range fields -> 1 <= zlen gs <= 3 -> Forall int_box gs ->
  Forall (exact_text dshow dparse) dx -> List.length dx = List.length gs -> Forall (exact_text dshow dparse) dx' -> List.length dx' = List.length gs -> int_range n ->
  draw_file cod fresh dparse uncompress draw unit mode field (header dshow (grid_name k e) fields gs dx ++ pd_enc pod_int n ++ body) =
  draw_file cod fresh dparse uncompress draw unit mode field (header dshow (grid_name k e) fields gs dx' ++ pd_enc pod_int n ++ body).
Proof.
  intros mode field k e fields gs dx dx' n body Ne Hf Hd Hg Hx Lx Hx' Lx' Hn.
  rewrite !(draw_file_ok cod fresh uncompress draw unit dshow dparse mode field (opened_as Pvd k) e); auto using grid_name_line, pick_pvd.
Qed.

(* A grid of long double is drawn as if the file said long. *)
Theorem C78_long_double_refuted : forall mode field k rest,
  draw_file cod fresh dparse uncompress draw unit mode field (grid_name k ELDouble ++ 10 :: rest) =
  draw_file cod fresh dparse uncompress draw unit mode field (grid_name k ELong ++ 10 :: rest).
Proof.
  intros mode field k rest. unfold draw_file. rewrite !getline_line by apply grid_name_line.
  rewrite pick_pvd_long_double, (pick_pvd k ELong) by discriminate. reflexivity.
Qed.
End Series.
Print Assumptions C78_series.
Print Assumptions C78_output_last_refuted.
Print Assumptions C78_same_name_refuted.
Print Assumptions C78_blocks_refuted.
Print Assumptions C78_spacing_refuted.
Print Assumptions C78_long_double_refuted.

(* two files written from planes of 2 x 3 integers; the compressor adds a byte.  An image is its limits, its spacing and its values *)
Definition c78_parse (t : list byte) : option Z := match read_int t with Some (v, _) => Some v | None => None end.
Definition c78_axes : list axis := with_bcs [(Neumann, mirror); (Dirichlet, periodic)] (ge_axes (setup_single [mkG (-1) 1; mkG 0 3] 0)).
Definition c78_file (data : list Z) : option (list byte) :=
  output_serial (pod_codec pod_int) show_int false (cons 0) (grid_name KPlain EInt) 1 c78_axes [2; 3] data.
Definition c78_disk (name : list byte) : option (list byte) :=
  if same_text name (bytes "run.0000.dat") then c78_file [10; -20; 30; 40; 50; 60]
  else if same_text name (bytes "run.0100.dat") then c78_file [1; 2; 3; 4; 5; 6] else None.
Definition c78_draw (mode field : Z) (k : kind) (e : elem) (fields : Z) (axs : list axis) (dx data : list Z) := Some (map a_x0 axs, map a_x1 axs, dx, data).
Example C78_case :
  mmsp2pvd (fun _ _ => pod_codec pod_int) (fun _ _ _ => 0) c78_parse (fun y _ => Some (tl y)) c78_draw 1 c78_disk
    [bytes "--max"; bytes "all.pvd"; bytes "run.0000.dat"; bytes "run.0100.dat"] =
  Done (bytes "all.pvd", [(0, bytes "run.0000.vti"); (1, bytes "run.0100.vti")],
        [(bytes "run.0100.vti", ([-1; 0], [1; 3], [1; 1], [1; 2; 3; 4; 5; 6])); (bytes "run.0000.vti", ([-1; 0], [1; 3], [1; 1], [10; -20; 30; 40; 50; 60]))]).
Proof. vm_compute. reflexivity. Qed.
Example C78_case_saved : saved (fun _ _ => pod_codec pod_int) (fun _ _ => int_range) show_int c78_parse false (cons 0) c78_draw 1 c78_disk Max (bytes "run.0000.dat")
  ([-1; 0], [1; 3], [1; 1], [10; -20; 30; 40; 50; 60]).
Proof.
  exists KPlain, EInt, 1, c78_axes, [2; 3], [10; -20; 30; 40; 50; 60]. eexists. split; [exact (pod_serialises pod_int int_range pod_int_ok)|].
  split; [reflexivity|]. split; [discriminate|]. split; [unfold int_range; lia|]. split; [vm_compute; intuition congruence|]. split; [vm_compute; intuition congruence|].
  split; [repeat constructor|]. split; [repeat constructor; vm_compute; congruence|]. split; [reflexivity|].
  split; [repeat constructor; try (vm_compute; congruence)|]. split; [reflexivity|]. split; [repeat constructor; vm_compute; congruence|].
  split; [intros n bs Sz To; vm_compute in Sz; inversion Sz; subst n; vm_compute in To; inversion To; subst bs; vm_compute; intuition congruence|].
  split; [vm_compute; reflexivity|]. split; [vm_compute; reflexivity|]. vm_compute. reflexivity.
Qed.
(* the same arguments with the index last *)
Example C78_last_case :
  mmsp2pvd (fun _ _ => pod_codec pod_int) (fun _ _ _ => 0) c78_parse (fun y _ => Some (tl y)) c78_draw 1 c78_disk
    [bytes "run.0000.dat"; bytes "run.0100.dat"; bytes "all.pvd"] = Done (bytes "all.pvd", [], []).
Proof. vm_compute. reflexivity. Qed.
