From Coq Require Import String.
From Verif Require Import Model.Base Model.Text Model.Boundary Model.Layout Model.Access Model.Setup Model.Codec Model.Region Model.MPI Model.Ghostswap Model.File Model.Driver Model.Types Model.Pvd
  Spec.Box Spec.Access Spec.Decomp Spec.Bytes Spec.File Spec.Types Spec.Pvd
  Proof.BaseL Proof.LayoutL Proof.AccessL Proof.TextL Proof.CodecL Proof.FileL Proof.CheckpointL Proof.TypesL Proof.DriverL Proof.GhostL Proof.HaloL.
Local Open Scope list_scope.
Local Open Scope Z_scope.
Local Opaque grid_name.

Lemma same_text_eq u v : same_text u v = true <-> u = v.
Proof. unfold same_text. destruct (list_eq_dec Z.eq_dec u v); split; auto; discriminate. Qed.
Lemma same_text_refl u : same_text u u = true.
Proof. now apply same_text_eq. Qed.
Lemma same_text_ne u v : u <> v -> same_text u v = false.
Proof. intros N. destruct (same_text u v) eqn:E; [|auto]. now apply same_text_eq in E. Qed.

Lemma last_of_spec (c : byte) (s : list byte) i cur :
  (exists t r, s = t ++ c :: r /\ ~ In c r /\ last_of c s i cur = Some (i + zlen t)) \/ (~ In c s /\ last_of c s i cur = cur).
Proof.
  revert i cur. induction s as [|b s IH]; intros i cur; [right; split; [intros []|reflexivity]|]. cbn [last_of].
  destruct (IH (i + 1) (if b =? c then Some i else cur)) as [(t & r & -> & N & E)|[N E]].
  - left. exists (b :: t), r. split; [reflexivity|]. split; [auto|]. rewrite E, zlen_cons. f_equal. lia.
  - rewrite E. destruct (Z.eqb_spec b c) as [->|Nb].
    + left. exists [], s. split; [reflexivity|]. split; [auto|]. change (zlen (@nil byte)) with 0. f_equal. lia.
    + right. split; [|reflexivity]. intros [H|H]; auto.
Qed.

Lemma app_dot_inj (c : byte) (t r t' r' : list byte) : t ++ c :: r = t' ++ c :: r' -> ~ In c r -> ~ In c r' -> t = t'.
Proof.
  revert t'. induction t as [|a t IH]; intros [|b t'] E N N'; cbn [app] in E; [reflexivity| | |].
  - injection E as <- E. exfalso. apply N. rewrite E. apply in_or_app. right. now left.
  - injection E as -> E. exfalso. apply N'. rewrite <- E. apply in_or_app. right. now left.
  - injection E as -> E. f_equal. eauto.
Qed.
Lemma sub_all (s : list byte) n : sub_str s 0 n = match n with Some n => firstn (Z.to_nat n) s | None => s end.
Proof. reflexivity. Qed.
Lemma stem_ext s t : without_extension s t -> stem s = t.
Proof.
  unfold stem. rewrite sub_all. destruct (last_of_spec 46 s 0 None) as [(u & r & -> & N & E)|[N E]]; rewrite E; intros [(r' & Es & N')|[N' ->]]; auto.
  - rewrite (app_dot_inj _ _ _ _ _ Es N N') in *. rewrite Z.add_0_l. unfold zlen. rewrite Nat2Z.id, firstn_app, firstn_all, Nat.sub_diag, firstn_O, app_nil_r. reflexivity.
  - exfalso. apply N'. apply in_or_app. right. now left.
  - exfalso. apply N. rewrite Es. apply in_or_app. right. now left.
Qed.
Lemma stem_exists s : without_extension s (stem s).
Proof.
  unfold stem. rewrite sub_all. destruct (last_of_spec 46 s 0 None) as [(u & r & -> & N & E)|[N E]]; rewrite E; [|right; auto].
  left. exists r. split; [|auto]. rewrite Z.add_0_l. unfold zlen. rewrite Nat2Z.id, firstn_app, firstn_all, Nat.sub_diag, firstn_O, app_nil_r. reflexivity.
Qed.
Lemma image_name_eq n v : image_name n v -> stem n ++ bytes ".vti" = v.
Proof. intros (t & W & ->). now rewrite (stem_ext _ _ W). Qed.
Lemma index_name_ext o t : ~ In 61 o -> without_extension o t -> index_name o = t ++ bytes ".pvd".
Proof.
  intros N W. unfold index_name. destruct (last_of_spec 61 o 0 None) as [(u & r & -> & _)|[_ ->]].
  - exfalso. apply N. apply in_or_app. right. now left.
  - change (sub_str o 0 (last_of 46 o 0 None)) with (stem o). now rewrite (stem_ext _ _ W).
Qed.

Lemma starts_app (p t : list byte) : starts p (p ++ t) = true.
Proof. induction p as [|a p IH]; [reflexivity|]. cbn [app starts]. now rewrite Z.eqb_refl, IH. Qed.
Lemma starts_true p s : starts p s = true -> exists t, s = p ++ t.
Proof.
  revert s; induction p as [|a p IH]; intros s H; [exists s; reflexivity|]. destruct s as [|b s]; [discriminate|]. cbn [starts] in H.
  apply andb_prop in H as [E H]. apply Z.eqb_eq in E. subst b. destruct (IH s H) as (t & ->). exists t. reflexivity.
Qed.
Lemma plain_starts (p w : list byte) : plain_word w -> starts (bytes "--" ++ p) w = false.
Proof.
  intros P. destruct (starts (bytes "--" ++ p) w) eqn:E; [|auto]. apply starts_true in E as (t & ->). exfalso. apply P. exists (p ++ t). now rewrite app_assoc.
Qed.
Lemma plain_ne (p w : list byte) : plain_word w -> same_text w (bytes "--" ++ p) = false.
Proof. intros P. apply same_text_ne. intros ->. apply P. eauto. Qed.

Lemma atoi_show n : 0 <= n < 2 ^ 31 -> atoi (firstn 12 (skipn 8 (bytes "--field=" ++ show_int n))) = Some n.
Proof.
  intros H. change (skipn 8 (bytes "--field=" ++ show_int n)) with (show_int n).
  pose proof (show_len_int n ltac:(unfold int_max; lia)) as L. rewrite firstn_all2 by (unfold zlen in L; lia).
  destruct (show_int_nonneg n ltac:(lia)) as (F & V & Ne). rewrite <- (app_nil_r (show_int n)), atoi_digits; auto.
  - now rewrite V.
  - unfold Driver.numeral. eapply Forall_impl; [|exact F]. intros b. apply digit_bounds.
  - exact I.
  - rewrite V. unfold int_max. lia.
Qed.

Lemma first_arg_none test l i : Forall (fun a => test a = false) l -> first_arg test l i = None.
Proof. intros F. revert i; induction F as [|a l E F IH]; intros i; [reflexivity|]. cbn [first_arg]. now rewrite E. Qed.
Lemma first_arg_app test l a r i : Forall (fun a => test a = false) l -> test a = true -> first_arg test (l ++ a :: r) i = Some (i + zlen l, a).
Proof.
  intros F Ea. revert i; induction F as [|b l E F IH]; intros i; cbn [app first_arg].
  - rewrite Ea. change (zlen (@nil (list byte))) with 0. do 2 f_equal. lia.
  - rewrite E, IH, zlen_cons. do 2 f_equal. lia.
Qed.

Definition no_flag (a : list byte) : Prop := starts (bytes "--output=") a = false.
Lemma plain_no_flag a : plain_word a -> no_flag a.
Proof. intros P. exact (plain_starts (bytes "output=") a P). Qed.
Lemma plain_options a : plain_word a -> same_text a (bytes "--help") = false /\ pvd_options a = Some (0, 0, 1).
Proof.
  intros P. split; [exact (plain_ne (bytes "help") a P)|]. unfold pvd_options.
  replace (same_text a (bytes "--mag")) with false by (symmetry; exact (plain_ne (bytes "mag") a P)).
  replace (same_text a (bytes "--max")) with false by (symmetry; exact (plain_ne (bytes "max") a P)).
  replace (starts (bytes "--field=") a) with false by (symmetry; exact (plain_starts (bytes "field=") a P)). reflexivity.
Qed.
Lemma flag_options p : same_text (bytes "--output=" ++ p) (bytes "--help") = false /\ pvd_options (bytes "--output=" ++ p) = Some (0, 0, 1).
Proof. split; [now apply same_text_ne|]. unfold pvd_options. rewrite !same_text_ne by discriminate. reflexivity. Qed.

Section Command.
Context (opens : list byte -> bool).

(* the first argument is an option or not *)
Definition drawing_first (m : drawing) : Z := match m with Plain => 1 | _ => 2 end.
Lemma options_of m args : drawing_ok m -> (m = Plain -> exists a t, args = a :: t /\ same_text a (bytes "--help") = false /\ pvd_options a = Some (0, 0, 1)) ->
  exists a1 t, drawing_words m ++ args = a1 :: t /\ same_text a1 (bytes "--help") = false /\
    pvd_options a1 = Some (drawing_mode m, drawing_field m, drawing_first m) /\ skipn (Z.to_nat (drawing_first m - 1)) (a1 :: t) = args.
Proof.
  intros Ok H. destruct m as [| | |n]; cbn [drawing_words app].
  - destruct (H eq_refl) as (a & t & -> & A & B). exists a, t. auto.
  - exists (bytes "--mag"), args. split; [reflexivity|]. split; [reflexivity|]. split; reflexivity.
  - exists (bytes "--max"), args. split; [reflexivity|]. split; [reflexivity|]. split; reflexivity.
  - exists (bytes "--field=" ++ show_int n), args. split; [reflexivity|]. split; [now apply same_text_ne|]. split; [|reflexivity].
    unfold pvd_options. rewrite !same_text_ne by discriminate. rewrite starts_app, atoi_show by exact Ok. reflexivity.
Qed.

Lemma command_flag m pre p post : drawing_ok m -> Forall plain_word pre ->
  pvd_command opens (drawing_words m ++ pre ++ (bytes "--output=" ++ p) :: post) =
    Done (mkArgs (drawing_mode m) (drawing_field m) (drawing_first m + zlen pre + 1) (drawing_first m + zlen pre) p).
Proof.
  intros Ok F. destruct (options_of m (pre ++ (bytes "--output=" ++ p) :: post) Ok) as (a1 & t & -> & H & O & R).
  { intros _. destruct pre as [|a pre]; [do 2 eexists; split; [reflexivity|apply flag_options]|].
    do 2 eexists. split; [reflexivity|]. apply plain_options. now inversion F. }
  unfold pvd_command. rewrite H, O. cbn [req obind]. rewrite R, first_arg_app; [reflexivity| |apply starts_app].
  eapply Forall_impl; [|exact F]. apply plain_no_flag.
Qed.
Lemma command_missing m pre o post : drawing_ok m -> Forall (fun a => plain_word a /\ opens a = true) pre -> plain_word o -> opens o = false -> Forall plain_word post ->
  pvd_command opens (drawing_words m ++ pre ++ o :: post) =
    Done (mkArgs (drawing_mode m) (drawing_field m) (drawing_first m + zlen pre + 1) (drawing_first m + zlen pre) (index_name o)).
Proof.
  intros Ok F Po Oo Fp. destruct (options_of m (pre ++ o :: post) Ok) as (a1 & t & -> & H & O & R).
  { intros _. destruct pre as [|a pre]; do 2 eexists; (split; [reflexivity|]); apply plain_options; auto. now inversion F. }
  unfold pvd_command. rewrite H, O. cbn [req obind]. rewrite R, first_arg_none, first_arg_app; [reflexivity| | |].
  - eapply Forall_impl; [|exact F]. intros a [_ E]. now rewrite E.
  - now rewrite Oo.
  - apply Forall_app. split; [|constructor; [now apply plain_no_flag|]].
    + eapply Forall_impl; [|exact F]. intros b [P _]. now apply plain_no_flag.
    + eapply Forall_impl; [|exact Fp]. intros b P. now apply plain_no_flag.
Qed.
Lemma command_none m a names : drawing_ok m -> Forall (fun a => plain_word a /\ opens a = true) (a :: names) ->
  pvd_command opens (drawing_words m ++ a :: names) =
    Done (mkArgs (drawing_mode m) (drawing_field m) (drawing_first m) (-1) (stem a ++ bytes ".pvd")).
Proof.
  intros Ok F. destruct (options_of m (a :: names) Ok) as (a1 & t & E & H & O & R).
  { intros _. do 2 eexists; (split; [reflexivity|]). apply plain_options. now inversion F. }
  rewrite E. unfold pvd_command. rewrite H, O. cbn [req obind]. rewrite R, !first_arg_none.
  - replace (get (a1 :: t) (drawing_first m - 1)) with (Some a); [reflexivity|].
    destruct m; cbn [drawing_first drawing_words app] in *; injection E as <- <-; reflexivity.
  - eapply Forall_impl; [|exact F]. intros b [_ Eb]. now rewrite Eb.
  - eapply Forall_impl; [|exact F]. intros b [Eb _]. now apply plain_no_flag.
Qed.
End Command.

Section Draw.
Context {T : Type} (cod : kind -> elem -> codec T) (fresh : kind -> elem -> Z -> T).
Context {D : Type} (raw : bool) (compress : list byte -> list byte) (uncompress : list byte -> Z -> option (list byte)).
Context {I : Type} (draw : Z -> Z -> kind -> elem -> Z -> list axis -> list D -> list T -> option I) (unit : D).
Context (Lo : lossless compress uncompress).

Definition box_axes (axs : list axis) : list axis := ge_axes (setup_single (map (fun a => mkG (a_x0 a) (a_x1 a)) axs) 0).

Lemma draw_block_ok mode field c0 (v0 : T -> Prop) k e fields gb axs data rest blk : serialises c0 v0 -> c0 = cod k e ->
  writable v0 gb axs data -> recognisable c0 raw compress axs data -> write_buffer c0 raw compress axs data = Some blk ->
  exists gd, zlen gd = cells (box_axes axs) /\
    (forall y, in_box (map a_x0 axs) (map a_x1 axs) y -> get gd (encode (box_axes axs) y) = get data (encode axs y)) /\
    draw_block cod fresh uncompress draw unit mode field k e fields (length axs) (blk ++ rest) =
      match draw mode field k e fields (box_axes axs) (repeat unit (length axs)) gd with Some im => Done (im, rest) | None => Undef end.
Proof.
  intros Se Ec Wr Rec Wb.
  destruct (block_bytes c0 v0 (fun _ => fresh k e fields) raw compress uncompress Se Lo gb axs data Wr) as (n & bs & Lbs & Sz & To & Wb' & From).
  rewrite Wb in Wb'. injection Wb' as ->. destruct (Rec n bs Sz To) as [Bn Nc]. destruct Wr as (W & G & Ne & In & L & V).
  set (body := if raw then bs else compress bs) in *. assert (0 <= n) by (rewrite <- Lbs; apply zlen_nonneg).
  assert (n <= 9 * n / 8) by (apply Z.div_le_lower_bound; lia).
  assert (0 <= zlen body < 2 ^ 64) as Bb.
  { split; [apply zlen_nonneg|]. unfold body. destruct raw; [lia|]. destruct (Lo bs) as [_ H']. rewrite Lbs in H'. lia. }
  assert (Forall (fun l => fst l <= snd l) (map (fun a => (a_x0 a, a_x1 a)) axs)) as Fl.
  { rewrite Forall_map. simpl. eapply wf_le; eauto. }
  destruct (wf_single _ Fl) as (Ws & E0 & E1 & _). rewrite !map_map in *. cbn [fst snd] in *.
  change (map (fun x => mkG (a_x0 x) (a_x1 x)) axs) with (map (fun a => mkG (a_x0 a) (a_x1 a)) axs) in *. fold (box_axes axs) in *.
  assert (length (box_axes axs) = length axs) as Lg by (rewrite <- (map_length a_x0), E0, map_length; auto).
  destruct (From (box_axes axs) (repeat (fresh k e fields) (Z.to_nat (cells (box_axes axs))))) as (gd & Fg & Lgd & Vg); auto.
  { unfold zlen. rewrite repeat_length. pose proof (cells_nonneg 0 (box_axes axs) ltac:(lia) Ws). lia. }
  exists gd. split; [|split; [exact Vg|]].
  { rewrite Lgd. unfold zlen. rewrite repeat_length. pose proof (cells_nonneg 0 (box_axes axs) ltac:(lia) Ws). lia. }
  unfold draw_block, block_head. rewrite <- !app_assoc.
  rewrite (read_pairs_ok a_x0 a_x1) by (eapply Forall_impl; [|exact In]; unfold int_axis; intuition). cbn [obind].
  rewrite (read_pairs_ok a_b0 a_b1) by (eapply Forall_impl; [|exact In]; unfold int_axis; intuition). cbn [obind].
  rewrite read_bin_ulong_ok by lia. cbn [obind]. rewrite read_bin_ulong_ok by auto. cbn [obind].
  rewrite read_n_app by reflexivity. cbn [req obind].
  assert ((if zlen body =? n then Done body else req (uncompress body n)) = Done bs) as Eb.
  { unfold body. destruct raw.
    - rewrite Lbs, Z.eqb_refl. reflexivity.
    - specialize (Nc eq_refl). rewrite Lbs in Nc. destruct (Z.eqb_spec (zlen (compress bs)) n); [contradiction|].
      destruct (Lo bs) as [U _]. rewrite Lbs in U. now rewrite U. }
  rewrite Eb. cbn [obind]. rewrite !map_map. cbn [fst snd]. fold (box_axes axs). rewrite <- Ec.
  rewrite Fg. cbn [req obind]. destruct (draw mode field k e fields (box_axes axs) (repeat unit (length axs)) gd); reflexivity.
Qed.

(* a grid made from the box of a block holds the values of the block *)
Definition copied (b : list axis * list T) (gd : list T) : Prop :=
  zlen gd = cells (box_axes (fst b)) /\
  forall y, in_box (map a_x0 (fst b)) (map a_x1 (fst b)) y -> get gd (encode (box_axes (fst b)) y) = get (snd b) (encode (fst b) y).

Lemma draw_blocks_ok mode field c0 (v0 : T -> Prop) k e fields gb d blocks blks rest : serialises c0 v0 -> c0 = cod k e ->
  Forall (fun b => length (fst b) = d /\ writable v0 gb (fst b) (snd b) /\ recognisable c0 raw compress (fst b) (snd b)) blocks ->
  Forall2 (fun b blk => write_buffer c0 raw compress (fst b) (snd b) = Some blk) blocks blks ->
  exists gds, Forall2 copied blocks gds /\
    forall ims, Forall2 (fun (g : list axis * list T) im => draw mode field k e fields (fst g) (repeat unit d) (snd g) = Some im)
      (combine (map (fun b => box_axes (fst b)) blocks) gds) ims ->
    draw_blocks cod fresh uncompress draw unit mode field (length blocks) k e fields d (concat blks ++ rest) = Done ims.
Proof using Lo.
  intros Se Ec F W. revert rest. induction W as [|[axs data] blk blocks blks Wb W IH]; intros rest.
  - exists []. split; [constructor|]. intros ims H. inversion H. reflexivity.
  - inversion F as [|? ? (Ld & Wr & Rec) F']; subst. cbn [fst snd] in *. destruct (IH F' rest) as (gds & C & R).
    destruct (draw_block_ok mode field _ v0 k e fields gb axs data (concat blks ++ rest) blk Se eq_refl Wr Rec Wb) as (gd & Lg & Vg & E).
    exists (gd :: gds). split; [constructor; [split; auto|exact C]|]. intros ims H. cbn [map combine fst] in H. inversion H as [|? im ? ims' Hd Ht]; subst. cbn [fst snd] in Hd.
    cbn [length draw_blocks concat]. rewrite <- app_assoc, E, Hd. cbn [obind]. rewrite (R ims' Ht). reflexivity.
Qed.

Context (dshow : D -> list byte) (dparse : list byte -> option D).
Lemma draw_file_ok mode field k e name fields gs dx n body : pick Pvd name = Done (k, e) -> Forall (fun b => b <> 10) name ->
  int_range fields -> 1 <= zlen gs <= 3 -> Forall int_box gs -> Forall (exact_text dshow dparse) dx -> length dx = length gs -> int_range n ->
  draw_file cod fresh dparse uncompress draw unit mode field (header dshow name fields gs dx ++ pd_enc pod_int n ++ body) =
    draw_blocks cod fresh uncompress draw unit mode field (Z.to_nat n) k e fields (length gs) body.
Proof.
  intros P Nl Hf Hd Hg Hx Ld Hn. unfold draw_file, header. rewrite <- !app_assoc.
  assert (int_range (zlen gs)) as Hz by (unfold int_range; lia).
  change ([10 : byte] ++ ?l) with ((10 : byte) :: l) at 1. rewrite getline_line by auto. rewrite P. cbn [obind].
  unfold read_dim. change (show_int (zlen gs) ++ ?l) with ([] ++ show_int (zlen gs) ++ l). rewrite read_show; [|constructor|auto|reflexivity].
  cbn [obind].
  replace (zlen gs <? 1) with false by (symmetry; apply Z.ltb_ge; lia).
  replace (zlen gs >? 3) with false by (symmetry; rewrite Z.gtb_ltb; apply Z.ltb_ge; lia). cbn [orb].
  rewrite read_show; [|apply ws10|auto|reflexivity]. cbn [req obind].
  replace (Z.to_nat (zlen gs)) with (length gs) by (unfold zlen; lia).
  change ([10 : byte] ++ ?l) with ((10 : byte) :: l) at 1. rewrite read_gs_ok by auto. cbn [req obind].
  rewrite <- Ld, read_dx_ok by auto. cbn [req obind]. rewrite Ld.
  change (ignore 10 ((10 : byte) :: pd_enc pod_int n ++ body)) with (pd_enc pod_int n ++ body).
  rewrite read_bin_int_ok by auto. cbn [obind]. reflexivity.
Qed.
End Draw.

Lemma pick_pvd k e : e <> ELDouble -> pick Pvd (grid_name k e) = Done (opened_as Pvd k, e).
Proof. intros N. destruct k, e; try reflexivity; congruence. Qed.
Lemma pick_pvd_long_double k : pick Pvd (grid_name k ELDouble) = Done (opened_as Pvd k, ELong).
Proof. destruct k; reflexivity. Qed.

Section Series.
Context {T : Type} (cod : kind -> elem -> codec T) (fresh : kind -> elem -> Z -> T).
Context {D : Type} (dparse : list byte -> option D) (uncompress : list byte -> Z -> option (list byte)).
Context {I : Type} (draw : Z -> Z -> kind -> elem -> Z -> list axis -> list D -> list T -> option I) (unit : D).
Context (files : list byte -> option (list byte)).
Notation df := (draw_file cod fresh dparse uncompress draw unit).
Notation ser := (series cod fresh dparse uncompress draw unit files).

Lemma image_at_app (l : list (list byte * I)) images v : ~ In v (map fst l) -> image_at (l ++ images) v = image_at images v.
Proof. induction l as [|[n im] l IH]; intros N; [reflexivity|]. cbn [app image_at]. cbn in N. rewrite same_text_ne by tauto. apply IH. tauto. Qed.

(* the images of the files that are drawn to fresh names *)
Lemma series_fresh c names vtis lasts entries images i0 : cm_out c < i0 ->
  Forall2 image_name names vtis -> NoDup vtis -> (forall v, In v vtis -> present files images v = false) ->
  Forall2 (fun name l => exists file, files name = Some file /\ df (cm_mode c) (cm_field c) file = Done l) names lasts ->
  exists images', ser c (entries, images) (combine (zrange i0 (i0 + zlen names)) names) =
      Done (entries ++ combine (zrange (i0 - cm_first c) (i0 - cm_first c + zlen names)) vtis, images') /\
    Forall2 (fun v l => l <> [] -> exists im, last (map Some l) None = Some im /\ image_at images' v = Some im) vtis lasts /\
    (forall v, ~ In v vtis -> image_at images' v = image_at images v).
Proof.
  intros Hi F. revert lasts entries images i0 Hi. induction F as [|name v names vtis Hv F IH]; intros lasts entries images i0 Hi Nd Fr Dr.
  - inversion Dr; subst. change (zlen (@nil (list byte))) with 0. rewrite !Z.add_0_r, !zrange_nil by lia. cbn [combine series]. exists images. rewrite app_nil_r. split; [reflexivity|]. split; [constructor|auto].
  - inversion Dr as [|? l ? lasts' (file & Ef & El) Dr']; subst. inversion Nd as [|? ? Nv Nd']; subst.
    rewrite zlen_cons, !(zrange_cons _ (_ + (1 + _))) by (pose proof (zlen_nonneg names); lia). cbn [combine series].
    assert (series_step cod fresh dparse uncompress draw unit files c (entries, images) (i0, name) =
      Done (entries ++ [(i0 - cm_first c, v)], rev (map (fun im => (v, im)) l) ++ images)) as ->.
    { unfold series_step. destruct (Z.eqb_spec i0 (cm_out c)); [lia|]. rewrite (image_name_eq _ _ Hv), Fr by (left; reflexivity).
      rewrite Ef, El. reflexivity. }
    cbn [obind]. assert (map fst (rev (map (fun im : I => (v, im)) l)) = map (fun _ => v) l) as Mf.
    { rewrite map_rev, map_map. cbn [fst]. clear. induction l as [|a l IH]; [reflexivity|]. cbn [map rev]. rewrite IH. clear. induction l as [|b l IH]; [reflexivity|]. cbn [map app]. now rewrite IH. }
    assert (forall w, w <> v -> image_at (rev (map (fun im : I => (v, im)) l) ++ images) w = image_at images w) as Oth.
    { intros w Nw. apply image_at_app. rewrite Mf. intros Hin. apply in_map_iff in Hin as (_ & E & _). congruence. }
    destruct (IH lasts' (entries ++ [(i0 - cm_first c, v)]) (rev (map (fun im => (v, im)) l) ++ images) (i0 + 1)) as (images' & E & Im & Ot); auto.
    { lia. }
    { intros w Hw. unfold present. rewrite Oth by congruence. specialize (Fr w (or_intror Hw)). exact Fr. }
    exists images'. replace (i0 + 1 + zlen names) with (i0 + (1 + zlen names)) in E by lia. rewrite E.
    replace (i0 + 1 - cm_first c) with (i0 - cm_first c + 1) by lia.
    replace (i0 - cm_first c + 1 + zlen names) with (i0 - cm_first c + (1 + zlen names)) by lia.
    rewrite (zrange_cons (i0 - cm_first c)) by (pose proof (zlen_nonneg names); lia). rewrite <- app_assoc. split; [reflexivity|]. split.
    + constructor; [|exact Im]. intros Nl. rewrite Ot by auto. destruct l as [|a l] using rev_ind; [congruence|]. clear IHl.
      exists a. rewrite !map_app. cbn [map]. rewrite last_last. split; [reflexivity|]. rewrite rev_app_distr. cbn [rev app image_at]. now rewrite same_text_refl.
    + intros w Nw. rewrite Ot by (intros X; apply Nw; now right). apply Oth. intros ->. apply Nw. now left.
Qed.
End Series.

(* the grid made from a file of one block *)
Lemma copied_serial {T} axs (data gd : list T) : wf_axes 0 axs -> Forall (fun a => a_x0 a = a_g0 a /\ a_x1 a = a_g1 a) axs -> zlen data = cells axs ->
  copied (axs, data) gd -> gd = data.
Proof.
  intros W F Ld [Lg V]. cbn [fst snd] in *.
  assert (box_axes axs = ge_axes (setup_single (map (fun a => mkG (a_g0 a) (a_g1 a)) axs) 0)) as Eb.
  { unfold box_axes. f_equal. f_equal. apply map_ext_Forall. eapply Forall_impl; [|exact F]. intros a [-> ->]. reflexivity. }
  assert (set_bcs (box_axes axs) (map (fun a => (a_x0 a, a_x1 a)) axs) (map (fun a => (a_b0 a, a_b1 a)) axs) = axs) as Eset.
  { rewrite Eb. now apply wf_serial_eq. }
  assert (same_layout axs (box_axes axs)) as Sm by (rewrite <- Eset at 1; apply set_bcs_layout).
  assert (cells (box_axes axs) = cells axs) as Ec by (symmetry; apply same_cells; auto).
  apply MPIL.get_ext; [congruence|]. intros p Hp. rewrite Lg, Ec in Hp.
  destruct (encode_onto 0 axs p W ltac:(lia) Hp) as (y & Hy & <-).
  assert (in_box (map a_x0 axs) (map a_x1 axs) y) as Hl.
  { clear -W Hy. revert y Hy. induction axs as [|a axs IH]; intros [|e y]; simpl; auto. simpl in W.
    intros [H1 H2]. split; [lia|]. apply IH; tauto. }
  rewrite <- (V y Hl). f_equal. apply same_encode. auto.
Qed.

Section Saved.
Context {T : Type} (cod : kind -> elem -> codec T) (valid : kind -> elem -> T -> Prop) (fresh : kind -> elem -> Z -> T).
Context {D : Type} (dshow : D -> list byte) (dparse : list byte -> option D) (raw : bool) (compress : list byte -> list byte) (uncompress : list byte -> Z -> option (list byte)).
Context {I : Type} (draw : Z -> Z -> kind -> elem -> Z -> list axis -> list D -> list T -> option I) (unit : D).

Lemma draw_saved mode field k e fields axs dx data file im :
  lossless compress uncompress -> serialises (cod k e) (valid k e) -> cod KScalar e = cod KPlain e -> e <> ELDouble ->
  int_range fields -> 1 <= zlen axs <= 3 -> wf_axes 0 axs -> Forall (fun a => a_x0 a = a_g0 a /\ a_x1 a = a_g1 a) axs ->
  Forall (fun a => int_range (a_g0 a) /\ int_range (a_g1 a) /\ int_range (a_b0 a) /\ int_range (a_b1 a)) axs ->
  length dx = length axs -> Forall (exact_text dshow dparse) dx -> zlen data = cells axs -> Forall (valid k e) data -> recognisable (cod k e) raw compress axs data ->
  output_serial (cod k e) dshow raw compress (grid_name k e) fields axs dx data = Some file ->
  draw mode field (opened_as Pvd k) e fields (box_axes axs) (repeat unit (length axs)) data = Some im ->
  draw_file cod fresh dparse uncompress draw unit mode field file = Done [im].
Proof.
  intros Lo Se Cs Ne Hf Hd W F Fi Lx Fx Ld Fv Rec O Dr.
  unfold output_serial in O. destruct (write_buffer (cod k e) raw compress axs data) as [blk|] eqn:Wb; [|discriminate]. cbn [bind] in O.
  set (gs := map (fun a => mkG (a_g0 a) (a_g1 a)) axs) in *. assert (file = header dshow (grid_name k e) fields gs dx ++ pd_enc pod_int 1 ++ blk) as -> by congruence. assert (length gs = length axs) as Lg by (unfold gs; apply map_length).
  rewrite (draw_file_ok cod fresh uncompress draw unit dshow dparse mode field (opened_as Pvd k) e (grid_name k e) fields gs dx 1 blk);
    [|now apply pick_pvd|apply grid_name_line|auto|unfold zlen in *; lia| |auto|congruence|unfold int_range; lia].
  2:{ unfold gs. rewrite Forall_map. eapply Forall_impl; [|exact Fi]. unfold int_box. cbn. tauto. }
  rewrite Lg. assert (cod k e = cod (opened_as Pvd k) e) as Ec by (destruct k; cbn; auto).
  assert (writable (valid k e) 0 axs data) as Wr.
  { split; [auto|]. split; [lia|]. split; [intros ->; destruct Hd as [Hd _]; now vm_compute in Hd|]. split; [|split; [auto|]].
    - rewrite Forall_forall in *. intros a Ha. specialize (F a Ha). specialize (Fi a Ha). unfold int_axis. destruct F as [-> ->]. tauto.
    - intros y v _ Hv. rewrite Forall_forall in Fv. apply Fv. unfold get in Hv. destruct (_ <? _); [discriminate|]. eapply nth_error_In; eauto. }
  destruct (draw_blocks_ok cod fresh raw compress uncompress draw unit Lo mode field (cod k e) (valid k e) (opened_as Pvd k) e fields 0 (length axs) [(axs, data)] [blk] [] Se Ec) as (gds & C & R).
  { constructor; [cbn; auto|constructor]. } { constructor; [exact Wb|constructor]. }
  cbn [concat length] in R. rewrite !app_nil_r in R. change (Z.to_nat 1) with 1%nat. apply R.
  inversion C as [|? gd ? ? C1 C2]; subst. inversion C2; subst. apply copied_serial in C1; auto. subst gd.
  cbn [map combine fst]. constructor; [exact Dr|constructor].
Qed.
End Saved.
