From Coq Require Import Ascii String QArith.QArith QArith.Qcanon.
From Verif Require Import Model.Base Model.Text Model.Num Model.Ghostswap Model.File Model.Driver Model.Types Model.Options Model.Pvd
  Spec.Driver Spec.Options Spec.Pvd Model.Tools Spec.Tools Proof.BaseL Proof.TextL Proof.DriverL Proof.OptionsL Proof.PvdL Proof.TypesL.
Local Open Scope list_scope.
Local Open Scope Z_scope.

Lemma same_text_eq u v : same_text u v = true <-> u = v.
Proof. unfold same_text. destruct (list_eq_dec Z.eq_dec u v); split; intros; congruence. Qed.
Lemma same_text_ne u v : u <> v -> same_text u v = false.
Proof. intros N. unfold same_text. now destruct (list_eq_dec Z.eq_dec u v). Qed.
Lemma write_same d n c : write d n c n = Some c.
Proof. unfold write. now rewrite (proj2 (same_text_eq n n) eq_refl). Qed.
Lemma write_other d n c m : m <> n -> write d n c m = d m.
Proof. intros N. unfold write. now rewrite same_text_ne. Qed.

(* ---- a series of runs ---- *)
Section Series.
Context (atof : list byte -> Qc) (convert : tool -> order -> list byte -> outcome (list byte)) (t : tool) (opts : list (list byte)) (o : order).
Context {A : Type} (name img pic : A -> list byte).
Lemma each_ok (l : list A) : (forall a, In a l -> request_of atof t (opts ++ [name a]) = Done (mkReq (name a) (img a) o)) ->
  NoDup (map img l) -> (forall a b, In a l -> In b l -> img a <> name b) ->
  forall d, (forall a, In a l -> exists c, d (name a) = Some c /\ first_look t c = Done tt /\ convert t o c = Done (pic a)) ->
  exists d', run_each atof convert t opts (map name l) d = (d', repeat (Done tt) (length l)) /\
    (forall a, In a l -> d' (img a) = Some (pic a)) /\ (forall m, ~ In m (map img l) -> d' m = d m).
Proof.
  induction l as [|a l IH]; intros Q ND X d H; [exists d; cbn; split; [reflexivity|split; [intros b []|auto]]|].
  cbn [map run_each]. destruct (H a (or_introl eq_refl)) as (c & Ec & L & E). inversion ND as [|? ? NI ND']. subst.
  assert (img a <> name a) as Na by (apply X; now left).
  assert (exists d1, run_tool atof convert t (opts ++ [name a]) d = (d1, Done tt) /\ d1 (img a) = Some (pic a) /\ forall m, m <> img a -> d1 m = d m) as (d1 & R & D1 & D2).
  { unfold run_tool. rewrite (Q a (or_introl eq_refl)). cbn [r_in r_out r_order]. rewrite Ec, L. cbv zeta. destruct (opens_early t).
    - rewrite write_other by congruence. rewrite Ec, E. eexists. split; [reflexivity|]. split; [apply write_same|]. intros m N. now rewrite !write_other by auto.
    - rewrite Ec, E. eexists. split; [reflexivity|]. split; [apply write_same|]. intros m N. now rewrite write_other by auto. }
  rewrite R. destruct (IH) with (d := d1) as (d' & R' & P & O).
  - intros b Hb. apply Q. now right.
  - exact ND'.
  - intros b b' Hb Hb'. apply X; now right.
  - intros b Hb. destruct (H b (or_intror Hb)) as (cb & Eb & Hh). exists cb. split; [|exact Hh]. rewrite D2; [exact Eb|]. intros C. symmetry in C. revert C. apply X; [now left|now right].
  - rewrite R'. exists d'. split; [reflexivity|]. split.
    + intros b [<-|Hb]; [|auto]. rewrite O by exact NI. exact D1.
    + intros m Nm. rewrite O by (intros C; apply Nm; now right). apply D2. intros ->. apply Nm. now left.
Qed.
End Series.

(* ---- what is asked for ---- *)
Definition image (t : tool) (name : list byte) : list byte := if minds_digits t then digit_name (proper_ending t) name else stem name ++ proper_ending t.
Lemma dotless_in (s : list byte) : dotless s <-> ~ In 46 s.
Proof. unfold dotless. rewrite Forall_forall. split; [intros H I; now apply (H 46)|intros H x I ->; auto]. Qed.
Lemma image_named t name : named_after t (proper_ending t) name (image t name).
Proof. unfold named_after, image. destruct (minds_digits t); [apply named_derived|]. exists (stem name). split; [apply stem_exists|reflexivity]. Qed.
Lemma a_name_ne name u : a_name name -> same_text name (45 :: u) = false.
Proof. intros H. apply same_text_ne. intros ->. exact H. Qed.
Lemma a_name_opt name s : a_name name -> same_text name (bytes (String "-"%char s)) = false.
Proof. apply (a_name_ne name (bytes s)). Qed.
Lemma means_unique atof tol opts name name' s : means atof tol (opts ++ [Input name]) s -> means atof tol (opts ++ [Input name']) s.
Proof.
  intros [H1 H2 H3 H4 H5 H6 H7 H8 H9 H10 H11 H12 H13].
  assert (forall is : opt -> Prop, (is (Input name) <-> is (Input name')) -> given is (opts ++ [Input name]) <-> given is (opts ++ [Input name'])) as G.
  { intros is E. rewrite !given_snoc. tauto. }
  assert (forall x : opt, x <> Input name -> x <> Input name' -> In x (opts ++ [Input name]) <-> In x (opts ++ [Input name'])) as GI.
  { intros x E E'. rewrite !in_snoc. intuition congruence. }
  assert (forall X (says : opt -> option X) d, says (Input name) = None -> says (Input name') = None -> last_word says (opts ++ [Input name]) d = last_word says (opts ++ [Input name']) d) as W.
  { intros X says d E E'. rewrite !last_word_snoc. now rewrite E, E'. }
  assert (forall (is : opt -> Prop) i, ~ is (Input name) -> ~ is (Input name') -> last_of_kind is (opts ++ [Input name]) i -> last_of_kind is (opts ++ [Input name']) i) as K.
  { intros is i N N' [[-> Ng]|[Hi (b & x & a & E & L & Px & Na)]]; [left; split; [auto|]; rewrite given_snoc in *; tauto|].
    destruct (exists_last (l := a)) as (a' & y & Ea).
    { intros ->. apply app_inj_tail in E as [_ <-]. tauto. }
    subst a. rewrite app_comm_cons, app_assoc in E. apply app_inj_tail in E as [-> <-]. right. split; [auto|]. exists b, x, (a' ++ [Input name']).
    rewrite <- app_assoc. cbn [app]. repeat split; auto. rewrite given_snoc in *. tauto. }
  constructor; auto.
  - destruct H1 as [[-> N]|[Hi (b & x & a & E & L & Px & Na)]].
    + exfalso. apply N. exists (Input name). split; [apply in_or_app; right; now left|exact I].
    + destruct a as [|y a'] eqn:Ea.
      * apply app_inj_tail in E as [-> <-]. right. split; [auto|]. exists b, (Input name'), []. repeat split; auto. 
      * exfalso. apply Na. rewrite <- Ea in *. assert (a <> []) as Nn by congruence. destruct (exists_last Nn) as (a'' & z & Ez). rewrite Ez in E |- *. rewrite app_comm_cons, app_assoc in E. apply app_inj_tail in E as [_ <-].
        exists (Input name). split; [apply in_or_app; right; now left|exact I].
  - rewrite <- !(G is_without), <- !(G is_fields), <- (GI Spec.Options.Mag) by (easy || discriminate). exact H3.
  - rewrite <- (GI Invert) by discriminate. exact H4.
  - rewrite <- (GI White_contours) by discriminate. exact H5.
  - rewrite <- (GI Normals) by discriminate. exact H6.
  - intros k. rewrite <- (G (names_field k)) by easy. apply H7.
  - intros v. rewrite <- (G (names_level atof v)) by easy. apply H8.
  - rewrite H9. now apply W.
  - rewrite H10. now apply W.
  - rewrite H11. now apply W.
  - rewrite H12. now apply W.
  - rewrite H13. now apply W.
Qed.

Lemma drawn_ok atof (p : Spec.Options.program) opts : Forall (well_formed p) opts -> ~ given is_input opts -> ~ given is_output opts ->
  exists s, (forall name, means atof (fun a => atof (tl a)) (opts ++ [Input name]) s) /\
    forall name, a_name name -> ~ mentions (extension p) name ->
      drawn_request (extension p) (options (flag_of atof p) (map text opts ++ [name])) (map text opts ++ [name]) = Done (mkReq name (digit_name (extension p) name) (Drawn s)).
Proof.
  intros W NI NO.
  exists (effects atof 1 (opts ++ [Input []]) defaults).
  assert (forall name, means atof (fun a => atof (tl a)) (opts ++ [Input name]) (effects atof 1 (opts ++ [Input []]) defaults)) as M.
  { intros name. apply (means_unique _ _ _ [] name). apply effects_mean. }
  split; [exact M|]. intros name A Nm.
  assert (Forall (well_formed p) (opts ++ [Input name])) as W' by (apply Forall_app; split; [exact W|repeat constructor; auto]).
  assert (effects atof 1 (opts ++ [Input name]) defaults = effects atof 1 (opts ++ [Input []]) defaults) as Ee.
  { rewrite !effects_app. reflexivity. }
  assert (options (flag_of atof p) (map text opts ++ [name]) = Done (effects atof 1 (opts ++ [Input []]) defaults)) as E.
  { destruct (options_mean atof p (opts ++ [Input name]) W') as (s & E & Ms). { exists (Input name). split; [apply in_or_app; right; now left|exact I]. }
    rewrite map_app in E. cbn [map text] in E. rewrite E. f_equal. unfold options in E. destruct (map text opts ++ [name]) as [|a l] eqn:El; [destruct opts; discriminate|].
    destruct (list_eq_dec _ _ _); [discriminate|]. rewrite <- El in E. replace (map text opts ++ [name]) with (map text (opts ++ [Input name])) in E by (rewrite map_app; reflexivity).
    rewrite each_text in E by exact W'. rewrite Ee in E. cbn [obind] in E. destruct (o_dat _ =? 0); [discriminate|]. now injection E as <-. }
  set (s := effects atof 1 (opts ++ [Input []]) defaults) in *. specialize (M name). destruct M as [Hin Hout _ _ _ _ _ _ _ _ _ _ _].
  assert (o_dat s = 1 + zlen opts) as Hd.
  { unfold s. rewrite effects_app. reflexivity. }
  assert (o_out s = 0) as Ho.
  { destruct Hout as [[-> _]|[_ (b & x & a & Eb & _ & Px & _)]]; [reflexivity|]. exfalso. assert (given is_output (opts ++ [Input name])) as Gv by (exists x; split; [rewrite Eb; apply in_or_app; right; now left|exact Px]).
    apply given_snoc in Gv as [Gv|[]]. now apply NO. }
  assert (get (map text opts ++ [name]) (o_dat s - 1) = Some name) as G.
  { rewrite Hd. replace (1 + zlen opts - 1) with (zlen opts) by lia. unfold get. destruct (Z.ltb_spec (zlen opts) 0) as [C|_]; [pose proof (zlen_nonneg opts); lia|].
    unfold zlen. rewrite Nat2Z.id, nth_error_app2, map_length, Nat.sub_diag by (rewrite map_length; lia). reflexivity. }
  unfold drawn_request. rewrite E. cbn [obind]. unfold Model.Options.output_name. rewrite Ho. cbn [Z.eqb]. rewrite G. reflexivity.
Qed.

Lemma starts_prefix (p s : list byte) : Types.starts p (p ++ s) = true.
Proof. induction p as [|b p IH]; [reflexivity|]. cbn [app Types.starts]. now rewrite Z.eqb_refl. Qed.
Lemma request_ok atof t st : t <> MC2vox -> suits t st -> exists o, asked atof st o /\
  forall name, usable_name t name -> request_of atof t (words st ++ [name]) = Done (mkReq name (image t name) o).
Proof.
  intros Nv S. destruct (Spec.Tools.minds_digits t) eqn:Md.
  - destruct t; try discriminate.
    + destruct st; try contradiction. exists Plain. split; [reflexivity|]. intros name [A _]. cbn [words app request_of tsv_request]. rewrite (a_name_opt name) by exact A. reflexivity.
    + destruct st as [| | | |opts]; try contradiction. destruct S as (W & NI & NO). destruct (drawn_ok atof Options.Png opts W NI NO) as (s & M & R). exists (Drawn s). split; [exists s; auto|].
      intros name [A N]. exact (R name A N).
    + destruct st as [| | | |opts]; try contradiction. destruct S as (W & NI & NO). destruct (drawn_ok atof Options.Xyz opts W NI NO) as (s & M & R). exists (Drawn s). split; [exists s; auto|].
      intros name [A N]. exact (R name A N).
  - assert (t = MMSP2VTI \/ (t <> MMSP2VTI /\ st = No_options)) as [->|[N ->]].
    { destruct t; auto; try discriminate; right; (split; [discriminate|]); destruct st; cbn in S; easy. }
    + destruct st as [| | |n|]; try contradiction.
      * exists Plain. split; [reflexivity|]. intros name [A _]. cbn [words app request_of vti_request]. rewrite !(a_name_opt name) by exact A. assert (Types.starts (bytes "--field=") name = false) as -> by exact (name_starts (bytes "-field=") name A). reflexivity.
      * exists (Flat 1 0). split; [reflexivity|]. intros name [A _]. reflexivity.
      * exists (Flat 2 0). split; [reflexivity|]. intros name [A _]. reflexivity.
      * exists (Flat 3 n). split; [reflexivity|]. intros name [A _]. cbn [words app request_of vti_request]. change (natural n) in S.
        assert (forall u, length u <= 6 -> same_text (bytes "--field=" ++ show_int n) u = false)%nat as X.
        { intros u Hu. apply same_text_ne. intros <-. rewrite app_length in Hu. cbn in Hu. lia. }
        rewrite !X by (cbn; lia). rewrite (starts_prefix (bytes "--field=")).
        change (part (bytes "--field=" ++ show_int n) 8 12) with (part (bytes "--field=" ++ show_int n) (length (bytes "--field=")) 12).
        rewrite part_app by (destruct (show_len_int n S); lia). rewrite atoi_int by exact S. reflexivity.
    + exists Plain. split; [reflexivity|]. intros name [A _]. destruct t; try congruence; try discriminate; cbn [words app request_of grid_request]; rewrite !(a_name_opt name) by exact A; reflexivity.
Qed.

(* ---- the names of the files of a run ---- *)
Lemma split_dot (m m' r r' : list byte) : dotless m -> dotless m' -> m ++ 46 :: r = m' ++ 46 :: r' -> m = m' /\ r = r'.
Proof.
  revert m'. induction m as [|b m IH]; intros [|b' m'] D D' E; cbn [app] in E.
  - injection E as ->. auto.
  - injection E as Eb E. subst. inversion D'. congruence.
  - injection E as Eb E. subst. inversion D. congruence.
  - injection E as Eb E. subst b'. inversion D. inversion D'. subst. destruct (IH m') as [-> ->]; auto.
Qed.
Lemma suffix_cases outfile : (dotless outfile /\ out_suffix outfile = [] /\ out_base outfile = outfile ++ [46]) \/ (exists e, extension_is outfile e /\ out_suffix outfile = 46 :: e).
Proof.
  unfold out_suffix. pose proof (last_dot_split outfile) as H. destruct (last_dot outfile) as [k|] eqn:L.
  - destruct H as (u & e & -> & D & ->). right. exists e. split; [exists u; auto|]. now rewrite skipn_zlen.
  - left. split; [auto|]. split; [auto|]. unfold out_base. now rewrite first_dot_none.
Qed.
Lemma ext_unique n e e' : extension_is n e -> extension_is n e' -> e = e'.
Proof.
  intros (u & -> & D) (u' & E & D').
  apply dotless_in in D, D'. pose proof (app_dot_inj _ _ _ _ _ E D D') as <-. apply app_inv_head in E. congruence.
Qed.
Lemma named_unique ext n a b : derived ext n a -> derived ext n b -> a = b.
Proof.
  intros [[D ->]|(u & e & En & De & H)] [[D' ->]|(u' & e' & En' & De' & H')]; auto.
  - exfalso. apply dotless_in in D. apply D. rewrite En'. apply in_or_app. right. now left.
  - exfalso. apply dotless_in in D'. apply D'. rewrite En. apply in_or_app. right. now left.
  - assert (e = e') as <- by (apply (ext_unique n); [exists u|exists u']; auto). assert (u = u') as <- by (rewrite En in En'; now apply app_inv_tail in En').
    assert (Forall (fun b => ~ 48 <= b <= 57) e -> Exists (fun b => 48 <= b <= 57) e -> False) as X.
    { rewrite Forall_forall, Exists_exists. intros Hf (x & I & Hx). now apply (Hf x). }
    destruct H as [[F ->]|[F ->]], H' as [[F' ->]|[F' ->]]; auto; exfalso; auto.
Qed.
(* the results of the files of a run: the name with the extension replaced, or continued, in the same way for all *)
Lemma image_shape t outfile : t <> MC2vox -> distinguishable t outfile -> exists tail r, tail = 46 :: r /\ tail <> out_suffix outfile /\
  forall mid, numeral mid -> mid <> [] -> image t (out_base outfile ++ mid ++ out_suffix outfile) = out_base outfile ++ mid ++ tail.
Proof.
  intros Nv [H1 H2]. assert (exists x, proper_ending t = 46 :: x) as (x & Ex) by (destruct t; eexists; reflexivity). rewrite Ex in H2. cbn [tl] in H2.
  destruct (suffix_cases outfile) as [(D & -> & Eb)|(e & X & ->)].
  - exists (46 :: x), x. split; [reflexivity|]. split; [discriminate|]. intros mid Nm Ne.
    unfold image. destruct (minds_digits t) eqn:Md; [|destruct H1 as (e & u & -> & _); [auto|]; exfalso; apply dotless_in in D; apply D, in_or_app; right; now left].
    rewrite app_nil_r, Eb, Ex. apply (named_unique (46 :: x) ((outfile ++ [46]) ++ mid)); [apply named_derived|]. right. exists outfile, mid. rewrite <- !app_assoc. cbn [app]. split; [reflexivity|].
    split; [now apply numeral_dotless|]. right. split; [|reflexivity]. destruct mid as [|m mid]; [congruence|]. apply Exists_cons_hd. now inversion Nm.
  - assert (46 :: e <> 46 :: x) as Ne by (intros C; injection C as ->; auto). assert (dotless e) as De by (destruct X as (? & _ & ?); auto).
    unfold image. rewrite Ex. destruct (minds_digits t).
    + destruct (existsb is_digit e) eqn:Ed.
      * exists ((46 :: e) ++ 46 :: x), (e ++ 46 :: x). split; [reflexivity|]. split; [intros C; apply (f_equal (@length _)) in C; rewrite app_length in C; cbn in C; lia|].
        intros mid Nm Nn. set (n := out_base outfile ++ mid ++ 46 :: e). apply (named_unique (46 :: x) n); [apply named_derived|]. right. exists (out_base outfile ++ mid), e. unfold n. rewrite <- !app_assoc. split; [reflexivity|].
        split; [exact De|]. right. split; [|now rewrite <- ?app_assoc]. apply existsb_exists in Ed as (b & I & Hb). apply Exists_exists. exists b. rewrite <- digit_iff. auto.
      * exists (46 :: x), x. split; [reflexivity|]. split; [congruence|].
        intros mid Nm Nn. set (n := out_base outfile ++ mid ++ 46 :: e). apply (named_unique (46 :: x) n); [apply named_derived|]. right. exists (out_base outfile ++ mid), e. unfold n. rewrite <- !app_assoc. split; [reflexivity|].
        split; [exact De|]. left. split; [|reflexivity]. apply Forall_forall. intros b Hb C. apply digit_iff in C. assert (existsb is_digit e = true); [apply existsb_exists; eauto|congruence].
    + exists (46 :: x), x. split; [reflexivity|]. split; [congruence|]. intros mid Nm Nn. rewrite (stem_ext _ (out_base outfile ++ mid)); [now rewrite <- app_assoc|].
      left. exists e. rewrite <- app_assoc. split; [reflexivity|]. now apply dotless_in.
Qed.
Lemma padded_mid base suffix steps step : 0 <= step -> exists mid, padded base suffix steps step = base ++ mid ++ suffix /\ numeral mid /\ mid <> [] /\ digits_val mid = step.
Proof.
  intros H. destruct (show_int_nonneg step H) as (F & V & N). exists (repeat 48 (Z.to_nat (zlen (show_int steps) - zlen (show_int step))) ++ show_int step). unfold padded. rewrite <- !app_assoc. split; [reflexivity|]. split; [|split].
  - apply Forall_app. split; [apply Forall_forall; intros x I; apply repeat_spec in I; lia|]. eapply Forall_impl; [|exact F]. intros b Hb. now apply digit_iff.
  - destruct (show_int step); [congruence|]. now destruct (repeat _ _).
  - now rewrite digits_zeros.
Qed.
Lemma nodup_map {A B} (f : A -> B) l : NoDup l -> (forall a b, In a l -> In b l -> f a = f b -> a = b) -> NoDup (map f l).
Proof.
  induction 1 as [|a l N _ IH]; intros J; cbn [map]; [constructor|]. constructor.
  - intros I. apply in_map_iff in I as (b & E & I). apply N. rewrite <- (J b a); auto; [now right|now left].
  - apply IH. intros x y Hx Hy. apply J; now right.
Qed.
Lemma zrange_nodup' lo hi : NoDup (zrange lo hi).
Proof.
  apply NoDup_nth_error. intros i j Hi E. rewrite length_zrange in Hi. rewrite nth_error_zrange in E by lia. symmetry in E.
  assert (j < Z.to_nat (hi - lo))%nat as Hj by (rewrite <- (length_zrange lo hi); apply nth_error_Some; congruence). rewrite nth_error_zrange in E by lia. injection E as E. lia.
Qed.
Lemma run_images G (update : G -> Z -> G) t outfile steps inc start g fuel files : t <> MC2vox -> distinguishable t outfile ->
  0 < inc -> 0 <= steps -> steps + inc - 1 <= int_max -> 2 * zlen outfile + 11 < 4096 -> iterations_start outfile = Some start -> 0 <= start ->
  simulate update fuel outfile steps inc g = Ended files ->
  NoDup (map (fun f => image t (fst f)) files) /\ forall a b, In a files -> In b files -> image t (fst a) <> fst b.
Proof.
  intros Nv Dd Hi Hs Hm Hl Es H0 E. destruct (out_parts outfile) as [Lb Ls]. rewrite (simulate_files update outfile start steps inc g fuel files) by (auto; lia). clear E files.
  destruct (image_shape t outfile Nv Dd) as (tail & r & Et & Nt & Sh). unfold all_files. set (l := zrange 1 _).
  assert (forall k, In k l -> 1 <= k) as Hk by (intros k I; unfold l in I; apply in_zrange in I; lia). split.
  - rewrite map_map. apply nodup_map; [apply zrange_nodup'|]. intros a b Ha Hb. cbn [fst].
    destruct (padded_mid (out_base outfile) (out_suffix outfile) steps (start + a * inc)) as (m & -> & Nm & Ne & V); [specialize (Hk a Ha); nia|].
    destruct (padded_mid (out_base outfile) (out_suffix outfile) steps (start + b * inc)) as (m' & -> & Nm' & Ne' & V'); [specialize (Hk b Hb); nia|].
    rewrite !Sh by auto. intros C. apply app_inv_head, app_inv_tail in C. subst m'. nia.
  - intros a b Ia Ib. apply in_map_iff in Ia as (ka & <- & Ia), Ib as (kb & <- & Ib). cbn [fst].
    destruct (padded_mid (out_base outfile) (out_suffix outfile) steps (start + ka * inc)) as (m & -> & Nm & Ne & _); [specialize (Hk ka Ia); nia|].
    destruct (padded_mid (out_base outfile) (out_suffix outfile) steps (start + kb * inc)) as (m' & -> & Nm' & Ne' & _); [specialize (Hk kb Ib); nia|].
    rewrite Sh by auto. intros C. apply app_inv_head in C. rewrite Et in C. destruct (suffix_cases outfile) as [(_ & Z & _)|(e & _ & Z)]; rewrite Z in *.
    + rewrite app_nil_r in C. apply numeral_dotless, dotless_in in Nm'. apply Nm'. rewrite <- C. apply in_or_app. right. now left.
    + apply split_dot in C as [_ ->]; [|now apply numeral_dotless..]. congruence.
Qed.

(* ---- misuse ---- *)
Lemma vti_undef args : vti_request args = Undef <->
  (exists x, args = [x] /\ (x = bytes "--mag" \/ x = bytes "--max" \/ exists y, x = bytes "--field=" ++ y)) \/
  (exists y rest, args = (bytes "--field=" ++ y) :: rest /\ not_int (firstn 12 y)).
Proof.
  assert (forall y, part (bytes "--field=" ++ y) 8 12 = firstn 12 y) as P by reflexivity.
  assert (forall a, Types.starts (bytes "--field=") a = true -> exists y, a = bytes "--field=" ++ y) as S.
  { intros a H. assert (forall p s, Types.starts p s = true -> exists y, s = p ++ y) as G.
    { clear. induction p as [|b p IH]; intros [|c s] H; cbn in H; try discriminate; [exists []; auto|exists (c :: s); auto|]. apply andb_prop in H as [H1 H2]. apply Z.eqb_eq in H1 as ->. destruct (IH _ H2) as (y & ->). exists y. reflexivity. }
    now apply G. }
  split.
  - destruct args as [|a rest]; [discriminate|]. cbn [vti_request].
    destruct (same_text a (bytes "--help")) eqn:E1; [discriminate|]. destruct (same_text a (bytes "--mag")) eqn:E2.
    { apply same_text_eq in E2. subst. cbn [obind Z.ltb]. change (0 <? 1) with true. cbn iota. destruct rest; [|discriminate]. left. eauto. }
    destruct (same_text a (bytes "--max")) eqn:E3.
    { apply same_text_eq in E3. subst. cbn [obind Z.ltb]. change (0 <? 2) with true. cbn iota. destruct rest; [|discriminate]. left. eauto. }
    destruct (Types.starts (bytes "--field=") a) eqn:E4.
    + destruct (S a E4) as (y & ->). rewrite P. destruct (atoi (firstn 12 y)) eqn:Ea.
      * cbn [req obind]. change (0 <? 3) with true. cbn iota. destruct rest; [|discriminate]. left. exists (bytes "--field=" ++ y). split; [auto|]. right. right. eauto.
      * right. exists y, rest. auto.
    + cbn [obind]. change (0 <? 0) with false. cbn iota. discriminate.
  - intros [(x & -> & [->|[->|(y & ->)]])|(y & rest & -> & N)]; [reflexivity..| |].
    + cbn [vti_request]. rewrite !same_text_ne by discriminate. rewrite (starts_prefix (bytes "--field=")), P. destruct (atoi (firstn 12 y)); reflexivity.
    + cbn [vti_request]. rewrite !same_text_ne by discriminate. rewrite (starts_prefix (bytes "--field=")), P. unfold not_int in N. rewrite N. reflexivity.
Qed.
Lemma grid_look t c : grid_file c -> first_look t c = Done tt.
Proof.
  intros (k & e & rest & ->). unfold first_look. rewrite getline_line by apply grid_name_line. cbn [fst]. destruct t; try reflexivity; rewrite pick_table; destruct k, e; reflexivity.
Qed.
Lemma tool_eq_vti (t : tool) : t = MMSP2VTI \/ t <> MMSP2VTI.
Proof. destruct t; auto; right; discriminate. Qed.
