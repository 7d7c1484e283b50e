(* C109: converting the files of a run one by one. *)
From Coq Require Import String QArith.QArith QArith.Qcanon.
From Verif Require Import Model.Base Model.Text Model.Num Model.Ghostswap Model.File Model.Driver Model.Types Model.Image Model.Options Model.Pvd
  Spec.Driver Spec.Options Spec.Pvd Model.Tools Spec.Tools Proof.BaseL Proof.DriverL Proof.OptionsL Proof.PvdL Proof.TypesL Proof.ToolsL.
Local Open Scope list_scope.
Local Open Scope Z_scope.

(* Every program but MC2vox, every run of the driver whose files end otherwise than the results, every way to show the data, whatever is
   made of the contents of a file: all the conversions succeed, each result is under a name of its own formed from that of its file, and all
   other files, those of the run among them, are as before. *)
Theorem C109_series atof convert t G (update : G -> Z -> G) outfile steps increment start g fuel files st (contents picture : G -> list byte) d :
  t <> MC2vox -> suits t st -> distinguishable t outfile ->
  0 < increment -> 0 <= steps -> steps + increment - 1 <= int_max -> 2 * zlen outfile + 11 < 4096 -> iterations_start outfile = Some start -> 0 <= start ->
  simulate update fuel outfile steps increment g = Ended files ->
  (forall f, In f files -> usable_name t (fst f) /\ d (fst f) = Some (contents (snd f)) /\ (t <> vox2MC -> grid_file (contents (snd f))) /\
    forall o, asked atof st o -> convert t o (contents (snd f)) = Done (picture (snd f))) ->
  exists d' results, run_each atof convert t (words st) (map fst files) d = (d', repeat (Done tt) (length files)) /\
    Forall2 (fun f n => named_after t (proper_ending t) (fst f) n /\ d' n = Some (picture (snd f))) files results /\ NoDup results /\
    (forall m, ~ In m results -> d' m = d m) /\ (forall f, In f files -> ~ In (fst f) results).
Proof.
  intros Nv S D Hi Hs Hm Hl Es H0 E H. destruct (run_images G update t outfile steps increment start g fuel files Nv D Hi Hs Hm Hl Es H0 E) as [ND X].
  destruct (request_ok atof t st Nv S) as (o & A & R).
  destruct (each_ok atof convert t (words st) o fst (fun f => image t (fst f)) (fun f => picture (snd f)) files) with (d := d) as (d' & Rn & P & O).
  - intros f I. apply R. now destruct (H f I).
  - exact ND.
  - exact X.
  - intros f I. destruct (H f I) as (U & Ed & Gf & C). exists (contents (snd f)). split; [exact Ed|]. split; [|now apply C]. clear - Gf. destruct t; reflexivity || (apply grid_look, Gf; discriminate).
  - exists d', (map (fun f => image t (fst f)) files). split; [exact Rn|]. split; [|split; [exact ND|split; [exact O|]]].
    + clear - P. induction files as [|f l IH]; cbn [map]; constructor; [split; [apply image_named|apply P; now left]|apply IH; intros a I; apply P; now right].
    + intros f I C. apply in_map_iff in C as (b & Eb & Ib). exact (X b f Ib I Eb).
Qed.
Print Assumptions C109_series.

(* a run of 1000 steps in two files; every file gets an exclamation mark *)
Local Notation mark := (fun (_ : tool) (_ : order) (c : list byte) => Done (c ++ [33])).
Local Notation body := (fun n : Z => bytes "grid:float" ++ 10 :: show_int n).
Local Notation number_of := (fun t => int2q (digits_val t)).
Example C109_case :
  let files := [(bytes "run.0500.dat", 500); (bytes "run.1000.dat", 1000)] in
  let d : disk := fun n => if same_text n (bytes "run.0500.dat") then Some (body 500) else if same_text n (bytes "run.1000.dat") then Some (body 1000) else None in
  simulate (fun g s => g + s) 2 (bytes "run.dat") 1000 500 0 = Ended files /\
  distinguishable MMSP2VTI (bytes "run.dat") /\ distinguishable MMSP2PNG (bytes "run.dat") /\ suits MMSP2VTI (Field 3) /\ suits MMSP2PNG (Drawing [Spec.Options.Mag; Invert]) /\
  (forall f, In f files -> usable_name MMSP2VTI (fst f) /\ usable_name MMSP2PNG (fst f) /\ d (fst f) = Some (body (snd f)) /\ grid_file (body (snd f))) /\
  fst (run_each number_of mark MMSP2VTI (words (Field 3)) (map fst files) d) (bytes "run.1000.vti") = Some (body 1000 ++ [33]) /\
  fst (run_each number_of mark MMSP2PNG (words (Drawing [Spec.Options.Mag; Invert])) (map fst files) d) (bytes "run.0500.png") = Some (body 500 ++ [33]) /\
  fst (run_each number_of mark MMSP2PNG (words (Drawing [Spec.Options.Mag; Invert])) (map fst files) d) (bytes "run.0500.dat") = Some (body 500).
Proof.
  cbv zeta.
  assert (extension_is (bytes "run.dat") (bytes "dat")) as X by (exists (bytes "run"); split; [reflexivity|repeat constructor; discriminate]).
  assert (forall e, e <> bytes "dat" -> ~ extension_is (bytes "run.dat") e) as Y by (intros e N C; apply N; exact (ext_unique _ _ _ C X)).
  split; [vm_compute; reflexivity|]. split; [split; [eauto|apply Y; discriminate]|]. split; [split; [discriminate|apply Y; discriminate]|].
  split; [vm_compute; split; discriminate|]. split; [split; [repeat constructor|split; intros (x & [<-|[<-|[]]] & [])]|]. split; [|repeat split; vm_compute; reflexivity].
  intros f [<-|[<-|[]]]; (split; [split; exact I|]); (split; [split; [exact I|intros C; apply finds_mentions in C; vm_compute in C; discriminate]|]); (split; [reflexivity|]); exists KPlain, EFloat; eexists; reflexivity.
Qed.

(* Without an extension the programs that do not mind digits give all results of the run one name: only the last one is left. *)
Theorem C109_no_extension_refuted atof t G (update : G -> Z -> G) outfile steps increment start g fuel files :
  minds_digits t = false -> dotless outfile -> 0 < increment -> 0 <= steps -> steps + increment - 1 <= int_max -> 2 * zlen outfile + 11 < 4096 ->
  iterations_start outfile = Some start -> 0 <= start -> simulate update fuel outfile steps increment g = Ended files ->
  forall f, In f files -> a_name (fst f) -> request_of atof t [fst f] = Done (mkReq (fst f) (outfile ++ ending t) Plain).
Proof.
  intros Md D Hi Hs Hm Hl Es H0 E f I A. destruct (out_parts outfile) as [Lb Ls]. rewrite (simulate_files update outfile start steps increment g fuel files) in I by (auto; lia).
  unfold all_files in I. apply in_map_iff in I as (k & <- & Ik). cbn [fst] in *. apply in_zrange in Ik.
  destruct (padded_mid (out_base outfile) (out_suffix outfile) steps (start + k * increment)) as (m & Em & Nm & Ne & _); [nia|]. rewrite Em in *.
  destruct (suffix_cases outfile) as [(_ & Z & B)|(e & (u & -> & _) & _)].
  - rewrite Z, B, app_nil_r in *. assert (stem ((outfile ++ [46]) ++ m) = outfile) as St.
    { apply stem_ext. left. exists m. rewrite <- app_assoc. split; [reflexivity|]. now apply dotless_in, numeral_dotless. }
    destruct t; try discriminate Md; cbn [request_of vti_request grid_request]; rewrite !(a_name_opt _ _ A), ?St; try reflexivity.
    assert (Types.starts (bytes "--field=") ((outfile ++ [46]) ++ m) = false) as -> by exact (name_starts (bytes "-field=") _ A). cbn. now rewrite St.
  - exfalso. apply dotless_in in D. apply D, in_or_app. right. now left.
Qed.
Print Assumptions C109_no_extension_refuted.
(* as in the help message of the driver *)
Example C109_no_extension_case :
  simulate (fun g s => g + s) 2 (bytes "start") 1000 500 0 = Ended [(bytes "start.0500", 500); (bytes "start.1000", 1000)] /\
  vti_request [bytes "start.0500"] = Done (mkReq (bytes "start.0500") (bytes "start.vti") Plain) /\ vti_request [bytes "start.1000"] = Done (mkReq (bytes "start.1000") (bytes "start.vti") Plain).
Proof. repeat split; vm_compute; reflexivity. Qed.

(* mmsp2tsv of a grid file that ends in .tsv: the file is emptied and nothing is converted *)
Theorem C109_tsv_refuted atof convert stem_ d file n : a_name (stem_ ++ bytes ".tsv") -> d (stem_ ++ bytes ".tsv") = Some file -> grid_file file -> convert MMSP2TSV Plain [] = Exit n ->
  exists d', run_tool atof convert MMSP2TSV [stem_ ++ bytes ".tsv"] d = (d', Exit n) /\ d' (stem_ ++ bytes ".tsv") = Some [].
Proof.
  intros A Ed Gf C. set (name := stem_ ++ bytes ".tsv") in *.
  assert (digit_name (bytes ".tsv") name = name) as En.
  { apply (named_unique (bytes ".tsv") name); [apply named_derived|]. right. exists stem_, (bytes "tsv"). split; [reflexivity|]. split; [repeat constructor; discriminate|]. left. split; [|reflexivity]. unfold bytes. cbn [map String.list_ascii_of_string]. repeat apply Forall_cons; try apply Forall_nil; vm_compute; intuition congruence. }
  unfold run_tool. cbn [request_of tsv_request]. rewrite (a_name_opt name _ A). cbn [r_in r_out r_order]. rewrite Ed, grid_look, En by exact Gf. cbn [opens_early]. rewrite write_same, C.
  eexists. split; [reflexivity|]. apply write_same.
Qed.
Print Assumptions C109_tsv_refuted.
(* the programs that do not mind digits replace such a file by the result *)
Theorem C109_own_ending_refuted atof convert t stem_ d file result : minds_digits t = false -> a_name (stem_ ++ ending t) -> d (stem_ ++ ending t) = Some file ->
  convert t Plain file = Done result -> exists d', run_tool atof convert t [stem_ ++ ending t] d = (d', Done tt) /\ d' (stem_ ++ ending t) = Some result.
Proof.
  intros Md A Ed C. set (name := stem_ ++ ending t) in *.
  assert (stem name = stem_) as En.
  { apply stem_ext. left. destruct t; try discriminate Md; eexists; (split; [reflexivity|]); cbn; intuition discriminate. }
  assert (request_of atof t [name] = Done (mkReq name name Plain)) as R.
  { destruct t; try discriminate Md; cbn [request_of vti_request grid_request]; rewrite !(a_name_opt _ _ A), ?En; try reflexivity.
    assert (Types.starts (bytes "--field=") name = false) as -> by exact (name_starts (bytes "-field=") _ A). cbn [obind]. change (0 <? 0) with false. cbn iota. rewrite En. reflexivity. }
  unfold run_tool. rewrite R. cbn [r_in r_out r_order]. rewrite Ed. assert (first_look t file = Done tt) as -> by (destruct t; try discriminate Md; reflexivity).
  assert (opens_early t = false) as -> by (destruct t; try discriminate Md; reflexivity). cbv zeta. rewrite Ed, C. eexists. split; [reflexivity|]. apply write_same.
Qed.
Print Assumptions C109_own_ending_refuted.

(* The voxel file is given the name of the phase field made from the same grid, whatever it is *)
Theorem C109_vox_refuted atof name : a_name name -> exists out, request_of atof MC2vox [name] = Done (mkReq name out Plain) /\ request_of atof MC2PF [name] = Done (mkReq name out Plain) /\
  ~ named_after MC2vox (proper_ending MC2vox) name out.
Proof.
  intros A. exists (stem name ++ bytes ".PF"). split; [|split]; [cbn [request_of grid_request]; now rewrite (a_name_opt _ _ A)..|].
  intros (s & W & E). apply (f_equal (@rev _)) in E. rewrite !rev_app_distr in E. cbn in E. discriminate.
Qed.
Print Assumptions C109_vox_refuted.

(* A name given for the result is used, and then the input stays unless it is the same name *)
Theorem C109_given_name atof convert t st name out d file result o : minds_digits t = false \/ t = MMSP2TSV -> suits t st -> a_name name -> asked atof st o -> name <> out ->
  d name = Some file -> grid_file file -> convert t o file = Done result ->
  exists d', run_tool atof convert t (words st ++ [name; out]) d = (d', Done tt) /\ d' out = Some result /\ forall m, m <> out -> d' m = d m.
Proof.
  intros Ht S A Ao Nn Ed Gf C.
  assert (request_of atof t (words st ++ [name; out]) = Done (mkReq name out o)) as R.
  { destruct (tool_eq_vti t) as [->|N].
    - destruct st as [| | |n|]; try contradiction; cbn [asked] in Ao; subst o.
      + cbn [words app request_of vti_request]. rewrite !(a_name_opt _ _ A). assert (Types.starts (bytes "--field=") name = false) as -> by exact (name_starts (bytes "-field=") _ A). reflexivity.
      + reflexivity.
      + reflexivity.
      + pose proof (request_ok atof MMSP2VTI (Field n) ltac:(discriminate) S) as (o & -> & R). specialize (R name (conj A I)).
        cbn [words app request_of vti_request] in *. destruct (same_text _ (bytes "--help")); [discriminate|]. destruct (if same_text _ _ then _ else _) as [[fl fi]| |]; cbn [obind] in *; try discriminate.
        destruct (0 <? fl) eqn:F; cbn iota in *; [injection R as R; rewrite R; reflexivity|]. destruct (Z.eqb_spec fl 0); injection R; intros; discriminate || lia.
    - assert (st = No_options) as -> by (destruct t, st; cbn in S; try easy; destruct Ht; discriminate). cbn [asked] in Ao. subst o.
      destruct t; try congruence; try (destruct Ht; discriminate); cbn [words app request_of tsv_request grid_request]; rewrite (a_name_opt _ _ A); reflexivity. }
  unfold run_tool. rewrite R. cbn [r_in r_out r_order]. rewrite Ed, grid_look by exact Gf. cbv zeta. destruct (opens_early t).
  - rewrite write_other, Ed, C by auto. eexists. split; [reflexivity|]. split; [apply write_same|]. intros m N. now rewrite !write_other by auto.
  - rewrite Ed, C. eexists. split; [reflexivity|]. split; [apply write_same|]. intros m N. now rewrite write_other by auto.
Qed.
Print Assumptions C109_given_name.

(* When the programs without drawing options misbehave: mmsp2vti with an option and no file, or a field number that is no int *)
Theorem C109_defined atof t args : t <> MMSP2PNG -> t <> MMSP2XYZ ->
  request_of atof t args = Undef <->
  t = MMSP2VTI /\
  ((exists x, args = [x] /\ (x = bytes "--mag" \/ x = bytes "--max" \/ exists y, x = bytes "--field=" ++ y)) \/
   (exists y rest, args = (bytes "--field=" ++ y) :: rest /\ not_int (firstn 12 y))).
Proof.
  intros N1 N2. destruct (tool_eq_vti t) as [->|N].
  - cbn [request_of]. rewrite vti_undef. tauto.
  - split; [|tauto]. intros H. exfalso. destruct t; try congruence; cbn [request_of tsv_request grid_request] in H; (destruct args as [|a r]; [discriminate|]); cbn [tsv_request grid_request] in H; destruct (same_text a (bytes "--help")); discriminate.
Qed.
Print Assumptions C109_defined.
Theorem C109_option_alone_refuted atof : request_of atof MMSP2VTI [bytes "--mag"] = Undef /\ request_of atof MMSP2VTI [bytes "--field=99999999999"; bytes "grid"] = Undef.
Proof. split; reflexivity. Qed.
Print Assumptions C109_option_alone_refuted.
(* an option after the file is the name of the result *)
Theorem C109_option_last_refuted atof : request_of atof MMSP2VTI [bytes "grid"; bytes "--mag"] = Done (mkReq (bytes "grid") (bytes "--mag") Plain).
Proof. reflexivity. Qed.
Print Assumptions C109_option_last_refuted.
