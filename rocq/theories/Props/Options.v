(* C107: what the options of mmsp2png and mmsp2xyz do. *)
From Coq Require Import String QArith.QArith QArith.Qcanon.
From Verif Require Import Model.Base Model.Text Model.Num Model.Ghostswap Model.File Model.Driver Model.Types Model.Image Model.Options
  Spec.Driver Spec.Options Proof.OptionsL.
Local Open Scope list_scope.
Local Open Scope Z_scope.

(* the command line of each program, read with any atof *)
Local Notation command p atof := (match p with Png => png_options atof | Xyz => xyz_options atof end).

(* For every sequence of well formed options, in any order and repeated at will, with an input file among them: the program accepts them and
   each setting is what the last option about it says; the first character of a tolerance is lost. *)
Theorem C107_options (p : program) (atof : list byte -> Qc) opts : Forall (well_formed p) opts -> given is_input opts ->
  exists s, command p atof (map text opts) = Done s /\ means atof (fun a => atof (tl a)) opts s.
Proof. destruct p; [exact (options_mean atof Png opts)|exact (options_mean atof Xyz opts)]. Qed.
Print Assumptions C107_options.

(* Hence the options have the documented meaning if no tolerance is given *)
Theorem C107_documented_partial (p : program) (atof : list byte -> Qc) opts : Forall (well_formed p) opts -> given is_input opts ->
  ~ given (fun o => match o with Tolerance _ => True | _ => False end) opts ->
  exists s, command p atof (map text opts) = Done s /\ means atof atof opts s.
Proof.
  intros W I N. destruct (C107_options p atof opts W I) as (s & E & M). exists s. split; [exact E|]. destruct M. constructor; auto.
  rewrite e_tolerance. clear - N. generalize (Q2Qc (6 # 100)). induction opts as [|o t IH]; intros d; [reflexivity|]. unfold last_word in *. cbn [fold_left].
  rewrite IH by (intros (x & H & Hx); apply N; exists x; cbn; auto). destruct o; try reflexivity. exfalso. apply N. exists (Tolerance a). cbn. auto.
Qed.
Print Assumptions C107_documented_partial.

(* digits read as a number *)
Local Notation decimal := (fun t => int2q (digits_val t)).
Theorem C107_documented_refuted : ~ (forall p atof opts, Forall (well_formed p) opts -> given is_input opts ->
  exists s, command p atof (map text opts) = Done s /\ means atof atof opts s).
Proof.
  intros H. destruct (H Png decimal [Tolerance (bytes "10"); Input (bytes "grid")]) as (s & E & M).
  - constructor; [|constructor; [|constructor]].
    + cbn. split; [split; [discriminate|]|]; [|unfold zlen; cbn; lia]. intros [X|[X|[]]]; discriminate.
    + split; [exact I|]. intros X. apply finds_mentions in X. vm_compute in X. discriminate.
  - exists (Input (bytes "grid")). cbn. auto.
  - pose proof (e_tolerance _ _ _ _ M) as T. vm_compute in E. injection E as <-. vm_compute in T. discriminate.
Qed.
Print Assumptions C107_documented_refuted.

(* A tolerance of one character, --zoom= with one number and --contour= with none: undefined behaviour *)
Theorem C107_short_tolerance_refuted (p : program) (atof : list byte -> Qc) (c : byte) name : command p atof [bytes "--contol=" ++ [c]; name] = Undef.
Proof. destruct p; reflexivity. Qed.
Print Assumptions C107_short_tolerance_refuted.
Theorem C107_zoom_refuted (atof : list byte -> Qc) : png_options atof [bytes "--zoom=1.5"; bytes "grid"] = Undef.
Proof. reflexivity. Qed.
Print Assumptions C107_zoom_refuted.
Theorem C107_contour_refuted (p : program) (atof : list byte -> Qc) name : command p atof [bytes "--contour="; name] = Undef.
Proof. destruct p; reflexivity. Qed.
Print Assumptions C107_contour_refuted.

(* Otherwise every command line is either accepted or refused with an exit status *)
Theorem C107_defined (p : program) (atof : list byte -> Qc) args : ~ Exists dangerous args -> command p atof args <> Undef.
Proof. intros N H. apply N. destruct p; [exact (options_undef atof Png args H)|exact (options_undef atof Xyz args H)]. Qed.
Print Assumptions C107_defined.

(* The name of the output *)
Theorem C107_name (p : program) (atof : list byte -> Qc) opts : Forall (well_formed p) opts -> given is_input opts ->
  exists s n, command p atof (map text opts) = Done s /\ output_name (extension p) (map text opts) s = Some n /\
    match last_word says_output opts None with
    | Some out => n = out
    | None => exists dat, last_word says_input opts None = Some dat /\ derived (extension p) dat n
    end.
Proof.
  intros W I. destruct (C107_options p atof opts W I) as (s & E & M). destruct (name_ok (extension p) _ _ opts s M I) as (n & H). exists s, n. auto.
Qed.
Print Assumptions C107_name.

(* Whatever the arguments, the output has another name than the input *)
Theorem C107_input_kept (p : program) (atof : list byte -> Qc) args s n dat : command p atof args = Done s ->
  output_name (extension p) args s = Some n -> get args (o_dat s - 1) = Some dat -> n <> dat.
Proof. destruct p; [exact (input_kept atof Png args s n dat)|exact (input_kept atof Xyz args s n dat)]. Qed.
Print Assumptions C107_input_kept.

(* A dot in a directory counts as the beginning of the extension: the image of ../data/grain is written to ..png *)
Theorem C107_name_refuted (atof : list byte -> Qc) : exists s, png_options atof [bytes "../data/grain"] = Done s /\ output_name (bytes ".png") [bytes "../data/grain"] s = Some (bytes "..png").
Proof. eexists. split; reflexivity. Qed.
Print Assumptions C107_name_refuted.

(* infile outfile: without .png in its name the second file is the input and the first is not looked at *)
Theorem C107_two_files_refuted (atof : list byte -> Qc) : exists s, png_options atof [bytes "grid"; bytes "picture"] = Done s /\ o_dat s = 2 /\ o_out s = 0.
Proof. eexists. repeat split. Qed.
Print Assumptions C107_two_files_refuted.
(* an input with .png in its name is no input *)
Theorem C107_input_refuted (atof : list byte -> Qc) : png_options atof [bytes "a.png.dat"] = Exit (-1).
Proof. reflexivity. Qed.
Print Assumptions C107_input_refuted.
(* a misspelt option is the input *)
Theorem C107_unknown_refuted (atof : list byte -> Qc) : exists s, png_options atof [bytes "grid"; bytes "--invret"] = Done s /\ o_dat s = 2 /\ o_invert s = false.
Proof. eexists. repeat split. Qed.
Print Assumptions C107_unknown_refuted.
(* an unknown axis is refused, but not after a known one *)
Theorem C107_axis_refuted (atof : list byte -> Qc) :
  png_options atof [bytes "--slice=W,3"; bytes "grid"] = Exit (-1) /\
  exists s, png_options atof [bytes "--slice=X"; bytes "--slice=W,3"; bytes "grid"] = Done s /\ o_axis s = 0 /\ o_level s = 3.
Proof. split; [reflexivity|]. eexists. repeat split. Qed.
Print Assumptions C107_axis_refuted.

(* A command line of mmsp2png with most options meets the hypotheses, and what comes out of it *)
Local Notation line := [Zoom_between (bytes "2") (bytes "7"); Slice_at 2 14; Contours 1 [bytes "3"; bytes "5"]; Fields [4; 0; 4]; Mag; Invert; Input (bytes "run.1000.dat"); Slice 1].
Example line_ok : Forall (well_formed Png) line /\ given is_input line /\
  map text line = map bytes ["--zoom=2,7"%string; "--slice=Z,14"%string; "--contour=1,3,5"%string; "--field=4,0,4"%string; "--mag"%string; "--invert"%string; "run.1000.dat"%string; "--slice=Y"%string] /\
  exists s, png_options decimal (map text line) = Done s /\ output_name (bytes ".png") (map text line) s = Some (bytes "run.1000.png") /\
    o_axis s = 1 /\ o_level s = 14 /\ o_mode s = 2 /\ o_fields s = [0; 4] /\ o_levels s = [int2q 3; int2q 5] /\ o_zoom s = (int2q 2, int2q 7) /\ ~ Exists dangerous (map text line).
Proof.
  assert (~ mentions (bytes ".png") (bytes "run.1000.dat")) as N.
  { intros X. apply finds_mentions in X. vm_compute in X. discriminate. }
  split; [|split; [|split; [reflexivity|]]].
  - assert (forall n, 48 <= n < 58 -> number [n]) as D by (intros n Hn; split; [discriminate|intros [X|[]]; lia]).
    repeat constructor; try lia; try exact N; try (unfold zlen; cbn; lia); try (intros [X|[]]; discriminate); try (unfold zlen; vm_compute; discriminate); discriminate.
  - exists (Input (bytes "run.1000.dat")). cbn. auto 10.
  - eexists. split; [vm_compute; reflexivity|]. split; [vm_compute; reflexivity|]. repeat (split; [vm_compute; reflexivity|]).
    intros D. repeat (apply Exists_cons in D as [D|D]; [|]); try (now apply Exists_nil in D);
      unfold dangerous in D; repeat (destruct D as [D|D]); destruct D as (t & E & D); try (vm_compute in E; discriminate E); clear t E.
    + vm_compute in D. lia.
    + vm_compute in D. discriminate.
    + destruct D as [D|(n & r & E & D)]; [vm_compute in D; discriminate|]. injection E as <- _. vm_compute in D. discriminate.
    + replace (parts _) with [[52]; [48]; [52]] in D by (vm_compute; reflexivity). repeat (apply Exists_cons in D as [D|D]; [vm_compute in D; discriminate|]). now apply Exists_nil in D.
    + vm_compute in D. discriminate.
Qed.
