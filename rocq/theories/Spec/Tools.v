(* Converting files one by one: what a user expects of the names and of the options. *)
From Coq Require Import String QArith.QArith QArith.Qcanon.
From Verif Require Import Model.Base Model.Text Model.Ghostswap Model.Driver Model.Types Model.Options Spec.Driver Spec.Options Spec.Pvd Model.Tools.
Local Open Scope list_scope.
Local Open Scope Z_scope.

(* the ending that goes with the format a program writes *)
Definition proper_ending (t : tool) : list byte :=
  bytes match t with
        | MMSP2VTI => ".vti" | MMSP2TSV => ".tsv" | MMSP2PNG => ".png" | MMSP2XYZ => ".xyz" | MC2vox => ".vox"
        | MC2PF | sPF2PF => ".PF" | MC2sPF | PF2sPF => ".sPF" | PF2MC | sPF2MC | vox2MC => ".MC"
        end.
(* mmsp2tsv, mmsp2png and mmsp2xyz keep an extension with a digit in it, such as the number of a step; the others do not *)
Definition minds_digits (t : tool) : bool := match t with MMSP2TSV | MMSP2PNG | MMSP2XYZ => true | _ => false end.
Definition named_after (t : tool) (ext name n : list byte) : Prop :=
  if minds_digits t then derived ext name n else exists s, without_extension name s /\ n = s ++ ext.

(* the extension of a name *)
Definition extension_is (name e : list byte) : Prop := exists u, name = u ++ 46 :: e /\ dotless e.

(* the options given with each file *)
Inductive style :=
| No_options
| Magnitude | Largest | Field (n : Z)        (* mmsp2vti --mag, --max, --field=n *)
| Drawing (opts : list opt).                 (* options of mmsp2png or mmsp2xyz *)
Definition words (s : style) : list (list byte) :=
  match s with
  | No_options => []
  | Magnitude => [bytes "--mag"] | Largest => [bytes "--max"] | Field n => [bytes "--field=" ++ show_int n]
  | Drawing opts => map text opts
  end.
Definition suits (t : tool) (s : style) : Prop :=
  match t, s with
  | MMSP2VTI, (No_options | Magnitude | Largest) => True
  | MMSP2VTI, Field n => natural n
  | MMSP2PNG, Drawing opts => Forall (well_formed Spec.Options.Png) opts /\ ~ given is_input opts /\ ~ given is_output opts
  | MMSP2XYZ, Drawing opts => Forall (well_formed Spec.Options.Xyz) opts /\ ~ given is_input opts /\ ~ given is_output opts
  | (MMSP2PNG | MMSP2XYZ), _ => False
  | _, No_options => True
  | _, _ => False
  end.
(* the settings asked for; atof reads numbers.  See Spec/Options.v for the drawing options *)
Definition asked (atof : list byte -> Qc) (s : style) (o : order) : Prop :=
  match s with
  | No_options => o = Plain
  | Magnitude => o = Flat 1 0 | Largest => o = Flat 2 0 | Field n => o = Flat 3 n
  | Drawing opts => exists s, o = Drawn s /\ forall name, means atof (fun a => atof (tl a)) (opts ++ [Input name]) s
  end.

(* a name that is not taken for an option, and not for that of the output *)
Definition usable_name (t : tool) (name : list byte) : Prop :=
  a_name name /\ match t with MMSP2PNG | MMSP2XYZ => ~ mentions (proper_ending t) name | _ => True end.
(* a file of the library: see C74 *)
Definition grid_file (c : list byte) : Prop := exists k e rest, c = grid_name k e ++ 10 :: rest.
(* the extension given for the files of a run is not that of the results; for most programs there must be one *)
Definition distinguishable (t : tool) (outfile : list byte) : Prop :=
  (minds_digits t = false -> exists e, extension_is outfile e) /\ ~ extension_is outfile (tl (proper_ending t)).
