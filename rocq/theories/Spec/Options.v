(* What the options of the image and point cloud programs are said to mean (see their help messages). *)
From Coq Require Import String QArith.QArith QArith.Qcanon.
From Verif Require Import Model.Base Model.Text Model.Ghostswap Model.Driver Model.Options Spec.Driver.
Local Open Scope list_scope.
Local Open Scope Z_scope.

Inductive program := Png | Xyz.
Definition extension (p : program) : list byte := bytes match p with Png => ".png" | Xyz => ".xyz" end.

Inductive opt :=
| Mag                                                  (* --mag *)
| Invert                                               (* --invert *)
| White_contours                                       (* --coninv *)
| Normals                                              (* --normal *)
| Zoom                                                 (* --zoom *)
| Zoom_between (a b : list byte)                       (* --zoom=a,b *)
| Slice (axis : Z)                                     (* --slice=X, --slice=Y, --slice=Z *)
| Slice_at (axis n : Z)                                (* --slice=X,n *)
| Tolerance (a : list byte)                            (* --contol=a *)
| Contours (field : Z) (levels : list (list byte))     (* --contour=n,a,b,... *)
| Fields (ns : list Z)                                 (* --field=n,p,q,... *)
| Without (ns : list Z)                                (* --exclude=n,p,q,... *)
| Input (name : list byte)
| Output (name : list byte).

Fixpoint commas (l : list (list byte)) : list byte :=
  match l with [] => [] | [t] => t | t :: r => t ++ 44 :: commas r end.
Definition letter (axis : Z) : byte := 88 + axis.    (* X, Y, Z *)
Definition text (o : opt) : list byte :=
  match o with
  | Mag => bytes "--mag" | Invert => bytes "--invert" | White_contours => bytes "--coninv" | Normals => bytes "--normal" | Zoom => bytes "--zoom"
  | Zoom_between a b => bytes "--zoom=" ++ commas [a; b]
  | Slice d => bytes "--slice=" ++ [letter d]
  | Slice_at d n => bytes "--slice=" ++ commas [[letter d]; show_int n]
  | Tolerance a => bytes "--contol=" ++ a
  | Contours n ls => bytes "--contour=" ++ commas (show_int n :: ls)
  | Fields ns => bytes "--field=" ++ commas (map show_int ns)
  | Without ns => bytes "--exclude=" ++ commas (map show_int ns)
  | Input name | Output name => name
  end.

(* an option that the program has, with the numbers it needs *)
Definition number (t : list byte) : Prop := t <> [] /\ ~ In 44 t.        (* no comma in it *)
Definition natural (n : Z) : Prop := 0 <= n <= int_max.
Definition a_name (t : list byte) : Prop := match t with 45 :: _ => False | _ => True end.   (* does not begin with - *)
Definition mentions (e t : list byte) : Prop := exists u v, t = u ++ e ++ v.
Definition well_formed (p : program) (o : opt) : Prop :=
  match o with
  | Mag => True
  | Invert | White_contours | Zoom => p = Png
  | Zoom_between a b => p = Png /\ number a /\ number b /\ zlen (commas [a; b]) <= 255
  | Slice d => p = Png /\ 0 <= d <= 2
  | Slice_at d n => p = Png /\ 0 <= d <= 2 /\ natural n
  | Normals => p = Xyz
  | Tolerance a => number a /\ 2 <= zlen a <= 255
  | Contours n ls => natural n /\ Forall number ls /\ zlen (commas (show_int n :: ls)) <= 255
  | Fields ns | Without ns => Forall natural ns /\ zlen (commas (map show_int ns)) <= 255
  | Input name => a_name name /\ ~ mentions (extension p) name
  | Output name => a_name name /\ mentions (extension p) name
  end.

(* what the last option that says something about it says, or else d *)
Definition last_word {X} (says : opt -> option X) (opts : list opt) (d : X) : X :=
  fold_left (fun cur o => match says o with Some x => x | None => cur end) opts d.
Definition given (is : opt -> Prop) (opts : list opt) : Prop := exists o, In o opts /\ is o.
(* argument number i is the last of its kind; 0: there is none *)
Definition last_of_kind (is : opt -> Prop) (opts : list opt) (i : Z) : Prop :=
  (i = 0 /\ ~ given is opts) \/ (1 <= i /\ exists before o after, opts = before ++ o :: after /\ zlen before = i - 1 /\ is o /\ ~ given is after).

Definition is_input o := match o with Input _ => True | _ => False end.
Definition is_output o := match o with Output _ => True | _ => False end.
Definition is_fields o := match o with Fields _ => True | _ => False end.
Definition is_without o := match o with Without _ => True | _ => False end.
Definition names_field (k : Z) o := match o with Fields ns | Without ns => In k ns | _ => False end.
Definition says_slice o := match o with Slice d | Slice_at d _ => Some d | _ => None end.
Definition says_level o := match o with Slice_at _ n => Some n | _ => None end.
Definition says_contour o := match o with Contours n _ => Some n | _ => None end.

(* atof: the number a text stands for; tolerance: the number a text after --contol= stands for *)
Section Means.
Context (atof tolerance : list byte -> Qc).
Definition says_zoom o := match o with Zoom => Some (zoom_limit, (- zoom_limit)%Qc) | Zoom_between a b => Some (atof a, atof b) | _ => None end.
Definition says_tolerance o := match o with Tolerance a => Some (tolerance a) | _ => None end.
Definition names_level (v : Qc) o := match o with Contours _ ls => exists t, In t ls /\ atof t = v | _ => False end.

Record means (opts : list opt) (s : settings) : Prop := {
  e_in : last_of_kind is_input opts (o_dat s);
  e_out : last_of_kind is_output opts (o_out s);
  (* the magnitude of all fields (1), of the fields named (2), of the fields not named (3) *)
  e_mode : (given is_without opts /\ o_mode s = 3) \/ (~ given is_without opts /\ given is_fields opts /\ o_mode s = 2) \/
           (~ given is_without opts /\ ~ given is_fields opts /\ In Mag opts /\ o_mode s = 1) \/
           (~ given is_without opts /\ ~ given is_fields opts /\ ~ In Mag opts /\ o_mode s = 0);
  e_invert : o_invert s = true <-> In Invert opts;
  e_white : o_coninv s = true <-> In White_contours opts;
  e_normal : o_normal s = true <-> In Normals opts;
  e_fields : forall k, In k (o_fields s) <-> given (names_field k) opts;
  e_levels : forall v, In v (o_levels s) <-> given (names_level v) opts;
  e_lvlfield : o_lvlfield s = last_word says_contour opts (-1);
  e_axis : o_axis s = last_word says_slice opts (-1);
  e_level : o_level s = last_word says_level opts (-1);
  e_zoom : o_zoom s = last_word says_zoom opts (0%Qc, 1%Qc);
  e_tolerance : o_contol s = last_word says_tolerance opts (Q2Qc (6 # 100))
}.
End Means.

(* Arguments that make the programs look at a number that is not there, or too large for an int *)
Fixpoint pieces (s : list byte) : list (list byte) :=       (* between commas, the empty ones included *)
  match s with
  | [] => [[]]
  | b :: t => if b =? 44 then [] :: pieces t else match pieces t with p :: r => (b :: p) :: r | [] => [[b]] end
  end.
Definition parts (s : list byte) : list (list byte) := filter (fun p => match p with [] => false | _ => true end) (pieces s).
Definition after (k : nat) (flag : list byte) : list byte := firstn 255 (skipn k flag).
Definition not_int (t : list byte) : Prop := atoi t = None.
Definition dangerous (flag : list byte) : Prop :=
  (exists t, flag = bytes "--zoom=" ++ t /\ (length (parts (after 7 flag)) < 2)%nat) \/
  (exists t, flag = bytes "--contol=" ++ t /\ parts (after 10 flag) = []) \/
  (exists t, flag = bytes "--contour=" ++ t /\ (parts (after 10 flag) = [] \/ exists n r, parts (after 10 flag) = n :: r /\ not_int n)) \/
  (exists t, flag = bytes "--field=" ++ t /\ Exists not_int (parts (after 8 flag))) \/
  (exists t, flag = bytes "--exclude=" ++ t /\ Exists not_int (parts (after 10 flag))) \/
  (exists t, flag = bytes "--slice=" ++ t /\ not_int (firstn 20 (skipn 10 flag))).

(* the name of the output: the last one given, or else that of the input with its extension replaced, or continued if it has a digit in it *)
Definition says_output o := match o with Output name => Some (Some name) | _ => None end.
Definition says_input o := match o with Input name => Some (Some name) | _ => None end.
Definition derived (ext name n : list byte) : Prop :=
  (dotless name /\ n = name ++ ext) \/
  (exists stem e, name = stem ++ 46 :: e /\ dotless e /\
     ((Forall (fun b => ~ 48 <= b <= 57) e /\ n = stem ++ ext) \/ (Exists (fun b => 48 <= b <= 57) e /\ n = name ++ ext))).
