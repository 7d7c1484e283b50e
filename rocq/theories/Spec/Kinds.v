(* Words for C24: the first line of a grid file. *)
From Coq Require Import String.
From Verif Require Import Model.Base Model.Text Model.Types.
Local Open Scope string_scope.

(* the names of the built-in types *)
Definition word (e : elem) : string :=
  match e with
  | EBool => "bool" | EChar => "char" | EUChar => "unsigned char" | EInt => "int" | EUInt => "unsigned int" | ELong => "long" | EULong => "unsigned long"
  | EShort => "short" | EUShort => "unsigned short" | EFloat => "float" | EDouble => "double" | ELDouble => "long double"
  end.
(* grid:int, grid:scalar:int, grid:vector:int, grid:sparse:int, ... *)
Definition type_text (k : kind) (e : elem) : list byte :=
  bytes ("grid:" ++ match k with KPlain => "" | KScalar => "scalar:" | KVector => "vector:" | KSparse => "sparse:" end ++ word e).
(* what a grid of these cells reads: its own type; for scalars also at most eight characters, a colon and the name of the number *)
Definition reads (k : kind) (e : elem) (type : list byte) : Prop :=
  type = type_text k e \/ k = KScalar /\ exists u, zlen u <= 8 /\ type = (u ++ 58 :: bytes (word e))%list.
(* a grid of cells (k, e) can read a file of cells (k', e') *)
Definition matches (k : kind) (e : elem) (k' : kind) (e' : elem) : Prop := e' = e /\ (k' = k \/ k' = KPlain /\ k = KScalar).
