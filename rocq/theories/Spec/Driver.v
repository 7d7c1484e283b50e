From Verif Require Import Model.Base.

(* order of strings, as used for sorting file names *)
Inductive lex_lt : list byte -> list byte -> Prop :=
| lex_end b t : lex_lt [] (b :: t)
| lex_head a b s t : a < b -> lex_lt (a :: s) (b :: t)
| lex_tail a s t : lex_lt s t -> lex_lt (a :: s) (a :: t).

(* the number of chunks of [increment] steps needed to get from step [start] to step [steps] (at least) *)
Definition chunks (start steps increment : Z) : Z :=
  if steps <=? start then 0 else (steps - start + increment - 1) / increment.

(* a name part without dots, and one that consists of digits *)
Definition dotless (s : list byte) := Forall (fun b => b <> 46) s.
Definition numeral (s : list byte) := Forall (fun b => 48 <= b <= 57) s.
