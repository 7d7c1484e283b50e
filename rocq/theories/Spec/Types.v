(* Which files the programs that make pictures and tables can read. *)
From Verif Require Import Model.Types.

(* all of them read no grids of long double; mmsp2png, mmsp2tsv and mmsp2xyz no grids of MMSP::scalar; mmsp2xyz rejects bool *)
Definition supported (p : program) (k : kind) (e : elem) : Prop :=
  e <> ELDouble /\ (k = KScalar -> p = Vti \/ p = Pvd) /\ (p = Xyz -> e <> EBool).
(* a grid of a plain type is read as a grid of scalars by mmsp2vti and mmsp2pvd *)
Definition opened_as (p : program) (k : kind) : kind :=
  match p, k with Vti, KPlain | Pvd, KPlain => KScalar | _, _ => k end.
