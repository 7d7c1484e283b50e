(* What the energy and the mobility of a boundary between grains i and j should be: nothing between a grain and itself, and otherwise what
   the computation gives for the two numbers in ascending order, whatever was asked before. *)
From Coq Require Import QArith.QArith QArith.Qcanon.
From Verif Require Import Model.Base Model.Anisotropy.

Definition ordered (f : Z -> Z -> Qc) (i j : Z) : Qc := if (i =? j)%Z then 0%Qc else f (Z.min i j) (Z.max i j).
Definition answer (energy mobility : Z -> Z -> Qc) (q : query) : Qc :=
  match q with Energy i j => ordered energy i j | Mobility i j => ordered mobility i j end.
