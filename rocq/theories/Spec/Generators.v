From Verif Require Import Model.Base.

(* Manhattan distance of node x and seed s (a seed has three coordinates, whatever the dimension of the grid) *)
Fixpoint manh (x s : list Z) : Z :=
  match x, s with a :: x', b :: s' => Z.abs (a - b) + manh x' s' | _, _ => 0 end.

(* on the torus with side lengths L, x and s are at least two cells apart along some axis *)
Fixpoint apart (L x s : list Z) : Prop :=
  match L, x, s with
  | l :: L', a :: x', b :: s' => 2 <= Z.min ((a - b) mod l) ((b - a) mod l) \/ apart L' x' s'
  | _, _, _ => False
  end.
