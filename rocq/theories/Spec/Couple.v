(* Diffusion in a bar with fixed ends. *)
From Coq Require Import QArith.QArith QArith.Qcanon.
From Verif Require Import Model.Base Spec.Stencil.
Local Open Scope Z_scope.

(* The values at the nodes 0 .. n of a bar after k time steps of a quarter of the square of the spacing over the diffusion coefficient:
   the left half of the bar begins with 1, the right half with 0, and the ends keep their values. *)
Fixpoint bar (n : Z) (k : nat) (x : Z) : Qc :=
  match k with
  | O => if 2 * x <? n then 1%Qc else 0%Qc
  | S k' =>
      if (0 <? x) && (x <? n) then (bar n k' x + Q2Qc (1 # 4) * (bar n k' (x - 1) - Q2Qc (2 # 1) * bar n k' x + bar n k' (x + 1)))%Qc
      else bar n k' x
  end.
Fixpoint power (r : Qc) (k : nat) : Qc := match k with O => 1%Qc | S k' => (r * power r k')%Qc end.

(* The values of a square sheet of L by L nodes after k steps with the factor 3/10: a quarter of the sheet begins with 1, and what lies
   beyond an edge has the value of the edge. *)
Fixpoint sheet (L : Z) (k : nat) (x y : Z) : Qc :=
  match k with
  | O => if (x <? L / 2) && (y <? L / 2) then 1%Qc else 0%Qc
  | S k' =>
      (sheet L k' x y + Q2Qc (3 # 10) * (sheet L k' (Z.min (x + 1) (L - 1)) y + sheet L k' (Z.max (x - 1) 0) y +
        sheet L k' x (Z.min (y + 1) (L - 1)) + sheet L k' x (Z.max (y - 1) 0) - Q2Qc (4 # 1) * sheet L k' x y))%Qc
  end.
