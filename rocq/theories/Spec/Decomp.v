From Verif Require Import Model.Base Model.Layout Model.Setup Spec.Box.

(* A processor grid for np processes on d axes: positive counts whose product is np. *)
Definition procgrid (np : Z) (d : nat) (p : list Z) : Prop :=
  length p = d /\ Forall (fun q => 0 < q) p /\ prodZ p = np.

(* Ghost area of a processor grid p on a box with side lengths L:
   sum over the axes of (area of a cross-section normal to the axis) * (1 + processes on the axis).
   [before] is the product of the side lengths already passed. *)
Fixpoint halo_area (before : Z) (L p : list Z) : Z :=
  match L, p with
  | l :: L', q :: p' => before * prodZ L' * (1 + q) + halo_area (before * l) L' p'
  | _, _ => 0
  end.

(* rank with geometry ge owns coordinate x *)
Definition owns (ge : geom) (x : list Z) : Prop :=
  in_box (map a_x0 (ge_axes ge)) (map a_x1 (ge_axes ge)) x.

(* the periodic image of x in the global box *)
Fixpoint wrap (gs : list gaxis) (x : list Z) : list Z :=
  match gs, x with
  | g :: gs', c :: x' => (gx_0 g + (c - gx_0 g) mod glen g) :: wrap gs' x'
  | _, _ => []
  end.

(* y is a cell of sublattice s: the parities of its coordinates are the binary digits of s, most significant first *)
Definition of_sublattice (s : Z) (y : list Z) : Prop :=
  forall j, (j < length y)%nat -> Z.odd (nth j y 0) = Z.testbit s (Z.of_nat (length y - 1 - j)).
