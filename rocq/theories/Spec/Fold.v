From Verif Require Import Model.Base.

(* What a boundary condition means, for a domain [x0,x1) and a coordinate x:
   y is the coordinate inside the domain that x stands for.
   The numbers are the codes of the public enum (0 mirror, 1 Neumann, 2 periodic, 4 Dirichlet). *)
Definition image_below (b x0 x1 x y : Z) : Prop :=
  (b = 2 -> exists k, y = x + k * (x1 - x0)) /\        (* same point of the torus *)
  (b = 0 -> y - x0 = x0 - x) /\                        (* reflection about the first cell *)
  (b = 1 \/ b = 4 -> y = x0).                          (* first cell *)
Definition image_above (b x0 x1 x y : Z) : Prop :=
  (b = 2 -> exists k, y = x + k * (x1 - x0)) /\
  (b = 0 -> y - (x1 - 1) = (x1 - 1) - x) /\            (* reflection about the last cell *)
  (b = 1 \/ b = 4 -> y = x1 - 1).

Definition bc_image (b0 b1 x0 x1 x y : Z) : Prop :=
  x0 <= y < x1 /\
  (x0 <= x < x1 -> y = x) /\
  (x < x0 -> image_below b0 x0 x1 x y) /\
  (x1 <= x -> image_above b1 x0 x1 x y).
