From Verif Require Import Model.Base Model.Boundary Model.Layout Spec.Fold.

(* Vocabulary of the statements about grid access. *)

(* well-formed axis list with ghost width g *)
Fixpoint wf_axes (g : Z) (axs : list axis) : Prop :=
  match axs with
  | [] => True
  | a :: t => a_s0 a = a_x0 a - g /\ a_s1 a = a_x1 a + g /\ a_x0 a <= a_x1 a /\
              a_sx a = cells t /\ a_xx a = nodes t /\ wf_axes g t
  end.

(* a coordinate within one domain length of a serial domain, on sides with a defined meaning *)
Definition foldable (l : limits) (x : Z) : Prop :=
  l_x0 l < l_x1 l /\
  l_x0 l - (l_x1 l - l_x0 l) < x < l_x1 l - 1 + (l_x1 l - l_x0 l) /\
  (x < l_x0 l -> l_b0 l = 0 \/ l_b0 l = 1 \/ l_b0 l = 2 \/ l_b0 l = 4) /\
  (l_x1 l <= x -> l_b1 l = 0 \/ l_b1 l = 1 \/ l_b1 l = 2 \/ l_b1 l = 4).

Definition image_of (l : limits) (xy : Z * Z) : Prop :=
  bc_image (l_b0 l) (l_b1 l) (l_x0 l) (l_x1 l) (fst xy) (snd xy).

(* coordinate c leaves the block only through periodic or parallel sides *)
Definition through (l : limits) (c : Z) : Prop :=
  (c < l_x0 l -> l_b0 l = periodic \/ l_b0 l = parallel) /\
  (l_x1 l <= c -> l_b1 l = periodic \/ l_b1 l = parallel).
