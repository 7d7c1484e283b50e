From Verif Require Import Model.Base Model.Num.

(* the vector with elements l, all of them initialised *)
Definition elements {T} (l : list T) : list (option T) := map Some l.

(* z is x and y combined element by element *)
Definition pointwise {T} (f : T -> T -> T) (x y z : list T) : Prop :=
  length z = length x /\
  forall i a b, nth_error x i = Some a -> nth_error y i = Some b -> nth_error z i = Some (f a b).

(* x[0]*y[0] + x[1]*y[1] + ..., added from left to right starting at zero *)
Fixpoint sum_products {T} (N : num T) (acc : T) (x y : list T) : T :=
  match x, y with
  | a :: x', b :: y' => sum_products N (n_add N acc (n_mul N a b)) x' y'
  | _, _ => acc
  end.

(* exact arithmetic: integers, rationals, reals *)
Record ring_laws {T} (N : num T) : Prop := {
  r_add_0_l : forall a, n_add N (n_zero N) a = a;
  r_add_comm : forall a b, n_add N a b = n_add N b a;
  r_add_assoc : forall a b c, n_add N a (n_add N b c) = n_add N (n_add N a b) c;
  r_mul_comm : forall a b, n_mul N a b = n_mul N b a;
  r_mul_assoc : forall a b c, n_mul N a (n_mul N b c) = n_mul N (n_mul N a b) c;
  r_mul_0_r : forall a, n_mul N a (n_zero N) = n_zero N;
  r_distr : forall a b c, n_mul N (n_add N a b) c = n_add N (n_mul N a c) (n_mul N b c)
}.
