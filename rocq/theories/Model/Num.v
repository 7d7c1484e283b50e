From Verif Require Import Model.Base.

(* The arithmetic type of the cells (int, double, ...): zero, the operators, static_cast<T>(-1.0). *)
Record num (T : Type) := mkNum {
  n_zero : T;
  n_add : T -> T -> T;
  n_sub : T -> T -> T;
  n_mul : T -> T -> T;
  n_gt : T -> T -> bool;
  n_eq : T -> T -> bool;
  n_minus1 : T
}.
Arguments mkNum {T}. Arguments n_zero {T}. Arguments n_add {T}. Arguments n_sub {T}. Arguments n_mul {T}.
Arguments n_gt {T}. Arguments n_eq {T}. Arguments n_minus1 {T}.

(* include/MMSP.utility.h:219-224 *)
Definition n_max {T} (N : num T) (a b : T) : T := if n_gt N a b then a else b.
Definition n_min {T} (N : num T) (a b : T) : T := if n_gt N b a then a else b.

(* integers; overflow is not modelled *)
Definition num_Z : num Z := mkNum 0 Z.add Z.sub Z.mul Z.gtb Z.eqb (-1).
