From Verif Require Import Model.Base Model.Num Model.Sparse.

(* A sparse object o represents the finite map m: initialised items, one per index, exactly the pairs of m. *)
Definition holds {T} (o : sobj T) (m : Z -> option T) : Prop :=
  exists l, o = map Some l /\ NoDup (map fst l) /\ forall k v, In (k, v) l <-> m k = Some v.

(* value at an index, zero when absent *)
Definition val {T} (N : num T) (m : Z -> option T) (k : Z) : T :=
  match m k with Some v => v | None => n_zero N end.

(* what the theorems assume of the arithmetic *)
Record num_laws {T} (N : num T) : Prop := {
  add_0_l : forall a, n_add N (n_zero N) a = a;
  add_0_r : forall a, n_add N a (n_zero N) = a;
  sub_0_r : forall a, n_sub N a (n_zero N) = a;
  mul_0_l : forall a, n_mul N (n_zero N) a = n_zero N;
  mul_0_r : forall a, n_mul N a (n_zero N) = n_zero N;
  gt_irr : forall a, n_gt N a a = false;
  gt_trans : forall a b c, n_gt N a b = true -> n_gt N b c = true -> n_gt N a c = true;
  gt_total : forall a b, n_gt N a b = false -> n_gt N b a = false -> a = b;
  eq_spec : forall a b, n_eq N a b = true <-> a = b
}.
