(* C120: one explicit time step of a field, node by node.  The values of the field around a node are those that g(x) reads. *)
From Coq Require Import QArith.QArith QArith.Qcanon.
From Verif Require Import Model.Base Model.Layout Model.Access Model.Stencil Spec.Box Spec.Access Spec.Stencil.
Local Open Scope Z_scope.

(* the sum of the second differences of f at x along the axes 0, ..., d-1 *)
Definition Laplace (d : Z) (dx : list Qc) (f : list Z -> Qc) (x : list Z) : Qc :=
  sumQ (map (fun a => second_difference f x a (spacing dx a)) (zrange 0 d)).

(* new(i) is rule i v l at every node i, v the value of old at the node and l the sum of its second differences there *)
Definition obeys (ls : list limits) (dx : list Qc) (old new : list Qc) (rule : Z -> Qc -> Qc -> Qc) : Prop :=
  forall i f, 0 <= i < nodes (lay 0 ls) -> let x := position (lay 0 ls) i in
    star false (lay 0 ls) old x f -> grid_read_int false (lay 0 ls) new i = Some (rule i (f x) (Laplace (zlen ls) dx f x)).
(* new(i) is the value of old at the node plus k times the sum of the second differences of mu there *)
Definition flows (ls : list limits) (dx : list Qc) (k : Qc) (old mu new : list Qc) : Prop :=
  forall i f g, 0 <= i < nodes (lay 0 ls) -> let x := position (lay 0 ls) i in
    star false (lay 0 ls) old x f -> star false (lay 0 ls) mu x g ->
    grid_read_int false (lay 0 ls) new i = Some (f x + k * Laplace (zlen ls) dx g x)%Qc.
