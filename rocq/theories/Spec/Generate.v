(* Initial grids *)
From Coq Require Import QArith.QArith QArith.Qcanon.
From Verif Require Import Model.Base Model.Layout Model.Access Spec.Box Spec.Spin.
Local Open Scope Z_scope.

(* the node with number j of a box, the last coordinate running fastest *)
Definition node (ls : list limits) (j : Z) : list Z := nth (Z.to_nat j) (all_nodes ls) [].
(* the nodes drawn with the first max(50, 409600/N) random numbers, N the number of nodes *)
Definition drawn (ls : list limits) (rnd : nat -> Z) : list (list Z) :=
  let N := zlen (all_nodes ls) in map (fun j => node ls (rnd j mod N)) (seq 0 (Z.to_nat (Z.max 50 (409600 / N)))).
(* y is one of them or one of the neighbours, on a torus *)
Definition in_particle (ls : list limits) (rnd : nat -> Z) (y : list Z) : Prop :=
  exists x o, In x (drawn ls rnd) /\ In o (cube (length ls)) /\ on_torus ls (plus x o) = y.
(* the discs around the centres of a 64 x 64 pattern; for one dimension, the larger parts of a pattern of length 64 *)
Definition in_disc (x : list Z) : Prop :=
  match x with
  | [] => False
  | [a] => 16 < a mod 64
  | a :: b :: _ => (a mod 64 - 32) ^ 2 + (b mod 64 - 32) ^ 2 < 256
  end.
(* the same for the sparse program, where the pattern of one dimension does not repeat *)
Definition in_disc_sparse (x : list Z) : Prop := match x with [a] => 16 < a | _ => in_disc x end.
(* four grains: bands for one dimension; otherwise, in cells of side s, two grains in the outer halves and two in the middle *)
Definition grain (x : list Z) : Z :=
  let outer s c := s / 4 <? Z.abs (c mod s - s / 2) in
  let bricks s a b := if outer s a then 2 + b mod s / (s / 2) else if outer s b then 1 else 0 in
  match x with [] => 0 | [a] => 3 - a mod 128 / 32 | [a; b] => bricks 128 a b | a :: b :: _ => bricks 64 a b end.
(* the vector of a node of a serial grid *)
Definition cell_at (ls : list limits) (data : list (list Qc)) (x : list Z) : list Qc := match grid_read false (lay 0 ls) data x with Some c => c | None => [] end.
(* a program that fills a grid completes and leaves P, whatever the memory held that the grid was made in; ok is what the type of the cells
   ensures *)
Definition starts {T} (ls : list limits) (ok : T -> Prop) (start : list T -> option (list T)) (P : list T -> Prop) : Prop :=
  forall memory, zlen memory = cells (lay 0 ls) -> Forall ok memory -> exists data, start memory = Some data /\ zlen data = cells (lay 0 ls) /\ P data.
Definition any {T} (_ : T) : Prop := True.
