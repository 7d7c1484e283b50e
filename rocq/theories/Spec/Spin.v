From Verif Require Import Model.Base Model.Boundary Model.Layout Model.Access Spec.Box.
Local Open Scope Z_scope.

(* the value read at node x of a serial grid *)
Definition value_at (ls : list limits) (data : list Z) (x : list Z) : Z :=
  match grid_read false (lay 0 ls) data x with Some v => v | None => 0 end.
(* a box with periodic boundaries and at least two nodes along every axis *)
Definition big_torus (ls : list limits) : Prop := Forall (fun l => l_b0 l = periodic /\ l_b1 l = periodic /\ l_x0 l + 2 <= l_x1 l) ls.

(* the displacements to the 3^d - 1 nearest nodes of a square or cubic lattice *)
Fixpoint cube (d : nat) : list (list Z) :=
  match d with O => [[]] | S d' => flat_map (fun i => map (cons i) (cube d')) [-1; 0; 1] end.
Definition displacements (d : nat) : list (list Z) := filter (fun o => existsb (fun i => negb (i =? 0)) o) (cube d).
Fixpoint plus (x o : list Z) : list Z := match x, o with c :: x', d :: o' => (c + d) :: plus x' o' | _, _ => [] end.
(* the nodes of a box *)
Fixpoint all_nodes (ls : list limits) : list (list Z) :=
  match ls with [] => [[]] | l :: ls' => flat_map (fun c => map (cons c) (all_nodes ls')) (zrange (l_x0 l) (l_x1 l)) end.
(* the node of a torus with given coordinates *)
Fixpoint on_torus (ls : list limits) (x : list Z) : list Z :=
  match ls, x with l :: ls', c :: x' => (l_x0 l + (c - l_x0 l) mod (l_x1 l - l_x0 l)) :: on_torus ls' x' | _, _ => [] end.
(* neighbours of a node on the torus; those along axis 0 only; neighbours in a box without periodicity *)
Definition torus_neighbours (ls : list limits) (x : list Z) : list (list Z) :=
  map (fun o => on_torus ls (plus x o)) (displacements (length ls)).
Fixpoint in_boxb (ls : list limits) (x : list Z) : bool :=
  match ls, x with
  | [], [] => true
  | l :: ls', c :: x' => (l_x0 l <=? c) && (c <? l_x1 l) && in_boxb ls' x'
  | _, _ => false
  end.
Definition box_neighbours (ls : list limits) (x : list Z) : list (list Z) :=
  filter (in_boxb ls) (map (plus x) (displacements (length ls))).

Definition unlike (a b : Z) : Z := if a =? b then 0 else 1.
(* the number of pairs of neighbours with different spins, every pair counted from both ends *)
Definition unlike_pairs (nodes : list (list Z)) (neighbours : list Z -> list (list Z)) (spin : list Z -> Z) : Z :=
  sumZ (map (fun x => sumZ (map (fun y => unlike (spin x) (spin y)) (neighbours x))) nodes).
Definition magnetisation (nodes : list (list Z)) (spin : list Z -> Z) : Z := sumZ (map spin nodes).

(* twice the energy of a Potts model, one unit for every pair of unlike neighbours *)
Definition potts_energy2 (ls : list limits) (spin : list Z -> Z) : Z := unlike_pairs (all_nodes ls) (torus_neighbours ls) spin.
(* the same without periodicity *)
Definition grain_energy2 (ls : list limits) (spin : list Z -> Z) : Z := unlike_pairs (all_nodes ls) (box_neighbours ls) spin.
(* twice the energy of an Ising model in a field of strength 1; a unit for every pair of unlike (ferromagnet) or like
   (antiferromagnet) neighbours, up to a constant *)
Definition ferromagnet2 (ls : list limits) (spin : list Z -> Z) : Z :=
  unlike_pairs (all_nodes ls) (torus_neighbours ls) spin - 2 * magnetisation (all_nodes ls) spin.
Definition antiferromagnet2 (ls : list limits) (spin : list Z -> Z) : Z :=
  - unlike_pairs (all_nodes ls) (torus_neighbours ls) spin - 2 * magnetisation (all_nodes ls) spin.

(* two nodes whose coordinates differ by even numbers *)
Definition same_parity (x y : list Z) : Prop := Forall2 (fun a b => (a - b) mod 2 = 0) x y.
(* a serial grid: one rank owns the whole domain *)
Definition whole (ls : list limits) : Prop := Forall (fun l => l_g0 l = l_x0 l /\ l_g1 l = l_x1 l /\ l_x0 l < l_x1 l) ls.
(* every value below n is drawn again and again *)
Definition fair (n : Z) (rnd : nat -> Z) : Prop := forall c k, 0 <= c < n -> exists k', (k <= k')%nat /\ rnd k' mod n = c.
