(* Vocabulary of the statements about the semi-implicit Cahn-Hilliard solver. *)
From Coq Require Import QArith.QArith QArith.Qcanon Sorting.Permutation.
From Verif Require Import Model.Base Model.Boundary Model.Layout Model.Access Spec.Box Spec.Stencil.

(* grids with two fields; field j as a function of the coordinates, continued by the boundary conditions *)
Definition two_fields (ls : list limits) (data : list (list Qc)) : Prop :=
  zlen data = cells (lay 0 ls) /\ Forall (fun v => zlen v = 2) data.
Definition field (ls : list limits) (data : list (list Qc)) (j : Z) (x : list Z) : Qc :=
  match grid_read false (lay 0 ls) data x with Some v => nth (Z.to_nat j) v 0%Qc | None => 0%Qc end.
Definition domain (ls : list limits) (x : list Z) : Prop := in_box (map l_x0 ls) (map l_x1 ls) x.
(* the sum of f over the nodes *)
Definition total (ls : list limits) (f : list Z -> Qc) : Qc :=
  sumQ (map (fun n => f (position (lay 0 ls) n)) (zrange 0 (nodes (lay 0 ls)))).

(* the discrete Laplacian with spacing h on all axes *)
Definition laplace (ls : list limits) (h : Qc) (f : list Z -> Qc) (x : list Z) : Qc :=
  sumQ (map (fun i => second_difference f x i h) (zrange 0 (zlen ls))).

(* what is missing in the two equations at x:
     (c' - c) / dt = D lap u'        u' = con(c') + exp(c) - K lap c' *)
Definition defect1 ls (h D dt : Qc) (old new : list (list Qc)) (x : list Z) : Qc :=
  (field ls old 0 x - field ls new 0 x + dt * D * laplace ls h (field ls new 1) x)%Qc.
Definition defect2 ls (h K : Qc) (con exp : Qc -> Qc) (old new : list (list Qc)) (x : list Z) : Qc :=
  (con (field ls new 0 x) + exp (field ls old 0 x) - K * laplace ls h (field ls new 0) x - field ls new 1 x)%Qc.
Definition solves ls h D K dt con exp old new : Prop :=
  forall x, domain ls x -> defect1 ls h D dt old new x = 0%Qc /\ defect2 ls h K con exp old new x = 0%Qc.

(* the iterations of a parallel loop over the nodes, in some order *)
Definition all_nodes (ls : list limits) (l : list Z) : Prop := Permutation l (zrange 0 (nodes (lay 0 ls))).

(* grids on which neighbours have different colours: no negative coordinates, and an even number of nodes around periodic axes
   (or a single one) *)
Definition tiled (l : limits) : Prop :=
  0 <= l_x0 l /\ (l_b0 l = periodic \/ l_b1 l = periodic -> Z.even (l_x1 l - l_x0 l) = true \/ l_x1 l - l_x0 l = 1).

(* the free energy: a density, and K/2 |gradient|^2 from the differences to the next node along each axis *)
Definition quarter : Qc := Q2Qc (1 # 4).
Definition half : Qc := Q2Qc (1 # 2).
Definition vanilla_density (c : Qc) : Qc := (quarter * (c * c * c * c) - half * (c * c))%Qc.
Definition parametric_density (A B C0 Ca Cb c : Qc) : Qc :=
  let p2 v := (v * v)%Qc in
  let p4 v := (v * v * v * v)%Qc in
  (- half * A * p2 (c - C0) + quarter * B * p4 (c - C0) + quarter * Ca * p4 (c - Ca) + quarter * Cb * p4 (c - Cb))%Qc.
Definition step_to (h : Qc) (f : list Z -> Qc) (x : list Z) (i : Z) : Qc := ((f (nb x i 1) - f x) / h)%Qc.
Definition energy ls (h K : Qc) (density : Qc -> Qc) (f : list Z -> Qc) : Qc :=
  total ls (fun x => density (f x) + half * K * sumQ (map (fun i => step_to h f x i * step_to h f x i) (zrange 0 (zlen ls))))%Qc.
