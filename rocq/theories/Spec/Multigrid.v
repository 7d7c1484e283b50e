(* Vocabulary of the statements about the multigrid Poisson solver. *)
From Coq Require Import QArith.QArith QArith.Qcanon.
From Verif Require Import Model.Base Model.Layout Model.Access Spec.Box Spec.Stencil.

(* grids of numbers; their value at a node *)
Definition sized (ls : list limits) (u : list Qc) : Prop := zlen u = cells (lay 0 ls).
Definition value (ls : list limits) (u : list Qc) (x : list Z) : Qc :=
  match grid_read false (lay 0 ls) u x with Some v => v | None => 0%Qc end.
Definition node (ls : list limits) (x : list Z) : Prop := in_box (map l_x0 ls) (map l_x1 ls) x.
(* the nodes strictly inside whose coordinates are multiples of s *)
Definition inside (ls : list limits) (s : Z) (x : list Z) : Prop :=
  Forall2 (fun l c => s <= c < l_x1 l - 1 /\ (s | c)) ls x.
(* the nodes whose coordinates are multiples of s *)
Definition lattice (ls : list limits) (s : Z) (x : list Z) : Prop := node ls x /\ Forall (fun c => (s | c)) x.
(* the Laplacian on the lattice of stride s *)
Definition laplacian_at (ls : list limits) (dx : list Qc) (s : Z) (u : list Z -> Qc) (x : list Z) : Qc :=
  sumQ (map (fun i => let h := (Qc_of s * nth (Z.to_nat i) dx 0)%Qc in
    ((u (nb x i (- s)) - Q2Qc (2 # 1) * u x + u (nb x i s)) / (h * h))%Qc) (zrange 0 (zlen ls))).
Definition solution ls dx s (f u : list Z -> Qc) : Prop := forall x, inside ls s x -> laplacian_at ls dx s u x = f x.

(* grids from 0 whose axes have m * 2^(j+1) * s + 1 nodes, m = 1 for one of them *)
Definition fits (ls : list limits) (s : Z) (j : nat) : Prop :=
  0 < s /\ ls <> [] /\
  Forall (fun l => l_x0 l = 0 /\ 1 < l_x1 l <= 2 ^ 31 - 1 /\ (2 * s * 2 ^ Z.of_nat j | l_x1 l - 1)) ls /\
  Exists (fun l => l_x1 l - 1 = 2 * s * 2 ^ Z.of_nat j) ls.
(* one spacing for each axis, none zero *)
Definition spaced (ls : list limits) (dx : list Qc) : Prop := length dx = length ls /\ Forall (fun h => h <> 0%Qc) dx.

(* of degree one, and of degree three, along every axis *)
Definition along (x : list Z) (i t : Z) : list Z := set_nth (Z.to_nat i) x t.
Definition affine_along (n : Z) (g : list Z -> Qc) : Prop :=
  forall x i, 0 <= i < n -> zlen x = n -> exists a b, forall t, g (along x i t) = (a + b * Qc_of t)%Qc.
Definition cubic_along (n : Z) (g : list Z -> Qc) : Prop :=
  forall x i, 0 <= i < n -> zlen x = n -> exists a b c d, forall t,
    g (along x i t) = (a + b * Qc_of t + c * (Qc_of t * Qc_of t) + d * (Qc_of t * Qc_of t * Qc_of t))%Qc.
