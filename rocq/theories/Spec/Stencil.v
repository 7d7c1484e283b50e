(* Vocabulary of the statements about differential operators. *)
From Coq Require Import QArith.QArith QArith.Qcanon.
From Verif Require Import Model.Base Model.Boundary Model.Layout Model.Access.

Definition Qc_of (z : Z) : Qc := Q2Qc (inject_Z z).
Fixpoint sumQ (l : list Qc) : Qc := match l with [] => 0%Qc | a :: t => (a + sumQ t)%Qc end.

(* the coordinates x + d e_i *)
Definition nb (x : list Z) (i d : Z) : list Z := set_nth (Z.to_nat i) x (nth (Z.to_nat i) x 0 + d).

(* central differences of f at x along axis i, with spacing h *)
Definition second_difference (f : list Z -> Qc) (x : list Z) (i : Z) (h : Qc) : Qc :=
  ((f (nb x i 1) - Q2Qc (2 # 1) * f x + f (nb x i (-1))) / (h * h))%Qc.
Definition first_difference (f : list Z -> Qc) (x : list Z) (i : Z) (h : Qc) : Qc :=
  ((f (nb x i 1) - f (nb x i (-1))) / (Q2Qc (2 # 1) * h))%Qc.

(* all nodes read by the operators at x exist and hold the values of f *)
Definition star {T} mpi axs (data : list T) (x : list Z) (f : list Z -> T) : Prop :=
  grid_read mpi axs data x = Some (f x) /\
  forall i, 0 <= i < zlen axs -> grid_read mpi axs data (nb x i 1) = Some (f (nb x i 1)) /\ grid_read mpi axs data (nb x i (-1)) = Some (f (nb x i (-1))).

(* the grid spacing along axis i *)
Definition spacing (dx : list Qc) (i : Z) : Qc := nth (Z.to_nat i) dx 0%Qc.

Fixpoint dot (u v : list Qc) : Qc :=
  match u, v with a :: u', b :: v' => (a * b + dot u' v')%Qc | _, _ => 0%Qc end.
(* physical coordinates h_j x_j *)
Fixpoint phys (h : list Qc) (x : list Z) : list Qc :=
  match h, x with a :: h', c :: x' => (a * Qc_of c)%Qc :: phys h' x' | _, _ => [] end.

Definition affine (a : Qc) (b : list Qc) (X : list Qc) : Qc := (a + dot b X)%Qc.
Definition quadratic (a : Qc) (b : list Qc) (q : list (list Qc)) (X : list Qc) : Qc :=
  (a + dot b X + dot X (map (fun row => dot row X) q))%Qc.

(* the domain of a serial grid: no side is parallel, and a mirror side needs at least two nodes *)
Definition serial_side (b n : Z) : Prop := b = Neumann \/ b = Dirichlet \/ b = periodic \/ (b = mirror /\ 2 <= n).
Definition serial_axis (l : limits) : Prop :=
  l_x0 l < l_x1 l /\ serial_side (l_b0 l) (l_x1 l - l_x0 l) /\ serial_side (l_b1 l) (l_x1 l - l_x0 l).

(* periodic axes, and axes whose sides let nothing through (Dirichlet sides repeat the outermost value, as Neumann sides do) *)
Definition periodic_axis (l : limits) : Prop := l_x0 l < l_x1 l /\ l_b0 l = periodic /\ l_b1 l = periodic.
Definition insulated_axis (l : limits) : Prop :=
  l_x0 l < l_x1 l /\ (l_b0 l = Neumann \/ l_b0 l = Dirichlet) /\ (l_b1 l = Neumann \/ l_b1 l = Dirichlet).
