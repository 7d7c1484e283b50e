(* The Heisenberg example, examples/statistical_mechanics/Heisenberg/heisenberg.cpp, serial build.  Doubles are modelled by rational numbers
   with exact arithmetic.  rnd k is the k-th result of rand(); direction a b is the vector computed from two random numbers with cos, sin
   and acos, :91-95 (direction_of below; the four functions and pi are arguments); hot r dE stands for r < exp(-dE/kT).  ghostswap and print_progress do not change the
   grid of a serial program and are left out. *)
From Coq Require Import QArith.QArith QArith.Qcanon.
From Verif Require Import Model.Base Model.Boundary Model.Layout Model.Access Model.Stencil Model.Spin Model.Evolve.
Local Open Scope Z_scope.

(* s[0]*(s1[0]-s2[0])+s[1]*(s1[1]-s2[1])+s[2]*(s1[2]-s2[2]), :102, :111, :123 *)
Definition product3 (s s1 s2 : list Qc) : option Qc :=
  do a <- get s 0; do b <- get s 1; do c <- get s 2;
  do a1 <- get s1 0; do b1 <- get s1 1; do c1 <- get s1 2;
  do a2 <- get s2 0; do b2 <- get s2 1; do c2 <- get s2 2;
  Some (a * (a1 - a2) + b * (b1 - b2) + c * (c1 - c2))%Qc.

(* :20-24, :35-39, :50-54, :91-95: psi = 2.0*pi*double(rand())/double(RAND_MAX), theta = acos(1.0-2.0*double(rand())/double(RAND_MAX)) *)
Definition direction_of (cosine sine arccos : Qc -> Qc) (pi : Qc) (top : Z) (a b : Z) : list Qc :=
  let whole n := Q2Qc (inject_Z n) in
  let psi := (whole 2 * pi * whole a / whole top)%Qc in
  let theta := arccos (1 - whole 2 * whole b / whole top)%Qc in
  [cosine psi * sine theta; sine psi * sine theta; cosine theta]%Qc.

Section Rotations.
Context (axs : list axis) (direction : Z -> Z -> list Qc) (hot : Z -> Qc -> bool) (rnd : nat -> Z).

(* :97-130: the loops for dim 1, 2 and 3 are those of the Ising example *)
Definition turn_sum (data : list (list Qc)) (x : list Z) (s1 s2 : list Qc) : option Qc :=
  fold_opt (fun sum o => do s <- grid_read false axs data (vadd x o); do q <- product3 s s1 s2; Some (sum + q)%Qc) (ising_offsets axs) (- (1))%Qc.
(* :82-142: one pass of the h loop; J = 1.0; the random numbers are used in the order site, psi, theta, r *)
Definition turn_attempt (st : list (list Qc) * nat) : option (list (list Qc) * nat) :=
  let (data, k) := st in
  do _ <- guard (negb (nodes axs =? 0));
  let p := Z.rem (rnd k) (nodes axs) in
  let x := position axs p in
  do s1 <- grid_read_int false axs data p;
  let s2 := direction (rnd (S k)) (rnd (S (S k))) in
  do sum <- turn_sum data x s1 s2;
  let dE := (- sum)%Qc in
  do data <- (if negb (qgt dE 0) || hot (rnd (S (S (S k)))) dE then grid_write_int false axs data p s2 else Some data);
  do _ <- guard (negb (gss axs =? 0));
  Some (data, S (S (S (S k)))).
(* :78-144 *)
Definition turn_update (steps : Z) (st : list (list Qc) * nat) : option (list (list Qc) * nat) :=
  fold_opt (fun st _ => fold_opt (fun st _ => turn_attempt st) (zrange 0 (nodes axs)) st) (zrange 0 steps) st.
End Rotations.
