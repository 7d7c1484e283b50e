(* Grain growth with particles (Zener pinning), serial build: examples/coarsening/zener_pinning/isotropic/Monte_Carlo/zener.cpp,
   .../anisotropic/Monte_Carlo/zener.cpp and .../isotropic/sparsePF/zener.cpp.  The dense phase-field programs are
   dense_step and multiphase_step of Dynamics.v with pinned = true.  Spin 0, or field 0, marks the particles.
   rnd k is the k-th result of rand(); ghostswap and print_progress do not change the grid of a serial program and are left out. *)
From Coq Require Import QArith.QArith QArith.Qcanon.
From Verif Require Import Model.Base Model.Num Model.Boundary Model.Layout Model.Access Model.Sparse Model.Stencil Model.Spin Model.Evolve.
Local Open Scope Z_scope.

Section Particles.
(* energy s t: energy(s,t) of anisotropy.hpp, or (s!=t) in the isotropic program.
   accept r s1 s2 dE: the test of the random number r before the spin is changed *)
Context (axs : list axis) (energy : Z -> Z -> Qc) (accept : Z -> Z -> Z -> Qc -> bool) (rnd : nat -> Z).

(* the loops for dim 1, 2 and 3 *)
Definition cube_offsets : list (list Z) := if (1 <=? zlen axs) && (zlen axs <=? 3) then offsets (length axs) else [].
(* isotropic :113-148, anisotropic :114-149: sparse<bool> neighbors; set(neighbors,spin) = true; *)
Definition near_spins (data : list Z) (x : list Z) : option (sobj Z) :=
  fold_opt (fun s o => do spin <- grid_read false axs data (vadd x o); sset_op num_Z s spin (fun _ => 1)) cube_offsets [].
(* isotropic :155-189 (dE = -1.0 there, which is -energy(spin1,spin2) as the spins differ), anisotropic :156-190 *)
Definition spin_cost (data : list Z) (x : list Z) (spin1 spin2 : Z) : option Qc :=
  fold_opt (fun dE o => do spin <- grid_read false axs data (vadd x o); Some (dE + (energy spin spin2 - energy spin spin1))%Qc)
    cube_offsets (- energy spin1 spin2)%Qc.
(* isotropic :107-200, anisotropic :108-205: one pass of the h loop; the random numbers are used in the order site, neighbour, r *)
Definition zener_attempt (st : list Z * nat) : option (list Z * nat) :=
  let (data, k) := st in
  do _ <- guard (negb (nodes axs =? 0));
  let p := Z.rem (rnd k) (nodes axs) in
  let x := position axs p in
  do spin1 <- grid_read_int false axs data p;
  if negb (spin1 =? 0) then
    do neighbors <- near_spins data x;
    do _ <- guard (negb (zlen neighbors =? 0));
    do spin2 <- sindex neighbors (Z.rem (rnd (S k)) (zlen neighbors));
    if negb (spin1 =? spin2) && negb (spin2 =? 0) then
      do dE <- spin_cost data x spin1 spin2;
      do data <- (if accept (rnd (S (S k))) spin1 spin2 dE then grid_write_int false axs data p spin2 else Some data);
      Some (data, S (S (S k)))
    else Some (data, S (S k))
  else Some (data, S k).
(* isotropic :102-202, anisotropic :103-207 *)
Definition zener_update (steps : Z) (st : list Z * nat) : option (list Z * nat) :=
  fold_opt (fun st _ => fold_opt (fun st _ => zener_attempt st) (zrange 0 (nodes axs)) st) (zrange 0 steps) st.
End Particles.

Definition unlike_q (s t : Z) : Qc := if s =? t then 0%Qc else 1%Qc.
(* isotropic :191-196: hot r dE stands for r < exp(-dE/kT) *)
Definition accept_iso (hot : Z -> Qc -> bool) (r spin1 spin2 : Z) (dE : Qc) : bool := negb (qgt dE 0) || hot r dE.
(* anisotropic :192-201: cold r ME stands for r < M*E, hot r ME E dE for r < M*E*exp(-dE/(E*kT)) *)
Definition accept_aniso (energy mobility : Z -> Z -> Qc) (cold : Z -> Qc -> bool) (hot : Z -> Qc -> Qc -> Qc -> bool) (r spin1 spin2 : Z) (dE : Qc) : bool :=
  let E := energy spin1 spin2 in
  let M := mobility spin1 spin2 in
  if qgt dE 0 then hot r (M * E)%Qc E dE else cold r (M * E)%Qc.

(* isotropic/sparsePF/zener.cpp:116-160: one node; the test in :153 compares the node, n, with 0, not the field *)
Definition zener_grow (mpi : bool) (axs : list axis) (dx : list Qc) (former latter : list (sobj Qc)) (node : Z) : option (list (sobj Qc)) :=
  let x := position axs node in
  do s <- neighbourhood mpi axs former x;
  do cell <- grid_read_int mpi axs former node;
  do mine <- grid_read_int mpi axs latter node;
  do result <-
    (if zlen s <? 2 then assign_from mine cell
     else
       do lap <- slaplacian mpi axs dx former x;
       do sum <- fold_opt (fun sum j => do phi <- svalue cell j; Some (sum + phi * phi)%Qc) (zrange 0 (zlen cell)) 0%Qc;
       fold_opt (fun mine j =>
         do i <- sindex s j;
         do phi <- sread num_Qc cell i;
         if node =? 0 then sset_op num_Qc mine i (fun _ => phi) else
         do l <- sread num_Qc lap i;
         let value := (phi - hundredth * (- phi - phi * phi * phi + c2 * (phi * sum - l)))%Qc in
         if qgt value cutoff then sset_op num_Qc mine i (fun _ => value) else Some mine) (zrange 0 (zlen s)) mine);
  grid_write_int mpi axs latter node result.
(* :112-163: one time step without the ghostswap; state: oldGrid, newGrid *)
Definition zener_grow_step (mpi : bool) (axs : list axis) (dx : list Qc) (st : list (sobj Qc) * list (sobj Qc)) : option (list (sobj Qc) * list (sobj Qc)) :=
  let '(former, latter) := st in
  do latter <- fold_opt (zener_grow mpi axs dx former) (zrange 0 (nodes axs)) latter;
  Some (latter, former).
