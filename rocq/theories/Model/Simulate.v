(* Explicit simulations as MMSP programs are written: every node is updated from the values of its star (the node and
   its neighbours along the axes), the two grids are swapped and ghost cells are exchanged.
   The pattern of examples/beginners_diffusion/MMSPDiffusion2D.cpp:51-58, examples/phase_transitions/allen-cahn/allen-cahn.cpp:65-74
   and of most update() functions of the examples.  The arithmetic is a parameter [rule], from the node's
   coordinates and the values read (node, then above and below along each axis) to the new value; None: undefined. *)
From Verif Require Import Model.Base Model.Boundary Model.Layout Model.Access Model.Setup Model.Codec Model.MPI Model.Ghostswap Model.Stencil.

(* if (x0(grid,i)==g0(grid,i)) b0(grid,i) = ...; if (x1(grid,i)==g1(grid,i)) b1(grid,i) = ...;
   examples/beginners_diffusion/MMSPDiffusion.cpp:27-34 for every axis *)
Definition set_bounds_axis (a : axis) (b : Z * Z) : axis :=
  mkAxis (a_g0 a) (a_g1 a) (a_x0 a) (a_x1 a) (a_s0 a) (a_s1 a) (a_sx a) (a_xx a)
         (if a_x0 a =? a_g0 a then fst b else a_b0 a) (if a_x1 a =? a_g1 a then snd b else a_b1 a).
(* b0(grid,i) = ...; b1(grid,i) = ...;  without the condition, MMSPDiffusion2D.cpp:39-46 *)
Definition force_bounds_axis (a : axis) (b : Z * Z) : axis :=
  mkAxis (a_g0 a) (a_g1 a) (a_x0 a) (a_x1 a) (a_s0 a) (a_s1 a) (a_sx a) (a_xx a) (fst b) (snd b).
Fixpoint zip_with {A B C} (f : A -> B -> C) (l : list A) (m : list B) : list C :=
  match l, m with a :: l', b :: m' => f a b :: zip_with f l' m' | _, _ => [] end.
Definition with_bounds (f : axis -> Z * Z -> axis) (bs : list (Z * Z)) (ge : geom) : geom :=
  mkGeom (zip_with f (ge_axes ge) bs) (ge_ghosts ge) (ge_p1 ge) (ge_sp ge) (ge_pos ge) (ge_n0 ge) (ge_n1 ge).

Section Simulate.
Context {T : Type} (rule : list Z -> list T -> option T).

(* the reads made by GRID(i) and laplacian(GRID,i) (include/MMSP.grid.cpp:2049-2067) *)
Definition gather (mpi : bool) (axs : list axis) (data : list T) (i : Z) : option (list T) :=
  do v <- grid_read_int mpi axs data i;
  do r <- fold_opt (fun '(s, acc) j =>
      do p <- probe mpi axs data s j;
      let '(s, yh, yl) := p in
      Some (s, acc ++ [yh; yl])) (zrange 0 (zlen axs)) (position axs i, [v]);
  Some (snd r).

(* for (int i=0; i<nodes(GRID); i++) update(i) = ...; *)
Definition sweep (mpi : bool) (axs : list axis) (src dst : list T) : option (list T) :=
  fold_opt (fun d i => do vs <- gather mpi axs src i; do v <- rule (position axs i) vs; grid_write_int mpi axs d i v)
           (zrange 0 (nodes axs)) dst.

(* MMSPDiffusion2D.cpp:51-58 in the serial build, where ghostswap does nothing: the steps; result: GRID *)
Fixpoint serial_loop (axs : list axis) (n : nat) (old new : list T) : option (list T) :=
  match n with
  | O => Some old
  | S m => do new' <- sweep false axs old new; serial_loop axs m new' old
  end.

(* the same lines in the MPI build *)
Fixpoint rank_loop (c : codec T) (ge : geom) (n : nat) (old new : list T) : proc (list T) :=
  match n with
  | O => Ret old
  | S m => lift (sweep true (ge_axes ge) old new) (fun new' =>
           ghostswap c ge new' (fun g => rank_loop c ge m g old))
  end.

(* The program of rank r: make the grids, fill them with D r and U r, set the boundary conditions on the sides of the
   domain, exchange ghosts, n steps *)
Definition rank_simulation (c : codec T) (bounds : axis -> Z * Z -> axis) (np : Z) (gs : list gaxis) (bs : list (Z * Z)) (gh : Z)
    (D U : Z -> list T) (n : nat) (r : Z) : proc (list T) :=
  lift (setup_mpi np gs gh r) (fun ge0 =>
  let ge := with_bounds bounds bs ge0 in
  ghostswap c ge (D r) (fun old => rank_loop c ge n old (U r))).

(* the serial program: layout of the whole domain *)
Definition whole (gs : list gaxis) (bs : list (Z * Z)) : list axis :=
  zip_with set_bounds_axis (ge_axes (setup_single gs 0)) bs.
End Simulate.

(* examples/beginners_diffusion/MMSPDiffusion.cpp:38-46: after swap(newGrid,oldGrid) the program calls ghostswap(newGrid), that is,
   it exchanges the ghosts of the superseded values.  Simplification: the two assignments to oldGrid inside the loop are left out. *)
Fixpoint rank_loop_stale {T} (rule : list Z -> list T -> option T) (c : codec T) (ge : geom) (n : nat) (old new : list T) : proc (list T) :=
  match n with
  | O => Ret old
  | S m => lift (sweep rule true (ge_axes ge) old new) (fun new' =>
           ghostswap c ge old (fun g => rank_loop_stale rule c ge m new' g))
  end.
Definition rank_simulation_stale {T} (rule : list Z -> list T -> option T) (c : codec T) (np : Z) (gs : list gaxis) (bs : list (Z * Z)) (gh : Z)
    (D U : Z -> list T) (n : nat) (r : Z) : proc (list T) :=
  lift (setup_mpi np gs gh r) (fun ge0 =>
  let ge := with_bounds set_bounds_axis bs ge0 in
  ghostswap c ge (D r) (fun old => rank_loop_stale rule c ge n old (U r))).
