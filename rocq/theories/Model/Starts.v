(* generate() of the examples on rank r of a program started with several processes: mpirun -np k program --example dim file.
   include/MMSP.main.hpp:108-122 calls generate on all ranks; srand(time(NULL)+rank) (:55) gives every rank its own random numbers.
   generate makes a distributed grid, whose constructor ends with a barrier (include/MMSP.grid.cpp:318-326), runs the loops of
   Model/Generate.v on the part of the rank, and calls output(initGrid, filename). *)
From Coq Require Import QArith.QArith QArith.Qcanon.
From Verif Require Import Model.Base Model.Boundary Model.Layout Model.Access Model.Setup Model.Codec Model.MPI Model.Ghostswap Model.File Model.Jobs Model.Stencil Model.Dynamics Model.Generate.
Local Open Scope Z_scope.

(* examples/differential_equations/elliptic/Poisson/poisson.cpp:191-232: initGrid(n) = exp of products of the coordinates over L; [value] is this
   function of the coordinates *)
Definition poisson_start (value : list Z -> Qc) (mpi : bool) (axs : list axis) (u : list Qc) : option (list Qc) :=
  for_cells mpi axs (fun n _ => Some (value (position axs n))) u.

(* :199-200, :212-214, :226-229: exp(X), exp(X*Y), exp(X*Y*Z) for X = double(x[0])/L and so on *)
Definition poisson_value (exponential : Qc -> Qc) (L : Z) (x : list Z) : Qc :=
  let over c := (Q2Qc (inject_Z c) / Q2Qc (inject_Z L))%Qc in
  exponential (match x with [] => 1%Qc | c :: x => fold_left (fun p c => p * over c)%Qc x (over c) end).

(* the part of generate before output: start r axs memory are the loops on rank r, whose part of the grid is axs; memory r is what the memory of
   the new grid holds on rank r.  The result is what the grid then holds *)
Definition filling {T} (np : Z) (gs : list gaxis) (gh : Z) (start : Z -> list axis -> list T -> option (list T)) (memory : Z -> list T) (r : Z) : proc (list T) :=
  lift (setup_mpi np gs gh r) (fun ge => barrier (lift (start r (ge_axes ge) (memory r)) Ret)).

(* phase_transitions/cahn-hilliard/convex_splitting/cahn-hilliard.cpp:215-274: the second loop comes after ghostswap(initGrid) *)
Definition split_filling (np : Z) (gs : list gaxis) (gh : Z) (c : codec (list Qc)) (dxs : list Qc) (dfdc : Qc -> Qc) (K : Qc) (comp : Z -> list axis -> Z -> Qc)
  (memory : Z -> list (list Qc)) (r : Z) : proc (list (list Qc)) :=
  lift (setup_mpi np gs gh r) (fun ge => barrier (
  lift (split_first true (ge_axes ge) (comp r (ge_axes ge)) (memory r)) (fun u =>
  ghostswap c ge u (fun u =>
  lift (split_second true (ge_axes ge) dxs dfdc K u) Ret)))).

(* generate with output(initGrid, filename); result: the writes *)
Definition example_mpi {T D} (c : codec T) (dshow : D -> list byte) (raw : bool) (compress : list byte -> list byte) (np : Z) (name : list byte) (fields : Z)
  (gs : list gaxis) (gh : Z) (dx : list D) (fill : Z -> proc (list T)) (r : Z) : proc (list write * list write) :=
  pbind (fill r) (fun data => lift (setup_mpi np gs gh r) (fun ge => output_mpi c dshow raw compress np name fields (ge_axes ge) dx data r)).
