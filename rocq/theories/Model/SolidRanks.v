(* Dendritic solidification as it runs under MPI, examples/phase_transitions/solidification/anisotropic/solidification.cpp:50-167.  The loops
   are those of Model/Dynamics.v.  dt stands for the final time step: :78-86 reduce it in a loop that depends on the spacings only, which are
   the same on all ranks.  print_progress and the messages are left out. *)
From Coq Require Import QArith.QArith QArith.Qcanon.
From Verif Require Import Model.Base Model.Layout Model.Access Model.Setup Model.Codec Model.MPI Model.Ghostswap Model.Stencil Model.Evolve Model.Simulate Model.Dynamics.
Local Open Scope Z_scope.

Section SolidRanks.
Context (dx : list Qc) (flux : Qc -> Qc -> Qc * Qc) (melt : Qc -> Qc) (tau dt DiffT : Qc).

(* :90-163: the steps on the rank with geometry ge; refGrid belongs to the rank and is not exchanged.  The constructor of Dgradphi ends with a
   barrier in every step (include/MMSP.grid.cpp:324-326) *)
Fixpoint solid_steps {A} (c : codec (list Qc)) (ge : geom) (n : nat) (old new : list (list Qc)) (ref : list Qc) (k : list (list Qc) -> list Qc -> proc A) : proc A :=
  match n with
  | O => k old ref
  | S m => barrier (
           lift (for_cells true (ge_axes ge) (heat_flux true (ge_axes ge) dx flux old) (repeat [0; 0]%Qc (length old))) (fun D =>
           ghostswap c ge D (fun D =>
           lift (fold_opt (solidify_node true (ge_axes ge) dx melt tau dt DiffT old D) (zrange 0 (nodes (ge_axes ge))) (new, ref)) (fun st =>
           ghostswap c ge (fst st) (fun g => solid_steps c ge m g old (snd st) k)))))
  end.
(* :50-167: one call update(grid, n) for each (n, new) in ns, new being what the memory of newGrid holds.  refGrid is static: it is made, with
   a barrier, in the first call only (first = true), and ref is what its memory holds *)
Fixpoint solid_calls (c : codec (list Qc)) (ge : geom) (first : bool) (ns : list (nat * list (list Qc))) (old : list (list Qc)) (ref : list Qc) : proc (list (list Qc)) :=
  match ns with
  | [] => Ret old
  | (n, new) :: ns =>
      ghostswap c ge old (fun old => barrier (
      let rest := lift (solidify_start true (ge_axes ge) old ref) (fun ref =>
        ghostswap c ge old (fun old => solid_steps c ge n old new ref (fun old ref => solid_calls c ge false ns old ref))) in
      if first then barrier rest else rest))
  end.
(* the program of rank r *)
Definition solid_program (c : codec (list Qc)) (np : Z) (gs : list gaxis) (bs : list (Z * Z)) (gh : Z) (D : Z -> list (list Qc)) (ref : Z -> list Qc) (ns : Z -> list (nat * list (list Qc))) (r : Z)
    : proc (list (list Qc)) :=
  lift (setup_mpi np gs gh r) (fun ge => solid_calls c (with_bounds set_bounds_axis bs ge) true (ns r) (D r) (ref r)).
(* the same in the serial build *)
Fixpoint serial_solid (axs : list axis) (ns : list (nat * list (list Qc))) (old : list (list Qc)) (ref : list Qc) : option (list (list Qc)) :=
  match ns with
  | [] => Some old
  | (n, new) :: ns => do st <- solidify_update false axs dx flux melt tau dt DiffT n new (old, ref); serial_solid axs ns (fst st) (snd st)
  end.
End SolidRanks.
