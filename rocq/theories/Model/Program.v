(* The explicit phase-field programs as they run under MPI.  Every update() of this kind has the form
     ghostswap(oldGrid);  grid newGrid(oldGrid);
     for (int step=0; step<steps; step++) { loop over the nodes;  swap(oldGrid,newGrid);  ghostswap(oldGrid); }
   with one loop (examples/phase_transitions/allen-cahn/allen-cahn.cpp:47-75, model_A/model_A.cpp:74-105,
   examples/coarsening/grain_growth/{isotropic,anisotropic}/{phase_field,sparsePF}/graingrowth.cpp,
   examples/coarsening/zener_pinning/{isotropic,anisotropic}/{phase_field,sparsePF}/zener.cpp), or with two loops and a work grid exchanged
   between them (examples/coarsening/ostwald_ripening/isotropic/phase_field/ostwald.cpp:56-124).
   The loops themselves are those of Model/Stencil.v, Model/Dynamics.v, Model/Evolve.v, Model/AnisoSparse.v and Model/Zener.v.
   print_progress only writes to the terminal and is left out. *)
From Coq Require Import QArith.QArith QArith.Qcanon.
From Verif Require Import Model.Base Model.Boundary Model.Layout Model.Access Model.Setup Model.Codec Model.MPI Model.Ghostswap Model.Sparse Model.Stencil Model.Evolve Model.Simulate Model.Dynamics
  Model.AnisoSparse Model.Zener.

(* One loop: step mpi axs t (oldGrid, newGrid) does the loop of step number t and the swap *)
Section One.
Context {T : Type} (step : bool -> list axis -> Z -> list T * list T -> option (list T * list T)).

(* allen-cahn.cpp:64-74 on the rank with geometry ge; k: what follows the loop *)
Fixpoint rank_steps {A} (c : codec T) (ge : geom) (t : Z) (n : nat) (old new : list T) (k : list T -> proc A) : proc A :=
  match n with
  | O => k old
  | S m => lift (step true (ge_axes ge) t (old, new)) (fun st => ghostswap c ge (fst st) (fun g => rank_steps c ge (t + 1) m g (snd st) k))
  end.
(* one call update(grid, n) for each (n, new) in ns, allen-cahn.cpp:47-75.  The constructor grid(const grid&) does not copy the nodes
   (include/MMSP.grid.cpp:71-99): new is what the memory of newGrid holds; setup() ends with a barrier (:324-326) *)
Fixpoint rank_calls (c : codec T) (ge : geom) (t : Z) (ns : list (nat * list T)) (old : list T) : proc (list T) :=
  match ns with
  | [] => Ret old
  | (n, new) :: ns => ghostswap c ge old (fun old => barrier (rank_steps c ge t n old new (fun old => rank_calls c ge (t + Z.of_nat n) ns old)))
  end.
(* the program of rank r: make the grid, fill it with D r, set the boundary conditions on the sides of the domain (see set_bounds_axis), then
   the calls *)
Definition rank_program (c : codec T) (np : Z) (gs : list gaxis) (bs : list (Z * Z)) (gh : Z) (D : Z -> list T) (ns : Z -> list (nat * list T)) (r : Z) : proc (list T) :=
  lift (setup_mpi np gs gh r) (fun ge => rank_calls c (with_bounds set_bounds_axis bs ge) 0 (ns r) (D r)).
(* the same in the serial build, where ghostswap does nothing *)
Fixpoint serial_calls (axs : list axis) (t : Z) (ns : list (nat * list T)) (old : list T) : option (list T) :=
  match ns with
  | [] => Some old
  | (n, new) :: ns => do st <- steps_from t n (step false axs) (old, new); serial_calls axs (t + Z.of_nat n) ns (fst st)
  end.
End One.

(* Two loops: one mpi axs t old temp, two mpi axs t old temp new *)
Section Two.
Context {T U : Type} (one : bool -> list axis -> Z -> list T -> list U -> option (list U)) (two : bool -> list axis -> Z -> list T -> list U -> list T -> option (list T)).

(* ostwald.cpp:85-123 *)
Fixpoint rank_steps2 {A} (c : codec T) (cu : codec U) (ge : geom) (t : Z) (n : nat) (old new : list T) (temp : list U) (k : list T -> proc A) : proc A :=
  match n with
  | O => k old
  | S m => lift (one true (ge_axes ge) t old temp) (fun temp =>
           ghostswap cu ge temp (fun temp =>
           lift (two true (ge_axes ge) t old temp new) (fun new =>
           ghostswap c ge new (fun g => rank_steps2 c cu ge (t + 1) m g old temp k))))
  end.
(* one call update(grid, n) for each (n, new, temp) in ns, ostwald.cpp:56-124; new, temp: what the memory of the two grids made in the call holds *)
Fixpoint rank_calls2 (c : codec T) (cu : codec U) (ge : geom) (t : Z) (ns : list (nat * list T * list U)) (old : list T) : proc (list T) :=
  match ns with
  | [] => Ret old
  | (n, new, temp) :: ns =>
    ghostswap c ge old (fun old => barrier (barrier (rank_steps2 c cu ge t n old new temp (fun old => rank_calls2 c cu ge (t + Z.of_nat n) ns old))))
  end.
Definition rank_program2 (c : codec T) (cu : codec U) (np : Z) (gs : list gaxis) (bs : list (Z * Z)) (gh : Z) (D : Z -> list T) (ns : Z -> list (nat * list T * list U)) (r : Z) : proc (list T) :=
  lift (setup_mpi np gs gh r) (fun ge => rank_calls2 c cu (with_bounds set_bounds_axis bs ge) 0 (ns r) (D r)).
(* the same in the serial build *)
Fixpoint serial_steps2 (axs : list axis) (t : Z) (n : nat) (old new : list T) (temp : list U) : option (list T * list T * list U) :=
  match n with
  | O => Some (old, new, temp)
  | S m => do temp <- one false axs t old temp; do new <- two false axs t old temp new; serial_steps2 axs (t + 1) m new old temp
  end.
Fixpoint serial_calls2 (axs : list axis) (t : Z) (ns : list (nat * list T * list U)) (old : list T) : option (list T) :=
  match ns with
  | [] => Some old
  | (n, new, temp) :: ns => do st <- serial_steps2 axs t n old new temp; serial_calls2 axs (t + Z.of_nat n) ns (fst (fst st))
  end.
End Two.

(* The programs.  noise t x: the number drawn in step t for the node with coordinates x by the rank that has it *)
Definition allen_cahn_program (dx : list Qc) (r u K M dt : Qc) (mpi : bool) (axs : list axis) (t : Z) := allen_cahn_step mpi axs dx r u K M dt.
Definition model_A_program (dx : list Qc) (r u K M dt : Qc) (noise : Z -> list Z -> Qc) (mpi : bool) (axs : list axis) (t : Z) :=
  model_A_step mpi axs dx r u K M dt (fun i => noise t (position axs i)).
Definition dense_program (dx : list Qc) (dt : Qc) (pinned : bool) (fields : Z) (mpi : bool) (axs : list axis) (t : Z) := dense_step mpi axs dx dt pinned fields.
Definition multiphase_program (dx : list Qc) (dt width : Qc) (energy eps mobility : Z -> Z -> Qc) (pinned : bool) (fields : Z) (mpi : bool) (axs : list axis) (t : Z) :=
  multiphase_step mpi axs dx dt width energy eps mobility pinned fields.
Definition grow_program (dx : list Qc) (mpi : bool) (axs : list axis) (t : Z) := grow_step mpi axs dx.
Definition zener_grow_program (dx : list Qc) (mpi : bool) (axs : list axis) (t : Z) := zener_grow_step mpi axs dx.
Definition aniso_program (dx : list Qc) (energy eps mobility : Z -> Z -> Qc) (pinned : bool) (mpi : bool) (axs : list axis) (t : Z) :=
  aniso_step mpi axs dx energy eps mobility pinned.
Definition ostwald_one (dx : list Qc) (P : ripening) (fields : Z) (mpi : bool) (axs : list axis) (t : Z) (old : list (list Qc)) (temp : list Qc) := ostwald_potential mpi axs dx P fields old temp.
Definition ostwald_two (dx : list Qc) (P : ripening) (fields : Z) (mpi : bool) (axs : list axis) (t : Z) (old : list (list Qc)) (temp : list Qc) (new : list (list Qc)) :=
  ostwald_move mpi axs dx P fields old temp new.
