(* Explicit simulations in two stages: a work grid is computed from the field and exchanged, then the new field from the field and the work
   grid.  The pattern of examples/phase_transitions/cahn-hilliard/explicit/cahn-hilliard.cpp:64-80, model_B/model_B.cpp:93-110,
   spinodal/spinodal.cpp:90-106 and examples/coarsening/ostwald_ripening/isotropic/phase_field/ostwald.cpp:85-123.
   The arithmetic is given by [first] and [second], from the number of the step, the coordinates of the node and the values read (the node, then
   above and below along each axis, see gather) to the new value; None: undefined. *)
From Coq Require Import QArith.QArith QArith.Qcanon.
From Verif Require Import Model.Base Model.Boundary Model.Layout Model.Access Model.Setup Model.Codec Model.MPI Model.Ghostswap Model.Stencil Model.Simulate Model.Dynamics.

Section Stages.
Context {T U : Type} (first : Z -> list Z -> list T -> option U) (second : Z -> list Z -> list T -> list U -> option T).

(* for (int i=0; i<nodes(oldGrid); i++) temp(i) = ...; cahn-hilliard.cpp:68-71 *)
Definition stage_one (mpi : bool) (axs : list axis) (t : Z) (old : list T) (temp : list U) : option (list U) :=
  fold_opt (fun d i => do vs <- gather mpi axs old i; do v <- first t (position axs i) vs; grid_write_int mpi axs d i v) (zrange 0 (nodes axs)) temp.
(* for (int i=0; i<nodes(oldGrid); i++) newGrid(i) = ...; cahn-hilliard.cpp:74-75 *)
Definition stage_two (mpi : bool) (axs : list axis) (t : Z) (old : list T) (temp : list U) (new : list T) : option (list T) :=
  fold_opt (fun d i => do vs <- gather mpi axs old i; do us <- gather mpi axs temp i; do v <- second t (position axs i) vs us; grid_write_int mpi axs d i v)
    (zrange 0 (nodes axs)) new.

End Stages.

(* The program, with its two loops as arguments: one mpi axs t old temp and two mpi axs t old temp new *)
Section Program.
Context {T U : Type} (one : bool -> list axis -> Z -> list T -> list U -> option (list U)) (two : bool -> list axis -> Z -> list T -> list U -> list T -> option (list T)).

(* cahn-hilliard.cpp:64-80 in the serial build, where ghostswap does nothing: n steps, the first with number t; result: oldGrid *)
Fixpoint serial_stages (axs : list axis) (t : Z) (n : nat) (old new : list T) (temp : list U) : option (list T) :=
  match n with
  | O => Some old
  | S m => do temp <- one false axs t old temp;
           do new <- two false axs t old temp new;
           serial_stages axs (t + 1) m new old temp
  end.

(* the same lines in the MPI build *)
Fixpoint rank_stages (c : codec T) (cu : codec U) (ge : geom) (t : Z) (n : nat) (old new : list T) (temp : list U) : proc (list T) :=
  match n with
  | O => Ret old
  | S m => lift (one true (ge_axes ge) t old temp) (fun temp =>
           ghostswap cu ge temp (fun temp =>
           lift (two true (ge_axes ge) t old temp new) (fun new =>
           ghostswap c ge new (fun g => rank_stages c cu ge (t + 1) m g old temp))))
  end.

(* The program of rank r: make the grid, fill it with D r, set the boundary conditions on the sides of the domain (see set_bounds_axis), exchange
   ghosts, make the two other grids, whose memory holds N r and E r and whose setup() ends with a barrier (include/MMSP.grid.cpp:324-326),
   n steps; cahn-hilliard.cpp:47-80 *)
Definition rank_staged (c : codec T) (cu : codec U) (np : Z) (gs : list gaxis) (bs : list (Z * Z)) (gh : Z) (D N : Z -> list T) (E : Z -> list U)
    (n : nat) (r : Z) : proc (list T) :=
  lift (setup_mpi np gs gh r) (fun ge0 =>
  let ge := with_bounds set_bounds_axis bs ge0 in
  ghostswap c ge (D r) (fun old => barrier (barrier (rank_stages c cu ge 0 n old (N r) (E r))))).
End Program.

(* The loops of cahn-hilliard.cpp:68-75 (noise 0, k = dt*M), model_B.cpp:97-107 (k = dt*M) and spinodal.cpp:94-103 (r = u = K = 1, k = dt/(2.0*dV)),
   see also model_B_step in Model/Dynamics.v.  noise t x is the number drawn in step t for the node with coordinates x by the rank that has it. *)
Section Model_B.
Context (dx : list Qc) (r u K k : Qc) (noise : Z -> list Z -> Qc).
Definition B_potential (mpi : bool) (axs : list axis) (t : Z) (old temp : list Qc) : option (list Qc) :=
  for_nodes mpi axs (fun i => do phi <- grid_read_int mpi axs old i; do l <- laplacian_at mpi axs dx old i;
                      Some (- r * phi + u * cube phi - K * l + noise t (position axs i))%Qc) temp.
Definition B_flow (mpi : bool) (axs : list axis) (_ : Z) (old temp new : list Qc) : option (list Qc) :=
  for_nodes mpi axs (fun i => do v <- grid_read_int mpi axs old i; do l <- laplacian_at mpi axs dx temp i; Some (v + k * l)%Qc) new.
End Model_B.
