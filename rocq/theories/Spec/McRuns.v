(* Words for C110: campaigns of parallel Monte Carlo jobs. *)
From Verif Require Import Model.Base Model.Boundary Model.Layout Model.Access Model.Setup Model.Codec Model.MPI Model.Ghostswap Model.File
  Model.Simulate Model.Jobs Model.Runs Model.Spin Model.McRanks Model.McRuns
  Spec.Box Spec.Bytes Spec.Stencil Spec.Decomp Spec.File Spec.Schedule Spec.Jobs Spec.Program Spec.Runs Spec.McRanks Props.File.
From Verif Require Spec.Spin.
Local Open Scope Z_scope.

(* A job: the number of ranks, the number of turns less one, the steps of every turn, and s_clock i r t b: what time(NULL) yields on rank r in turn i
   before the sweep of sublattice b in step t *)
Record spin_job := { s_ranks : Z; s_turns : nat; s_steps : Z; s_clock : nat -> Z -> Z -> Z -> Z }.

Section Spins.
Context (c : codec Z) (valid : Z -> Prop) (hot : Z -> Z -> bool) (sel : list axis -> list Z -> Z -> bool) (rand : Z -> nat -> Z) (gs : list gaxis).

(* periodic conditions on all sides, as the examples have them *)
Definition periodic_sides : list (Z * Z) := map (fun _ => (periodic, periodic)) gs.
(* the grid of one process on the whole domain *)
Definition domain : list axis := whole gs periodic_sides.

(* Turn i of a job takes one process from the grid D to D': in every sweep every rank makes as many attempts as it has counted, at nodes of its own and with
   numbers of the sequence that the clock of rank 0 starts (see Spec/McRanks.v), and the one process makes the attempts of all ranks one after the other *)
Definition spin_turn (s : spin_job) (i : nat) (D D' : list Z) : Prop := exists Ls,
  Forall2 (fun ts L => forall r ge, 0 <= r < s_ranks s -> setup_mpi (s_ranks s) gs 1 r = Some ge ->
    drawn ge (snd ts) (rand (s_clock s i 0 (fst ts) (snd ts))) 0 (L r) /\ zlen (L r) = to_flip (ge_axes ge) (snd ts)) (turns (length gs) (s_steps s)) Ls /\
  attempts domain hot (sel domain) (flat_map (fun L => flat_map L (zrange 0 (s_ranks s))) Ls) D = Some D'.
(* n turns from turn i on; whole jobs, one after the other *)
Fixpoint spin_turns (s : spin_job) (n i : nat) (D D' : list Z) : Prop :=
  match n with O => D' = D | S m => exists D1, spin_turn s i D D1 /\ spin_turns s m (S i) D1 D' end.
Fixpoint spin_jobs (jobs : list spin_job) (D D' : list Z) : Prop :=
  match jobs with [] => D' = D | s :: rest => exists D1, spin_turns s (S (s_turns s)) 0 D D1 /\ spin_jobs rest D1 D' end.

(* The ranks can work on the domain; every rank has two nodes or more along every axis; random numbers pick every cell again and again; a rank selects
   nodes as one process does; the clock is an unsigned long *)
Definition suitable (s : spin_job) : Prop := usable c valid gs 1 (s_ranks s) /\ (forall i t b, 0 <= s_clock s i 0 t b < 2 ^ 64) /\
  forall r ge, 0 <= r < s_ranks s -> setup_mpi (s_ranks s) gs 1 r = Some ge ->
    Forall (fun a => a_x0 a + 2 <= a_x1 a) (ge_axes ge) /\ (forall i t b, Spec.Spin.fair (num_lattice_cells (ge_axes ge)) (rand (s_clock s i 0 t b))) /\
    forall x rd, sel (ge_axes ge) x rd = sel domain x rd.

(* successive numbers of ranks suit each other (see C25) *)
Fixpoint follow (np : Z) (jobs : list spin_job) : Prop :=
  match jobs with [] => True | s :: rest => evenly np gs 1 (s_ranks s) 1 /\ follow (s_ranks s) rest end.

(* The job as Spec/Runs.v describes jobs, with at most fuel attempts of every rank in a sweep.  There is no serial program to compare with *)
Definition spin_run (fuel : nat) (s : spin_job) : @job_of Z := {| j_ranks := s_ranks s; j_turns := s_turns s;
  j_update := fun i r => update_spins c hot sel rand fuel (length gs) (s_steps s) (s_clock s i r); j_serial := fun _ _ => None |}.

(* energy of the grid D (twice, see Spec/Spin.v) *)
Definition energy2 (D : list Z) : Z := let w := map serial_limits gs in Spec.Spin.grain_energy2 w (Spec.Spin.value_at w D).
End Spins.
