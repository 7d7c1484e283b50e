(* Words for C111: campaigns in which jobs of the serial and of the parallel program follow each other. *)
From Verif Require Import Model.Base Model.Boundary Model.Layout Model.Access Model.Setup Model.Codec Model.MPI Model.Ghostswap Model.File
  Model.Simulate Model.Jobs Model.Runs Model.SerialRun Spec.Box Spec.Bytes Spec.Stencil Spec.Decomp Spec.File Spec.Schedule Spec.Jobs Spec.Program Spec.Runs Props.File.

Section Mixed.
Context {T : Type} (c : codec T) (valid : T -> Prop) (fresh : Z -> T).
Context {S : Type} (dshow : S -> list byte) (dparse : list byte -> option S).
Context (raw : bool) (compress : list byte -> list byte) (uncompress : list byte -> Z -> option (list byte)).
Context (name : list byte) (fields : Z) (gs : list gaxis) (dx : list S) (B : list (Z * Z)) (gh : Z).

(* A run of the parallel program, as in C106, or of the serial program: the number of turns less one, and what update() does in turn i *)
Inductive run := Parallel (j : job_of (T := T)) | Alone (turns : nat) (update : nat -> list axis -> list T -> option (list T)).

(* what n turns of a serial run make of the grid D over the whole domain, and what a whole run and a whole campaign would make of it if every run
   were a serial one *)
Fixpoint makes (update : nat -> list axis -> list T -> option (list T)) (n i : nat) (D : list T) : option (list T) :=
  match n with O => Some D | Datatypes.S m => do D <- update i (whole gs B) D; makes update m (Datatypes.S i) D end.
Definition serial_run (r : run) (D : list T) : option (list T) :=
  match r with Parallel j => serial_turns j (Datatypes.S (j_turns j)) 0 D | Alone turns update => makes update (Datatypes.S turns) 0 D end.
Fixpoint serial_runs (runs : list run) (D : list T) : option (list T) :=
  match runs with [] => Some D | r :: rest => do D <- serial_run r D; serial_runs rest D end.

(* runs of the parallel program compute what the serial program does; those of the serial program make grids of valid cells of grids of valid cells *)
Definition sensible (r : run) : Prop :=
  match r with
  | Parallel j => faithful valid gs B gh j
  | Alone _ update => forall i D D', zlen D = cells (whole gs B) -> Forall valid D -> update i (whole gs B) D = Some D' -> zlen D' = cells (whole gs B) /\ Forall valid D'
  end.

(* the serial program can write the grid D: its block is recognisable (see C23) and smaller than int_max bytes, so that parallel programs can
   write such blocks as well (see C21) *)
Definition writes_alone (D : list T) : Prop :=
  recognisable c raw compress (whole gs B) D /\ forall blk, write_buffer c raw compress (whole gs B) D = Some blk -> zlen blk < int_max.

(* Every run reads the last file of the run before; the number is that of the ranks that wrote the file, 1 for the serial program *)
Inductive passes : Z -> list byte -> list run -> Z -> list byte -> Prop :=
| passes_end np file : passes np file [] np file
| passes_parallel np file j rest np2 file2 k s W file1 :
    steps k (starts c fresh dshow dparse raw compress uncompress name gs gh j (Datatypes.S (j_turns j)) file) s -> finished (j_ranks j) W s ->
    produces (j_ranks j) W (j_turns j) file1 -> passes (j_ranks j) file1 rest np2 file2 -> passes np file (Parallel j :: rest) np2 file2
| passes_alone np file turns update rest np2 file2 files file1 :
    alone_run c fresh dshow dparse raw compress uncompress update name (length gs) file (Datatypes.S turns) = Done files ->
    nth_error files turns = Some file1 -> passes 1 file1 rest np2 file2 -> passes np file (Alone turns update :: rest) np2 file2.

(* nothing prevents the campaign: a parallel run suits the file it begins with (see C25), and what is to be written can be written *)
Fixpoint feasible (np : Z) (D : list T) (runs : list run) : Prop :=
  match runs with
  | [] => True
  | Parallel j :: rest => usable c valid gs gh (j_ranks j) /\ evenly np gs gh (j_ranks j) gh /\
      (forall n D', (n <= j_turns j)%nat -> serial_turns j (Datatypes.S n) 0 D = Some D' -> can_write c valid raw compress gs B gh (j_ranks j) D') /\
      (forall D', serial_turns j (Datatypes.S (j_turns j)) 0 D = Some D' -> feasible (j_ranks j) D' rest)
  | Alone turns update :: rest =>
      (forall n D', (n <= turns)%nat -> makes update (Datatypes.S n) 0 D = Some D' -> writes_alone D') /\
      (forall D', makes update (Datatypes.S turns) 0 D = Some D' -> feasible 1 D' rest)
  end.

(* what the serial program, and every program made to look at files, finds in a file *)
Definition shows (file : list byte) (D : list T) : Prop :=
  exists ld, input_serial c fresh dparse raw uncompress name (length gs) file = Done ld /\
    ld_fields ld = fields /\ ld_dx ld = dx /\ lo_axes (ld_local ld) = whole gs B /\ lo_data (ld_local ld) = D.
End Mixed.
