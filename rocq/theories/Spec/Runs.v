(* Words for C106: campaigns of jobs with any update(). *)
From Verif Require Import Model.Base Model.Boundary Model.Layout Model.Access Model.Setup Model.Codec Model.MPI Model.Ghostswap Model.File
  Model.Simulate Model.Jobs Model.Runs Spec.Box Spec.Bytes Spec.Stencil Spec.Decomp Spec.File Spec.Schedule Spec.Jobs Spec.Program Props.File.

Section Runs.
Context {T : Type} (c : codec T) (valid : T -> Prop) (fresh : Z -> T).
Context {S : Type} (dshow : S -> list byte) (dparse : list byte -> option S).
Context (raw : bool) (compress : list byte -> list byte) (uncompress : list byte -> Z -> option (list byte)).
Context (name : list byte) (fields : Z) (gs : list gaxis) (dx : list S) (B : list (Z * Z)) (gh : Z).

(* Settings under which files can be written and read: those of Spec/Jobs.v but for the form of the program *)
Record storable : Prop := {
  t_codec : serialises c valid; t_zip : lossless compress uncompress; t_ghosts : 1 <= gh; t_fresh : valid (fresh fields);
  t_sides : Forall2 (fun g b => gx_0 g < gx_1 g /\ serial_side (fst b) (glen g) /\ serial_side (snd b) (glen g)) gs B;
  t_name : good_name name; t_fields : int_range fields; t_dim : int_range (zlen gs); t_ne : gs <> [];
  t_box : Forall (fun g => int_box g /\ gx_0 g < gx_1 g) gs; t_dx : length dx = length gs; t_exact : Forall (exact_text dshow dparse) dx;
  t_bcs : Forall (fun b => int_range (fst b) /\ int_range (snd b)) B;
  t_head : zlen (header dshow name fields gs dx) + 4 < 2 ^ 64
}.

(* A job: the number of ranks, the number of turns less one, and what update() does in turn i, on rank r of the parallel program (see
   Model/Runs.v) and in the serial program *)
Record job_of := { j_ranks : Z; j_turns : nat; j_update : nat -> Z -> geom -> list T -> proc (list T); j_serial : nat -> list T -> option (list T) }.

(* In every turn of the job the ranks compute, in every execution, the field that the serial program computes from the same field *)
Definition faithful (j : job_of) : Prop := forall i data D D',
  filled valid (j_ranks j) gs gh data -> zlen D = cells (whole gs B) -> Forall valid D -> same_field (j_ranks j) gs B gh data D -> j_serial j i D = Some D' ->
  computes valid (j_ranks j) gs B gh (fun r => lift (setup_mpi (j_ranks j) gs gh r) (fun ge => j_update j i r (with_bounds set_bounds_axis B ge) (data r))) D'.

(* what the serial program has after n turns, and after a whole campaign *)
Fixpoint serial_turns (j : job_of) (n i : nat) (D : list T) : option (list T) :=
  match n with O => Some D | Datatypes.S m => do D <- j_serial j i D; serial_turns j m (Datatypes.S i) D end.
Fixpoint serial_jobs (jobs : list job_of) (D : list T) : option (list T) :=
  match jobs with [] => Some D | j :: rest => do D <- serial_turns j (Datatypes.S (j_turns j)) 0 D; serial_jobs rest D end.

(* the ranks of a job at its beginning *)
Definition starts (j : job_of) (turns : nat) (file : list byte) : state (list (list write * list write)) :=
  (ranks (j_ranks j) (run_of c fresh dshow dparse raw compress uncompress (j_update j) (j_ranks j) gh name (length gs) file turns), no_chans).

(* Every job reads the last file of the job before and runs to its end under some schedule *)
Inductive leads : Z -> list byte -> list job_of -> Z -> list byte -> Prop :=
| leads_end np file : leads np file [] np file
| leads_job np file j rest np2 file2 k s W file1 :
    steps k (starts j (Datatypes.S (j_turns j)) file) s -> finished (j_ranks j) W s -> produces (j_ranks j) W (j_turns j) file1 ->
    leads (j_ranks j) file1 rest np2 file2 -> leads np file (j :: rest) np2 file2.

(* nothing prevents the campaign: successive numbers of ranks suit each other (see C25) and what is to be written can be written *)
Fixpoint possible (np : Z) (D : list T) (jobs : list job_of) : Prop :=
  match jobs with
  | [] => True
  | j :: rest => usable c valid gs gh (j_ranks j) /\ evenly np gs gh (j_ranks j) gh /\
      (forall n D', (n <= j_turns j)%nat -> serial_turns j (Datatypes.S n) 0 D = Some D' -> can_write c valid raw compress gs B gh (j_ranks j) D') /\
      (forall D', serial_turns j (Datatypes.S (j_turns j)) 0 D = Some D' -> possible (j_ranks j) D' rest)
  end.
End Runs.
