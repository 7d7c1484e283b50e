(* Words for C99: checkpoints of a field, and campaigns of jobs that continue each other's checkpoints. *)
From Verif Require Import Model.Base Model.Boundary Model.Layout Model.Access Model.Setup Model.Codec Model.MPI Model.Ghostswap Model.File
  Model.Simulate Model.Jobs Spec.Box Spec.Bytes Spec.Stencil Spec.Decomp Spec.File Spec.Schedule Props.File.

Section Jobs.
Context {T : Type} (rule : list Z -> list T -> option T) (c : codec T) (valid : T -> Prop) (fresh : Z -> T).
Context {S : Type} (dshow : S -> list byte) (dparse : list byte -> option S).
Context (raw : bool) (compress : list byte -> list byte) (uncompress : list byte -> Z -> option (list byte)).
Context (name : list byte) (fields : Z) (gs : list gaxis) (dx : list S) (B : list (Z * Z)) (gh : Z).

(* Settings under which a program can run and its files can be written: sound serialisation and compression, at least one ghost layer, a rule that
   maps valid values to valid values, boundary conditions that the serial program supports, names and numbers that fit the file format *)
Record sound : Prop := {
  s_codec : serialises c valid; s_zip : lossless compress uncompress; s_ghosts : 1 <= gh; s_fresh : valid (fresh fields);
  s_rule : forall x vs, Forall valid vs -> zlen vs = 1 + 2 * zlen gs -> exists v, rule x vs = Some v /\ valid v;
  s_sides : Forall2 (fun g b => gx_0 g < gx_1 g /\ serial_side (fst b) (glen g) /\ serial_side (snd b) (glen g)) gs B;
  s_name : good_name name; s_fields : int_range fields; s_dim : int_range (zlen gs); s_ne : gs <> [];
  s_box : Forall (fun g => int_box g /\ gx_0 g < gx_1 g) gs; s_dx : length dx = length gs; s_exact : Forall (exact_text dshow dparse) dx;
  s_bcs : Forall (fun b => int_range (fst b) /\ int_range (snd b)) B;
  s_head : zlen (header dshow name fields gs dx) + 4 < 2 ^ 64
}.

(* the cells of the serial grid D over the whole domain contain the field V *)
Definition has_field (D : list T) (V : list Z -> T) : Prop :=
  forall x, in_box (map gx_0 gs) (map gx_1 gs) x -> grid_read false (whole gs B) D x = Some (V x).

(* the serial program, started on the grid D, makes n steps and then has the grid D', whatever was in its second grid *)
Definition after (n : nat) (D D' : list T) : Prop :=
  forall U, zlen U = cells (whole gs B) -> serial_loop rule (whole gs B) n D U = Some D'.

(* np ranks that hold the same field as the serial grid D write [file] *)
Definition checkpoint (np : Z) (D : list T) (file : list byte) : Prop :=
  exists data V, writable_run c valid raw compress dshow dparse name fields gs dx B np gh data V /\ has_field D V /\
    writes_file c raw compress dshow name fields np (rank_axes np gs gh B) dx data file.

(* np ranks can work on the domain: every rank has cells, at least as many as ghost layers along every axis, and messages are
   at most int_max bytes long *)
Definition usable (np : Z) : Prop :=
  0 < np /\ int_range np /\ exists bound, 0 <= bound /\ (forall v, valid v -> c_size c v <= bound) /\
  forall r ge, 0 <= r < np -> setup_mpi np gs gh r = Some ge ->
    Forall (fun a => a_x0 a < a_x1 a /\ gh <= a_x1 a - a_x0 a) (ge_axes ge) /\ cells (ge_axes ge) * bound <= int_max.

(* np ranks that hold the field of D can write it: every block is recognisable (see C23) and smaller than int_max bytes (see C21) *)
Definition can_write (np : Z) (D : list T) : Prop :=
  forall data V, has_field D V -> hold np gs gh B data V ->
  forall r ge, 0 <= r < np -> setup_mpi np gs gh r = Some ge -> Forall valid (data r) ->
    recognisable c raw compress (with_bcs B (ge_axes ge)) (data r) /\
    forall blk, write_buffer c raw compress (with_bcs B (ge_axes ge)) (data r) = Some blk -> zlen blk < int_max.

(* what the memory of new grids contains before it is written *)
Definition some_memory (np : Z) (junk : Z -> nat -> list T) : Prop :=
  forall r ge i, 0 <= r < np -> setup_mpi np gs gh r = Some ge -> zlen (junk r i) = cells (ge_axes ge) /\ Forall valid (junk r i).

(* the ranks of a job at its beginning *)
Definition started np file inc turns junk : state (list (list write * list write)) :=
  (ranks np (job rule c fresh dshow dparse raw compress uncompress np gh name (length gs) file inc turns junk), no_chans).

(* [file] can result from the writes of all ranks in output number i (0, 1, ...) of a job in which rank r makes the writes W r:
   the file system may carry them out in any order and in parts, those before the MPI_File_sync first *)
Definition produces np (W : Z -> list (list write * list write)) (i : nat) (file : list byte) : Prop :=
  exists ps1 ps2, carries_out ps1 (flat_map (fun r => fst (nth i (W r) ([], []))) (zrange 0 np)) /\
    carries_out ps2 (flat_map (fun r => snd (nth i (W r) ([], []))) (zrange 0 np)) /\ file = fold_left write_at (ps1 ++ ps2) [].

(* A campaign: every job is given the number of ranks, the steps between outputs and the number of outputs less one, reads the last file
   of the job before and runs to its end under some schedule.  [campaign np file jobs np' file'] leads from the file [file] of np ranks to the
   file [file'] of np' ranks. *)
Inductive campaign : Z -> list byte -> list (Z * nat * nat) -> Z -> list byte -> Prop :=
| campaign_end np file : campaign np file [] np file
| campaign_job np file np1 inc t rest np2 file2 junk k s W file1 :
    some_memory np1 junk -> steps k (started np1 file inc (Datatypes.S t) junk) s -> finished np1 W s -> produces np1 W t file1 ->
    campaign np1 file1 rest np2 file2 -> campaign np file ((np1, inc, t) :: rest) np2 file2.

(* steps made by a campaign *)
Definition steps_of (jobs : list (Z * nat * nat)) : nat := list_sum (map (fun '(_, inc, t) => Datatypes.S t * inc)%nat jobs).

(* nothing prevents the campaign that starts with the grid D in a file of np ranks: successive numbers of ranks suit each other (see C25)
   and what is to be written can be written *)
Fixpoint feasible (np : Z) (D : list T) (jobs : list (Z * nat * nat)) : Prop :=
  match jobs with
  | [] => True
  | (np1, inc, t) :: rest => usable np1 /\ evenly np gs gh np1 gh /\
      (forall i D', (i <= t)%nat -> after (Datatypes.S i * inc) D D' -> can_write np1 D') /\
      (forall D', after (Datatypes.S t * inc) D D' -> feasible np1 D' rest)
  end.
End Jobs.
