(* A parallel job of include/MMSP.main.hpp with any update(): Model/Jobs.v without the assumption on its form. *)
From Verif Require Import Model.Base Model.Boundary Model.Layout Model.Access Model.Setup Model.Codec Model.MPI Model.Ghostswap Model.File Model.Jobs Model.Simulate Model.Program Model.SolidRanks.
From Coq Require Import QArith.QArith QArith.Qcanon.
Local Open Scope Z_scope.

Section Runs.
Context {T : Type} (c : codec T) (fresh : Z -> T).
Context {D : Type} (dshow : D -> list byte) (dparse : list byte -> option D).
Context (raw : bool) (compress : list byte -> list byte) (uncompress : list byte -> Z -> option (list byte)).
(* update i r ge data: what the call update(grid, increment) of turn i does on rank r, whose grid has the geometry ge and the cells data *)
Context (update : nat -> Z -> geom -> list T -> proc (list T)).

(* for (int i = iterations_start; i < steps; i += increment) { update(grid, increment); ...; output(grid, filename); }
   include/MMSP.main.hpp:278-297.  [turns] counts the turns left, [i] those done.  Result: the writes of every output() *)
Fixpoint turns_of (np : Z) (name : list byte) (fields : Z) (dx : list D) (ge : geom) (r : Z) (turns i : nat) (data : list T) : proc (list (list write * list write)) :=
  match turns with
  | O => Ret []
  | S t => pbind (update i r ge data) (fun data =>
           pbind (output_mpi c dshow raw compress np name fields (ge_axes ge) dx data r) (fun w =>
           pbind (turns_of np name fields dx ge r t (S i) data) (fun ws => Ret (w :: ws))))
  end.

(* GRID grid(argv[1]) and the loop, include/MMSP.main.hpp:274-297: rank r of np *)
Definition run_of (np gh : Z) (name : list byte) (dim : nat) (file : list byte) (turns : nat) (r : Z) : proc (list (list write * list write)) :=
  pbind (input_mpi c fresh dparse raw uncompress np gh name dim file r) (fun ld =>
  let ge0 := ld_geom ld in
  let ge := mkGeom (lo_axes (ld_local ld)) (ge_ghosts ge0) (ge_p1 ge0) (ge_sp ge0) (ge_pos ge0) (ge_n0 ge0) (ge_n1 ge0) in
  turns_of np name (ld_fields ld) (ld_dx ld) ge r turns 0 (lo_data (ld_local ld))).
End Runs.

(* update(grid, increment) in turn i of the programs of Model/Program.v and Model/SolidRanks.v, on rank r and in the serial build.  junk r i, temp r i:
   what the memory of the grids made in the call holds; step i: the loops of the call in turn i, which may draw other random numbers in every
   turn.  Steps are counted from zero in every call, as in the code *)
Definition update_one {T} (step : nat -> bool -> list axis -> Z -> list T * list T -> option (list T * list T)) (c : codec T) (inc : nat) (junk : Z -> nat -> list T)
  (i : nat) (r : Z) (ge : geom) (old : list T) : proc (list T) := rank_calls (step i) c ge 0 [(inc, junk r i)] old.
Definition serial_one {T} (step : nat -> bool -> list axis -> Z -> list T * list T -> option (list T * list T)) (axs : list axis) (inc : nat) (junk : nat -> list T)
  (i : nat) (old : list T) : option (list T) := serial_calls (step i) axs 0 [(inc, junk i)] old.
Definition update_two {T U} (one : nat -> bool -> list axis -> Z -> list T -> list U -> option (list U)) (two : nat -> bool -> list axis -> Z -> list T -> list U -> list T -> option (list T))
  (c : codec T) (cu : codec U) (inc : nat) (junk : Z -> nat -> list T) (temp : Z -> nat -> list U) (i : nat) (r : Z) (ge : geom) (old : list T) : proc (list T) :=
  rank_calls2 (one i) (two i) c cu ge 0 [(inc, junk r i, temp r i)] old.
Definition serial_two {T U} (one : nat -> bool -> list axis -> Z -> list T -> list U -> option (list U)) (two : nat -> bool -> list axis -> Z -> list T -> list U -> list T -> option (list T))
  (axs : list axis) (inc : nat) (junk : nat -> list T) (temp : nat -> list U) (i : nat) (old : list T) : option (list T) :=
  serial_calls2 (one i) (two i) axs 0 [(inc, junk i, temp i)] old.
(* ref r i: what the static refGrid holds when the call in turn i begins; it is made in the first turn *)
Definition update_solid (dx : list Qc) (flux : Qc -> Qc -> Qc * Qc) (melt : Qc -> Qc) (tau dt DiffT : Qc) (c : codec (list Qc)) (inc : nat) (junk : Z -> nat -> list (list Qc))
  (ref : Z -> nat -> list Qc) (i : nat) (r : Z) (ge : geom) (old : list (list Qc)) : proc (list (list Qc)) :=
  solid_calls dx flux melt tau dt DiffT c ge (Nat.eqb i 0) [(inc, junk r i)] old (ref r i).
Definition serial_solid_turn (dx : list Qc) (flux : Qc -> Qc -> Qc * Qc) (melt : Qc -> Qc) (tau dt DiffT : Qc) (axs : list axis) (inc : nat) (junk : nat -> list (list Qc))
  (ref : nat -> list Qc) (i : nat) (old : list (list Qc)) : option (list (list Qc)) := serial_solid dx flux melt tau dt DiffT axs [(inc, junk i)] old (ref i).
