(* A parallel job as include/MMSP.main.hpp runs it: read a checkpoint, then turns of update() and output(). *)
From Verif Require Import Model.Base Model.Boundary Model.Layout Model.Access Model.Setup Model.Codec Model.MPI Model.Ghostswap Model.Stencil
  Model.File Model.Simulate.

(* what one rank does first, then the rest, which depends on the result: the semicolon of C++ *)
Fixpoint pbind {A B} (p : proc A) (k : A -> proc B) : proc B :=
  match p with
  | Ret a => k a
  | Fail => Fail
  | Isend d t m q => Isend d t m (pbind q k)
  | Recv s t q => Recv s t (fun m => pbind (q m) k)
  | WaitSend d t q => WaitSend d t (pbind q k)
  | Coll kind m q => Coll kind m (fun ms => pbind (q ms) k)
  end.

Section Jobs.
Context {T : Type} (rule : list Z -> list T -> option T) (c : codec T) (fresh : Z -> T).
Context {D : Type} (dshow : D -> list byte) (dparse : list byte -> option D).
Context (raw : bool) (compress : list byte -> list byte) (uncompress : list byte -> Z -> option (list byte)).

(* update(oldGrid, steps), examples/phase_transitions/allen-cahn/allen-cahn.cpp:47-76: ghostswap(oldGrid); newGrid(oldGrid), whose
   setup() ends with a barrier (include/MMSP.grid.cpp:71-97 and 324-326) and which does not copy the data: [junk] is what
   its memory contains; then the loop *)
Definition update_mpi (ge : geom) (n : nat) (junk old : list T) : proc (list T) :=
  ghostswap c ge old (fun old => barrier (rank_loop rule c ge n old junk)).

(* for (int i = iterations_start; i < steps; i += increment) { update(grid, increment); ...; output(grid, filename); }
   include/MMSP.main.hpp:278-297.  [turns] counts the turns left, [i] those done.
   Result: the writes of every output(), see output_mpi.  Every turn writes to another file (include/MMSP.main.hpp:281-293, see Model/Driver.v). *)
Fixpoint driver (np : Z) (name : list byte) (fields : Z) (dx : list D) (ge : geom) (inc : nat) (junk : nat -> list T) (r : Z)
    (turns i : nat) (data : list T) : proc (list (list write * list write)) :=
  match turns with
  | O => Ret []
  | S t => pbind (update_mpi ge inc (junk i) data) (fun data =>
           pbind (output_mpi c dshow raw compress np name fields (ge_axes ge) dx data r) (fun w =>
           pbind (driver np name fields dx ge inc junk r t (S i) data) (fun ws => Ret (w :: ws))))
  end.

(* GRID grid(argv[1]) and the loop, include/MMSP.main.hpp:274-297: rank r of np *)
Definition job (np gh : Z) (name : list byte) (dim : nat) (file : list byte) (inc turns : nat) (junk : Z -> nat -> list T) (r : Z)
    : proc (list (list write * list write)) :=
  pbind (input_mpi c fresh dparse raw uncompress np gh name dim file r) (fun ld =>
  let ge0 := ld_geom ld in
  let ge := mkGeom (lo_axes (ld_local ld)) (ge_ghosts ge0) (ge_p1 ge0) (ge_sp ge0) (ge_pos ge0) (ge_n0 ge0) (ge_n1 ge0) in
  driver np name (ld_fields ld) (ld_dx ld) ge inc (junk r) r turns 0 (lo_data (ld_local ld))).
End Jobs.
