(* A job of include/MMSP.main.hpp in the serial build, with any update(). *)
From Verif Require Import Model.Base Model.Layout Model.Codec Model.File.

Section SerialRun.
Context {T : Type} (c : codec T) (fresh : Z -> T).
Context {D : Type} (dshow : D -> list byte) (dparse : list byte -> option D).
Context (raw : bool) (compress : list byte -> list byte) (uncompress : list byte -> Z -> option (list byte)).
(* update i axs data: what the call update(grid, increment) of turn i makes of the cells data of a grid with the axes axs *)
Context (update : nat -> list axis -> list T -> option (list T)).

(* for (int i = iterations_start; i < steps; i += increment) { update(grid, increment); ...; output(grid, filename); }
   include/MMSP.main.hpp:278-297.  [turns] counts the turns left, [i] those done.  Result: the contents of the files, in the order in
   which they are written.
   Simplification: where output() ends the program because the compressed data are too long, the result is Undef *)
Fixpoint alone_turns (name : list byte) (fields : Z) (axs : list axis) (dx : list D) (turns i : nat) (data : list T) : outcome (list (list byte)) :=
  match turns with
  | O => Done []
  | S t => got data <- req (update i axs data);
           got file <- req (output_serial c dshow raw compress name fields axs dx data);
           got files <- alone_turns name fields axs dx t (S i) data;
           Done (file :: files)
  end.

(* GRID grid(argv[1]) and the loop, include/MMSP.main.hpp:274-297 *)
Definition alone_run (name : list byte) (dim : nat) (file : list byte) (turns : nat) : outcome (list (list byte)) :=
  got ld <- input_serial c fresh dparse raw uncompress name dim file;
  alone_turns name (ld_fields ld) (lo_axes (ld_local ld)) (ld_dx ld) turns 0 (lo_data (ld_local ld)).
End SerialRun.
