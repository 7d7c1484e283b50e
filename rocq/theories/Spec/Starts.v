(* Words for C108: example grids made by several processes. *)
From Verif Require Import Model.Base Model.Boundary Model.Layout Model.Access Model.Setup Model.Codec Model.MPI Model.Ghostswap Model.File Model.Simulate Model.Starts
  Spec.Box Spec.Decomp Spec.File Spec.Schedule Spec.Jobs Spec.Program Spec.Generate.
Import Model.Layout.
Local Open Scope Z_scope.

(* the sides of a new grid *)
Definition faces (gs : list gaxis) : list (Z * Z) := map (fun _ => (periodic, periodic)) gs.
(* the grid of the serial program *)
Definition serial_grid (gs : list gaxis) : list axis := whole gs (faces gs).

(* Every node uses k random numbers.  rnd' is one sequence for the serial program made of the sequences rnd r of the ranks: its numbers for node n
   are those that the rank that has this node, as its node i, uses for it *)
Definition merged (k : nat) (np : Z) (gs : list gaxis) (gh : Z) (rnd : Z -> nat -> Z) (rnd' : nat -> Z) : Prop :=
  forall r ge i n j, 0 <= r < np -> setup_mpi np gs gh r = Some ge -> 0 <= i < nodes (ge_axes ge) -> 0 <= n < nodes (serial_grid gs) ->
    position (ge_axes ge) i = position (serial_grid gs) n -> (j < k)%nat -> rnd' (k * Z.to_nat n + j)%nat = rnd r (k * Z.to_nat i + j)%nat.

(* On grids that suit it, a start that uses k random numbers for every node fills the grids of any number of ranks with the field that it fills the
   grid of the serial program with, whatever the memory of the grids held; blank: what the type of the cells ensures of a new grid *)
Definition same_start {T} (valid blank : T -> Prop) (suits : list gaxis -> Prop) (k : nat) (start : bool -> list axis -> (nat -> Z) -> list T -> option (list T)) : Prop :=
  forall np gs gh rnd memory memory0, grids np gs (faces gs) gh 0 -> suits gs ->
  filled blank np gs gh memory -> zlen memory0 = cells (serial_grid gs) -> Forall blank memory0 ->
  (exists rnd', merged k np gs gh rnd rnd') /\
  forall rnd', merged k np gs gh rnd rnd' -> exists D, start false (serial_grid gs) rnd' memory0 = Some D /\
    computes valid np gs (faces gs) gh (filling np gs gh (fun r axs => start true axs (rnd r)) memory) D.

(* every execution of np ranks that make an example grid ends, and every file that their writes can leave is a checkpoint of the grid D *)
Definition makes {T S} (c : codec T) (valid : T -> Prop) (dshow : S -> list byte) (dparse : list byte -> option S) (raw : bool) (compress : list byte -> list byte)
  (name : list byte) (fields : Z) (gs : list gaxis) (dx : list S) (gh np : Z) (fill : Z -> proc (list T)) (D : list T) : Prop :=
  exists W f, finished np W f /\ inevitable (ranks np (example_mpi c dshow raw compress np name fields gs gh dx fill), no_chans) f /\
    forall file, produces np (fun r => [W r]) 0 file -> checkpoint c valid dshow dparse raw compress name fields gs dx (faces gs) gh np D file.

(* particles: the nodes that a rank whose part of the grid is axs draws, and the nodes that differ from one by at most 1 in every coordinate *)
Definition n_drawn (axs : list axis) : Z := Z.max 50 (409600 / nodes axs).
Definition draws (axs : list axis) (rnd : nat -> Z) (x : list Z) : Prop :=
  exists j, (j < Z.to_nat (n_drawn axs))%nat /\ x = position axs (rnd j mod nodes axs).
Definition next_to (x y : list Z) : Prop := Forall2 (fun a b => Z.abs (a - b) <= 1) x y.
Definition stamped_by (axs : list axis) (rnd : nat -> Z) (y : list Z) : Prop := exists x, draws axs rnd x /\ next_to x y.

(* every execution of the ranks ends, and every rank holds, on its nodes, phase 0 (the particles) where its own draws put it and elsewhere phase 2 in
   the discs and phase 1 around them; value c k: cell c is of phase k *)
Definition pinned {T} (value : T -> Z -> Prop) (np : Z) (gs : list gaxis) (gh : Z) (rnd : Z -> nat -> Z) (program : Z -> proc (list T)) : Prop :=
  exists D, always_ends np program D /\ forall r ge y, 0 <= r < np -> setup_mpi np gs gh r = Some ge -> owns ge y ->
    exists c, grid_read true (ge_axes ge) (D r) y = Some c /\ (stamped_by (ge_axes ge) (rnd r) y -> value c 0) /\
      (~ stamped_by (ge_axes ge) (rnd r) y -> in_disc y -> value c 2) /\ (~ stamped_by (ge_axes ge) (rnd r) y -> ~ in_disc y -> value c 1).
