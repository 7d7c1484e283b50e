(* Running a program on one process or on several: what is compared. *)
From Verif Require Import Model.Base Model.Layout Model.Access Model.Setup Model.Codec Model.MPI Model.Ghostswap Model.Simulate Spec.Box Spec.Access Spec.Decomp Spec.Schedule Spec.Stencil.

(* A domain gs with the conditions bs on its sides, divided among np ranks with gh ghost layers: every rank has at least gh nodes along every axis;
   messages of B bytes for every cell of a rank's grid have a length that fits an int *)
Definition grids (np : Z) (gs : list gaxis) (bs : list (Z * Z)) (gh B : Z) : Prop :=
  0 < np /\ gs <> [] /\ 1 <= gh /\ 0 <= B /\
  Forall2 (fun g b => gx_0 g < gx_1 g /\ serial_side (fst b) (glen g) /\ serial_side (snd b) (glen g)) gs bs /\
  forall r ge, 0 <= r < np -> setup_mpi np gs gh r = Some ge -> Forall (fun a => a_x0 a < a_x1 a /\ gh <= a_x1 a - a_x0 a) (ge_axes ge) /\ cells (ge_axes ge) * B <= int_max.

(* the grids D of the ranks hold, on the nodes each rank owns, what the grid D0 of the serial program holds there *)
Definition same_field {T} (np : Z) (gs : list gaxis) (bs : list (Z * Z)) (gh : Z) (D : Z -> list T) (D0 : list T) : Prop :=
  forall r ge y, 0 <= r < np -> setup_mpi np gs gh r = Some ge -> owns ge y ->
    exists v, grid_read true (ge_axes ge) (D r) y = Some v /\ grid_read false (whole gs bs) D0 y = Some v.

(* every execution of the ranks ends, with the results D *)
Definition always_ends {A} (np : Z) (program : Z -> proc A) (D : Z -> A) : Prop :=
  exists fin, finished np D fin /\ inevitable (ranks np program, no_chans) fin.

(* the grids D of the ranks have the right number of cells, all of them valid *)
Definition filled {T} (valid : T -> Prop) (np : Z) (gs : list gaxis) (gh : Z) (D : Z -> list T) : Prop :=
  forall r ge, 0 <= r < np -> setup_mpi np gs gh r = Some ge -> zlen (D r) = cells (ge_axes ge) /\ Forall valid (D r).

(* every execution of the ranks ends, with grids that hold the field of the serial grid D0, which is a grid of valid cells *)
Definition computes {T} (valid : T -> Prop) (np : Z) (gs : list gaxis) (bs : list (Z * Z)) (gh : Z) (program : Z -> proc (list T)) (D0 : list T) : Prop :=
  (exists D, always_ends np program D /\ same_field np gs bs gh D D0 /\ filled valid np gs gh D) /\ zlen D0 = cells (whole gs bs) /\ Forall valid D0.
