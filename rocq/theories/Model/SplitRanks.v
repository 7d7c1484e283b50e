(* The semi-implicit Cahn-Hilliard solver as it runs under MPI, examples/phase_transitions/cahn-hilliard/convex_splitting/cahn-hilliard.cpp:276-463.
   The serial build is Model/Split.v; its functions are written here once more for a grid with ghost cells (mpi = true).
   MPI_Allreduce with MPI_SUM on one double is a collective operation to which every rank contributes its number and from which all get the
   sum, added in the order of the ranks.  MMSP::Abort(-1) calls MPI_Abort, which ends the program: the rank stops with no grid (None).
   Left out: the messages. *)
From Coq Require Import QArith.QArith QArith.Qcanon.
From Verif Require Import Model.Base Model.Layout Model.Access Model.Setup Model.Codec Model.MPI Model.Ghostswap Model.File Model.Stencil Model.Evolve Model.Simulate Model.Split.
Local Open Scope Z_scope.

(* MPI_Allreduce(&local, &global, 1, MPI_DOUBLE, MPI_SUM, MPI_COMM_WORLD) *)
Definition allreduce {A} (pq : pod Qc) (v : Qc) (k : Qc -> proc A) : proc A :=
  Coll 6 (pd_enc pq v) (fun ms => k (fold_left (fun s m => s + pd_dec pq m)%Qc ms 0%Qc)).

Section SplitRanks.
Context (en : energetics) (deltaX D K dt omega tolerance : Qc) (residual_step max_iter : Z) (root : Qc -> Qc).

Section On.
Context (mpi : bool) (axs : list axis).
(* :137-157 *)
Definition field_laplacian_on (data : cells2) (x : list Z) (field : Z) : option Qc := flaplacian mpi axs (dxs axs deltaX) data x field.
(* :159-177 *)
Definition fringe_laplacian_on (data : cells2) (x : list Z) (field : Z) : option Qc :=
  do r <- fold_opt (fun '(s, lap) i =>
      do p <- probe mpi axs data s i;
      let '(s, vh, vl) := p in
      do yh <- get vh field;
      do yl <- get vl field;
      do h <- get (dxs axs deltaX) i;
      do weight <- recip (h * h)%Qc;
      Some (s, lap + weight * (yh + yl))%Qc) (zrange 0 (zlen axs)) (x, 0%Qc);
  Some (snd r).
(* :342-367: the values for node n *)
Definition relaxed_on (w : Qc) (old new : cells2) (n : Z) : option (list Qc) :=
  let x := position axs n in
  do o <- grid_read_int mpi axs old n;
  do g <- grid_read_int mpi axs new n;
  do cOld <- get o 0;
  do cGuess <- get g 0;
  do uGuess <- get g 1;
  let A12 := (dt * D * w)%Qc in
  let A21 := (- nonlinear en cGuess - K * w)%Qc in
  let detA := (1 - A12 * A21)%Qc in
  do fu <- fringe_laplacian_on new x 1;
  do fc <- fringe_laplacian_on new x 0;
  let B1 := (cOld + D * dt * fu)%Qc in
  let B2 := (expansive en cOld - K * fc)%Qc in
  do inv <- recip detA;
  let cNew := ((B1 - B2 * A12) * inv)%Qc in
  let uNew := ((B2 - B1 * A21) * inv)%Qc in
  do g <- put g 0 (omega * cNew + (1 - omega) * cGuess)%Qc;
  put g 1 (omega * uNew + (1 - omega) * uGuess)%Qc.
(* :333-369: one colour; n goes from 0 to nodes(oldGrid), the nodes of this rank *)
Definition pass_on (w : Qc) (color : Z) (old new : cells2) : option cells2 :=
  fold_opt (fun new n => if skipped axs color n then Some new else do v <- relaxed_on w old new n; grid_write_int mpi axs new n v) (zrange 0 (nodes axs)) new.
(* :380-415: what one node adds to residual and normB *)
Definition errors_on (old new : cells2) (n : Z) : option (Qc * Qc) :=
  let x := position axs n in
  do lapC <- field_laplacian_on new x 0;
  do lapU <- field_laplacian_on new x 1;
  do o <- grid_read_int mpi axs old n;
  do g <- grid_read_int mpi axs new n;
  do cOld <- get o 0;
  do cNew <- get g 0;
  do uNew <- get g 1;
  let B1 := cOld in
  let B2 := expansive en cOld in
  let AX1 := (cNew - D * dt * lapU)%Qc in
  let AX2 := (uNew - contractive en cNew + K * lapC)%Qc in
  let R1 := (B1 - AX1)%Qc in
  let R2 := (B2 - AX2)%Qc in
  Some (R1 * R1 + R2 * R2, B1 * B1 + B2 * B2)%Qc.
Definition residuals_on (old new : cells2) : option (Qc * Qc) :=
  fold_opt (fun '(residual, normB) n => do e <- errors_on old new n; Some (residual + fst e, normB + snd e)%Qc) (zrange 0 (nodes axs)) (0%Qc, 0%Qc).
End On.

(* :424 *)
Definition relative_to (gridSize : Qc) (r : Qc * Qc) : option double :=
  if Qc_eq_dec (snd r) 0 then Some (if Qc_eq_dec (fst r) 0 then NaN else Inf)
  else do i <- recip (c2 * gridSize)%Qc; Some (Fin (root (fst r / snd r) * i)%Qc).

Section Rank.
Context {A : Type} (c : codec (list Qc)) (pq : pod Qc) (ge : geom).
(* :319-427: the while loop; fuel = max_iter - iter *)
Fixpoint rank_solve (fuel : nat) (w gridSize : Qc) (iter : Z) (residual : double) (old new : cells2) (k : cells2 -> Z -> proc A) : proc A :=
  match fuel with
  | O => k new iter
  | S fuel =>
      if above residual tolerance then
        lift (pass_on true (ge_axes ge) w 1 old new) (fun new => ghostswap c ge new (fun new =>
        lift (pass_on true (ge_axes ge) w 0 old new) (fun new => ghostswap c ge new (fun new =>
        let iter := iter + 1 in
        if (iter <? residual_step) || (Z.rem iter residual_step =? 0)
        then lift (residuals_on true (ge_axes ge) old new) (fun r =>
             allreduce pq (fst r) (fun residual => allreduce pq (snd r) (fun normB =>
             lift (relative_to gridSize (residual, normB)) (fun residual => rank_solve fuel w gridSize iter residual old new k))))
        else rank_solve fuel w gridSize iter residual old new k))))
      else k new iter
  end.
(* :309-459: the steps; abort: what follows MMSP::Abort *)
Fixpoint rank_run (n : nat) (w gridSize : Qc) (old new : cells2) (abort : proc A) (k : cells2 -> proc A) : proc A :=
  match n with
  | O => k old
  | S n => ghostswap c ge old (fun old => ghostswap c ge new (fun new =>
           rank_solve (Z.to_nat max_iter) w gridSize 0 (Fin 1%Qc) old new (fun new iter =>
           if iter =? max_iter then abort else rank_run n w gridSize new old abort k)))
  end.
(* :276-307: update(oldGrid, steps); the constructor of newGrid ends with a barrier (include/MMSP.grid.cpp:324-326), newGrid.copy(oldGrid)
   copies all cells (:1993-2045) *)
Definition rank_update (steps : Z) (old : cells2) (abort : proc A) (k : cells2 -> proc A) : proc A :=
  ghostswap c ge old (fun old => barrier (
  allreduce pq (q_of (nodes (ge_axes ge))) (fun gridSize =>
  lift (lap_weight (ge_axes ge) deltaX) (fun w => rank_run (Z.to_nat steps) w gridSize old old abort k)))).
End Rank.

(* one call update(grid, n) for each n of ns, on rank r of np: make the grid, fill it with data r, set the boundary conditions on the sides
   of the domain, then the calls *)
Fixpoint rank_updates (c : codec (list Qc)) (pq : pod Qc) (ge : geom) (ns : list Z) (old : cells2) : proc (option cells2) :=
  match ns with
  | [] => Ret (Some old)
  | n :: ns => rank_update c pq ge n old (Ret None) (fun old => rank_updates c pq ge ns old)
  end.
Definition split_program (c : codec (list Qc)) (pq : pod Qc) (np : Z) (gs : list gaxis) (bs : list (Z * Z)) (gh : Z) (data : Z -> cells2) (ns : list Z) (r : Z) : proc (option cells2) :=
  lift (setup_mpi np gs gh r) (fun ge => rank_updates c pq (with_bounds set_bounds_axis bs ge) ns (data r)).
(* the same in the serial build; schedule j: the orders of the iterations in the j-th call *)
Fixpoint serial_updates (axs : list axis) (j : Z) (ns : list Z) (schedule : Z -> Z -> Z -> Z -> list Z) (old : cells2) : outcome cells2 :=
  match ns with
  | [] => Done old
  | n :: ns => got old <- update axs en deltaX D K dt omega tolerance residual_step max_iter root n (schedule j) old; serial_updates axs (j + 1) ns schedule old
  end.
End SplitRanks.
