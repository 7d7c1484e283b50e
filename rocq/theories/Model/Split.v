(* The semi-implicit Cahn-Hilliard solver, examples/phase_transitions/cahn-hilliard/convex_splitting/cahn-hilliard.cpp.  Serial build,
   with or without OpenMP: [order it p] is the order in which the iterations of the p-th parallel loop of the it-th pass are executed.
   An iteration is taken to be atomic.  Doubles are modelled by rational numbers with exact arithmetic; [root] is sqrt.
   Not modelled: generate, reportEnergy and the messages. *)
From Coq Require Import QArith.QArith QArith.Qcanon.
From Verif Require Import Model.Base Model.Layout Model.Access Model.File Model.Stencil Model.Evolve.
Local Open Scope Z_scope.

Definition c3 : Qc := Q2Qc (3 # 1).
Definition square (c : Qc) : Qc := (c * c)%Qc.
Definition cube (c : Qc) : Qc := (c * c * c)%Qc.
Definition fourth (c : Qc) : Qc := (c * c * c * c)%Qc.

(* nonlinear_coeff, contractive_dfdc, expansive_dfdc *)
Record energetics := mkEn { nonlinear : Qc -> Qc; contractive : Qc -> Qc; expansive : Qc -> Qc }.
(* :64-90 *)
Definition vanilla : energetics := mkEn square cube (fun c => - c)%Qc.
(* :94-129 *)
Section Parametric.
Context (A B C0 Ca Cb : Qc).
Local Open Scope Qc_scope.
Definition QA : Qc := B + Ca + Cb.
Definition QB : Qc := c3 * (B * C0 + Ca * Ca + Cb * Cb).
Definition QC : Qc := c3 * (B * C0 * C0 + cube Ca + cube Cb).
Definition QD : Qc := B * cube C0 + fourth Ca + fourth Cb.
Definition parametric : energetics :=
  mkEn (fun c => QA * square c + QC) (fun c => QA * cube c + QC * c) (fun c => - A * (c - C0) - QB * square c - QD).
End Parametric.

(* doubles that may be infinite or not a number *)
Inductive double := Fin (q : Qc) | Inf | NaN.
(* v > t *)
Definition above (v : double) (t : Qc) : bool := match v with Fin q => qgt q t | Inf => true | NaN => false end.

(* two-component cells: concentration, potential *)
Definition cells2 := list (list Qc).

Section Split.
Context (axs : list axis) (en : energetics) (deltaX D K dt omega tolerance : Qc) (residual_step max_iter : Z) (root : Qc -> Qc).
(* dx(oldGrid,d) = deltaX; dx(newGrid,d) = deltaX; :290-294 *)
Definition dxs : list Qc := repeat deltaX (length axs).

(* :137-157: the same code as laplacian(grid, x, field), Model/Stencil.v *)
Definition field_laplacian (data : cells2) (x : list Z) (field : Z) : option Qc := flaplacian false axs dxs data x field.
(* :159-177 *)
Definition fringe_laplacian (data : cells2) (x : list Z) (field : Z) : option Qc :=
  do r <- fold_opt (fun '(s, lap) i =>
      do p <- probe false axs data s i;
      let '(s, vh, vl) := p in
      do yh <- get vh field;
      do yl <- get vl field;
      do h <- get dxs i;
      do weight <- recip (h * h)%Qc;
      Some (s, lap + weight * (yh + yl))%Qc) (zrange 0 (zlen axs)) (x, 0%Qc);
  Some (snd r).
(* :302-307 *)
Definition lap_weight : option Qc :=
  fold_opt (fun w d => do h <- get dxs d; do r <- recip (h * h)%Qc; Some (w + c2 * r)%Qc) (zrange 0 (zlen axs)) 0%Qc.

(* :336-340: tiles that are skipped; % is the remainder with the sign of the dividend *)
Definition skipped (color n : Z) : bool := Z.rem (sumZ (position axs n)) 2 =? color.
(* :342-367 *)
Definition relax (w : Qc) (old new : cells2) (n : Z) : option cells2 :=
  let x := position axs n in
  do o <- grid_read_int false axs old n;
  do g <- grid_read_int false axs new n;
  do cOld <- get o 0;
  do cGuess <- get g 0;
  do uGuess <- get g 1;
  let A12 := (dt * D * w)%Qc in
  let A21 := (- nonlinear en cGuess - K * w)%Qc in
  let detA := (1 - A12 * A21)%Qc in
  do fu <- fringe_laplacian new x 1;
  do fc <- fringe_laplacian new x 0;
  let B1 := (cOld + D * dt * fu)%Qc in
  let B2 := (expansive en cOld - K * fc)%Qc in
  do inv <- recip detA;
  let cNew := ((B1 - B2 * A12) * inv)%Qc in
  let uNew := ((B2 - B1 * A21) * inv)%Qc in
  do g <- put g 0 (omega * cNew + (1 - omega) * cGuess)%Qc;
  do g <- put g 1 (omega * uNew + (1 - omega) * uGuess)%Qc;
  grid_write_int false axs new n g.
(* :333-369: one colour *)
Definition pass (w : Qc) (color : Z) (order : list Z) (old new : cells2) : option cells2 :=
  fold_opt (fun new n => if skipped color n then Some new else relax w old new n) order new.
(* :327-372: color = 1, then 0 *)
Definition sweep (w : Qc) (order : Z -> list Z) (old new : cells2) : option cells2 :=
  do new <- pass w 1 (order 1) old new; pass w 0 (order 0) old new.

(* :380-415: the sums residual and normB *)
Definition residuals (order : list Z) (old new : cells2) : option (Qc * Qc) :=
  fold_opt (fun '(residual, normB) n =>
    let x := position axs n in
    do lapC <- field_laplacian new x 0;
    do lapU <- field_laplacian new x 1;
    do o <- grid_read_int false axs old n;
    do g <- grid_read_int false axs new n;
    do cOld <- get o 0;
    do cNew <- get g 0;
    do uNew <- get g 1;
    let B1 := cOld in
    let B2 := expansive en cOld in
    let AX1 := (cNew - D * dt * lapU)%Qc in
    let AX2 := (uNew - contractive en cNew + K * lapC)%Qc in
    let R1 := (B1 - AX1)%Qc in
    let R2 := (B2 - AX2)%Qc in
    Some (residual + (R1 * R1 + R2 * R2), normB + (B1 * B1 + B2 * B2))%Qc) order (0%Qc, 0%Qc).
(* :424; a division by zero gives an infinity or not a number *)
Definition relative (r : Qc * Qc) : option double :=
  if Qc_eq_dec (snd r) 0 then Some (if Qc_eq_dec (fst r) 0 then NaN else Inf)
  else do i <- recip (c2 * q_of (nodes axs))%Qc; Some (Fin (root (fst r / snd r) * i)%Qc).

(* :319-427: the while loop; fuel = max_iter - iter *)
Fixpoint solve (fuel : nat) (w : Qc) (order : Z -> Z -> list Z) (iter : Z) (residual : double) (old new : cells2) : option (cells2 * Z * double) :=
  match fuel with
  | O => Some (new, iter, residual)
  | S fuel =>
      if above residual tolerance then
        do new <- sweep w (order iter) old new;
        let iter := iter + 1 in
        do residual <- (if (iter <? residual_step) || (Z.rem iter residual_step =? 0)
                        then do r <- residuals (order (iter - 1) 2) old new; relative r
                        else Some residual);
        solve fuel w order iter residual old new
      else Some (new, iter, residual)
  end.
(* :309-459: one step; state: oldGrid, newGrid.  MMSP::Abort(-1) is exit(-1) in the serial build *)
Definition step (w : Qc) (order : Z -> Z -> list Z) (st : cells2 * cells2) : outcome (cells2 * cells2) :=
  let (old, new) := st in
  got (new, iter, _) <- req (solve (Z.to_nat max_iter) w order 0 (Fin 1%Qc) old new);
  if iter =? max_iter then Exit (-1) else Done (new, old).
(* :276-463: update; schedule k: the orders of the k-th step *)
Fixpoint run (steps : nat) (k : Z) (w : Qc) (schedule : Z -> Z -> Z -> list Z) (st : cells2 * cells2) : outcome (cells2 * cells2) :=
  match steps with
  | O => Done st
  | S n => got st <- step w (schedule k) st; run n (k + 1) w schedule st
  end.
Definition update (steps : Z) (schedule : Z -> Z -> Z -> list Z) (old : cells2) : outcome cells2 :=
  got w <- req lap_weight;
  got (old, _) <- run (Z.to_nat steps) 0 w schedule (old, old);
  Done old.
End Split.
