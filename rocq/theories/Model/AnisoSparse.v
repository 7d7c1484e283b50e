(* The anisotropic sparse multiphase programs: examples/coarsening/grain_growth/anisotropic/sparsePF/graingrowth.cpp:86-185 and
   examples/coarsening/zener_pinning/anisotropic/sparsePF/zener.cpp:94-192.  Doubles are modelled by rational numbers with exact
   arithmetic; energy, mobility (anisotropy.hpp) and eps i j for 4.0/acos(-1.0)*sqrt(0.5*gamma*width) are arguments.  ghostswap and
   print_progress do not change the grids of a serial program and are left out. *)
From Coq Require Import QArith.QArith QArith.Qcanon.
From Verif Require Import Model.Base Model.Num Model.Layout Model.Access Model.Sparse Model.Stencil Model.Evolve.

Section Aniso.
Context (mpi : bool) (axs : list axis) (dx : list Qc) (energy eps mobility : Z -> Z -> Qc).

(* graingrowth.cpp:129-148, zener.cpp:135-154; width = 8.0 *)
Definition aniso_derivatives (cell lap : sobj Qc) (s : sobj Z) : option (sobj Qc) :=
  fold_opt (fun d h => do hi <- sindex s h;
    fold_opt (fun d j => do ji <- sindex s j;
      let e := eps hi ji in
      let w := (q_of 4 * energy hi ji / q_of 8)%Qc in
      do lj <- sread num_Qc lap ji; do pj <- sread num_Qc cell ji;
      do d <- sset_op num_Qc d hi (fun a => a + (half * e * e * lj + w * pj))%Qc;
      do lh <- sread num_Qc lap hi; do ph <- sread num_Qc cell hi;
      do d <- sset_op num_Qc d ji (fun a => a + (half * e * e * lh + w * ph))%Qc;
      fold_opt (fun d k => do ki <- sindex s k;
        do pk <- sread num_Qc cell ki;
        do d <- sset_op num_Qc d hi (fun a => a + q_of 3 * pj * pk)%Qc;
        do d <- sset_op num_Qc d ji (fun a => a + q_of 3 * pk * ph)%Qc;
        sset_op num_Qc d ki (fun a => a + q_of 3 * ph * pj)%Qc) (zrange (j + 1) (zlen s)) d)
      (zrange (h + 1) (zlen s)) d)
    (zrange 0 (zlen s)) [].

(* graingrowth.cpp:150-160; with pinned = true zener.cpp:156-168, where the mobility of field 0, the particles, is zero *)
Definition aniso_rates (pinned : bool) (dFdp : sobj Qc) (s : sobj Z) : option (sobj Qc) :=
  pairs s (fun r hi ji =>
    let mu := mobility hi ji in
    let mu := if pinned && ((hi =? 0) || (ji =? 0)) then 0%Qc else mu in
    do fh <- sread num_Qc dFdp hi; do fj <- sread num_Qc dFdp ji;
    do r <- sset_op num_Qc r hi (fun a => a - mu * (fh - fj))%Qc;
    sset_op num_Qc r ji (fun a => a - mu * (fj - fh))%Qc).

(* graingrowth.cpp:106-181, zener.cpp:112-189: one node; dt = 0.01.  The collection of the fields, the new values and the projection are
   the same code as in evolvers.cpp *)
Definition aniso_evolve (pinned : bool) (former latter : list (sobj Qc)) (node : Z) : option (list (sobj Qc)) :=
  let x := position axs node in
  do s <- neighbourhood mpi axs former x;
  do cell <- grid_read_int mpi axs former node;
  do mine <- grid_read_int mpi axs latter node;
  do result <-
    (if zlen s <? 2 then assign_from mine cell
     else
       do lap <- slaplacian mpi axs dx former x;
       do dFdp <- aniso_derivatives cell lap s;
       do dpdt <- aniso_rates pinned dFdp s;
       do r <- new_values hundredth cell dpdt s mine;
       let rsum := if Qc_eq_dec (snd r) 0 then 0%Qc else (/ snd r)%Qc in
       sscale num_Qc (fst r) (Outside rsum));
  grid_write_int mpi axs latter node result.
(* one time step; state: oldGrid, newGrid *)
Definition aniso_step (pinned : bool) (st : list (sobj Qc) * list (sobj Qc)) : option (list (sobj Qc) * list (sobj Qc)) :=
  let '(former, latter) := st in
  do latter <- fold_opt (aniso_evolve pinned former) (zrange 0 (nodes axs)) latter;
  Some (latter, former).
End Aniso.
