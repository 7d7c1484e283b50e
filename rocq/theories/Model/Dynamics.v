(* The explicit phase-field examples: model A, model B, spinodal decomposition, Ostwald ripening, dense multiphase grain growth with and
   without pinning particles, and dendritic solidification.  Doubles and floats are modelled by rational numbers with exact
   arithmetic.  Random noise, sqrt, acos, atan, atan2 and tan are arguments.  ghostswap and print_progress do not change the grids of
   a serial program and are left out. *)
From Coq Require Import QArith.QArith QArith.Qcanon.
From Verif Require Import Model.Base Model.Layout Model.Access Model.Stencil Model.Evolve.

Definition c3 : Qc := Q2Qc (3 # 1).
Definition c4 : Qc := Q2Qc (4 # 1).
(* pow(v,2), pow(v,3) *)
Definition sq (v : Qc) : Qc := (v * v)%Qc.
Definition cube (v : Qc) : Qc := (v * v * v)%Qc.

(* v[h] += q *)
Definition bump (v : list Qc) (h : Z) (q : Qc) : option (list Qc) := do a <- get v h; put v h (a + q)%Qc.
(* for (int i=lo; i<hi; i++) v[i] = f(i) *)
Definition fill (f : Z -> option Qc) (lo hi : Z) (v : list Qc) : option (list Qc) :=
  fold_opt (fun v i => do q <- f i; put v i q) (zrange lo hi) v.

Section Dynamics.
Context (mpi : bool) (axs : list axis) (dx : list Qc).

(* for (int i=0; i<nodes(grid); i++) { T& cell = dest(i); ... } *)
Definition for_cells {T} (f : Z -> T -> option T) (dest : list T) : option (list T) :=
  fold_opt (fun d i => do c <- grid_read_int mpi axs d i; do c <- f i c; grid_write_int mpi axs d i c) (zrange 0 (nodes axs)) dest.

(* examples/phase_transitions/model_A/model_A.cpp:93-104: one step; noise i is the value drawn for node i *)
Definition model_A_step (r u K M dt : Qc) (noise : Z -> Qc) (st : list Qc * list Qc) : option (list Qc * list Qc) :=
  let '(old, new) := st in
  do new <- for_nodes mpi axs (fun i => do phi <- grid_read_int mpi axs old i; do l <- laplacian_at mpi axs dx old i;
                      Some (phi - dt * M * (- r * phi + u * cube phi - K * l + noise i))%Qc) new;
  Some (new, old).

(* examples/phase_transitions/model_B/model_B.cpp:93-109 with k = dt*M, and
   examples/phase_transitions/spinodal/spinodal.cpp:90-106 with r = u = K = 1 and k = dt/(2.0*dV): one step *)
Definition model_B_step (r u K k : Qc) (noise : Z -> Qc) (st : list Qc * list Qc * list Qc) : option (list Qc * list Qc * list Qc) :=
  let '(old, new, temp) := st in
  do temp <- for_nodes mpi axs (fun i => do phi <- grid_read_int mpi axs old i; do l <- laplacian_at mpi axs dx old i;
                      Some (- r * phi + u * cube phi - K * l + noise i)%Qc) temp;
  do new <- for_nodes mpi axs (fun i => do v <- grid_read_int mpi axs old i; do l <- laplacian_at mpi axs dx temp i; Some (v + k * l)%Qc) new;
  Some (new, old, temp).

(* the constants of examples/coarsening/ostwald_ripening/isotropic/phase_field/ostwald.cpp:68-82 *)
Record ripening := mkRipening { o_dt : Qc; o_L : Qc; o_D : Qc; o_Calpha : Qc; o_Cbeta : Qc; o_Cmatrix : Qc; o_A : Qc; o_B : Qc;
  o_gamma : Qc; o_delta : Qc; o_epsilon : Qc; o_Dalpha : Qc; o_Dbeta : Qc; o_kappa : Qc }.
(* ostwald.cpp:90-92 and 110-112 *)
Definition squares (fields : Z) (cell : list Qc) : option Qc :=
  fold_opt (fun sum i => do v <- get cell i; Some (sum + sq v)%Qc) (zrange 1 fields) 0%Qc.
(* ostwald.cpp:88-100; wspace(x) is the node wspace(n), x being position(oldGrid,n) *)
Definition ostwald_potential (P : ripening) (fields : Z) (old : list (list Qc)) (wspace : list Qc) : option (list Qc) :=
  for_nodes mpi axs (fun n =>
    do cell <- grid_read_int mpi axs old n;
    do sum <- squares fields cell;
    do C <- get cell 0;
    do l <- flaplacian_at mpi axs dx old n 0;
    Some (- o_A P * (C - o_Cmatrix P) + o_B P * cube (C - o_Cmatrix P) + o_Dalpha P * cube (C - o_Calpha P) + o_Dbeta P * cube (C - o_Cbeta P)
          - o_gamma P * (C - o_Calpha P) * sum - o_kappa P * l)%Qc) wspace.
(* ostwald.cpp:103-120 *)
Definition ostwald_move (P : ripening) (fields : Z) (old : list (list Qc)) (wspace : list Qc) (new : list (list Qc)) : option (list (list Qc)) :=
  for_cells (fun n cell' =>
    do l <- laplacian_at mpi axs dx wspace n;
    do cell <- grid_read_int mpi axs old n;
    do C <- get cell 0;
    do cell' <- put cell' 0 (C + o_dt P * o_D P * l)%Qc;
    do sum <- squares fields cell;
    do vlap <- vlaplacian_at mpi axs dx fields old n;
    fill (fun i => do value <- get cell i; do l <- get vlap i;
       Some (value - o_dt P * o_L P * (- o_gamma P * sq (C - o_Calpha P) + o_delta P * cube value + o_epsilon P * value * (sum - sq value) - o_kappa P * l))%Qc)
      1 fields cell') new.
(* ostwald.cpp:85-123: one step; state: oldGrid, newGrid, wspace *)
Definition ostwald_step (P : ripening) (fields : Z) (st : list (list Qc) * list (list Qc) * list Qc) : option (list (list Qc) * list (list Qc) * list Qc) :=
  let '(old, new, w) := st in
  do w <- ostwald_potential P fields old w;
  do new <- ostwald_move P fields old w new;
  Some (new, old, w).

(* examples/coarsening/grain_growth/isotropic/phase_field/graingrowth.cpp:85-110, and with pinned = true
   examples/coarsening/zener_pinning/isotropic/phase_field/zener.cpp:117-141, where field 0 is kept: one step *)
Definition dense_step (dt : Qc) (pinned : bool) (fields : Z) (st : list (list Qc) * list (list Qc)) : option (list (list Qc) * list (list Qc)) :=
  let '(old, new) := st in
  do new <- for_cells (fun n cell' =>
    do cell <- grid_read_int mpi axs old n;
    do vlap <- vlaplacian_at mpi axs dx fields old n;
    do sum <- fold_opt (fun sum j => do phi <- get cell j; Some (sum + phi * phi)%Qc) (zrange 0 fields) 0%Qc;
    fill (fun j => do phi <- get cell j; do l <- get vlap j;
       Some (if pinned && (j =? 0) then phi else phi - dt * (- phi - cube phi + c2 * (phi * sum - l)))%Qc) 0 fields cell') new;
  Some (new, old).

(* ---- examples/coarsening/grain_growth/anisotropic/phase_field/graingrowth.cpp, and with pinned = true
   examples/coarsening/zener_pinning/anisotropic/phase_field/zener.cpp (mu = 0 for pairs with field 0, :177-178) ---- *)
(* graingrowth.cpp:119-128: is field h positive at x or at a neighbour along an axis?  x is the same on both exits from the loops *)
Definition present (old : list (list Qc)) (x : list Z) (h : Z) : option bool :=
  do r <- fold_opt (fun '(x, found) j =>
      fold_opt (fun '(x, found) k =>
        if (found : bool) then Some (x, found) else
        do x <- shift x j k;
        do cell <- grid_read mpi axs old x;
        do v <- get cell h;
        do x <- shift x j (- k);
        Some (x, qgt v 0)) (zrange (-1) 2) (x, found)) (zrange 0 (zlen axs)) (x, false);
  Some (snd r).
(* the double loop "for h: if (s[h]>0.0) for j > h: if (s[j]>0.0)" of :142-145 and :161-164; s[h] is 0 or 1 *)
Definition vpairs (s : list bool) (f : list Qc -> Z -> Z -> option (list Qc)) (start : list Qc) : option (list Qc) :=
  fold_opt (fun acc h => do sh <- get s h;
    if (sh : bool) then
      fold_opt (fun acc j => do sj <- get s j; if (sj : bool) then f acc h j else Some acc) (zrange (h + 1) (zlen s)) acc
    else Some acc) (zrange 0 (zlen s)) start.
(* :140-157; eps h j is 4.0/acos(-1.0)*sqrt(0.5*gamma*width) *)
Definition variation (width : Qc) (energy eps : Z -> Z -> Qc) (cell lap : list Qc) (s : list bool) : option (list Qc) :=
  vpairs s (fun d h j =>
    let w := (c4 * energy h j / width)%Qc in
    do ph <- get cell h; do pj <- get cell j; do lh <- get lap h; do lj <- get lap j;
    do d <- bump d h (half * eps h j * eps h j * lj + w * pj)%Qc;
    do d <- bump d j (half * eps h j * eps h j * lh + w * ph)%Qc;
    fold_opt (fun d k => do sk <- get s k;
      if (sk : bool) then
        do pk <- get cell k;
        do d <- bump d h (c3 * pj * pk)%Qc;
        do d <- bump d j (c3 * pk * ph)%Qc;
        bump d k (c3 * ph * pj)%Qc
      else Some d) (zrange (j + 1) (zlen s)) d) (repeat 0%Qc (length s)).
(* :159-168 *)
Definition velocity (mobility : Z -> Z -> Qc) (pinned : bool) (dFdp : list Qc) (s : list bool) : option (list Qc) :=
  vpairs s (fun d h j =>
    let mu := if pinned && ((h =? 0) || (j =? 0)) then 0%Qc else mobility h j in
    do fh <- get dFdp h; do fj <- get dFdp j;
    do d <- bump d h (- (mu * (fh - fj)))%Qc;
    bump d j (- (mu * (fj - fh)))%Qc) (repeat 0%Qc (length s)).
(* :174-175 *)
Definition clamp (v : Qc) : Qc :=
  let v := if qgt v 1 then 1%Qc else v in if qgt 0 v then 0%Qc else v.
(* :170-184; S is the number of fields in s; fabs(sum)>0.0 is sum <> 0 *)
Definition settle (dt : Qc) (S : Z) (cell dpdt cell' : list Qc) : option (list Qc) :=
  do r <- fold_opt (fun '(cell', sum) h =>
      do p <- get cell h; do d <- get dpdt h;
      let value := clamp (p + dt * (c2 / q_of S) * d)%Qc in
      do cell' <- put cell' h value;
      Some (cell', sum + value)%Qc) (zrange 0 (zlen cell)) (cell', 0%Qc);
  let '(cell', sum) := r in
  let rsum := if Qc_eq_dec sum 0 then 0%Qc else (/ sum)%Qc in
  fold_opt (fun cell' h => do v <- get cell' h; put cell' h (v * rsum)%Qc) (zrange 0 (zlen cell)) cell'.
(* :108-189: one step; state: oldGrid, newGrid *)
Definition multiphase_step (dt width : Qc) (energy eps mobility : Z -> Z -> Qc) (pinned : bool) (fields : Z)
    (st : list (list Qc) * list (list Qc)) : option (list (list Qc) * list (list Qc)) :=
  let '(old, new) := st in
  do new <- for_cells (fun i cell' =>
    let x := position axs i in
    do s <- map_opt (present old x) (zrange 0 fields);
    let S := zlen (filter id s) in
    do cell <- grid_read_int mpi axs old i;
    if S <? 2 then Some cell
    else
      do lap <- vlaplacian_at mpi axs dx fields old i;
      do dFdp <- variation width energy eps cell lap s;
      do dpdt <- velocity mobility pinned dFdp s;
      settle dt S cell dpdt cell') new;
  Some (new, old).

(* ---- examples/phase_transitions/solidification/.../solidification.cpp, two fields: 0 = phase, 1 = undercooling ---- *)
(* :97-116: Dgradphi at node i; flux gx gy stands for the two products with the trigonometric functions *)
Definition heat_flux (flux : Qc -> Qc -> Qc * Qc) (old : list (list Qc)) (i : Z) (cell' : list Qc) : option (list Qc) :=
  let x := position axs i in
  do c <- grid_read mpi axs old x; do center <- get c 0;
  do g <- map_opt (fun d =>
      do y <- shift x d 1; do c <- grid_read mpi axs old y; do vr <- get c 0;
      do h <- get dx d; do rh <- recip h; Some ((vr - center) * rh)%Qc) (zrange 0 (zlen axs));
  do gx <- get g 0; do gy <- get g 1;
  let '(fx, fy) := flux gx gy in
  do cell' <- put cell' 0 fx; put cell' 1 fy.
(* :137-142; melt u is (k1/M_PI)*atan(k2*u) *)
Definition new_phase (melt : Qc -> Qc) (tau dt phi u div : Qc) : option Qc :=
  let m := (phi - half - melt u)%Qc in
  let t := (tau / dt)%Qc in
  if qgt m 0 then do r <- recip (t + phi * m)%Qc; Some (((m + t) * phi + div) * r)%Qc
  else do r <- recip (t - (1 - phi) * m)%Qc; Some ((phi * t + div) * r)%Qc.
(* :122-160; the Laplacian of :145-153 is that of laplacian(oldGrid,x,1), with division by pow(dx,2) for multiplication; state: newGrid,
   refGrid *)
Definition solidify_node (melt : Qc -> Qc) (tau dt DiffT : Qc) (old D : list (list Qc)) (st : list (list Qc) * list Qc) (i : Z)
    : option (list (list Qc) * list Qc) :=
  let '(new, ref) := st in
  let x := position axs i in
  do oldX <- grid_read mpi axs old x; do phi <- get oldX 0; do u <- get oldX 1;
  do dgpX <- grid_read mpi axs D x;
  do newX <- grid_read mpi axs new x;
  do div <- fold_opt (fun div d =>
      do y <- shift x d (-1); do c <- grid_read mpi axs D y; do vl <- get c d; do here <- get dgpX d;
      do h <- get dx d; do rh <- recip h; Some (div + (here - vl) * rh)%Qc) (zrange 0 (zlen axs)) 0%Qc;
  do phi' <- new_phase melt tau dt phi u div;
  do newX <- put newX 0 phi';
  do lapT <- flaplacian mpi axs dx old x 1;
  do before <- grid_read_int mpi axs ref i;
  do rdt <- recip dt;
  let dTdt := (DiffT * lapT + (phi - before) * rdt)%Qc in
  do newX <- put newX 1 (u + dt * dTdt)%Qc;
  do new <- grid_write mpi axs new x newX;
  do ref <- grid_write_int mpi axs ref i phi;
  Some (new, ref).
(* :90-164: one step; Dgradphi is a grid made for the step, its cells are zero vectors; state: oldGrid, newGrid, refGrid *)
Definition solidify_step (flux : Qc -> Qc -> Qc * Qc) (melt : Qc -> Qc) (tau dt DiffT : Qc) (st : list (list Qc) * list (list Qc) * list Qc)
    : option (list (list Qc) * list (list Qc) * list Qc) :=
  let '(old, new, ref) := st in
  do D <- for_cells (heat_flux flux old) (repeat [0; 0]%Qc (length old));
  do r <- fold_opt (solidify_node melt tau dt DiffT old D) (zrange 0 (nodes axs)) (new, ref);
  let '(new, ref) := r in
  Some (new, old, ref).
(* :62-65: at the start of every call of update, refGrid takes the phase field *)
Definition solidify_start (old : list (list Qc)) (ref : list Qc) : option (list Qc) :=
  for_nodes mpi axs (fun i => do c <- grid_read_int mpi axs old i; get c 0) ref.
(* :50-167 with the final time step: update(oldGrid, n); newGrid is made for the call, refGrid stays from call to call *)
Definition solidify_update (flux : Qc -> Qc -> Qc * Qc) (melt : Qc -> Qc) (tau dt DiffT : Qc) (n : nat) (new0 : list (list Qc)) (st : list (list Qc) * list Qc)
    : option (list (list Qc) * list Qc) :=
  let '(old, ref) := st in
  do ref <- solidify_start old ref;
  do r <- repeat_step n (solidify_step flux melt tau dt DiffT) (old, new0, ref);
  let '(old, _, ref) := r in Some (old, ref).
End Dynamics.

(* for (int step=0; step<steps; step++) with a step number; the first step has number t *)
Fixpoint steps_from {S} (t : Z) (n : nat) (f : Z -> S -> option S) (s : S) : option S :=
  match n with O => Some s | Datatypes.S m => do s' <- f t s; steps_from (t + 1) m f s' end.
