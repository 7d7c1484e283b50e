(* Differential operators, include/MMSP.grid.cpp:2049-2232, and the explicit simulations built from them.
   Doubles are modelled by rational numbers with exact arithmetic: rounding is not modelled. *)
From Coq Require Import QArith.QArith QArith.Qcanon.
From Verif Require Import Model.Base Model.Layout Model.Access.

Definition c2 : Qc := Q2Qc (2 # 1).

(* s[i] += d *)
Definition shift (s : list Z) (i d : Z) : option (list Z) := do c <- get s i; put s i (c + d).

(* 1.0 / v; None for v = 0, where the double result is not a number *)
Definition recip (v : Qc) : option Qc := if Qc_eq_dec v 0 then None else Some (/ v)%Qc.

(* grid.cpp:2057-2061 and the same lines of the other functions: s[i] += 1; yh = GRID(s); s[i] -= 2; yl = GRID(s);
   s[i] += 1;  result: s, yh, yl *)
Definition probe {T} (mpi : bool) (axs : list axis) (data : list T) (s : list Z) (i : Z) : option (list Z * T * T) :=
  do s <- shift s i 1;
  do yh <- grid_read mpi axs data s;
  do s <- shift s i (-2);
  do yl <- grid_read mpi axs data s;
  do s <- shift s i 1;
  Some (s, yh, yl).

Section Ops.
Context (mpi : bool) (axs : list axis) (dx : list Qc).

(* grid.cpp:2049-2067: laplacian(grid<dim,T>, vector<int>) *)
Definition laplacian (data : list Qc) (x : list Z) : option Qc :=
  do y <- grid_read mpi axs data x;
  do r <- fold_opt (fun '(s, lap) i =>
      do p <- probe mpi axs data s i;
      let '(s, yh, yl) := p in
      do h <- get dx i;
      do weight <- recip (h * h)%Qc;
      Some (s, lap + weight * (yh - c2 * y + yl))%Qc) (zrange 0 (zlen axs)) (x, 0%Qc);
  Some (snd r).

(* grid.cpp:2069-2090: laplacian(grid<dim,vector<T> >, vector<int>); fields: the number of fields *)
Definition vlaplacian (fields : Z) (data : list (list Qc)) (x : list Z) : option (list Qc) :=
  do y <- grid_read mpi axs data x;
  do r <- fold_opt (fun '(s, lap) i =>
      do p <- probe mpi axs data s i;
      let '(s, yh, yl) := p in
      do h <- get dx i;
      do weight <- recip (h * h)%Qc;
      do lap <- fold_opt (fun lap j =>
        do a <- get yh j; do b <- get y j; do c <- get yl j; do l <- get lap j;
        put lap j (l + weight * (a - c2 * b + c))%Qc) (zrange 0 fields) lap;
      Some (s, lap)) (zrange 0 (zlen axs)) (x, repeat 0%Qc (Z.to_nat fields));
  Some (snd r).

(* grid.cpp:2092-2110: laplacian(grid<dim,vector<T> >, vector<int>, field); pow(dx,2.0) is dx*dx *)
Definition flaplacian (data : list (list Qc)) (x : list Z) (field : Z) : option Qc :=
  do v <- grid_read mpi axs data x;
  do y <- get v field;
  do r <- fold_opt (fun '(s, lap) i =>
      do p <- probe mpi axs data s i;
      let '(s, vh, vl) := p in
      do yh <- get vh field;
      do yl <- get vl field;
      do h <- get dx i;
      do weight <- recip (h * h)%Qc;
      Some (s, lap + weight * (yh - c2 * y + yl))%Qc) (zrange 0 (zlen axs)) (x, 0%Qc);
  Some (snd r).

(* grid.cpp:2131-2152: the versions with a node index *)
Definition laplacian_at (data : list Qc) (i : Z) : option Qc := laplacian data (position axs i).
Definition vlaplacian_at (fields : Z) (data : list (list Qc)) (i : Z) : option (list Qc) := vlaplacian fields data (position axs i).
Definition flaplacian_at (data : list (list Qc)) (i field : Z) : option Qc := flaplacian data (position axs i) field.

(* grid.cpp:2154-2170: gradient(grid<dim,T>, vector<int>) *)
Definition gradient (data : list Qc) (x : list Z) : option (list Qc) :=
  do r <- fold_opt (fun '(s, grad) i =>
      do p <- probe mpi axs data s i;
      let '(s, yh, yl) := p in
      do h <- get dx i;
      do weight <- recip (c2 * h)%Qc;
      do grad <- put grad i (weight * (yh - yl))%Qc;
      Some (s, grad)) (zrange 0 (zlen axs)) (x, repeat 0%Qc (length axs));
  Some (snd r).

(* grid.cpp:2172-2188: gradient(grid<dim,vector<T> >, vector<int>, field) *)
Definition fgradient (data : list (list Qc)) (x : list Z) (field : Z) : option (list Qc) :=
  do r <- fold_opt (fun '(s, grad) i =>
      do p <- probe mpi axs data s i;
      let '(s, vh, vl) := p in
      do yh <- get vh field;
      do yl <- get vl field;
      do h <- get dx i;
      do weight <- recip (c2 * h)%Qc;
      do grad <- put grad i (weight * (yh - yl))%Qc;
      Some (s, grad)) (zrange 0 (zlen axs)) (x, repeat 0%Qc (length axs));
  Some (snd r).

(* grid.cpp:2195-2215: divergence(grid<dim,vector<T> >, vector<int>): the result has dim elements, the loop runs over
   the elements of GRID(x) *)
Definition vdivergence (data : list (list Qc)) (x : list Z) : option (list Qc) :=
  do y <- grid_read mpi axs data x;
  do r <- fold_opt (fun '(s, div) i =>
      do p <- probe mpi axs data s i;
      let '(s, yh, yl) := p in
      do h <- get dx i;
      do weight <- recip (c2 * h)%Qc;
      do div <- fold_opt (fun div j =>
        do a <- get yh j; do b <- get yl j; do d <- get div j;
        put div j (d + weight * (a - b))%Qc) (zrange 0 (zlen y)) div;
      Some (s, div)) (zrange 0 (zlen axs)) (x, repeat 0%Qc (length axs));
  Some (snd r).

(* grid.cpp:2217-2232: divergence(grid<dim,T>, vector<int>) *)
Definition divergence (data : list Qc) (x : list Z) : option Qc :=
  do r <- fold_opt (fun '(s, div) i =>
      do p <- probe mpi axs data s i;
      let '(s, yh, yl) := p in
      do h <- get dx i;
      do weight <- recip (c2 * h)%Qc;
      Some (s, div + weight * (yh - yl))%Qc) (zrange 0 (zlen axs)) (x, 0%Qc);
  Some (snd r).

(* for (int i=0; i<nodes(grid); i++) dest(i) = f(i); *)
Definition for_nodes (f : Z -> option Qc) (dest : list Qc) : option (list Qc) :=
  fold_opt (fun d i => do v <- f i; grid_write_int mpi axs d i v) (zrange 0 (nodes axs)) dest.

(* examples/beginners_diffusion/MMSPDiffusion2D.cpp:51-56 with a factor k (0.3 there): one iteration without the ghostswap;
   state: GRID, update *)
Definition diffusion_step (k : Qc) (st : list Qc * list Qc) : option (list Qc * list Qc) :=
  let '(g, u) := st in
  do u <- for_nodes (fun i => do l <- laplacian_at g i; do v <- grid_read_int mpi axs g i; Some (k * l + v)%Qc) u;
  Some (u, g).

(* examples/phase_transitions/cahn-hilliard/explicit/cahn-hilliard.cpp:69-72 *)
Definition potential (r u K : Qc) (old temp : list Qc) : option (list Qc) :=
  for_nodes (fun i => do phi <- grid_read_int mpi axs old i; do l <- laplacian_at old i;
                      Some (- r * phi + u * (phi * phi * phi) - K * l)%Qc) temp.
(* :75-76 *)
Definition flow (dt M : Qc) (old temp new : list Qc) : option (list Qc) :=
  for_nodes (fun i => do v <- grid_read_int mpi axs old i; do l <- laplacian_at temp i; Some (v + dt * M * l)%Qc) new.
(* :65-80 without the ghostswaps, which do nothing in a serial program; state: oldGrid, newGrid, temp *)
Definition cahn_hilliard_step (r u K M dt : Qc) (st : list Qc * list Qc * list Qc) : option (list Qc * list Qc * list Qc) :=
  let '(old, new, temp) := st in
  do temp <- potential r u K old temp;
  do new <- flow dt M old temp new;
  Some (new, old, temp).

(* examples/phase_transitions/allen-cahn/allen-cahn.cpp:65-74 without the ghostswap; state: oldGrid, newGrid *)
Definition allen_cahn_step (r u K M dt : Qc) (st : list Qc * list Qc) : option (list Qc * list Qc) :=
  let '(old, new) := st in
  do new <- for_nodes (fun i => do phi <- grid_read_int mpi axs old i; do l <- laplacian_at old i;
                      Some (phi - dt * M * (- r * phi + u * (phi * phi * phi) - K * l))%Qc) new;
  Some (new, old).

(* for (int step=0; step<steps; step++) *)
Fixpoint repeat_step {S} (n : nat) (f : S -> option S) (s : S) : option S :=
  match n with O => Some s | Datatypes.S m => do s' <- f s; repeat_step m f s' end.
End Ops.
