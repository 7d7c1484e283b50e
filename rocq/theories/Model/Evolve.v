(* Sparse multiphase fields: the sparse laplacian (include/MMSP.grid.cpp:2110-2129), algorithms/evolvers.cpp:17-87 and the
   update of examples/coarsening/grain_growth/isotropic/sparsePF/graingrowth.cpp:58-120.  Doubles are modelled by rational
   numbers with exact arithmetic. *)
From Coq Require Import QArith.QArith QArith.Qcanon.
From Verif Require Import Model.Base Model.Num Model.Layout Model.Access Model.Sparse Model.Stencil.

Definition qgt (a b : Qc) : bool := if Qclt_le_dec b a then true else false.
Definition num_Qc : num Qc := mkNum 0%Qc Qcplus Qcminus Qcmult qgt (fun a b => if Qc_eq_dec a b then true else false) (- (1))%Qc.
Definition q_of (z : Z) : Qc := Q2Qc (inject_Z z).
(* 1.0e-8, 0.01, 0.5; the decimal numbers themselves, not the nearest doubles *)
Definition cutoff : Qc := Q2Qc (1 # 100000000).
Definition hundredth : Qc := Q2Qc (1 # 100).
Definition half : Qc := Q2Qc (1 # 2).

Section Evolve.
Context (mpi : bool) (axs : list axis) (dx : list Qc).

(* x += y for two sparse objects *)
Definition add_to (x y : sobj Qc) : option (sobj Qc) := do st <- saccum num_Qc Qcplus [x; y] 0 1; get st 0.
(* x = y for two sparse objects *)
Definition assign_from (x y : sobj Qc) : option (sobj Qc) := do st <- sassign [x; y] 0 1; get st 0.

(* grid.cpp:2110-2129: laplacian(grid<dim,sparse<T> >, vector<int>) *)
Definition slaplacian (data : list (sobj Qc)) (x : list Z) : option (sobj Qc) :=
  do y <- grid_read mpi axs data x;
  do r <- fold_opt (fun '(s, lap) i =>
      do p <- probe mpi axs data s i;
      let '(s, yh, yl) := p in
      do h <- get dx i;
      do weight <- recip (h * h)%Qc;
      do y2 <- stimes num_Qc c2 y;
      do d <- sminus num_Qc yh y2;
      do d <- splus num_Qc d yl;
      do d <- stimes num_Qc weight d;
      do lap <- add_to lap d;
      Some (s, lap)) (zrange 0 (zlen axs)) (x, []);
  Some (snd r).

(* evolvers.cpp:25-34, graingrowth.cpp:80-88: the indices of the fields at the node and its neighbours, for each j and each
   k in {-1, 0, 1}: x[j] += k; ...; x[j] -= k *)
Definition neighbourhood (former : list (sobj Qc)) (x : list Z) : option (sobj Z) :=
  do r <- fold_opt (fun '(x, s) j =>
      fold_opt (fun '(x, s) k =>
        do x <- shift x j k;
        do cell <- grid_read mpi axs former x;
        do s <- fold_opt (fun s h => do i <- sindex cell h; sset_op num_Z s i (fun _ => 1)) (zrange 0 (zlen cell)) s;
        do x <- shift x j (- k);
        Some (x, s)) (zrange (-1) 2) (x, s)) (zrange 0 (zlen axs)) (x, []);
  Some (snd r).

(* the double loop "for h: for j > h: f(index h, index j)" of :47-55 and :60-67 *)
Definition pairs (s : sobj Z) (f : sobj Qc -> Z -> Z -> option (sobj Qc)) : option (sobj Qc) :=
  fold_opt (fun acc h => do hi <- sindex s h;
    fold_opt (fun acc j => do ji <- sindex s j; f acc hi ji) (zrange (h + 1) (zlen s)) acc) (zrange 0 (zlen s)) [].

(* :45-55 *)
Definition derivatives (epsilon w : Qc) (cell lap : sobj Qc) (s : sobj Z) : option (sobj Qc) :=
  pairs s (fun d hi ji =>
    do lj <- sread num_Qc lap ji; do pj <- sread num_Qc cell ji;
    do d <- sset_op num_Qc d hi (fun a => a + (half * epsilon * epsilon * lj + w * pj))%Qc;
    do lh <- sread num_Qc lap hi; do ph <- sread num_Qc cell hi;
    sset_op num_Qc d ji (fun a => a + (half * epsilon * epsilon * lh + w * ph))%Qc).
(* :58-67 *)
Definition rates (mu : Qc) (dFdp : sobj Qc) (s : sobj Z) : option (sobj Qc) :=
  pairs s (fun r hi ji =>
    do fh <- sread num_Qc dFdp hi; do fj <- sread num_Qc dFdp ji;
    do r <- sset_op num_Qc r hi (fun a => a - mu * (fh - fj))%Qc;
    sset_op num_Qc r ji (fun a => a - mu * (fj - fh))%Qc).

(* :70-78; result: latter(node), sum *)
Definition new_values (dt : Qc) (cell dpdt : sobj Qc) (s : sobj Z) (latter : sobj Qc) : option (sobj Qc * Qc) :=
  fold_opt (fun '(latter, sum) h =>
    do i <- sindex s h;
    do a <- sread num_Qc cell i;
    do d <- sread num_Qc dpdt i;
    let value := (a + dt * (c2 / q_of (zlen s)) * d)%Qc in
    let value := if qgt value 1 then 1%Qc else value in
    let value := if qgt 0 value then 0%Qc else value in
    do latter <- (if qgt value cutoff then sset_op num_Qc latter i (fun _ => value) else Some latter);
    do v <- sread num_Qc latter i;
    Some (latter, sum + v)%Qc) (zrange 0 (zlen s)) (latter, 0%Qc).

(* :17-87: interface_field_evolves on one node.  former and latter are different grids; the parameters width and gamma are not
   used; the last loop is that of operator*= (sscale).  fabs(sum) > 0.0 is sum <> 0. *)
Definition evolve (dt epsilon w mu : Qc) (former latter : list (sobj Qc)) (node : Z) : option (list (sobj Qc)) :=
  let x := position axs node in
  do s <- neighbourhood former x;
  do cell <- grid_read_int mpi axs former node;
  do mine <- grid_read_int mpi axs latter node;
  do result <-
    (if zlen s <? 2 then assign_from mine cell
     else
       do lap <- slaplacian former x;
       do dFdp <- derivatives epsilon w cell lap s;
       do dpdt <- rates mu dFdp s;
       do r <- new_values dt cell dpdt s mine;
       let rsum := if Qc_eq_dec (snd r) 0 then 0%Qc else (/ snd r)%Qc in
       sscale num_Qc (fst r) (Outside rsum));
  grid_write_int mpi axs latter node result.

(* a time step of a program that calls it: for every node, then swap(former,latter); state: former, latter *)
Definition evolve_step (dt epsilon w mu : Qc) (st : list (sobj Qc) * list (sobj Qc)) : option (list (sobj Qc) * list (sobj Qc)) :=
  let '(former, latter) := st in
  do latter <- fold_opt (evolve dt epsilon w mu former) (zrange 0 (nodes axs)) latter;
  Some (latter, former).

(* graingrowth.cpp:77-115: one node of the sparse phase-field example *)
Definition grow (former latter : list (sobj Qc)) (node : Z) : option (list (sobj Qc)) :=
  let x := position axs node in
  do s <- neighbourhood former x;
  do cell <- grid_read_int mpi axs former node;
  do mine <- grid_read_int mpi axs latter node;
  do result <-
    (if zlen s <? 2 then assign_from mine cell
     else
       do lap <- slaplacian former x;
       do sum <- fold_opt (fun sum j => do phi <- svalue cell j; Some (sum + phi * phi)%Qc) (zrange 0 (zlen cell)) 0%Qc;
       fold_opt (fun mine j =>
         do i <- sindex s j;
         do phi <- sread num_Qc cell i;
         do l <- sread num_Qc lap i;
         let value := (phi - hundredth * (- phi - phi * phi * phi + c2 * (phi * sum - l)))%Qc in
         if qgt value cutoff then sset_op num_Qc mine i (fun _ => value) else Some mine) (zrange 0 (zlen s)) mine);
  grid_write_int mpi axs latter node result.
(* :73-118: one time step without the ghostswap; state: oldGrid, newGrid *)
Definition grow_step (st : list (sobj Qc) * list (sobj Qc)) : option (list (sobj Qc) * list (sobj Qc)) :=
  let '(former, latter) := st in
  do latter <- fold_opt (grow former) (zrange 0 (nodes axs)) latter;
  Some (latter, former).
End Evolve.
Fixpoint iterate {S} (n : nat) (f : S -> option S) (s : S) : option S :=
  match n with O => Some s | Datatypes.S n' => do s' <- f s; iterate n' f s' end.
