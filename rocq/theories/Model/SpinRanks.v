(* The Monte Carlo examples that visit nodes at random, MPI build: update() of examples/statistical_mechanics/Ising/ising.cpp:46-123,
   .../Potts/potts.cpp:46-125, .../Heisenberg/heisenberg.cpp:62-145, examples/coarsening/zener_pinning/isotropic/Monte_Carlo/zener.cpp:88-203 and
   .../anisotropic/Monte_Carlo/zener.cpp:89-208 (Model/Spin.v, Model/Heisenberg.v and Model/Zener.v have their serial builds).
   rnd k is the k-th result of rand() on the rank. *)
From Coq Require Import QArith.QArith QArith.Qcanon.
From Verif Require Import Model.Base Model.Num Model.Boundary Model.Layout Model.Access Model.Setup Model.Codec Model.MPI Model.Ghostswap Model.Sparse Model.Stencil
  Model.Spin Model.Evolve Model.Zener Model.Heisenberg.
Local Open Scope list_scope.
Local Open Scope Z_scope.

(* A trial at a node: the new value and the number of random numbers used.  rd o reads the grid at the node displaced by o (rd [] at the node
   itself), the argument of type nat -> Z yields the random numbers after the one that has chosen the node.  The model returns the old value where
   the code leaves the node alone. *)
(* ising.cpp:69-118; J = 2.0, H = 1.0; see ising_attempt *)
Definition ising_trial (d : nat) (hot : Z -> Z -> bool) (rd : list Z -> option Z) (rnd : nat -> Z) : option (Z * nat) :=
  do spin1 <- rd [];
  let spin2 := - spin1 in
  do sum <- fold_opt (fun sum o => do spin <- rd o; Some (sum + (differ spin spin2 - differ spin spin1))) (if (1 <=? Z.of_nat d) && (Z.of_nat d <=? 3) then offsets d else []) (-1);
  let dE := - sum - (spin2 - spin1) in
  Some (if accept hot (rnd 0%nat) dE then spin2 else spin1, 1%nat).
(* potts.cpp:70-119; Q = 20; see potts_offsets and potts_attempt *)
Definition potts_trial (d : nat) (hot : Z -> Z -> bool) (rd : list Z -> option Z) (rnd : nat -> Z) : option (Z * nat) :=
  do spin1 <- rd [];
  let spin2 := Z.rem (rnd 0%nat) 20 in
  do dE <- fold_opt (fun sum o => do spin <- rd o; Some (sum + (differ spin spin2 - differ spin spin1)))
             (if Z.of_nat d =? 2 then map (fun i => [i; 0]) [-1; 0; 1] else if Z.of_nat d =? 3 then offsets 3 else []) (-1);
  Some (if accept hot (rnd 1%nat) dE then spin2 else spin1, 2%nat).
(* heisenberg.cpp:88-139; see turn_attempt *)
Definition turn_trial (d : nat) (direction : Z -> Z -> list Qc) (hot : Z -> Qc -> bool) (rd : list Z -> option (list Qc)) (rnd : nat -> Z) : option (list Qc * nat) :=
  do s1 <- rd [];
  let s2 := direction (rnd 0%nat) (rnd 1%nat) in
  do sum <- fold_opt (fun sum o => do s <- rd o; do q <- product3 s s1 s2; Some (sum + q)%Qc) (if (1 <=? Z.of_nat d) && (Z.of_nat d <=? 3) then offsets d else []) (- (1))%Qc;
  let dE := (- sum)%Qc in
  Some (if negb (qgt dE 0) || hot (rnd 2%nat) dE then s2 else s1, 3%nat).
(* isotropic/Monte_Carlo/zener.cpp:109-197, anisotropic/Monte_Carlo/zener.cpp:110-202; see near_spins, spin_cost and zener_attempt *)
Definition zener_trial (d : nat) (energy : Z -> Z -> Qc) (accept : Z -> Z -> Z -> Qc -> bool) (rd : list Z -> option Z) (rnd : nat -> Z) : option (Z * nat) :=
  let cube := if (1 <=? Z.of_nat d) && (Z.of_nat d <=? 3) then offsets d else [] in
  do spin1 <- rd [];
  if negb (spin1 =? 0) then
    do neighbors <- fold_opt (fun s o => do spin <- rd o; sset_op num_Z s spin (fun _ => 1)) cube [];
    do _ <- guard (negb (zlen neighbors =? 0));
    do spin2 <- sindex neighbors (Z.rem (rnd 0%nat) (zlen neighbors));
    if negb (spin1 =? spin2) && negb (spin2 =? 0) then
      do dE <- fold_opt (fun dE o => do spin <- rd o; Some (dE + (energy spin spin2 - energy spin spin1))%Qc) cube (- energy spin1 spin2)%Qc;
      Some (if accept (rnd 1%nat) spin1 spin2 dE then spin2 else spin1, 2%nat)
    else Some (spin1, 1%nat)
  else Some (spin1, 0%nat).

Section Visits.
Context {T : Type} (trial : (list Z -> option T) -> (nat -> Z) -> option (T * nat)).

(* int p = rand()%nodes(spinGrid); vector<int> x = position(spinGrid,p); ... spinGrid(p) = ...; ising.cpp:66-118, and the same lines of the
   others; the state is the grid and the number of random numbers used *)
Definition visit_one (mpi : bool) (axs : list axis) (rnd : nat -> Z) (st : list T * nat) : option (list T * nat) :=
  let (data, k) := st in
  do _ <- guard (negb (nodes axs =? 0));
  let p := Z.rem (rnd k) (nodes axs) in
  let x := position axs p in
  do r <- trial (fun o => grid_read mpi axs data (vadd x o)) (fun j => rnd (S k + j)%nat);
  do data <- grid_write_int mpi axs data p (fst r);
  Some (data, (S k + snd r)%nat).

(* if (h%gss==0) ghostswap(spinGrid); ising.cpp:120 *)
Definition exchanges (gss h : Z) : bool := Z.rem h gss =? 0.
(* the values that h takes: for (int step=0; step<steps; step++) for (int h=0; h<nodes(spinGrid); h++), ising.cpp:62-66 *)
Definition passes (axs : list axis) (steps : Z) : list Z := flat_map (fun _ => zrange 0 (nodes axs)) (zrange 0 steps).
(* ising.cpp:66-121 for these values.  print_progress is left out *)
Fixpoint rank_visits (c : codec T) (ge : geom) (rnd : nat -> Z) (gss : Z) (hs : list Z) (st : list T * nat) : proc (list T) :=
  match hs with
  | [] => Ret (fst st)
  | h :: hs =>
      lift (visit_one true (ge_axes ge) rnd st) (fun st =>
      if gss =? 0 then Fail else
      if exchanges gss h then ghostswap c ge (fst st) (fun data => rank_visits c ge rnd gss hs (data, snd st))
      else rank_visits c ge rnd gss hs st)
  end.
(* the program of rank r: make the grid with one layer of ghosts, fill it with D r, update(grid, steps); every axs is gss, a function of the
   rank's part of the grid: gss of Model/Spin.v in ising.cpp:59, potts.cpp:60 and heisenberg.cpp:75, nodes in zener.cpp:99 and :100 *)
Definition rank_spins (c : codec T) (every : list axis -> Z) (np : Z) (gs : list gaxis) (rnd : Z -> nat -> Z) (steps : Z) (D : Z -> list T) (r : Z) : proc (list T) :=
  lift (setup_mpi np gs 1 r) (fun ge =>
  ghostswap c ge (D r) (fun data => rank_visits c ge (rnd r) (every (ge_axes ge)) (passes (ge_axes ge) steps) (data, 0%nat))).
End Visits.
