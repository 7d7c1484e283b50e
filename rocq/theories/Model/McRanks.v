(* Monte Carlo grain growth, MPI build: update() of examples/coarsening/grain_growth/isotropic/Monte_Carlo/graingrowth.cpp:61-371 and
   .../anisotropic/Monte_Carlo/graingrowth.cpp:61-376, which differ in the selection probability only (see Model/Spin.v for the sweeps). *)
From Verif Require Import Model.Base Model.Boundary Model.Layout Model.Access Model.Setup Model.Codec Model.MPI Model.Ghostswap Model.Colour Model.Spin.
Local Open Scope Z_scope.

Section Ranks.
(* rand seed k is the k-th result of rand() after srand(seed); sel axs is the selection of nodes, hot the test of exp(-dE/kT); fuel bounds every
   sweep: a sweep that is not over then counts as failed *)
Context (c : codec Z) (hot : Z -> Z -> bool) (sel : list axis -> list Z -> Z -> bool) (rand : Z -> nat -> Z) (fuel : nat).

(* graingrowth.cpp:177-370, for a list of pairs of step and sublattice; clock step sublattice is the result of time(NULL) on this rank.
   print_progress is left out *)
Fixpoint rank_sweeps (clock : Z -> Z -> Z) (ge : geom) (turns : list (Z * Z)) (data : list Z) : proc (list Z) :=
  match turns with
  | [] => Ret data
  | (t, s) :: turns =>
      Coll 1 (pd_enc pod_ulong (clock t s)) (fun ms =>
      lift (get ms 0) (fun m =>
      let seed := pd_dec pod_ulong m in
      lift (sweep true (ge_axes ge) hot (sel (ge_axes ge)) fuel (rand seed) s (0, data, 0%nat)) (fun over =>
      lift over (fun data =>
      barrier (ghostswap_colour c ge s data (rank_sweeps clock ge turns))))))
  end.
(* graingrowth.cpp:171-177: for (int step...) for (int sublattice...) *)
Definition turns (dim : nat) (steps : Z) : list (Z * Z) :=
  flat_map (fun t => map (pair t) (zrange 0 (if Nat.eqb dim 2 then 4 else if Nat.eqb dim 3 then 8 else 0))) (zrange 0 steps).
(* the program of rank r: make the grid with one layer of ghosts, fill it with D r, update(grid, steps) *)
Definition rank_growth (np : Z) (gs : list gaxis) (clock : Z -> Z -> Z -> Z) (steps : Z) (D : Z -> list Z) (r : Z) : proc (list Z) :=
  lift (setup_mpi np gs 1 r) (fun ge =>
  ghostswap c ge (D r) (fun data => rank_sweeps (clock r) ge (turns (length gs) steps) data)).
End Ranks.
