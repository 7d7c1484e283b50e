(* Monte Carlo grain growth run as jobs of include/MMSP.main.hpp: the call update(grid, steps) of one turn of the loop. *)
From Verif Require Import Model.Base Model.Layout Model.Access Model.Setup Model.Codec Model.MPI Model.Ghostswap Model.Spin Model.McRanks.
Local Open Scope Z_scope.

(* update() of examples/coarsening/grain_growth/isotropic/Monte_Carlo/graingrowth.cpp:61-371 and .../anisotropic/Monte_Carlo/graingrowth.cpp:61-376 on a
   rank whose grid has the geometry ge and the cells data: ghostswap (:68), then the sweeps of all steps (see Model/McRanks.v for the arguments).
   dim is the dimension of the grid; clock is what time(NULL) yields on this rank in this turn *)
Definition update_spins (c : codec Z) (hot : Z -> Z -> bool) (sel : list axis -> list Z -> Z -> bool) (rand : Z -> nat -> Z) (fuel : nat)
  (dim : nat) (steps : Z) (clock : Z -> Z -> Z) (ge : geom) (data : list Z) : proc (list Z) :=
  ghostswap c ge data (fun data => rank_sweeps c hot sel rand fuel clock ge (turns dim steps) data).
