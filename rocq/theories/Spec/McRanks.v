From Verif Require Import Model.Base Model.Layout Model.Setup Model.Spin Spec.Box Spec.Decomp.
Local Open Scope Z_scope.

(* The attempts of a rank with geometry ge in the sweep of sublattice s.  rnd is its sequence of random numbers, of which the first k are used
   up.  Every attempt is at a node of the rank, the one that its first number selects, and uses the three numbers after that one; an attempt
   begins after the first number of the one before. *)
Inductive drawn (ge : geom) (s : Z) (rnd : nat -> Z) : nat -> list attempt -> Prop :=
| drawn_nil k : drawn ge s rnd k []
| drawn_cons k k' x l : (k <= k')%nat -> x = site_of (ge_axes ge) s (rnd k' mod num_lattice_cells (ge_axes ge)) -> owns ge x -> of_sublattice s x ->
    drawn ge s rnd (S k') l -> drawn ge s rnd k (mkAttempt x (rnd (S k')) (rnd (S (S k'))) (rnd (S (S (S k')))) :: l).
