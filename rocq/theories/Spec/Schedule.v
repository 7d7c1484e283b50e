From Verif Require Import Model.Base Model.MPI.

(* Whatever the interleaving of the ranks, the delays of messages and the buffering of sends:
   the execution from s takes a fixed number of steps, is never blocked before the end
   (MPI always guarantees that some further step can be taken) and ends in the state f. *)
Definition inevitable {A} (s f : state A) : Prop :=
  exists n, forall k s', steps k s s' ->
    (k < n)%nat /\ (exists s'', step true s' s'') \/ k = n /\ s' = f.

(* all ranks have returned, rank r with value a r, and no message is left over *)
Definition finished {A} (np : Z) (a : Z -> A) (s : state A) : Prop :=
  fst s = ranks np (fun r => Ret (a r)) /\ forall x y t, chan (snd s) x y t = [].
