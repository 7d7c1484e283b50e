From Coq Require Import String.
From Verif Require Import Model.Base Model.Num.

(* the values of ranks 0..np-1 combined from left to right with f *)
Definition combined {T} (f : T -> T -> T) (np : Z) (v : Z -> T) : T :=
  fold_left f (map v (zrange 1 np)) (v 0).

(* m is the least / greatest of the values of ranks 0..np-1 *)
Definition least {T} (N : num T) (np : Z) (v : Z -> T) (m : T) : Prop :=
  (exists r, 0 <= r < np /\ m = v r) /\ forall r, 0 <= r < np -> n_gt N m (v r) = false.
Definition greatest {T} (N : num T) (np : Z) (v : Z -> T) (m : T) : Prop :=
  (exists r, 0 <= r < np /\ m = v r) /\ forall r, 0 <= r < np -> n_gt N (v r) m = false.
