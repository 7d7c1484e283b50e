From Verif Require Import Model.Base Model.Boundary Model.Layout Model.Setup Model.MPI Model.Spin Spec.Box Spec.Decomp.
Local Open Scope list_scope.
Local Open Scope Z_scope.

(* The field of values at the nodes *)
Definition same_node (x y : list Z) : bool := if list_eq_dec Z.eq_dec x y then true else false.
Definition write_node {T} (L : list Z -> T) (x : list Z) (v : T) : list Z -> T := fun y => if same_node y x then v else L y.
Definition is_own (ge : geom) (y : list Z) : bool := (zlen y =? zlen (ge_axes ge)) && forallb (fun '(c, a) => (a_x0 a <=? c) && (c <? a_x1 a)) (combine y (ge_axes ge)).
(* What a rank sees at y while it works: its own nodes as they are now, L; all other nodes, and its own nodes across a periodic side of the domain,
   as they were when ghosts were exchanged last, F. *)
Definition sees {T} (gs : list gaxis) (ge : geom) (F L : list Z -> T) (y : list Z) : T := if is_own ge y then L y else F (wrap gs y).

Section Rounds.
Context {T : Type} (trial : (list Z -> option T) -> (nat -> Z) -> option (T * nat)) (gs : list gaxis) (G : Z -> geom) (rnd : Z -> nat -> Z).

(* n trials of rank r, each at the node that the next random number picks among its own, with what the rank sees *)
Inductive trials (r : Z) (F : list Z -> T) : nat -> (list Z -> T) * nat -> (list Z -> T) * nat -> Prop :=
| trials_0 st : trials r F 0 st st
| trials_S n L k v u st : let x := position (ge_axes (G r)) (rnd r k mod nodes (ge_axes (G r))) in
    trial (fun o => Some (sees gs (G r) F L (vadd x o))) (fun j => rnd r (S k + j)%nat) = Some (v, u) ->
    trials r F n (write_node L x v, (S k + u)%nat) st -> trials r F (S n) (L, k) st.

(* The ranks 0..np-1 together.  ms r tells how many trials rank r makes before each exchange, rest r how many after the last one.  An exchange
   makes the values of all ranks the new common field.  The result: the field of the last exchange, and the ranks' own fields. *)
Inductive rounds (np : Z) : nat -> (Z -> list nat) -> (Z -> nat) -> (list Z -> T) -> (Z -> (list Z -> T) * nat) -> (list Z -> T) -> (Z -> list Z -> T) -> Prop :=
| rounds_end ms rest F st L : (forall r, 0 <= r < np -> ms r = [] /\ exists k, trials r F (rest r) (st r) (L r, k)) -> rounds np 0 ms rest F st F L
| rounds_next n ms rest F st m ms' L k F' F'' L'' :
    (forall r, 0 <= r < np -> ms r = m r :: ms' r /\ trials r F (m r) (st r) (L r, k r)) ->
    (forall r y, 0 <= r < np -> owns (G r) y -> F' y = L r y) ->
    rounds np n ms' rest F' (fun r => (F', k r)) F'' L'' ->
    rounds np (S n) ms rest F st F'' L''.
End Rounds.

(* the trials before each exchange, and after the last one, when an exchange follows those marked with true *)
Fixpoint before_each (m : nat) (l : list bool) : list nat := match l with [] => [] | b :: l => if b then S m :: before_each 0 l else before_each (S m) l end.
Fixpoint after_last (m : nat) (l : list bool) : nat := match l with [] => m | b :: l => after_last (if b then 0%nat else S m) l end.
(* n passes of the inner loop with an exchange after those whose number is divisible by g, s times *)
Definition marks (n g s : Z) : list bool := flat_map (fun _ => map (fun h => h mod g =? 0) (zrange 0 n)) (zrange 0 s).
(* exchanges in one step *)
Definition swaps_per_step (n g : Z) : Z := zlen (filter (fun h => h mod g =? 0) (zrange 0 n)).

(* all nodes within one step along every axis, or the node itself *)
Definition near (d : nat) (o : list Z) : Prop := o = [] \/ length o = d /\ Forall (fun i => -1 <= i <= 1) o.
(* a trial that looks no further, is defined on valid values and yields valid values *)
Definition local_trial {T} (valid : T -> Prop) (d : nat) (trial : (list Z -> option T) -> (nat -> Z) -> option (T * nat)) : Prop :=
  (forall rd rd' rnd, (forall o, near d o -> rd o = rd' o) -> trial rd rnd = trial rd' rnd) /\
  (forall rd rnd, (forall j, 0 <= rnd j) -> (forall o, near d o -> exists v, rd o = Some v /\ valid v) -> exists v u, trial rd rnd = Some (v, u) /\ valid v).
