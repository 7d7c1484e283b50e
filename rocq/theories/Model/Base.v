(* Common vocabulary of the model: bounds-checked arrays, C++ loops, the option
   monad used for undefined behaviour.  Nothing here models a particular MMSP function. *)
From Coq Require Export ZArith List Bool Lia.
Export ListNotations.
Global Open Scope Z_scope.

(* None = undefined behaviour or failed assertion. *)
Definition bind {A B} (o : option A) (f : A -> option B) : option B :=
  match o with Some a => f a | None => None end.
Notation "'do' x <- e ; k" := (bind e (fun x => k))
  (at level 200, x pattern, e at level 100, k at level 200, right associativity).

(* guard b: assert(b) *)
Definition guard (b : bool) : option unit := if b then Some tt else None.

(* a[i] for an array a with bounds check *)
Definition get {A} (a : list A) (i : Z) : option A :=
  if i <? 0 then None else nth_error a (Z.to_nat i).

Fixpoint set_nth {A} (n : nat) (a : list A) (v : A) : list A :=
  match n, a with
  | _, [] => []
  | O, _ :: t => v :: t
  | S n', h :: t => h :: set_nth n' t v
  end.

(* a[i] = v with bounds check *)
Definition put {A} (a : list A) (i : Z) (v : A) : option (list A) :=
  if (i <? 0) || (Z.of_nat (length a) <=? i) then None
  else Some (set_nth (Z.to_nat i) a v).

(* the values taken by x in  for (int x=lo; x<hi; x++) *)
Definition zrange (lo hi : Z) : list Z :=
  map (fun k => lo + Z.of_nat k) (seq 0 (Z.to_nat (hi - lo))).

(* the values taken by x in  for (int x=lo; x<hi; x+=2) *)
Definition zrange2 (lo hi : Z) : list Z :=
  map (fun k => lo + 2 * Z.of_nat k) (seq 0 (Z.to_nat ((hi - lo + 1) / 2))).

Fixpoint fold_opt {A S} (f : S -> A -> option S) (l : list A) (s : S) : option S :=
  match l with
  | [] => Some s
  | a :: t => do s' <- f s a; fold_opt f t s'
  end.

Fixpoint map_opt {A B} (f : A -> option B) (l : list A) : option (list B) :=
  match l with
  | [] => Some []
  | a :: t => do b <- f a; do bs <- map_opt f t; Some (b :: bs)
  end.

Definition prodZ (l : list Z) : Z := fold_right Z.mul 1 l.
Definition sumZ (l : list Z) : Z := fold_right Z.add 0 l.

Definition byte := Z.
Definition zlen {A} (l : list A) : Z := Z.of_nat (length l).
Global Arguments prodZ : simpl never.
Global Arguments sumZ : simpl never.
Global Arguments zlen : simpl never.
Global Arguments Z.mul : simpl never.
Global Arguments Z.add : simpl never.
Global Arguments Z.sub : simpl never.
Global Arguments Z.opp : simpl never.
Global Arguments Z.pow : simpl never.
Global Arguments Z.div : simpl never.
Global Arguments Z.modulo : simpl never.
Global Arguments Z.quot : simpl never.
Global Arguments Z.rem : simpl never.
Global Arguments Z.of_nat : simpl never.
Global Arguments Z.to_nat : simpl never.
