(* What the generator is expected to be: the sequence MT19937 of Matsumoto and Nishimura (ACM TOMACS 8, 1998), seeded as
   in their version of 2002. *)
From Verif Require Import Model.Base.
Local Open Scope Z_scope.

Definition word32 (v : Z) : Prop := 0 <= v < 2 ^ 32.

(* the top bit of u followed by the 31 low bits of v *)
Definition joined (u v : Z) : Z := u / 2 ^ 31 * 2 ^ 31 + v mod 2 ^ 31.

(* the recurrence of the sequence x 0, x 1, ... *)
Definition twister (x : Z -> Z) : Prop :=
  forall k, 0 <= k ->
    x (k + 624) = Z.lxor (Z.lxor (x (k + 397)) (joined (x k) (x (k + 1)) / 2))
                         (if Z.odd (x (k + 1)) then 0x9908b0df else 0).

(* its first 624 terms, from a seed *)
Definition start (seed : Z) (x : Z -> Z) : Prop :=
  x 0 = seed mod 2 ^ 32 /\
  forall k, 0 < k < 624 ->
    x k = (1812433253 * Z.lxor (x (k - 1)) (x (k - 1) / 2 ^ 30) + k) mod 2 ^ 32.

(* the output made from a term *)
Definition tempered (v : Z) : Z :=
  let a := Z.lxor v (v / 2 ^ 11) in
  let b := Z.lxor a (Z.land (a * 2 ^ 7) 0x9d2c5680) in
  let c := Z.lxor b (Z.land (b * 2 ^ 15) 0xefc60000) in
  Z.lxor c (c / 2 ^ 18).

(* r is the first element of l that, taken modulo m, is at most n; taken modulo m *)
Fixpoint first_at_most (n m : Z) (l : list Z) : option Z :=
  match l with
  | [] => None
  | v :: t => if v mod m <=? n then Some (v mod m) else first_at_most n m t
  end.

(* Seeding with an array (init_by_array of the version of 2002), written as one sequence u: the 624 terms started from the number
   19650218, then max(624, n) terms that mix in the elements of the array cyclically, then 623 terms that mix in their place.
   The place of the k-th new term among the places 1 ... 623 is 1 + (k - 1) mod 623. *)
Definition scrambled (v : Z) : Z := Z.lxor v (v / 2 ^ 30).
Definition rounds (big : list Z) : Z := Z.max 624 (zlen big).
Definition array_terms (big : list Z) (u : Z -> Z) : Prop :=
  start 19650218 u /\
  (forall k v, 1 <= k <= rounds big -> get big ((k - 1) mod zlen big) = Some v ->
     u (623 + k) = (Z.lxor (u k) (scrambled (if k =? 1 then u 0 else u (622 + k)) * 1664525) + v + (k - 1) mod zlen big) mod 2 ^ 32) /\
  (forall k, rounds big < k <= rounds big + 623 ->
     u (623 + k) = (Z.lxor (u k) (scrambled (u (622 + k)) * 1566083941) - (1 + (k - 1) mod 623)) mod 2 ^ 32).
(* the first 624 terms of the sequence of the generator: 2^31, then the last term u has at each place *)
Definition array_start (big : list Z) (x : Z -> Z) : Prop :=
  x 0 = 2 ^ 31 /\
  exists u, array_terms big u /\ forall k, rounds big < k <= rounds big + 623 -> x (1 + (k - 1) mod 623) = u (623 + k).
