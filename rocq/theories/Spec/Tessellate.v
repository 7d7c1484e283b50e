From Coq Require Import QArith Qcanon.
From Verif Require Import Model.Base Model.Setup Model.Codec Spec.Bytes Spec.Box.
Local Open Scope Z_scope.

(* squared Euclidean distance of node x and seed s (a seed has three coordinates, whatever the dimension of the grid) *)
Fixpoint dist2 (x s : list Z) : Z :=
  match x, s with a :: x', b :: s' => (a - b) ^ 2 + dist2 x' s' | _, _ => 0 end.

(* seed number k is the first of the seeds nearest to x *)
Definition first_nearest (seeds : list (list Z)) (x : list Z) (k : Z) : Prop :=
  exists s, get seeds k = Some s /\
    forall j t, get seeds j = Some t -> dist2 x s <= dist2 x t /\ (j < k -> dist2 x s < dist2 x t).

(* squared distance on the torus with side lengths L *)
Fixpoint torus_dist2 (L x s : list Z) : Z :=
  match L, x, s with
  | l :: L', a :: x', b :: s' => Z.min ((a - b) mod l) ((b - a) mod l) ^ 2 + torus_dist2 L' x' s'
  | _, _, _ => 0
  end.

(* a seed of the domain: three int coordinates, the first ones inside the box *)
Definition domain_seed (gs : list gaxis) (s : list Z) : Prop :=
  length s = 3%nat /\ Forall int_range s /\ in_box (map gx_0 gs) (map gx_1 gs) (firstn (length gs) s).

(* a line of a seed file: at least n numbers, in [0,1) *)
Definition unit_line (n : nat) (l : list Qc) : Prop := (n <= length l)%nat /\ Forall (fun x => (0 <= x)%Qc /\ (x < 1)%Qc) l.

(* s is the cell of the point whose coordinates on the line are fractions of the side lengths *)
Fixpoint cell_of (gs : list gaxis) (line : list Qc) (s : list Z) : Prop :=
  match gs, line, s with
  | [], _, _ => True
  | g :: gs', x :: line', c :: s' =>
      (inject_Z c <= inject_Z (gx_0 g) + inject_Z (glen g) * this x)%Q /\ (inject_Z (gx_0 g) + inject_Z (glen g) * this x < inject_Z (c + 1))%Q /\
      cell_of gs' line' s'
  | _, _, _ => False
  end.

(* the random numbers: n times one for each axis, each of them non-negative and below the length of its axis (what randInt(length-1) returns) *)
Fixpoint draws_ok (lens : list Z) (n : nat) (rands : list Z) : Prop :=
  match n with
  | O => True
  | S n' => Forall2 (fun L r => 0 <= r <= L - 1) lens (firstn (length lens) rands) /\ draws_ok lens n' (skipn (length lens) rands)
  end.
