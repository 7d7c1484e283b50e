From Verif Require Import Model.Base.

(* x is a coordinate of the half-open box [lo,hi) : same number of components, each in range. *)
Fixpoint in_box (lo hi x : list Z) : Prop :=
  match lo, hi, x with
  | [], [], [] => True
  | l :: lo', h :: hi', c :: x' => l <= c < h /\ in_box lo' hi' x'
  | _, _, _ => False
  end.

(* lexicographic order = row-major order with the last axis fastest *)
Fixpoint lex_lt (x y : list Z) : Prop :=
  match x, y with
  | a :: x', b :: y' => a < b \/ (a = b /\ lex_lt x' y')
  | _, _ => False
  end.

(* the translation that takes corner [from] to corner [to] *)
Fixpoint translate (from to x : list Z) : list Z :=
  match from, to, x with
  | f :: from', t :: to', c :: x' => (c - f + t) :: translate from' to' x'
  | _, _, _ => []
  end.

(* x is in the box [lo,hi) and differs from lo by an even amount on every axis *)
Fixpoint in_box2 (lo hi x : list Z) : Prop :=
  match lo, hi, x with
  | [], [], [] => True
  | l :: lo', h :: hi', c :: x' => (l <= c < h /\ (c - l) mod 2 = 0) /\ in_box2 lo' hi' x'
  | _, _, _ => False
  end.

(* the box [mn,mx) has the right number of components and lies inside [lo,hi) *)
Fixpoint inside (mn mx lo hi : list Z) : Prop :=
  match mn, mx, lo, hi with
  | [], [], [], [] => True
  | a :: mn', b :: mx', l :: lo', h :: hi' => l <= a /\ b <= h /\ inside mn' mx' lo' hi'
  | _, _, _, _ => False
  end.

(* side lengths *)
Fixpoint extents (mn mx : list Z) : list Z :=
  match mn, mx with a :: mn', b :: mx' => (b - a) :: extents mn' mx' | _, _ => [] end.
