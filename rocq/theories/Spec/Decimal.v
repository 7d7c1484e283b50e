(* Words for C118: decimal numerals. *)
From Verif Require Import Model.Base.
Local Open Scope list_scope.
Local Open Scope Z_scope.

Definition digit (b : byte) : Prop := 48 <= b <= 57.
(* each digit counts ten times as much as the one after it *)
Fixpoint place_value (s : list byte) : Z :=
  match s with [] => 0 | b :: t => (b - 48) * 10 ^ zlen t + place_value t end.
(* digits without zeros in front *)
Definition numeral_of (d : list byte) (m : Z) : Prop :=
  d <> [] /\ Forall digit d /\ (d = [48] \/ hd 0 d <> 48) /\ place_value d = m.
Definition decimal (s : list byte) (n : Z) : Prop :=
  (0 <= n /\ numeral_of s n) \/ (n < 0 /\ exists d, s = 45 :: d /\ numeral_of d (- n)).

Definition blank (b : byte) : Prop := b = 32 \/ 9 <= b <= 13.
(* what may stand before the digits *)
Inductive sign : list byte -> Z -> Prop :=
| unsigned : sign [] 1
| plus_sign : sign [43] 1
| minus_sign : sign [45] (-1).
Definition ends (rest : list byte) : Prop := match rest with [] => True | b :: _ => ~ digit b end.
Definition an_int (n : Z) : Prop := - 2 ^ 31 <= n < 2 ^ 31.
