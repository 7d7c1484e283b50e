(* Characters and the formatted text input/output of the C++ streams used by MMSP (operator<< and operator>>).
   Models the library, not a particular MMSP function. *)
From Coq Require Import String Ascii.
From Verif Require Import Model.Base.

(* the characters of a literal *)
Fixpoint bytes (s : string) : list byte :=
  match s with EmptyString => [] | String a t => Z.of_nat (nat_of_ascii a) :: bytes t end.

(* os << n : decimal digits, no leading zeros *)
Fixpoint show_nat (fuel : nat) (n : Z) : list byte :=
  match fuel with
  | O => []
  | S f => if n <? 10 then [48 + n] else show_nat f (n / 10) ++ [48 + n mod 10]
  end.
Definition show_int (n : Z) : list byte :=
  if n <? 0 then 45 :: show_nat (S (Z.to_nat (Z.log2 (- n)))) (- n)
  else show_nat (S (Z.to_nat (Z.log2 n))) n.

Definition is_digit (b : byte) : bool := (48 <=? b) && (b <=? 57).
(* isspace in the C locale *)
Definition is_space (b : byte) : bool := (b =? 32) || ((9 <=? b) && (b <=? 13)).

Fixpoint skip_space (s : list byte) : list byte :=
  match s with b :: t => if is_space b then skip_space t else s | [] => [] end.

(* longest prefix of characters satisfying p, and the rest *)
Fixpoint span (p : byte -> bool) (s : list byte) : list byte * list byte :=
  match s with
  | b :: t => if p b then let (u, v) := span p t in (b :: u, v) else ([], s)
  | [] => ([], [])
  end.

Definition digits_val (ds : list byte) : Z := fold_left (fun v d => 10 * v + (d - 48)) ds 0.

(* is >> n for int n (decimal): None when the extraction fails (failbit), otherwise value and rest of the stream *)
Definition read_int (s : list byte) : option (Z * list byte) :=
  let s := skip_space s in
  let '(neg, s) := match s with
                   | b :: t => if b =? 45 then (true, t) else if b =? 43 then (false, t) else (false, s)
                   | [] => (false, s)
                   end in
  let (ds, rest) := span is_digit s in
  match ds with
  | [] => None
  | _ => let v := if neg then - digits_val ds else digits_val ds in
         if (- 2147483648 <=? v) && (v <? 2147483648) then Some (v, rest) else None
  end.

(* the characters operator>>(double&) accumulates: digits, sign, point, exponent.
   Simplification: libstdc++ also stops at a second point or exponent. *)
Definition is_float_char (b : byte) : bool :=
  is_digit b || (b =? 43) || (b =? 45) || (b =? 46) || (b =? 69) || (b =? 101).

(* getline(is, line, '\n') : the line without its end, and the rest *)
Definition getline (s : list byte) : list byte * list byte :=
  let (u, v) := span (fun b => negb (b =? 10)) s in (u, tl v).

(* is.ignore(n, '\n') *)
Fixpoint ignore (n : nat) (s : list byte) : list byte :=
  match n, s with
  | O, _ => s
  | _, [] => []
  | S n', b :: t => if b =? 10 then t else ignore n' t
  end.

(* is.read(p, n) : None when the stream ends before *)
Definition read_n (n : Z) (s : list byte) : option (list byte * list byte) :=
  if (0 <=? n) && (n <=? zlen s) then Some (firstn (Z.to_nat n) s, skipn (Z.to_nat n) s) else None.
