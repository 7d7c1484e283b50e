(* The text form of the spacings in a file: include/MMSP.grid.cpp:1388 and 1457 (outstr << dx[i]) and 1235 (input >> dx[i]).  The streams
   are used with their default settings, that is, operator<< writes a double as printf does with "%.6g", and operator>> collects the
   characters of a number and converts them as strtod does.  A double is modelled by the rational number it stands for; near v is the
   double that a number v read from a text is rounded to.  Infinities and NaN are left out. *)
From Coq Require Import QArith.QArith QArith.Qcanon QArith.Qround.
From Verif Require Import Model.Base Model.Num.
Local Open Scope Z_scope.

(* a * 10^e *)
Definition decimal (a e : Z) : Qc := if 0 <=? e then Q2Qc (inject_Z (a * 10 ^ e)) else Q2Qc (inject_Z a / inject_Z (10 ^ (- e))).
(* to the nearest integer, and to the even one of two *)
Definition nearest (q : Qc) : Z :=
  let f := Qfloor q in
  match Qcompare (q - inject_Z f) (1 # 2) with Lt => f | Gt => f + 1 | Eq => if Z.even f then f else f + 1 end.
(* the exponent X with 10^X <= q < 10^(X+1), for q > 0 *)
Definition exponent (q : Qc) : Z :=
  let n := Qnum q in let d := Z.pos (Qden q) in
  match find (fun x => if Qclt_le_dec q (decimal 1 (x + 1)) then true else false) (zrange (- Z.log2 d - 1) (Z.log2 n + 2)) with Some x => x | None => 0 end.
(* "%.6g": six significant digits m and the exponent X of the first one *)
Definition six_digits (q : Qc) : Z * Z :=
  let x := exponent q in
  let m := nearest (q * decimal 1 (5 - x))%Qc in
  if m =? 1000000 then (100000, x + 1) else (m, x).

Definition digits_of (m : Z) : list Z := map (fun k => (m / 10 ^ k) mod 10) [5; 4; 3; 2; 1; 0].
Fixpoint drop_zeros (l : list Z) : list Z := match l with 0 :: l' => drop_zeros l' | _ => l end.
(* trailing zeros are removed *)
Definition strip (l : list Z) : list Z := rev (drop_zeros (rev l)).
Definition chars (l : list Z) : list byte := map (fun d => 48 + d) l.
(* a decimal point is written only before a digit *)
Definition fraction (l : list Z) : list byte := match l with [] => [] | _ => 46 :: chars l end.
(* the exponent, with at least two digits; doubles have exponents below 1000 *)
Definition show_exponent (x : Z) : list byte :=
  let a := Z.abs x in (if x <? 0 then 45 else 43) :: (if a <? 100 then chars [a / 10; a mod 10] else chars [a / 100; (a / 10) mod 10; a mod 10]).
Definition show_positive (q : Qc) : list byte :=
  let '(m, x) := six_digits q in
  let ds := digits_of m in
  if (-4 <=? x) && (x <? 6) then
    if 0 <=? x then chars (firstn (Z.to_nat (x + 1)) ds) ++ fraction (strip (skipn (Z.to_nat (x + 1)) ds))
    else 48 :: 46 :: chars (repeat 0 (Z.to_nat (- x - 1))) ++ chars (strip ds)
  else chars (firstn 1 ds) ++ fraction (strip (skipn 1 ds)) ++ 101 :: show_exponent x.
Definition show_double (q : Qc) : list byte :=
  match Qcompare q 0 with Eq => [48] | Gt => show_positive q | Lt => 45 :: show_positive (- q)%Qc end.

(* strtod *)
Fixpoint take_digits (t : list byte) (a n : Z) : Z * Z * list byte :=
  match t with
  | c :: t' => if (48 <=? c) && (c <=? 57) then take_digits t' (10 * a + (c - 48)) (n + 1) else (a, n, t)
  | [] => (a, n, [])
  end.
Definition take_sign (t : list byte) : bool * list byte :=
  match t with c :: t' => if c =? 45 then (true, t') else if c =? 43 then (false, t') else (false, t) | [] => (false, []) end.
Definition parse_number (t : list byte) : option Qc :=
  let '(neg, t) := take_sign t in
  let '(a, n1, t) := take_digits t 0 0 in
  let '(a, n2, t) := match t with c :: t' => if c =? 46 then take_digits t' a 0 else (a, 0, t) | [] => (a, 0, t) end in
  do _ <- guard (0 <? n1 + n2);
  do x <- match t with
    | [] => Some 0
    | c :: t' => if (c =? 101) || (c =? 69) then
        let '(eneg, t') := take_sign t' in
        let '(x, n, rest) := take_digits t' 0 0 in
        do _ <- guard (0 <? n);
        do _ <- match rest with [] => Some tt | _ => None end;
        Some (if eneg then - x else x)
      else None
    end;
  let v := decimal a (x - n2) in
  Some (if neg then - v else v)%Qc.
Definition parse_double (near : Qc -> Qc) (t : list byte) : option Qc := do v <- parse_number t; Some (near v).
(* strtod rounds to the nearest double, that is, to 53 binary digits and to an even last digit if two doubles are equally near; doubles
   below 2^-1022, which have fewer digits, and overflow are left out *)
Definition pow2 (e : Z) : Qc := if 0 <=? e then Q2Qc (inject_Z (2 ^ e)) else Q2Qc (1 / inject_Z (2 ^ (- e))).
Definition round53 (q : Qc) : Qc :=
  let e := Z.log2 (Qnum q) - Z.log2 (Z.pos (Qden q)) in
  let e := if Qclt_le_dec q (pow2 e) then e - 1 else e in
  (Q2Qc (inject_Z (nearest (q * pow2 (52 - e)))) * pow2 (e - 52))%Qc.
(* the same for numbers of either sign *)
Definition round_double (q : Qc) : Qc := if Qclt_le_dec q 0%Qc then (- round53 (- q))%Qc else round53 q.
