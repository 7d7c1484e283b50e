(* The random number generator: class MTRand of algorithms/MersenneTwister.h.  uint32 is unsigned long, 64 bits.
   Doubles are rational numbers with exact arithmetic.  Not modelled: seeding from /dev/urandom or the clock (:142-165,
   :242-263), and randNorm (:343-357). *)
From Coq Require Import QArith.QArith QArith.Qcanon.
From Verif Require Import Model.Base Model.Text Model.File.
Local Open Scope list_scope.
Local Open Scope Z_scope.

(* :75, :79 *)
Definition mt_n : Z := 624.
Definition mt_m : Z := 397.
(* arithmetic of unsigned long *)
Definition u64 (v : Z) : Z := v mod 18446744073709551616.
Definition ones32 : Z := 4294967295.   (* 0xffffffffUL *)

(* :81-83; pNext is an index into state *)
Record mtrand := mkMT { mt_state : list Z; mt_next : Z; mt_left : Z }.

(* :128-136: hiBit | loBits of u, v; magic; twist *)
Definition mix_bits (u v : Z) : Z := Z.lor (Z.land u 2147483648) (Z.land v 2147483647).
Definition magic (u : Z) : Z := if Z.land u 1 =? 0 then 0 else 2567483615.
Definition twist (m s0 s1 : Z) : Z := Z.lxor (Z.lxor m (Z.shiftr (mix_bits s0 s1) 1)) (magic s1).

(* :167-182: initialize; the loop writes *s and reads *r, the element before *)
Definition initialize (state : list Z) (seed : Z) : option (list Z) :=
  do s <- put state 0 (Z.land seed ones32);
  fold_opt (fun s i =>
    do r <- get s (i - 1);
    put s i (Z.land (u64 (u64 (1812433253 * Z.lxor r (Z.shiftr r 30)) + i)) ones32)) (zrange 1 mt_n) s.

(* :184-198: reload *)
Definition reload (g : mtrand) : option mtrand :=
  let step (s : list Z) (p a c : Z) :=
    do x <- get s a; do y <- get s p; do z <- get s c; put s p (twist x y z) in
  do s <- fold_opt (fun s p => step s p (p + mt_m) (p + 1)) (zrange 0 (mt_n - mt_m)) (mt_state g);
  do s <- fold_opt (fun s p => step s p (p + (mt_m - mt_n)) (p + 1)) (zrange (mt_n - mt_m) (mt_n - 1)) s;
  do s <- step s (mt_n - 1) (mt_n - 1 + (mt_m - mt_n)) 0;
  Some (mkMT s 0 mt_n).

(* :200-205: seed(oneSeed) *)
Definition seed_one (g : mtrand) (seed : Z) : option mtrand :=
  do s <- initialize (mt_state g) seed;
  reload (mkMT s (mt_next g) (mt_left g)).

(* :207-240: seed(bigSeed, seedLength), the array being as long as seedLength says; st = (state, i, j).
   k = max(N, seedLength) is taken to be in the range of int. *)
Definition wrap_row (s : list Z) (i : Z) : option (list Z * Z) :=   (* :226, :236 *)
  if mt_n <=? i then do v <- get s (mt_n - 1); do s <- put s 0 v; Some (s, 1) else Some (s, i).
Definition mix_one (big : list Z) (st : list Z * Z * Z) : option (list Z * Z * Z) :=   (* :221-227 *)
  let '(s, i, j) := st in
  do a <- get s i; do b <- get s (i - 1);
  do v <- get big j;
  let x := Z.lxor a (u64 (Z.lxor b (Z.shiftr b 30) * 1664525)) in
  let x := u64 (x + u64 (Z.land v ones32 + j)) in
  do s <- put s i (Z.land x ones32);
  do w <- wrap_row s (i + 1);
  Some (fst w, snd w, if zlen big <=? j + 1 then 0 else j + 1).
Definition mix_two (st : list Z * Z) : option (list Z * Z) :=   (* :231-236 *)
  let '(s, i) := st in
  do a <- get s i; do b <- get s (i - 1);
  let x := Z.lxor a (u64 (Z.lxor b (Z.shiftr b 30) * 1566083941)) in
  let x := u64 (x - i) in
  do s <- put s i (Z.land x ones32);
  wrap_row s (i + 1).
Definition seed_many (g : mtrand) (big : list Z) : option mtrand :=
  do s <- initialize (mt_state g) 19650218;
  do st <- fold_opt (fun st _ => mix_one big st) (zrange 0 (Z.max mt_n (zlen big))) (s, 1, 0);
  let '(s, i, _) := st in
  do st <- fold_opt (fun st _ => mix_two st) (zrange 1 mt_n) (s, i);
  do s <- put (fst st) 0 2147483648;
  reload (mkMT s (mt_next g) (mt_left g)).

(* an object before its constructor has run: 624 words of any value *)
Definition raw_object (junk : list Z) : mtrand := mkMT junk 0 0.

(* :294-297: the tempering of a word *)
Definition temper (s1 : Z) : Z :=
  let s1 := Z.lxor s1 (Z.shiftr s1 11) in
  let s1 := Z.lxor s1 (Z.land (u64 (Z.shiftl s1 7)) 2636928640) in
  let s1 := Z.lxor s1 (Z.land (u64 (Z.shiftl s1 15)) 4022730752) in
  Z.lxor s1 (Z.shiftr s1 18).
(* :284-298: randInt() *)
Definition rand_int (g : mtrand) : option (Z * mtrand) :=
  do g <- (if mt_left g =? 0 then reload g else Some g);
  do s1 <- get (mt_state g) (mt_next g);
  Some (temper s1, mkMT (mt_state g) (mt_next g + 1) (mt_left g - 1)).
(* n calls of randInt(), in order *)
Fixpoint draws (n : nat) (g : mtrand) : option (list Z * mtrand) :=
  match n with
  | O => Some ([], g)
  | S n' => do (v, g) <- rand_int g; do (l, g) <- draws n' g; Some (v :: l, g)
  end.

(* :304-309 *)
Definition used_bits (n : Z) : Z :=
  let used := Z.lor n (Z.shiftr n 1) in
  let used := Z.lor used (Z.shiftr used 2) in
  let used := Z.lor used (Z.shiftr used 4) in
  let used := Z.lor used (Z.shiftr used 8) in
  Z.lor used (Z.shiftr used 16).
(* :300-317: randInt(n), at most fuel draws; Some None: still drawing *)
Fixpoint rand_below (fuel : nat) (n : Z) (g : mtrand) : option (option (Z * mtrand)) :=
  match fuel with
  | O => Some None
  | S f => do (v, g) <- rand_int g;
           let i := Z.land v (used_bits n) in
           if n <? i then rand_below f n g else Some (Some (i, g))
  end.

(* :319-341: the real numbers made from the 32-bit numbers v, w *)
Definition q (z : Z) : Qc := Q2Qc (inject_Z z).
Definition real_closed (v : Z) : Qc := (q v * / q 4294967295)%Qc.             (* rand() *)
Definition real_half_open (v : Z) : Qc := (q v * / q 4294967296)%Qc.          (* randExc() *)
Definition real_open (v : Z) : Qc := ((q v + / q 2) * / q 4294967296)%Qc.     (* randDblExc() *)
Definition real53 (v w : Z) : Qc := ((q (Z.shiftr v 5) * q 67108864 + q (Z.shiftr w 6)) * / q 9007199254740992)%Qc.   (* rand53() *)

(* :364-371: save *)
Definition save (g : mtrand) : list Z := mt_state g ++ [mt_left g].
(* :373-381: load into an existing object *)
Definition load (g : mtrand) (a : list Z) : option mtrand :=
  do s <- map_opt (get a) (zrange 0 mt_n);
  do l <- get a mt_n;
  Some (mkMT s (mt_n - l) l).
(* :274-282, :401-411: copy *)
Definition copy_of (o : mtrand) : mtrand := mkMT (mt_state o) (mt_n - mt_left o) (mt_left o).

(* :383-389: os << generator; 9 is the tab character *)
Definition show_mt (g : mtrand) : list byte := flat_map (fun v => show_int v ++ [9]) (mt_state g) ++ show_int (mt_left g).
(* is >> unsigned long.  Simplification: a sign is not accepted *)
Definition read_ulong (s : list byte) : option (Z * list byte) :=
  let (ds, rest) := span is_digit (skip_space s) in
  match ds with
  | [] => None
  | _ => if digits_val ds <? 18446744073709551616 then Some (digits_val ds, rest) else None
  end.
Fixpoint read_words (n : nat) (s : list byte) : option (list Z * list byte) :=
  match n with
  | O => Some ([], s)
  | S n' => do (v, s) <- read_ulong s; do (l, s) <- read_words n' s; Some (v :: l, s)
  end.
(* :391-399: is >> generator *)
Definition read_mt (s : list byte) : option mtrand :=
  do (st, s) <- read_words (Z.to_nat mt_n) s;
  do (l, s) <- read_int s;
  Some (mkMT st (mt_n - l) l).
