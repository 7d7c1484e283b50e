From Verif Require Import Model.Base Model.Num.

(* A sparse<T> is the array data[0..size-1] of its items (index, value); None is an uninitialised item.
   Reading an uninitialised item is undefined behaviour.  Several objects live in a store, so that a function can be
   given the same object twice. *)
Definition sobj (T : Type) := list (option (Z * T)).
Definition sstore (T : Type) := list (sobj T).

Section Sparse.
Context {T : Type} (N : num T).

(* the loops "for i: if (data[i].index == index)" of set and operator[] : position of the first match *)
Fixpoint sfind (o : sobj T) (k : Z) : option (option nat) :=
  match o with
  | [] => Some None
  | None :: _ => None
  | Some (j, _) :: t => if j =? k then Some (Some O) else do r <- sfind t k; Some (option_map S r)
  end.

(* include/MMSP.sparse.cpp:67-89: set; the returned reference is the position in data *)
Definition sset (o : sobj T) (k : Z) : option (sobj T * Z) :=
  do r <- sfind o k;
  match r with
  | Some p => Some (o, Z.of_nat p)
  | None => Some (o ++ [Some (k, n_zero N)], zlen o)
  end.

(* include/MMSP.sparse.cpp:126-136: index, value *)
Definition sitem (o : sobj T) (i : Z) : option (Z * T) :=
  do c <- get o i; c.
Definition sindex (o : sobj T) (i : Z) : option Z := do c <- sitem o i; Some (fst c).
Definition svalue (o : sobj T) (i : Z) : option T := do c <- sitem o i; Some (snd c).

(* include/MMSP.sparse.cpp:91-97: operator[] *)
Definition sread (o : sobj T) (k : Z) : option T :=
  do r <- sfind o k;
  match r with
  | Some p => svalue o (Z.of_nat p)
  | None => Some (n_zero N)
  end.

(* ref = f(ref) for a reference into data *)
Definition supd (o : sobj T) (p : Z) (f : T -> T) : option (sobj T) :=
  do c <- sitem o p; put o p (Some (fst c, f (snd c))).

(* x.set(k) op= v *)
Definition sset_op (o : sobj T) (k : Z) (f : T -> T) : option (sobj T) :=
  do r <- sset o k; supd (fst r) (snd r) f.

(* include/MMSP.sparse.cpp:35-49: x = y *)
Definition sassign (st : sstore T) (x y : Z) : option (sstore T) :=
  do oy <- get st y;
  let size := zlen oy in
  do st <- put st x (repeat None (Z.to_nat size));
  fold_opt (fun st i =>
    do oy <- get st y;
    do it <- sitem oy i;
    do ox <- get st x;
    do ox <- put ox i (Some it);
    put st x ox) (zrange 0 size) st.

(* include/MMSP.sparse.cpp:189-198: x.copy(y); memcpy between the same uninitialised storage is undefined *)
Definition scopy (st : sstore T) (x y : Z) : option (sstore T) :=
  do oy <- get st y;
  do st <- put st x (repeat None (length oy));
  do oy <- get st y;
  do its <- map_opt (fun c => c) oy;
  put st x (map Some its).

(* include/MMSP.sparse.cpp:200-208: swap *)
Definition sswap (st : sstore T) (x y : Z) : option (sstore T) :=
  do ox <- get st x;
  do oy <- get st y;
  do st <- put st x oy;
  put st y ox.

(* include/MMSP.sparse.cpp:247-253 and :267-273: x += y, x -= y *)
Definition saccum (f : T -> T -> T) (st : sstore T) (x y : Z) : option (sstore T) :=
  do oy <- get st y;
  fold_opt (fun st i =>
    do oy <- get st y;
    do it <- sitem oy i;
    do ox <- get st x;
    do ox <- sset_op ox (fst it) (fun a => f a (snd it));
    put st x ox) (zrange 0 (zlen oy)) st.

(* The right operand of *= is a reference: to a variable outside, or to the value at position p of x itself
   (obtained by x.set). *)
Inductive sref := Outside (c : T) | Inside (p : Z).
Definition deref (ox : sobj T) (r : sref) : option T :=
  match r with Outside c => Some c | Inside p => svalue ox p end.

(* include/MMSP.sparse.cpp:287-293: x *= value *)
Definition sscale (ox : sobj T) (r : sref) : option (sobj T) :=
  fold_opt (fun ox i =>
    do k <- sindex ox i;
    do c <- deref ox r;
    sset_op ox k (fun a => n_mul N a c)) (zrange 0 (zlen ox)) ox.

(* the loop "for i < N: z.set(x.index(i)) = f(z.set(x.index(i)), x.index(i), x.value(i))" of the functions that build a result z *)
Definition sfill (f : Z -> T -> T -> option T) (z x : sobj T) : option (sobj T) :=
  fold_opt (fun z i =>
    do it <- sitem x i;
    do r <- sset z (fst it);
    do a <- svalue (fst r) (snd r);
    do b <- f (fst it) a (snd it);
    supd (fst r) (snd r) (fun _ => b)) (zrange 0 (zlen x)) z.

(* include/MMSP.sparse.cpp:255-265, :275-285: x + y, x - y *)
Definition splus (x y : sobj T) : option (sobj T) :=
  do z <- sfill (fun _ a v => Some (n_add N a v)) [] x;
  sfill (fun _ a v => Some (n_add N a v)) z y.
Definition sminus (x y : sobj T) : option (sobj T) :=
  do z <- sfill (fun _ a v => Some (n_add N a v)) [] x;
  sfill (fun _ a v => Some (n_sub N a v)) z y.
(* :295-302: value * x *)
Definition stimes (c : T) (x : sobj T) : option (sobj T) :=
  sfill (fun _ _ v => Some (n_mul N c v)) [] x.
(* :211-245: max, min *)
Definition smax (x y : sobj T) : option (sobj T) :=
  do z <- sfill (fun k _ v => do w <- sread y k; Some (n_max N v w)) [] x;
  sfill (fun k _ v => do w <- sread x k; Some (n_max N v w)) z y.
Definition smin (x y : sobj T) : option (sobj T) :=
  do z <- sfill (fun k _ v => do w <- sread y k; Some (n_min N v w)) [] x;
  sfill (fun k _ v => do w <- sread x k; Some (n_min N v w)) z y.

(* the inner loop of operator==: the entry of b with the same index matches *)
Fixpoint smatch (b : sobj T) (k : Z) (v : T) : option bool :=
  match b with
  | [] => Some false
  | None :: _ => None
  | Some (j, w) :: t => if k =? j then Some (n_eq N v w) else smatch t k v
  end.
(* include/MMSP.sparse.cpp:315-333: operator== *)
Fixpoint seq_loop (a b : sobj T) : option bool :=
  match a with
  | [] => Some true
  | None :: _ => None
  | Some (k, v) :: t => do m <- smatch b k v; if m then seq_loop t b else Some false
  end.
Definition seqb (a b : sobj T) : option bool :=
  if zlen a =? zlen b then seq_loop a b else Some false.

(* include/MMSP.sparse.cpp:99-112: grain_id; conversion of int to unsigned int, assertion at the end *)
Definition grain_id (o : sobj T) : option Z :=
  do r <- fold_opt (fun s c =>
    do it <- c;
    Some (if n_gt N (snd it) (snd s) then (fst it mod 2 ^ 32, snd it) else s)) o (0, n_minus1 N);
  do _ <- guard (fst r <? 2 ^ 32 - 1);
  Some (fst r).

(* statements of a program on sparse variables *)
Inductive sop :=
| SSet (x k : Z) (v : T)            (* x.set(k) = v *)
| SAssign (x y : Z)                 (* x = y *)
| SCopy (x y : Z)                   (* x.copy(y) *)
| SSwap (x y : Z)                   (* x.swap(y) *)
| SAddTo (x y : Z)                  (* x += y *)
| SSubTo (x y : Z)                  (* x -= y *)
| SScale (x : Z) (r : sref)         (* x *= value *)
| SPlus (z x y : Z)                 (* z = x + y *)
| SMinus (z x y : Z)
| STimes (z : Z) (c : T) (x : Z)    (* z = c * x *)
| SMax (z x y : Z)
| SMin (z x y : Z).

(* z = f(x, y): the result is a new object, assigned to z *)
Definition sbinary (f : sobj T -> sobj T -> option (sobj T)) (st : sstore T) (z x y : Z) : option (sstore T) :=
  do ox <- get st x; do oy <- get st y; do r <- f ox oy; put st z r.

Definition sexec (st : sstore T) (op : sop) : option (sstore T) :=
  match op with
  | SSet x k v => do ox <- get st x; do ox <- sset_op ox k (fun _ => v); put st x ox
  | SAssign x y => sassign st x y
  | SCopy x y => scopy st x y
  | SSwap x y => sswap st x y
  | SAddTo x y => saccum (n_add N) st x y
  | SSubTo x y => saccum (n_sub N) st x y
  | SScale x r => do ox <- get st x; do ox <- sscale ox r; put st x ox
  | SPlus z x y => sbinary splus st z x y
  | SMinus z x y => sbinary sminus st z x y
  | STimes z c x => sbinary (fun ox _ => stimes c ox) st z x x
  | SMax z x y => sbinary smax st z x y
  | SMin z x y => sbinary smin st z x y
  end.

(* n variables, initially empty; then the statements in order *)
Definition sprogram (n : nat) (ops : list sop) : option (sstore T) :=
  fold_opt sexec ops (repeat [] n).
End Sparse.
Arguments sref : clear implicits.
Arguments sop : clear implicits.
