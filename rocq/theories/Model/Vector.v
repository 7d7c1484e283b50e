From Verif Require Import Model.Base Model.Num.

(* A vector<T> is the array data[0..size-1]; None is an uninitialised element.  As for sparse, objects live in a
   store so that a function can be given the same object twice.  Reading an uninitialised element in an
   expression is undefined; copying it is not. *)
Definition vobj (T : Type) := list (option T).
Definition vstore (T : Type) := list (vobj T).

Section Vector.
Context {T : Type} (N : num T).

(* new T[n]: fails for a negative size *)
Definition vnew (n : Z) : option (vobj T) :=
  if n <? 0 then None else Some (repeat None (Z.to_nat n)).
(* memcpy(dst, src, n * sizeof(T)) between whole arrays: None when it leaves one of them *)
Definition vmemcpy (dst src : vobj T) (n : Z) : option (vobj T) :=
  if (0 <=? n) && (n <=? zlen src) && (n <=? zlen dst)
  then Some (firstn (Z.to_nat n) src ++ skipn (Z.to_nat n) dst) else None.

(* include/MMSP.vector.h:28-35: operator[], assert(i < size) *)
Definition vread (o : vobj T) (i : Z) : option T := do c <- get o i; c.

(* include/MMSP.vector.cpp:31-43: constructors *)
Definition vmake (n : Z) : option (vobj T) := vnew n.
Definition vfill (n : Z) (v : T) : option (vobj T) :=
  do o <- vnew n; fold_opt (fun o i => put o i (Some v)) (zrange 0 n) o.
(* include/MMSP.vector.cpp:54-59: x = value *)
Definition vset_all (o : vobj T) (v : T) : option (vobj T) :=
  fold_opt (fun o i => put o i (Some v)) (zrange 0 (zlen o)) o.

(* include/MMSP.vector.cpp:61-72: x = y *)
Definition vassign (st : vstore T) (x y : Z) : option (vstore T) :=
  do oy <- get st y;
  let size := zlen oy in
  do st <- put st x (repeat None (Z.to_nat size));
  fold_opt (fun st i =>
    do oy <- get st y;
    do c <- get oy i;
    do ox <- get st x;
    do ox <- put ox i c;
    put st x ox) (zrange 0 size) st.

(* include/MMSP.vector.cpp:172-181: x.copy(y) *)
Definition vcopy (st : vstore T) (x y : Z) : option (vstore T) :=
  do ox <- get st x;
  do oy <- get st y;
  let size := zlen oy in
  do fresh <- vnew size;
  do st <- put st x fresh;
  do oy <- get st y;
  do ox <- vmemcpy fresh oy size;
  put st x ox.

(* include/MMSP.vector.cpp:183-191 *)
Definition vswap (st : vstore T) (x y : Z) : option (vstore T) :=
  do ox <- get st x;
  do oy <- get st y;
  do st <- put st x oy;
  put st y ox.

(* include/MMSP.vector.cpp:136-170: resize *)
Definition vresize (o : vobj T) (n : Z) : option (vobj T) :=
  let size := zlen o in
  if size =? 0 then vnew n
  else if size <? n then
    do temp <- vnew n;
    do temp <- vmemcpy temp o size;
    do data <- vnew n;
    vmemcpy data temp n
  else if n <? size then
    do temp <- vnew n;
    do temp <- vmemcpy temp o n;
    do data <- vnew n;
    vmemcpy data temp n
  else Some o.

(* include/MMSP.vector.cpp:193-209: append(value) *)
Definition vappend (o : vobj T) (v : T) : option (vobj T) :=
  do temp <- vnew (zlen o);
  do temp <- vmemcpy temp o (zlen o);
  let size := zlen o + 1 in
  do data <- vnew size;
  do data <- vmemcpy data temp size;
  put data (size - 1) (Some v).

(* include/MMSP.vector.cpp:211-229: append(vector) *)
Definition vappend_all (o v : vobj T) : option (vobj T) :=
  let n := zlen o in
  do temp <- vnew n;
  do temp <- vmemcpy temp o n;
  let size := n + zlen v in
  do data <- vnew size;
  do data <- vmemcpy data temp size;
  fold_opt (fun d i => do c <- get v (i - n); put d i c) (zrange n size) data.

(* include/MMSP.vector.cpp:231-238: operator== *)
Definition veq (a b : vobj T) : option bool :=
  if zlen a =? zlen b then
    fold_opt (fun r i => do x <- vread a i; do y <- vread b i; Some (r && n_eq N x y)) (zrange 0 (zlen a)) true
  else Some false.

(* include/MMSP.vector.h:120-155: z[i] = f(x[i], y[i]) for i < x.length(), z a new vector *)
Definition vbinary (f : T -> T -> T) (x y : vobj T) : option (vobj T) :=
  do z <- vnew (zlen x);
  fold_opt (fun z i => do a <- vread x i; do b <- vread y i; put z i (Some (f a b))) (zrange 0 (zlen x)) z.
(* :161-169: z[i] = value * x[i] *)
Definition vtimes (c : T) (x : vobj T) : option (vobj T) :=
  do z <- vnew (zlen x);
  fold_opt (fun z i => do a <- vread x i; put z i (Some (n_mul N c a))) (zrange 0 (zlen x)) z.
(* :134-151: x[i] = f(x[i], y[i]) *)
Definition vaccum (f : T -> T -> T) (st : vstore T) (x y : Z) : option (vstore T) :=
  do ox <- get st x;
  fold_opt (fun st i =>
    do ox <- get st x;
    do oy <- get st y;
    do a <- vread ox i;
    do b <- vread oy i;
    do ox <- put ox i (Some (f a b));
    put st x ox) (zrange 0 (zlen ox)) st.

(* the operand of *= : a variable outside, or a reference to an element of x, as in x *= x[p] *)
Inductive vref := VOutside (c : T) | VInside (p : Z).
Definition vderef (ox : vobj T) (r : vref) : option T :=
  match r with VOutside c => Some c | VInside p => vread ox p end.
(* :156-160: x *= value *)
Definition vscale (ox : vobj T) (r : vref) : option (vobj T) :=
  fold_opt (fun ox i =>
    do a <- vread ox i;
    do c <- vderef ox r;
    put ox i (Some (n_mul N a c))) (zrange 0 (zlen ox)) ox.

(* :170-175: dot product *)
Definition vdot (x y : vobj T) : option T :=
  fold_opt (fun z i => do a <- vread x i; do b <- vread y i; Some (n_add N z (n_mul N a b)))
    (zrange 0 (if zlen y <? zlen x then zlen y else zlen x)) (n_zero N).
End Vector.
Arguments vref : clear implicits.
