(* utility/wrongendian.cpp: conversion of a checkpoint file to the other byte order, run on a little-endian machine with
   4-byte int, 8-byte long, 16-byte long double. *)
From Coq Require Import String Permutation.
From Verif Require Import Model.Base Model.Text Model.Setup Model.Codec Model.File.
Local Open Scope string_scope.
Local Open Scope list_scope.
Local Open Scope Z_scope.

(* wrongendian.cpp:27-45: swap_endian of a value: the order of its bytes is reversed *)
Definition swap_endian (v : list byte) : list byte := rev v.

(* wrongendian.cpp:47-53: swap_buffer of n values of w bytes at the front of s; None: beyond the end of the buffer.
   The result is the changed part and the rest of the buffer, as for the other loops below. *)
Fixpoint swap_buffer (n : nat) (w : Z) (s : list byte) : option (list byte * list byte) :=
  match n with
  | O => Some ([], s)
  | S n' => do (v, s) <- read_n w s; do (l, s) <- swap_buffer n' w s; Some (swap_endian v ++ l, s)
  end.

(* type.find(sub) != npos *)
Fixpoint prefix_of (sub s : list byte) : bool :=
  match sub, s with [], _ => true | a :: u, b :: v => (a =? b) && prefix_of u v | _, [] => false end.
Fixpoint contains (sub s : list byte) : bool :=
  prefix_of sub s || match s with [] => false | _ :: t => contains sub t end.

Inductive cells_kind := Scalars | Vectors | Sparses.
(* wrongendian.cpp:104-136: None: unknown type, exit(-1) *)
Definition kind_of (type : list byte) : cells_kind :=
  if contains (bytes "scalar") type then Scalars
  else if contains (bytes "vector") type then Vectors
  else if contains (bytes "sparse") type then Sparses
  else Scalars.
(* wrongendian.cpp:104-136 and the chains of else-if at 322-571: the size of the numbers; 1: bool and char.
   None: unknown type, exit(-1) *)
Definition width_of (type : list byte) : option Z :=
  let has s := contains (bytes s) type in
  if has "bool" || has "char" then Some 1
  else if has "int" then Some 4
  else if has "long" then Some 8
  else if has "short" then Some 2
  else if has "float" then Some 4
  else if has "double" then Some 8
  else None.

(* wrongendian.cpp:333-361: while (q < uncompress_buf+size_in_mem) swap one value *)
Fixpoint swap_scalars (fuel : nat) (w : Z) (s : list byte) : option (list byte) :=
  match s, fuel with
  | [], _ => Some []
  | _, O => None
  | _, S f => do (v, s) <- read_n w s; do l <- swap_scalars f w s; Some (swap_endian v ++ l)
  end.

(* wrongendian.cpp:374-447: swap the count; n = its first byte (memcpy of one byte into an int that is zero otherwise);
   swap n numbers of w bytes, unless they are single bytes *)
Fixpoint swap_vectors (fuel : nat) (w : Z) (s : list byte) : option (list byte) :=
  match s, fuel with
  | [], _ => Some []
  | _, O => None
  | _, S f =>
      do (v, s) <- read_n 4 s;
      let v := swap_endian v in
      do n <- get v 0;
      do (l, s) <- (if w =? 1 then read_n n s else swap_buffer (Z.to_nat n) w s);
      do r <- swap_vectors f w s; Some (v ++ l ++ r)
  end.

(* one item of a sparse object: an int and a number *)
Fixpoint swap_items (n : nat) (w : Z) (s : list byte) : option (list byte * list byte) :=
  match n with
  | O => Some ([], s)
  | S n' => do (i, s) <- read_n 4 s; do (v, s) <- read_n w s;
            do (l, s) <- swap_items n' w s; Some (swap_endian i ++ (if w =? 1 then v else swap_endian v) ++ l, s)
  end.
(* wrongendian.cpp:462-571 *)
Fixpoint swap_sparses (fuel : nat) (w : Z) (s : list byte) : option (list byte) :=
  match s, fuel with
  | [], _ => Some []
  | _, O => None
  | _, S f =>
      do (v, s) <- read_n 4 s;
      let v := swap_endian v in
      do n <- get v 0;
      do (l, s) <- swap_items (Z.to_nat n) w s;
      do r <- swap_sparses f w s; Some (v ++ l ++ r)
  end.

(* wrongendian.cpp:319-589: the data of a block.  Every iteration consumes at least one byte. *)
Definition swap_cells (type : list byte) (s : list byte) : outcome (list byte) :=
  match width_of type with
  | None => Exit (-1)
  | Some w =>
      let fuel := List.length s in
      match kind_of type with
      | Scalars => if w =? 1 then Exit (-1) else req (swap_scalars fuel w s)
      | Vectors => req (swap_vectors fuel w s)
      | Sparses => req (swap_sparses fuel w s)
      end
  end.

Section Convert.
Context (compress : list byte -> list byte) (uncompress : list byte -> Z -> option (list byte)).
Context {F : Type} (fshow : F -> list byte) (fparse : list byte -> option F).   (* text form of a float *)

(* wrongendian.cpp:248-642: the thread that converts the block at the front of s; what it writes.
   Simplification: 1.125*size+12 and 1.25*size+12 are computed without rounding; an error of zlib other than Z_MEM_ERROR and
   Z_BUF_ERROR goes unnoticed and leaves the buffer uninitialised, in the model every error is undefined behaviour. *)
Definition convert_block (type : list byte) (dim : Z) (s : list byte) : outcome (list byte) :=
  got (head, s) <- req (swap_buffer (Z.to_nat (4 * dim)) 4 s);
  got (m, s) <- req (read_n 8 s);
  got (n, s) <- req (read_n 8 s);
  let size_in_mem := le_dec (swap_endian m) in
  let size_on_disk := le_dec (swap_endian n) in
  got (body, s) <- req (read_n size_on_disk s);
  got data <- (if size_on_disk =? size_in_mem then Done body else req (uncompress body (9 * size_in_mem / 8 + 12)));
  got data <- swap_cells type data;
  let out := compress data in
  if zlen out <=? 5 * zlen data / 4 + 12
  then Done (head ++ pd_enc pod_ulong (zlen data) ++ pd_enc pod_ulong (zlen out) ++ out)
  else Exit (-1).

(* wrongendian.cpp:189-227: the blocks, found by the main thread at the offsets it computes from the sizes on disk.
   s: the file from pos on *)
Fixpoint convert_blocks (n : nat) (type : list byte) (dim : Z) (s : list byte) : outcome (list (list byte)) :=
  match n with
  | O => Done []
  | S O => got b <- convert_block type dim s; Done [b]
  | S n' =>
      got b <- convert_block type dim s;
      got (_, s) <- req (read_n (16 * dim + 8) s);
      got (d, s) <- req (read_n 8 s);
      got (_, s) <- req (read_n (le_dec (swap_endian d)) s);
      got l <- convert_blocks n' type dim s;
      Done (b :: l)
  end.

(* wrongendian.cpp:78-188: the part of the output written by the main thread, and the blocks written by the others *)
Definition convert (file : list byte) : outcome (list byte * list (list byte)) :=
  let (type, s) := getline file in
  if negb (prefix_of (bytes "grid") type) then Exit (-1) else
  match width_of type with
  | None => Exit (-1)
  | Some _ =>
      let (dim, s) := match read_int s with Some (v, s) => (v, s) | None => (0, s) end in
      if (dim <? 1) || (3 <? dim) then Exit (-1) else
      got (fields, s) <- req (read_int s);
      got (gs, s) <- req (read_gs (Z.to_nat dim) s);
      got (dx, s) <- req (read_dx fparse (Z.to_nat dim) s);
      let s := ignore 10 s in
      got (n, s) <- req (read_n 4 s);
      let blocks := sext 4 (le_dec (swap_endian n)) in
      got l <- convert_blocks (Z.to_nat blocks) type dim s;
      Done (type ++ [10] ++ show_int dim ++ [10] ++ show_int fields ++ [10] ++
            flat_map (fun g => show_int (gx_0 g) ++ [32] ++ show_int (gx_1 g) ++ [10]) gs ++
            flat_map (fun d => fshow d ++ [10]) dx ++ swap_endian n, l)
  end.

(* wrongendian.cpp:191-236: nthreads blocks at a time are converted by as many threads; each writes its block under the lock
   when it is done, in any order; then the next nthreads blocks *)
Inductive written (nthreads : nat) : list (list byte) -> list byte -> Prop :=
| written_nil : written nthreads [] []
| written_batch l l1 l2 p out : l <> [] -> l = l1 ++ l2 -> l1 = firstn nthreads l -> Permutation l1 p ->
    written nthreads l2 out -> written nthreads l (concat p ++ out).
(* a possible contents of the output file *)
Definition converts (nthreads : nat) (file out : list byte) : Prop :=
  exists hd l body, convert file = Done (hd, l) /\ written nthreads l body /\ out = hd ++ body.
End Convert.
