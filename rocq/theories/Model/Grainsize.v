(* algorithms/grainsize.hpp: the number of nodes of each grain. *)
From Coq Require Import String.
From Verif Require Import Model.Base Model.Num Model.Layout Model.Access Model.Setup Model.Sparse Model.Codec Model.MPI Model.Ghostswap Model.Global.
Local Open Scope string_scope.
Local Open Scope Z_scope.

(* +=, min and max of sparse values (include/MMSP.sparse.cpp:247-253, include/MMSP.sparse.h max and min), all items initialised *)
Definition sparse_ops {T} (N : num T) : reduce_ops (list (Z * T)) :=
  let whole o := map_opt (fun c => c) o in
  mkOps (fun x y => do st <- saccum N (n_add N) [map Some x; map Some y] 0 1; do o <- get st 0; whole o)
        (fun x y => do o <- smin N (map Some x) (map Some y); whole o)
        (fun x y => do o <- smax N (map Some x) (map Some y); whole o).
(* sparse<int>: a sum outside int is signed overflow *)
Definition int_sparse_ops : reduce_ops (list (Z * Z)) :=
  let check o := do l <- o; do _ <- guard (forallb (fun it => (- 2147483648 <=? snd it) && (snd it <=? int_max))%bool l); Some l in
  mkOps (fun x y => check (o_add (sparse_ops num_Z) x y)) (o_min (sparse_ops num_Z)) (o_max (sparse_ops num_Z)).

(* MMSP::set(grainsize,index) += 1 (:32, :66, :107); signed overflow of the counter is undefined *)
Definition count_one (o : sobj Z) (k : Z) : option (sobj Z) :=
  do o' <- sset_op num_Z o k (fun a => a + 1);
  do v <- sread num_Z o' k;
  do _ <- guard (v <=? int_max);
  Some o'.

Section Grainsize.
Context {C : Type} (label : C -> option (option Z)).
(* The loop over the local nodes (:31-32, :58-67, :95-109): [label] gives the index counted for a cell, None when the node is skipped.
   Simplification: the grids of this file are written without the dimension parameter (grid<int>), a form MMSP no longer has;
   any dimension is modelled. *)
Definition tally (mpi : bool) (axs : list axis) (data : list C) : option (sobj Z) :=
  fold_opt (fun o i =>
    do v <- grid_read_int mpi axs data i;
    do k <- label v;
    match k with Some k => count_one o k | None => Some o end) (zrange 0 (nodes axs)) [].
(* :11-38, :40-74, :76-113 on rank r of np, MPI build; the grid was made by setup_mpi *)
Definition grainsize (np : Z) (gs : list gaxis) (gh : Z) (data : Z -> list C) (r : Z) : proc (list (Z * Z)) :=
  lift (setup_mpi np gs gh r) (fun ge =>
  lift (tally true (ge_axes ge) (data r)) (fun o =>
  lift (map_opt (fun c => c) o) (fun l =>
  global (sparse_codec [] pod_int) int_sparse_ops "sum" np r l Ret))).
End Grainsize.

(* :32: grid(i) *)
Definition label_int (v : Z) : option (option Z) := Some (Some v).
(* :59-65: the first largest element of a vector *)
Definition label_vector {T} (N : num T) (v : list T) : option (option Z) :=
  do v0 <- get v 0;
  do r <- fold_opt (fun '(index, value) j =>
      do w <- get v j;
      Some (if n_gt N w value then (j, w) else (index, value))) (zrange 1 (zlen v)) (0, v0);
  Some (Some (fst r)).
(* :96-106: starts from index 0 and value 0.0 *)
Definition label_sparse {T} (N : num T) (v : list (Z * T)) : option (option Z) :=
  if 0 <? zlen v then
    do r <- fold_opt (fun '(index, value) j =>
        do it <- get v j;
        Some (if n_gt N (snd it) value then it else (index, value))) (zrange 0 (zlen v)) (0, n_zero N);
    Some (Some (fst r))
  else Some None.
