From Coq Require Import QArith Qcanon Qround.
From Verif Require Import Model.Base Model.Boundary Model.Layout Model.Access Model.Setup Model.Num Model.Sparse Model.Codec Model.MPI Model.Ghostswap.
Local Open Scope Z_scope.

(* algorithms/tessellate.hpp.  A seed is an MMSP::vector<int> of three coordinates. *)
Definition seed := list Z.

(* :25-29: radiussq<dim,int>; None = signed overflow (all terms are non-negative, so some step overflows iff the sum does)
   or a subscript past the end *)
Fixpoint square_sum (dim : nat) (a b : list Z) : option Z :=
  match dim, a, b with
  | O, _, _ => Some 0
  | S d, x :: a', y :: b' => do r <- square_sum d a' b'; Some ((y - x) * (y - x) + r)
  | _, _, _ => None
  end.
Definition radiussq (dim : nat) (a b : list Z) : option Z :=
  do r <- square_sum dim a b; do _ <- guard (r <=? int_max); Some r.

(* :32-45: seeds_to_buffer: the ints written *)
Definition seeds_to_buffer (vp : list seed) : option (list Z) :=
  do rows <- map_opt (fun v => map_opt (get v) (zrange 0 3)) vp; Some (concat rows).

(* :48-57: seeds_from_buffer(vp, q, size): p runs over q+2, q+5, ... below q+size; [left] = q + size - p *)
Fixpoint seeds_from_loop (q : list Z) (p left : Z) (fuel : nat) : option (list seed) :=
  match fuel with
  | O => Some []
  | S f =>
      if 0 <? left then
        do a <- get q (p - 2); do b <- get q (p - 1); do c <- get q p;
        do t <- seeds_from_loop q (p + 3) (left - 3) f;
        Some ([a; b; c] :: t)
      else Some []
  end.
Definition seeds_from_buffer (q : list Z) (off size : Z) : option (list seed) :=
  seeds_from_loop q (off + 2) (size - 2) (Z.to_nat size).

(* :132-150: one seed; [st] = (min_distance, identity, min_identity) *)
Definition near_step (mpi : bool) (axs : list axis) (x : list Z) (st : Z * Z * Z) (s : seed) : option (Z * Z * Z) :=
  let '(md, id, mid) := st in
  let id := id + 1 in
  do d <- radiussq (length axs) x s;
  let '(md, mid) := if d <? md then (d, id) else (md, mid) in
  do moved <- map_opt (fun k => do c <- get s k; do a <- get axs k;
                         Some (check_boundary mpi c (a_x0 a) (a_x1 a) (a_b0 a) (a_b1 a))) (zrange 0 (zlen axs));
  let image := moved ++ skipn (length axs) s in
  if list_eq_dec Z.eq_dec image s then Some (md, id, mid) else
  do d <- radiussq (length axs) x image;
  if d <? md then Some (d, id, id) else Some (md, id, mid).
(* :127-152: min_identity for the node at x *)
Definition nearest (mpi : bool) (axs : list axis) (seeds : list (list seed)) (x : list Z) : option Z :=
  do st <- fold_opt (near_step mpi axs x) (concat seeds) (int_max, -1, -1);
  Some (snd st).

Section Voronoi.
Context {T : Type} (N : num T) (one : T).

(* :115-163: exact_voronoi; [one] = 1. converted to T.  Simplification: the progress bar is left out. *)
Definition exact_voronoi (mpi : bool) (axs : list axis) (seeds : list (list seed)) (data : list (sobj T)) : option (list (sobj T)) :=
  fold_opt (fun data n =>
    do k <- nearest mpi axs seeds (position axs n);
    do cell <- grid_read_int mpi axs data n;
    do cell <- sset_op N cell k (fun _ => one);
    grid_write_int mpi axs data n cell) (zrange 0 (nodes axs)) data.

(* :446-497: tessellate(local_seeds, seeds, grid), MPI build, where seeds[0..np-1] are empty (as in :575-603).
   MPI_Allgatherv puts the contribution of rank i, of the announced length, at offsets[i].
   Returns the seed lists and the data of the grid.  Simplification: messages on standard output are left out. *)
Definition tessellate_mpi (axs : list axis) (local : list seed) (data : list (sobj T)) : proc (list (list seed) * list (sobj T)) :=
  lift (seeds_to_buffer local) (fun send =>
  lift (guard (zlen send <=? int_max)) (fun _ =>
  barrier (
  Coll 3 (pd_enc pod_int (zlen send)) (fun ms =>
  let sizes := map (pd_dec pod_int) ms in
  lift (guard (sumZ sizes <=? int_max)) (fun _ =>
  barrier (
  Coll 4 (arr_enc pod_int send) (fun bs =>
  lift (guard (if list_eq_dec Z.eq_dec (map zlen bs) (map (Z.mul 4) sizes) then true else false)) (fun _ =>
  let block := concat (map (fun b => arr_dec pod_int (Z.to_nat (zlen b / 4)) b) bs) in
  lift (map_opt (fun i => do n <- get sizes i; seeds_from_buffer block (sumZ (firstn (Z.to_nat i) sizes)) n) (zrange 0 (zlen sizes))) (fun seeds =>
  barrier (
  Coll 5 (pd_enc pod_int 1) (fun _ =>
  lift (exact_voronoi true axs (seeds ++ [[]]) data) (fun data =>
  barrier (
  Coll 5 (pd_enc pod_int 1) (fun _ => Ret (seeds, data))))))))))))))).
End Voronoi.

(* :546-552: s[d] = g0 + int(double(g1-g0)*x): one line of the seed file, given the numbers on it.
   Simplifications: the text is not modelled; doubles are rationals; int() truncates. *)
Definition truncZ (q : Qc) : Z := Z.quot (Qnum (this q)) (Zpos (Qden (this q))).
Definition file_seed (gs : list gaxis) (line : list Qc) : option seed :=
  do cs <- map_opt (fun k => do g <- get gs k; do x <- get line k; Some (gx_0 g + truncZ (Q2Qc (inject_Z (glen g)) * x))) (zrange 0 (zlen gs));
  Some (cs ++ repeat 0 (3 - length gs)).
(* :556-562: is this seed local? *)
Definition is_local (axs : list axis) (s : seed) : option bool :=
  do bs <- map_opt (fun k => do c <- get s k; do a <- get axs k; Some ((a_x0 a <=? c) && (c <? a_x1 a))) (zrange 0 (zlen axs));
  Some (forallb (fun b => b) bs).
(* :529-567: seeds_from_file.  The global limits are those of the axes. *)
Definition seeds_from_file (mpi : bool) (axs : list axis) (lines : list (list Qc)) : option (list seed) :=
  do ss <- map_opt (file_seed (map (fun a => mkG (a_g0 a) (a_g1 a)) axs)) lines;
  if mpi then
    do bs <- map_opt (is_local axs) ss;
    Some (map snd (filter fst (combine bs ss)))
  else Some ss.

(* :500-527: seeds_from_prng; [rands] are the results of the successive calls of randInt(n), which lie in 0..n;
   None when they run out *)
Fixpoint prng_row (los his rands : list Z) : option (list Z * list Z) :=
  match los, his with
  | lo :: los', hi :: his' =>
      match rands with
      | r :: t => do z <- prng_row los' his' t; Some (lo + r :: fst z, snd z)
      | [] => None
      end
  | _, _ => Some ([], rands)
  end.
Fixpoint seeds_from_prng (mpi : bool) (axs : list axis) (n : nat) (rands : list Z) : option (list seed) :=
  match n with
  | O => Some []
  | S n' =>
      do z <- (if mpi then prng_row (map a_g0 axs) (map a_g1 axs) rands else prng_row (map a_x0 axs) (map a_x1 axs) rands);
      do t <- seeds_from_prng mpi axs n' (snd z);
      Some ((fst z ++ repeat 0 (3 - length axs)) :: t)
  end.

(* :592-607: tessellate(grid, seed_filename), MPI build *)
Definition tessellate_file {T} (N : num T) (one : T) (axs : list axis) (lines : list (list Qc)) (data : list (sobj T)) : proc (list (list seed) * list (sobj T)) :=
  lift (seeds_from_file true axs lines) (fun local => tessellate_mpi N one axs local data).
