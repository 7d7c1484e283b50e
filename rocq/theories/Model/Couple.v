(* The diffusion couples of examples/beginners_diffusion.  Doubles are modelled by rational numbers with exact arithmetic. *)
From Coq Require Import QArith.QArith QArith.Qcanon.
From Verif Require Import Model.Base Model.Boundary Model.Layout Model.Access Model.Stencil.

(* dt = dx*dx/diffusionCoefficient/4 *)
Definition couple_dt (dx D : Qc) : option Qc := do w <- recip D; Some (dx * dx * w * Q2Qc (1 # 4))%Qc.
(* the value of node x in the start: x<nx/2 *)
Definition couple_start (nx x : Z) : Qc := if x <? Z.quot nx 2 then 1%Qc else 0%Qc.

Section Couple.
Context (mpi : bool) (axs : list axis).
(* first and last node of the rank *)
Definition first_node : Z := match axs with a :: _ => a_x0 a | [] => 0 end.
Definition end_node : Z := match axs with a :: _ => a_x1 a | [] => 0 end.
(* g[x] and g[x] = v *)
Definition peek (g : list Qc) (x : Z) : option Qc := grid_read_chain mpi axs g [x].
Definition poke (g : list Qc) (x : Z) (v : Qc) : option (list Qc) := do p <- addr_chain mpi axs 0 0 [x]; put g p v.

(* 1stDiffusion.cpp:21-28 and MMSPDiffusion.cpp:18-25: both grids are set; state: oldGrid, newGrid *)
Definition couple_fill (nx : Z) (st : list Qc * list Qc) : option (list Qc * list Qc) :=
  fold_opt (fun '(old, new) x =>
    do new <- poke new x (couple_start nx x);
    do old <- poke old x (couple_start nx x);
    Some (old, new)) (zrange first_node end_node) st.

(* 1stDiffusion.cpp:31-38: one iteration, with the swap *)
Definition first_step (nx : Z) (dx D dt : Qc) (st : list Qc * list Qc) : option (list Qc * list Qc) :=
  let '(old, new) := st in
  do new <- fold_opt (fun new x =>
    if (x =? 0) || (x =? nx - 1) then Some new
    else
      do a <- peek old (x - 1); do b <- peek old x; do c <- peek old (x + 1);
      do w <- recip (dx * dx)%Qc;
      do v <- peek old x;
      poke new x (D * dt * ((a - c2 * b + c) * w) + v)%Qc) (zrange first_node end_node) new;
  Some (new, old).

(* MMSPDiffusion.cpp:39-44: one iteration, with the swap; laplacian uses the spacing of the grid, which is 1 *)
Definition second_step (D dt : Qc) (st : list Qc * list Qc) : option (list Qc * list Qc) :=
  let '(old, new) := st in
  do st <- fold_opt (fun '(old, new) i =>
    do l <- laplacian_at mpi axs [1%Qc] old i;
    do v <- peek old i;
    do new <- grid_write_int mpi axs new i (D * dt * l + v)%Qc;
    do old <- poke old first_node 1%Qc;
    do old <- poke old end_node 0%Qc;
    Some (old, new)) (zrange 0 (nodes axs)) (old, new);
  let '(old, new) := st in
  Some (new, old).

(* the values printed, 1stDiffusion.cpp:42-44 and MMSPDiffusion.cpp:49-50 *)
Definition couple_print (g : list Qc) : option (list Qc) := map_opt (peek g) (zrange first_node end_node).
End Couple.

(* the grid of nx nodes; the boundary conditions are periodic unless they are set *)
Definition couple_axes (b nx : Z) : list axis := lay 0 [mkLim 0 nx 0 nx b b].

(* 1stDiffusion.cpp in the serial build: the values printed; m1, m2: what the memory of the two grids held.  ghostswap does nothing. *)
Definition first_program (nx : Z) (dx D : Qc) (iterations : nat) (m1 m2 : list Qc) : option (list Qc) :=
  let axs := couple_axes periodic nx in
  do dt <- couple_dt dx D;
  do st <- couple_fill false axs nx (m1, m2);
  do st <- repeat_step iterations (first_step false axs nx dx D dt) st;
  couple_print false axs (fst st).
(* MMSPDiffusion.cpp in the serial build.  Lines 27-34 are in the axes: the boundary conditions do not matter for lines 18-25, which
   address nodes of the grid. *)
Definition second_program (nx : Z) (D : Qc) (iterations : nat) (m1 m2 : list Qc) : option (list Qc) :=
  let axs := couple_axes Dirichlet nx in
  do dt <- couple_dt 1 D;
  do st <- couple_fill false axs nx (m1, m2);
  do st <- repeat_step iterations (second_step false axs D dt) st;
  couple_print false axs (snd st).

(* MMSPDiffusion2D.cpp:26-36: both grids are set, update to 1 everywhere; GRID[x][y] is addressed one subscript after the other *)
Definition sheet_fill (mpi : bool) (axs : list axis) (length : Z) (xs ys : list Z) (st : list Qc * list Qc) : option (list Qc * list Qc) :=
  fold_opt (fun st x =>
    fold_opt (fun '(g, u) y =>
      do p <- addr_chain mpi axs 0 0 [x; y];
      do g <- put g p (if (x <? Z.quot length 2) && (y <? Z.quot length 2) then 1%Qc else 0%Qc);
      do u <- put u p 1%Qc;
      Some (g, u)) ys st) xs st.
(* MMSPDiffusion2D.cpp:60-66: one line for each x *)
Definition sheet_print (mpi : bool) (axs : list axis) (xs ys : list Z) (g : list Qc) : option (list (list Qc)) :=
  map_opt (fun x => map_opt (fun y => grid_read_chain mpi axs g [x; y]) ys) xs.
Definition sheet_axes (b length : Z) : list axis := lay 0 [mkLim 0 length 0 length b b; mkLim 0 length 0 length b b].
(* MMSPDiffusion2D.cpp in the serial build: the values printed; m1, m2: what the memory of the two grids held.  Lines 23-24 leave the
   boundary conditions periodic and the spacings 1, lines 39-46 set the former, and ghostswap does nothing. *)
Definition sheet_program (length : Z) (iterate : nat) (m1 m2 : list Qc) : option (list (list Qc)) :=
  let r := zrange 0 length in
  do st <- sheet_fill false (sheet_axes periodic length) length r r (m1, m2);
  do st <- repeat_step iterate (diffusion_step false (sheet_axes Dirichlet length) [1%Qc; 1%Qc] (Q2Qc (3 # 10))) st;
  sheet_print false (sheet_axes Dirichlet length) r r (fst st).
