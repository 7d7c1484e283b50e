From Verif Require Import Model.Base Model.Boundary Model.Layout Model.Setup Model.Codec.

(* A grid<dim,T> object: all its members.  The arrays of length dim are kept as one list of records.
   go_data: None is a NULL pointer.  D is the type of the spacing (double). *)
Record gax (D : Type) := mkGax {
  ga_g0 : Z; ga_g1 : Z; ga_x0 : Z; ga_x1 : Z; ga_xx : Z; ga_s0 : Z; ga_s1 : Z; ga_sx : Z;
  ga_b0 : Z; ga_b1 : Z; ga_dx : D; ga_p0 : Z; ga_p1 : Z; ga_sp : Z; ga_n0 : Z; ga_n1 : Z
}.
Arguments mkGax {D}. Arguments ga_g0 {D}. Arguments ga_g1 {D}. Arguments ga_x0 {D}. Arguments ga_x1 {D}.
Arguments ga_xx {D}. Arguments ga_s0 {D}. Arguments ga_s1 {D}. Arguments ga_sx {D}. Arguments ga_b0 {D}.
Arguments ga_b1 {D}. Arguments ga_dx {D}. Arguments ga_p0 {D}. Arguments ga_p1 {D}. Arguments ga_sp {D}.
Arguments ga_n0 {D}. Arguments ga_n1 {D}.

(* include/MMSP.grid.h:455-490: the members of class grid *)
Record gobj (T D : Type) := mkObj {
  go_data : option (list T);
  go_nodes : Z; go_cells : Z; go_fields : Z; go_ghosts : Z;
  go_ax : list (gax D)
}.
Arguments mkObj {T D}. Arguments go_data {T D}. Arguments go_nodes {T D}. Arguments go_cells {T D}.
Arguments go_fields {T D}. Arguments go_ghosts {T D}. Arguments go_ax {T D}.

Section Gridobj.
Context {T D : Type} (c : codec T).
(* fresh n: new T, then resize(., n): the cell a grid starts with *)
Context (fresh : Z -> T).

(* the per-axis loop of swap, :1941-1990: the two objects' axis i afterwards *)
Definition swap_axis (a b : gax D) : gax D * gax D :=
  (mkGax (ga_g0 b) (ga_g1 b) (ga_x0 b) (ga_x1 b) (ga_xx b) (ga_s0 b) (ga_s1 b) (ga_sx b)
         (ga_b0 b) (ga_b1 b) (ga_dx b) (ga_p0 b) (ga_p1 b) (ga_sp b) (ga_n0 b) (ga_n1 b),
   mkGax (ga_g0 a) (ga_g1 a) (ga_x0 a) (ga_x1 a) (ga_xx a) (ga_s0 a) (ga_s1 a) (ga_sx a)
         (ga_b0 a) (ga_b1 a) (ga_dx a) (ga_p0 a) (ga_p1 a) (ga_sp a) (ga_n0 a) (ga_n1 a)).
Fixpoint swap_axes (a b : list (gax D)) : list (gax D) * list (gax D) :=
  match a, b with
  | x :: a', y :: b' =>
      let (p, q) := swap_axis x y in let (ps, qs) := swap_axes a' b' in (p :: ps, q :: qs)
  | _, _ => ([], [])
  end.
(* include/MMSP.grid.cpp:1913-1991: A.swap(B), grids in a store since A and B may be one object *)
Definition gswap (st : list (gobj T D)) (a b : Z) : option (list (gobj T D)) :=
  do A <- get st a;
  do B <- get st b;
  let (xa, xb) := swap_axes (go_ax A) (go_ax B) in
  do st <- put st a (mkObj (go_data B) (go_nodes B) (go_cells B) (go_fields B) (go_ghosts B) xa);
  put st b (mkObj (go_data A) (go_nodes A) (go_cells A) (go_fields A) (go_ghosts A) xb).

(* :2012-2031: one axis of copy *)
Definition copy_axis (b : gax D) : gax D :=
  mkGax (ga_g0 b) (ga_g1 b) (ga_x0 b) (ga_x1 b) (ga_xx b) (ga_s0 b) (ga_s1 b) (ga_sx b)
        (ga_b0 b) (ga_b1 b) (ga_dx b) (ga_p0 b) (ga_p1 b) (ga_sp b) (ga_n0 b) (ga_n1 b).
(* include/MMSP.grid.cpp:1993-2047: A.copy(B).  A's old array is freed first.
   The buffer for a cell has the size of A's new cell; its initial content junk is arbitrary. *)
Definition gcopy (junk : list byte -> list byte) (st : list (gobj T D)) (a b : Z) : option (list (gobj T D)) :=
  do A <- get st a;
  do st <- put st a (mkObj None (go_nodes A) (go_cells A) (go_fields A) (go_ghosts A) (go_ax A));
  do B <- get st b;
  if go_cells B <? 0 then None else
  do st <- put st a (mkObj (Some (repeat (fresh (go_fields B)) (Z.to_nat (go_cells B))))
                           (go_nodes B) (go_cells B) (go_fields B) (go_ghosts B) (map copy_axis (go_ax B)));
  fold_opt (fun st i =>
    do A <- get st a;
    do da <- go_data A;
    do old <- get da i;
    let buffer := junk (repeat 0 (Z.to_nat (c_size c old))) in
    do B <- get st b;
    do db <- go_data B;
    do v <- get db i;
    do bs <- c_to c v buffer 0;
    do r <- c_from c (fst bs) 0;
    do da <- put da i (fst r);
    put st a (mkObj (Some da) (go_nodes A) (go_cells A) (go_fields A) (go_ghosts A) (go_ax A)))
    (zrange 0 (go_cells B)) st.

(* include/MMSP.grid.h:589-592: copy(GRID1, GRID2) *)
Definition free_copy (junk : list byte -> list byte) (st : list (gobj T D)) (g1 g2 : Z) : option (list (gobj T D)) :=
  gcopy junk st g2 g1.
End Gridobj.
