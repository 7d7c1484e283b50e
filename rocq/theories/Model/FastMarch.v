From Verif Require Import Model.Base Model.Boundary Model.Layout Model.Access Model.Setup Model.Num Model.Sparse Model.Codec Model.MPI Model.Ghostswap Model.Tessellate.

(* The serial tessellation: algorithms/tessellate.hpp:161-443 (propagate_distance, approximate_voronoi, non-MPI build) and
   algorithms/priority_queue.h. *)

(* A computation given a number of loop iterations it may make: finished, undefined (or assert failed, or exit called), or cut short. *)
Inductive outcome (A : Type) : Type := Done (a : A) | Undefined | Unfinished.
Arguments Done {A} a.
Arguments Undefined {A}.
Arguments Unfinished {A}.
Definition obind {A B} (o : outcome A) (f : A -> outcome B) : outcome B :=
  match o with Done a => f a | Undefined => Undefined | Unfinished => Unfinished end.
Definition of_opt {A} (o : option A) : outcome A := match o with Some a => Done a | None => Undefined end.

(* :70-101: DistanceVoxel: x,y,z; id; distance.  Pointers to voxels are modelled by offsets into the data of the grid.
   Simplification: the unused third coordinate of a 2-D voxel, always 0, is left out. *)
Record voxel := mkV { v_pos : list Z; v_id : Z; v_val : Z }.
(* priority_queue.h:92-97: m_heap and the map backpointers *)
Record pqueue := mkQ { q_heap : list Z; q_back : Z -> option Z }.
Definition upd (f : Z -> option Z) (a : Z) (v : option Z) : Z -> option Z := fun b => if b =? a then v else f b.
Definition fm_state : Type := list voxel * pqueue.

Definition value (vox : list voxel) (a : Z) : option Z := do v <- get vox a; Some (v_val v).

(* priority_queue.h:100-108: swap *)
Definition pq_swap (q : pqueue) (i j : Z) : option pqueue :=
  do t <- get (q_heap q) j;
  do s <- get (q_heap q) i;
  do h <- put (q_heap q) j s;
  do h <- put h i t;
  do a <- get h i;
  do b <- get h j;
  Some (mkQ h (upd (upd (q_back q) a (Some i)) b (Some j))).

(* priority_queue.h:111-121: percolate_up; get_parent asserts 0 < i < size.  i decreases: [fuel] > i never runs out. *)
Fixpoint percolate_up (vox : list voxel) (fuel : nat) (q : pqueue) (i : Z) : option pqueue :=
  match fuel with
  | O => None
  | S f =>
      if 0 <? i then
        do a <- get (q_heap q) i;
        let par := Z.quot (i - 1) 2 in
        do b <- get (q_heap q) par;
        do va <- value vox a;
        do vb <- value vox b;
        if va <? vb then do q <- pq_swap q i par; percolate_up vox f q par else Some q
      else Some q
  end.

(* priority_queue.h:123-139: percolate_down.  i at least doubles: [fuel] > size never runs out. *)
Fixpoint percolate_down (vox : list voxel) (fuel : nat) (q : pqueue) (i : Z) : option pqueue :=
  match fuel with
  | O => None
  | S f =>
      if 2 * i + 1 <? zlen (q_heap q) then
        do l <- get (q_heap q) (2 * i + 1);
        do vl <- value vox l;
        do child <- (if 2 * i + 2 <? zlen (q_heap q) then
                       do r <- get (q_heap q) (2 * i + 2); do vr <- value vox r; Some (if vr <? vl then 2 * i + 2 else 2 * i + 1)
                     else Some (2 * i + 1));
        do c <- get (q_heap q) child;
        do vc <- value vox c;
        do a <- get (q_heap q) i;
        do va <- value vox a;
        if vc <? va then do q <- pq_swap q child i; percolate_down vox f q child else Some q
      else Some q
  end.

(* priority_queue.h:64-70: push *)
Definition pq_push (vox : list voxel) (q : pqueue) (a : Z) : option pqueue :=
  do _ <- guard (match q_back q a with None => true | Some _ => false end);
  let h := q_heap q ++ [a] in
  percolate_up vox (S (length h)) (mkQ h (upd (q_back q) a (Some (zlen h - 1)))) (zlen h - 1).
(* priority_queue.h:73-78: update_position *)
Definition pq_update (vox : list voxel) (q : pqueue) (a : Z) : option pqueue :=
  do i <- q_back q a;
  do q <- percolate_up vox (S (Z.to_nat i)) q i;
  do i <- q_back q a;
  percolate_down vox (S (length (q_heap q))) q i.
(* priority_queue.h:81-88: pop.  The map is not told that the last element has moved to the front. *)
Definition pq_pop (vox : list voxel) (q : pqueue) : option pqueue :=
  do a <- get (q_heap q) 0;
  do _ <- guard (match q_back q a with None => false | Some _ => true end);
  do b <- get (q_heap q) (zlen (q_heap q) - 1);
  do h <- put (q_heap q) 0 b;
  let h := removelast h in
  percolate_down vox (S (length h)) (mkQ h (upd (q_back q) a None)) 0.

(* tessellate.hpp:172-184 and :197-211: the body of the innermost loop; p is also the loop counters, which check_boundary,
   taking its argument by reference, changes *)
Definition relax (axs : list axis) (position : list Z) (core_distance core_id : Z) (z : list Z * fm_state) : option (list Z * fm_state) :=
  let (p, st) := z in
  if list_eq_dec Z.eq_dec p position then Some z else
  do p <- map_opt (fun d => do c <- get p d; do a <- get axs d; Some (check_boundary false c (a_x0 a) (a_x1 a) (a_b0 a) (a_b1 a))) (zrange 0 (zlen axs));
  do inside <- map_opt (fun d => do c <- get p d; do a <- get axs d; Some ((a_x0 a <=? c) && (c <? a_x1 a))) (zrange 0 (zlen axs));
  if negb (forallb (fun b => b) inside) then Some (p, st) else
  do r <- radiussq (length axs) position p;
  let distance := core_distance + r in
  do _ <- guard (distance <=? int_max);
  let (vox, q) := st in
  do a <- addr_vec false axs p 0;
  do v <- get vox a;
  if distance <? v_val v then
    do vox <- put vox a (mkV (v_pos v) core_id distance);
    do q <- (match q_back q a with None => pq_push vox q a | Some _ => pq_update vox q a end);
    Some (p, (vox, q))
  else Some (p, st).

(* for (...; p[d]<bound; ++p[d]) body, at most [fuel] iterations *)
Fixpoint count_loop {S} (fuel : nat) (d bound : Z) (body : list Z * S -> outcome (list Z * S)) (z : list Z * S) : outcome (list Z * S) :=
  match fuel with
  | O => Unfinished
  | S f =>
      obind (of_opt (get (fst z) d)) (fun c =>
      if c <? bound then
        obind (body z) (fun z =>
        obind (of_opt (do c <- get (fst z) d; put (fst z) d (c + 1))) (fun p => count_loop f d bound body (p, snd z)))
      else Done z)
  end.
(* :170-171 and :194-196: the loops over the axes d, d+1, ..., d+n-1 *)
Fixpoint loops {S} (fuel : nat) (position : list Z) (d : Z) (n : nat) (body : list Z * S -> outcome (list Z * S)) (z : list Z * S) : outcome (list Z * S) :=
  match n with
  | O => body z
  | S n' =>
      obind (of_opt (get position d)) (fun c =>
      obind (of_opt (put (fst z) d (c - 1))) (fun p =>
      count_loop fuel d (c + 2) (loops fuel position (d + 1) n' body) (p, snd z)))
  end.

(* :161-216: propagate_distance(core_voxel, grid, queue) *)
Definition propagate (fuel : nat) (axs : list axis) (core : Z) (st : fm_state) : outcome fm_state :=
  obind (of_opt (get (fst st) core)) (fun v =>
  let position := v_pos v in
  obind (of_opt (do a <- addr_vec false axs position 0; get (fst st) a)) (fun c =>
  obind (loops fuel position 0 (length axs) (fun z => of_opt (relax axs position (v_val c) (v_id c) z)) (position, st)) (fun z => Done (snd z)))).

(* :264-269 and :358-363: while (!queue.empty()) *)
Fixpoint march (fuel : nat) (axs : list axis) (st : fm_state) : outcome fm_state :=
  match fuel with
  | O => Unfinished
  | S f =>
      match q_heap (snd st) with
      | [] => Done st
      | a :: _ => obind (of_opt (pq_pop (fst st) (snd st))) (fun q => obind (propagate fuel axs a (fst st, q)) (march f axs))
      end
  end.

(* :254-262 and :348-356: one seed, number i *)
Definition enqueue_seed (fuel : nat) (axs : list axis) (i : Z) (s : seed) (st : fm_state) : outcome fm_state :=
  obind (of_opt (
    do a <- addr_vec false axs s 0;
    do inside <- map_opt (fun d => do c <- get s d; do x <- get axs d; Some ((c <? a_x1 x) && (a_x0 x <=? c))) (zrange 0 (zlen axs));
    do _ <- guard (forallb (fun b => b) inside);
    do v <- get (fst st) a;
    do vox <- put (fst st) a (mkV (v_pos v) i 0);
    Some (a, (vox, snd st)))) (fun z => propagate fuel axs (fst z) (snd z)).
Fixpoint enqueue_seeds (fuel : nat) (axs : list axis) (i : Z) (seeds : list seed) (st : fm_state) : outcome fm_state :=
  match seeds with
  | [] => Done st
  | s :: t => obind (enqueue_seed fuel axs i s st) (enqueue_seeds fuel axs (i + 1) t)
  end.

Section Voronoi.
Context {T : Type} (N : num T) (one : T).

(* :234-247 and :328-341: the distance grid; its boundary conditions are the default ones *)
Definition distance_axes (gs : list gaxis) : list axis := ge_axes (setup_single gs 0).
Definition blank_voxels (axs : list axis) : list voxel :=
  map (fun i => mkV (position axs i) 0 int_max) (zrange 0 (cells axs)).

(* :218-443: approximate_voronoi, one process (id = 0), grid over the domain gs.  The first march empties the queue; the second one,
   :317-322 (:419-424 in 3-D), then does nothing. *)
Definition approximate_voronoi (fuel : nat) (gs : list gaxis) (seeds : list seed) (data : list (sobj T)) : outcome (list (sobj T)) :=
  let axs := distance_axes gs in
  if (zlen gs =? 2) || (zlen gs =? 3) then
    obind (enqueue_seeds fuel axs 0 seeds (blank_voxels axs, mkQ [] (fun _ => None))) (fun st =>
    obind (march fuel axs st) (fun st =>
    of_opt (fold_opt (fun data n =>
      do v <- grid_read_int false axs (fst st) n;
      do cell <- grid_read_int false axs data n;
      do cell <- sset_op N cell (v_id v) (fun _ => one);
      grid_write_int false axs data n cell) (zrange 0 (nodes axs)) data)))
  else Undefined.
End Voronoi.
