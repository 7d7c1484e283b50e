From Verif Require Import Model.Base Model.Boundary Model.Layout Model.Access Model.Setup Model.Num Model.Sparse Model.Codec Model.MPI Model.Ghostswap Model.Tessellate Model.FastMarch.

(* algorithms/generators.cpp (with distancevoxel.h and priority_queue.h): the older tessellation.  radiussq, seeds_to_buffer, seeds_from_buffer and
   exact_voronoi (:35-72, :81-125) are word for word those of tessellate.hpp, modelled in Model/Tessellate. *)

(* :136-137, :161-163: the nested loops over x, from position-1 to position+1 on each axis, x[0] outermost.  Unlike tessellate.hpp, the loop
   counters x are copied to p before check_boundary changes them, so that the loops visit these points and stop. *)
Fixpoint around (x : list Z) : list (list Z) :=
  match x with
  | [] => [[]]
  | c :: t => flat_map (fun d => map (cons d) (around t)) [c - 1; c; c + 1]
  end.

(* :127-184: propagate_distance(core_voxel, grid, queue); the body of the loop, :138-154 and :164-181, is that of tessellate.hpp, [relax].
   distancevoxel.h keeps the distance as a double and returns it as an int; all values are ints. *)
Definition gen_propagate (axs : list axis) (core : Z) (st : fm_state) : option fm_state :=
  do v <- get (fst st) core;
  do a <- addr_vec false axs (v_pos v) 0;
  do c <- get (fst st) a;
  fold_opt (fun st x => do z <- relax axs (v_pos v) (v_val c) (v_id c) (x, st); Some (snd z)) (around (v_pos v)) st.

(* :231-235, :325-329: while (!queue.empty()), at most [fuel] turns *)
Fixpoint gen_march (fuel : nat) (axs : list axis) (st : fm_state) : outcome fm_state :=
  match fuel with
  | O => Unfinished
  | S f =>
      match q_heap (snd st) with
      | [] => Done st
      | a :: _ => obind (of_opt (do q <- pq_pop (fst st) (snd st); gen_propagate axs a (fst st, q))) (gen_march f axs)
      end
  end.

(* :220-228, :314-322: one seed, number i.  Serial program: nseeds = 0. *)
Definition gen_enqueue (axs : list axis) (i : Z) (s : seed) (st : fm_state) : option fm_state :=
  do a <- addr_vec false axs s 0;
  do inside <- map_opt (fun d => do c <- get s d; do x <- get axs d; Some ((c <? a_x1 x) && (a_x0 x <=? c))) (zrange 0 (zlen axs));
  do _ <- guard (forallb (fun b => b) inside);
  do v <- get (fst st) a;
  do vox <- put (fst st) a (mkV (v_pos v) i 0);
  gen_propagate axs a (vox, snd st).
Fixpoint gen_enqueues (axs : list axis) (i : Z) (seeds : list seed) (st : fm_state) : option fm_state :=
  match seeds with
  | [] => Some st
  | s :: t => do st <- gen_enqueue axs i s st; gen_enqueues axs (i + 1) t st
  end.

Section Voronoi.
Context {T : Type} (N : num T) (one : T).

(* :186-408: approximate_voronoi, serial build, grid over the domain gs, seeds[0] = seeds.  The first march empties the queue; the second one does
   nothing.  Other dimensions than 2 and 3 end the program. *)
Definition gen_voronoi (fuel : nat) (gs : list gaxis) (seeds : list seed) (data : list (sobj T)) : outcome (list (sobj T)) :=
  let axs := distance_axes gs in
  if (zlen gs =? 2) || (zlen gs =? 3) then
    obind (of_opt (gen_enqueues axs 0 seeds (blank_voxels axs, mkQ [] (fun _ => None)))) (fun st =>
    obind (gen_march fuel axs st) (fun st =>
    of_opt (fold_opt (fun data n =>
      do v <- grid_read_int false axs (fst st) n;
      do cell <- grid_read_int false axs data n;
      do cell <- sset_op N cell (v_id v) (fun _ => one);
      grid_write_int false axs data n cell) (zrange 0 (nodes axs)) data)))
  else Undefined.
End Voronoi.
