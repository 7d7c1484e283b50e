From Verif Require Import Model.Base Model.Boundary Model.Layout Model.Setup Model.Codec Model.Region Model.MPI Model.Ghostswap.

(* include/MMSP.grid.cpp:544-758 and :813-1027: the cases on dim, sublattice and i.  For every axis the tests
   are "%2==0" (false) or "%2!=0" (true); the choice is the same in all branches of one sublattice.
   In one dimension, and for a sublattice outside the table, there is no adjustment (None). *)
Definition parities (dim : nat) (s : Z) : option (list bool) :=
  match dim with
  | 2%nat =>
      if s =? 0 then Some [false; false] else
      if s =? 3 then Some [true; true] else
      if s =? 1 then Some [false; true] else
      if s =? 2 then Some [true; false] else None
  | 3%nat =>
      if s =? 0 then Some [false; false; false] else
      if s =? 1 then Some [false; false; true] else
      if s =? 2 then Some [false; true; false] else
      if s =? 3 then Some [false; true; true] else
      if s =? 4 then Some [true; false; false] else
      if s =? 5 then Some [true; false; true] else
      if s =? 6 then Some [true; true; false] else
      if s =? 7 then Some [true; true; true] else None
  | _ => None
  end.

(* v%2==0 or v%2!=0 *)
Definition fits (odd : bool) (v : Z) : bool :=
  if odd then negb (Z.rem v 2 =? 0) else Z.rem v 2 =? 0.

(* (v%2==0 ? v : v+1) on the axes other than i *)
Fixpoint bump (par : list bool) (v : list Z) : list Z :=
  match par, v with
  | b :: par', x :: v' => (if fits b x then x else x + 1) :: bump par' v'
  | _, _ => v
  end.

Section Colour.
Context {T A : Type} (c : codec T).

(* lower corner of a region: base on the axes other than i; on axis i, a if it has the right parity, else b *)
Definition colour_min (par : option (list bool)) (i : nat) (base : list Z) (a b : Z) : list Z :=
  match par with
  | None => set_nth i base a
  | Some p => set_nth i (bump p base) (if fits (nth i p false) a then a else b)
  end.

(* include/MMSP.grid.cpp:522-786 *)
Definition colour_up (ge : geom) (s : Z) (i : nat) (data : list T) (k : list T -> proc A) : proc A :=
  let axs := ge_axes ge in
  let g := ge_ghosts ge in
  let par := parities (length axs) s in
  let lo := map (fun a => a_x0 a - g) axs in
  let hi := map (fun a => a_x1 a + g) axs in
  lift (nth_error axs i) (fun a =>
  lift (nth_error (ge_n1 ge) i) (fun send_proc =>
  lift (nth_error (ge_n0 ge) i) (fun recv_proc =>
  transfer c zrange2 axs data send_proc recv_proc 100 200
    (colour_min par i lo (a_x1 a - g) (a_x1 a)) (set_nth i hi (a_x1 a))
    (colour_min par i lo (a_x0 a - g) (a_x0 a)) (set_nth i hi (a_x0 a)) k))).

(* include/MMSP.grid.cpp:788-1050 *)
Definition colour_down (ge : geom) (s : Z) (i : nat) (data : list T) (k : list T -> proc A) : proc A :=
  let axs := ge_axes ge in
  let g := ge_ghosts ge in
  let par := parities (length axs) s in
  let lo := map (fun a => a_x0 a - g) axs in
  let hi := map (fun a => a_x1 a + g) axs in
  lift (nth_error axs i) (fun a =>
  lift (nth_error (ge_n0 ge) i) (fun send_proc =>
  lift (nth_error (ge_n1 ge) i) (fun recv_proc =>
  transfer c zrange2 axs data send_proc recv_proc 300 400
    (colour_min par i lo (a_x0 a) (a_x0 a + g)) (set_nth i hi (a_x0 a + g))
    (colour_min par i lo (a_x1 a) (a_x1 a + g)) (set_nth i hi (a_x1 a + g)) k))).

(* :521 *)
Fixpoint colour_axes (ge : geom) (s : Z) (is : list nat) (data : list T) (k : list T -> proc A) : proc A :=
  match is with
  | [] => k data
  | i :: is' => colour_up ge s i data (fun d1 => colour_down ge s i d1 (fun d2 => colour_axes ge s is' d2 k))
  end.

(* include/MMSP.grid.cpp:517-1054: grid::ghostswap(sublattice), MPI build *)
Definition ghostswap_colour (ge : geom) (s : Z) (data : list T) (k : list T -> proc A) : proc A :=
  barrier (colour_axes ge s (seq 0 (length (ge_axes ge))) data (fun d => barrier (k d))).
End Colour.

(* rank r of a program that constructs a grid, fills its storage with D r and calls ghostswap(s) *)
Definition rank_colour {T} (c : codec T) (np : Z) (gs : list gaxis) (gh s : Z) (D : Z -> list T) (r : Z) : proc (list T) :=
  lift (setup_mpi np gs gh r) (fun ge => ghostswap_colour c ge s (D r) Ret).
