From Verif Require Import Model.Base Model.Boundary.

(* include/MMSP.grid.h: the per-axis members g0,g1,x0,x1,s0,s1,sx,xx,b0,b1 of class grid.
   Simplification: an array of records instead of a record of arrays of length dim. *)
Record axis := mkAxis {
  a_g0 : Z; a_g1 : Z;     (* global limits *)
  a_x0 : Z; a_x1 : Z;     (* local limits *)
  a_s0 : Z; a_s1 : Z;     (* storage limits (with ghosts) *)
  a_sx : Z;               (* storage stride *)
  a_xx : Z;               (* index stride *)
  a_b0 : Z; a_b1 : Z      (* boundary conditions *)
}.

(* limits of an axis before strides are known *)
Record limits := mkLim { l_g0 : Z; l_g1 : Z; l_x0 : Z; l_x1 : Z; l_b0 : Z; l_b1 : Z }.

(* include/MMSP.grid.cpp:301-313 (second half of grid::setup): s0,s1,sx,xx.
   sx[i] is the product of the storage extents of the later axes, xx[i] that of the local extents. *)
Fixpoint lay (ghosts : Z) (ls : list limits) : list axis :=
  match ls with
  | [] => []
  | l :: t =>
      mkAxis (l_g0 l) (l_g1 l) (l_x0 l) (l_x1 l)
             (l_x0 l - ghosts) (l_x1 l + ghosts)
             (prodZ (map (fun m => (l_x1 m + ghosts) - (l_x0 m - ghosts)) t))
             (prodZ (map (fun m => l_x1 m - l_x0 m) t))
             (l_b0 l) (l_b1 l)
      :: lay ghosts t
  end.

(* include/MMSP.grid.cpp:316-317: cells and nodes. *)
Definition cells (axs : list axis) : Z :=
  match axs with [] => 1 | a :: _ => a_sx a * (a_s1 a - a_s0 a) end.
Definition nodes (axs : list axis) : Z :=
  match axs with [] => 1 | a :: _ => a_xx a * (a_x1 a - a_x0 a) end.

(* include/MMSP.grid.cpp:375-383: grid::operator()(vector<int>): the offset of the addressed cell
   from data.  (Reading x[i] past the end of the vector is an assertion failure.) *)
Fixpoint addr_vec (mpi : bool) (axs : list axis) (x : list Z) (p : Z) : option Z :=
  match axs, x with
  | [], _ => Some p
  | a :: axs', c :: x' =>
      let c' := check_boundary mpi c (a_x0 a) (a_x1 a) (a_b0 a) (a_b1 a) in
      addr_vec mpi axs' x' (p + (c' - a_s0 a) * a_sx a)
  | _ :: _, [] => None
  end.

(* include/MMSP.grid.cpp:369-373 (grid::operator[]) and include/MMSP.utility.h:38-137 (target::operator[]).
   [axs] are all axes, [i] the axis handled by this operator[]; target<dim,index>::operator[] uses i=index+1. *)
Definition subscript (mpi : bool) (axs : list axis) (i : nat) (p : Z) (x : Z) : option Z :=
  do a <- nth_error axs i;
  Some (p + (check_boundary mpi x (a_x0 a) (a_x1 a) (a_b0 a) (a_b1 a) - a_s0 a) * a_sx a).

(* g[x0][x1]...[xn]: the chain of subscripts *)
Fixpoint addr_chain (mpi : bool) (axs : list axis) (i : nat) (p : Z) (x : list Z) : option Z :=
  match x with
  | [] => Some p
  | c :: x' => do q <- subscript mpi axs i p c; addr_chain mpi axs (S i) q x'
  end.

(* include/MMSP.grid.cpp:402-411: grid::position. *)
Fixpoint position (axs : list axis) (i : Z) : list Z :=
  match axs with
  | [] => []
  | a :: axs' =>
      let n := Z.quot i (a_xx a) in
      (n + a_x0 a) :: position axs' (i - n * a_xx a)
  end.

(* include/MMSP.grid.cpp:394-396: re-encoding loop of grid::operator()(int), MPI build *)
Fixpoint encode (axs : list axis) (x : list Z) : Z :=
  match axs, x with
  | a :: axs', c :: x' => (c - a_s0 a) * a_sx a + encode axs' x'
  | _, _ => 0
  end.

(* include/MMSP.grid.cpp:385-400: grid::operator()(int): decoding is the loop of position. *)
Definition addr_int (mpi : bool) (axs : list axis) (i : Z) : Z :=
  if mpi then encode axs (position axs i) else i.
