From Verif Require Import Model.Base.

(* include/MMSP.utility.h:22-29: the boundary condition codes. *)
Definition mirror    : Z := 0.
Definition Neumann   : Z := 1.
Definition periodic  : Z := 2.
Definition parallel  : Z := 3.
Definition Dirichlet : Z := 4.

(* include/MMSP.utility.cpp:42-57: check_boundary.  [mpi] says whether MPI_VERSION is
   defined; the reference parameter x becomes the result. *)
Definition check_boundary (mpi : bool) (x x0 x1 b0 b1 : Z) : Z :=
  if x <? x0 then
    if (b0 =? Neumann) || (b0 =? Dirichlet) then x0
    else if negb mpi && (b0 =? periodic) then x1 - (x0 - x)
    else if b0 =? mirror then 2 * x0 - x
    else x
  else if x1 <=? x then
    if (b1 =? Neumann) || (b1 =? Dirichlet) then x1 - 1
    else if negb mpi && (b1 =? periodic) then x0 + (x - x1)
    else if b1 =? mirror then 2 * (x1 - 1) - x
    else x
  else x.
