From Verif Require Import Model.Base Model.Boundary Model.Layout.

(* Reading and writing through grid::operator()(vector<int>), include/MMSP.grid.cpp:375-383.
   The T& result is split into a read and a write; None = outside the allocated array data[cells]. *)
Definition grid_read {T} (mpi : bool) (axs : list axis) (data : list T) (x : list Z) : option T :=
  do p <- addr_vec mpi axs x 0; get data p.
Definition grid_write {T} (mpi : bool) (axs : list axis) (data : list T) (x : list Z) (v : T)
  : option (list T) :=
  do p <- addr_vec mpi axs x 0; put data p v.

(* g[x][y]... : include/MMSP.grid.cpp:369-373, include/MMSP.utility.h:38-137 *)
Definition grid_read_chain {T} (mpi : bool) (axs : list axis) (data : list T) (x : list Z) : option T :=
  do p <- addr_chain mpi axs 0 0 x; get data p.

(* g(i): include/MMSP.grid.cpp:385-400 *)
Definition grid_read_int {T} (mpi : bool) (axs : list axis) (data : list T) (i : Z) : option T :=
  get data (addr_int mpi axs i).
Definition grid_write_int {T} (mpi : bool) (axs : list axis) (data : list T) (i : Z) (v : T) : option (list T) :=
  put data (addr_int mpi axs i) v.
