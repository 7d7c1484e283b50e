From Verif Require Import Model.Base Model.Boundary Model.Layout Model.Setup Model.Codec Model.Region Model.MPI.

Definition int_max : Z := 2147483647.

Section Ghostswap.
Context {T A : Type} (c : codec T) (rng : Z -> Z -> list Z).

(* include/MMSP.grid.cpp:438-468 and :489-511 (and the same lines of each branch of
   ghostswap(sublattice), with rng = every other cell): exchange of the sizes, barrier, packing, exchange of the
   data, barrier, unpacking.
   Simplifications: memory from new char[n] is zero filled; MPI_Irecv, MPI_Isend, MPI_Waitall is modelled as
   send, receive, wait for the send.  A message count not representable as int is undefined behaviour. *)
Definition transfer (axs : list axis) (data : list T) (send_proc recv_proc tag1 tag2 : Z)
    (send_min send_max recv_min recv_max : list Z) (k : list T -> proc A) : proc A :=
  lift (buffer_size c rng data axs send_min send_max 0) (fun send_size =>
  Isend send_proc tag1 (pd_enc pod_ulong send_size) (
  Recv recv_proc tag1 (fun size_msg =>
  WaitSend send_proc tag1 (
  if negb (zlen size_msg =? 8) then Fail else
  let recv_size := pd_dec pod_ulong size_msg in
  barrier (
  if (int_max <? send_size) || (int_max <? recv_size) then Fail else
  lift (to_buffer c rng data axs send_min send_max 0 (repeat 0 (Z.to_nat send_size)) 0) (fun '(send_buffer, n) =>
  Isend send_proc tag2 (firstn (Z.to_nat n) send_buffer) (
  Recv recv_proc tag2 (fun m =>
  WaitSend send_proc tag2 (
  if recv_size <? zlen m then Fail else
  barrier (
  lift (from_buffer c rng data axs recv_min recv_max 0 (m ++ repeat 0 (Z.to_nat (recv_size - zlen m))) 0)
       (fun '(data', _) => k data'))))))))))).

(* include/MMSP.grid.cpp:421-468: send to the processor above, receive from the one below *)
Definition swap_up (ge : geom) (i : nat) (data : list T) (k : list T -> proc A) : proc A :=
  let axs := ge_axes ge in
  let lo := map (fun a => a_x0 a - ge_ghosts ge) axs in
  let hi := map (fun a => a_x1 a + ge_ghosts ge) axs in
  lift (nth_error axs i) (fun a =>
  lift (nth_error (ge_n1 ge) i) (fun send_proc =>
  lift (nth_error (ge_n0 ge) i) (fun recv_proc =>
  transfer axs data send_proc recv_proc 100 200
    (set_nth i lo (a_x1 a - ge_ghosts ge)) (set_nth i hi (a_x1 a))
    (set_nth i lo (a_x0 a - ge_ghosts ge)) (set_nth i hi (a_x0 a)) k))).

(* include/MMSP.grid.cpp:470-511: send to the processor below, receive from the one above *)
Definition swap_down (ge : geom) (i : nat) (data : list T) (k : list T -> proc A) : proc A :=
  let axs := ge_axes ge in
  let lo := map (fun a => a_x0 a - ge_ghosts ge) axs in
  let hi := map (fun a => a_x1 a + ge_ghosts ge) axs in
  lift (nth_error axs i) (fun a =>
  lift (nth_error (ge_n0 ge) i) (fun send_proc =>
  lift (nth_error (ge_n1 ge) i) (fun recv_proc =>
  transfer axs data send_proc recv_proc 300 400
    (set_nth i lo (a_x0 a)) (set_nth i hi (a_x0 a + ge_ghosts ge))
    (set_nth i lo (a_x1 a)) (set_nth i hi (a_x1 a + ge_ghosts ge)) k))).

(* :420: the loop over the axes *)
Fixpoint swap_axes (ge : geom) (is : list nat) (data : list T) (k : list T -> proc A) : proc A :=
  match is with
  | [] => k data
  | i :: is' => swap_up ge i data (fun d1 => swap_down ge i d1 (fun d2 => swap_axes ge is' d2 k))
  end.
End Ghostswap.

(* include/MMSP.grid.cpp:414-515: grid::ghostswap() in the MPI build.  In the serial build it does nothing. *)
Definition ghostswap {T A} (c : codec T) (ge : geom) (data : list T) (k : list T -> proc A) : proc A :=
  barrier (swap_axes c zrange ge (seq 0 (length (ge_axes ge))) data (fun d => barrier (k d))).

(* rank r of a program that constructs a grid (setup_mpi), fills its storage with D r and calls ghostswap() *)
Definition rank_ghostswap {T} (c : codec T) (np : Z) (gs : list gaxis) (gh : Z) (D : Z -> list T) (r : Z) : proc (list T) :=
  lift (setup_mpi np gs gh r) (fun ge => ghostswap c ge (D r) Ret).
