(* The output path for file systems with large blocks: include/MMSP.grid.cpp:1545-1814. *)
From Verif Require Import Model.Base Model.Codec Model.MPI Model.Ghostswap Model.File.
Local Open Scope list_scope.

(* :1606-1612: offsets[n]; offsets[0] is the header size while the others are computed and 0 afterwards *)
Definition gpfs_offsets (header_offset : Z) (datasizes : list Z) : list Z :=
  match block_offsets header_offset datasizes with [] => [] | _ :: t => 0 :: t end.

(* :1639: while ((aoffset > offsets[t]+datasizes[t]) && t<np) t++;  ends: offsets[i]+datasizes[i] for i >= t.
   None: offsets[np] is read *)
Fixpoint scan (a : Z) (ends : list Z) (t : Z) : option Z :=
  match ends with
  | [] => None
  | e :: rest => if e <? a then scan a rest (t + 1) else Some t
  end.

(* :1634-1645: the loop over the writers w, w+1, ... (n of them); prev is aoffsets[w-1], t is temprank.
   Gives aoffsets[w..] and writeranks[w..] *)
Fixpoint writers (n : nat) (w : Z) (writesize blocksize excess : Z) (ends : list Z) (prev t : Z) : option (list (Z * Z)) :=
  match n with
  | O => Some []
  | S n' =>
      let ws := if w <=? excess then writesize + blocksize else writesize in
      let a := if 0 <? w then ws + prev else 0 in
      do t <- scan a (skipn (Z.to_nat t) ends) t;
      do l <- writers n' (w + 1) writesize blocksize excess ends a (t + 1);
      Some ((a, t) :: l)
  end.

Record plan := mkPlan {
  pl_filesize : Z; pl_nwriters : Z; pl_writesize : Z; pl_excess : Z;
  pl_aoffsets : list Z; pl_writeranks : list Z   (* nwriters + 1 entries *)
}.

(* :1601-1645.  The loop at :1620 runs at most once; unsigned int overflow of blocks is left out. *)
Definition make_plan (np blocksize header_offset : Z) (datasizes : list Z) : option plan :=
  let filesize := header_offset + sumZ datasizes in
  let blocks := Z.quot filesize blocksize in
  let blocks := if blocks * blocksize <? filesize then blocks + 1 else blocks in
  let nwriters := if np <? blocks then np else blocks in
  let writesize := blocksize * Z.quot blocks nwriters in
  let excess := Z.rem blocks nwriters in
  let offsets := gpfs_offsets header_offset datasizes in
  let ends := map (fun p => fst p + snd p) (combine offsets datasizes) in
  do l <- writers (Z.to_nat nwriters) 0 writesize blocksize excess ends 0 0;
  Some (mkPlan filesize nwriters writesize excess (map fst l) (map snd l ++ [np - 1])).

(* :1649-1654: while (writeranks[prevwriter]>=rank) --prevwriter;  None: decrements 0 *)
Fixpoint prev_writer (n : nat) (wr : list Z) (rank : Z) : option Z :=
  do t <- nth_error wr n;
  if t <? rank then Some (Z.of_nat n)
  else match n with O => None | S n' => prev_writer n' wr rank end.
(* :1655-1660: while (writeranks[nextwriter]<=rank) ++nextwriter; *)
Fixpoint next_writer (wr : list Z) (rank w : Z) : option Z :=
  match wr with
  | [] => None
  | t :: rest => if t <=? rank then next_writer rest rank (w + 1) else Some w
  end.

(* :1647-1674: prevwriter, nextwriter, ws, deficiency of a rank (unsigned long arithmetic) *)
Definition rank_plan (blocksize : Z) (pl : plan) (offsets datasizes : list Z) (rank : Z) : option (Z * Z * Z * Z) :=
  let nw := pl_nwriters pl in
  do prev <- (if rank =? 0 then Some 0 else prev_writer (Z.to_nat nw) (pl_writeranks pl) rank);
  do last <- get (pl_writeranks pl) (nw - 1);
  do next <- (if last <=? rank then Some nw else next_writer (pl_writeranks pl) rank 0);
  let ws := if next <=? pl_excess pl then pl_writesize pl + blocksize else pl_writesize pl in
  do alast <- get (pl_aoffsets pl) (nw - 1);
  let ws := if last <=? rank then pl_filesize pl - alast else ws in
  do deficiency <-
    (if 0 <? rank then
       let prevws := if pl_excess pl <=? prev then pl_writesize pl else pl_writesize pl + blocksize in
       do a <- get (pl_aoffsets pl) prev;
       do o <- get offsets rank;
       do size <- get datasizes rank;
       let d := (a + prevws - o) mod 2 ^ 64 in
       Some (if size <? d then size else d)
     else Some 0);
  Some (prev, next, ws, deficiency).

(* the receives posted at :1711-1731 and completed at :1746-1747 *)
Fixpoint recv_all {A} (srcs : list Z) (mis : list Z) (acc : list byte) (k : list byte -> proc A) : proc A :=
  match srcs with
  | [] => k acc
  | s :: rest =>
      lift (get mis s) (fun n =>
      Recv s s (fun m => if n <? zlen m then Fail else recv_all rest mis (acc ++ m ++ repeat 0 (Z.to_nat (n - zlen m))) k))
  end.

(* :1751-1789: the barriers around opening the file, and the write of a writer; [filebuffer] has ws bytes.
   Simplification: opening and closing the file is left out. *)
Definition file_write (pl : plan) (rank ws : Z) (filebuffer : option (list byte)) : proc (list write) :=
  barrier (barrier (
  match filebuffer with
  | None => barrier (Ret [])
  | Some buf =>
      lift (next_writer (pl_writeranks pl) (rank - 1) 0) (fun w =>   (* while (writeranks[w]!=rank) ++w; writeranks is increasing *)
      lift (get (pl_aoffsets pl) w) (fun a =>
      if negb (w <? pl_nwriters pl) || (w =? pl_nwriters pl - 1) && negb (pl_filesize pl - a =? ws) || (int_max <? ws) then Fail
      else barrier (Ret [(a, buf)])))
  end)).

(* :1684-1789, with the misalignments of all ranks known.  [head]: header and number of blocks (used on rank 0 only),
   [block]: result of write_buffer.  Waiting for a request that was never started (an uninitialised MPI_Request,
   :1746-1748) is undefined behaviour, so is writing more than ws bytes into filebuffer; the part of filebuffer that is
   not written to is taken as zero.  An MPI_Isend and the posting of receives do not block, so their order is immaterial:
   the send comes first here. *)
Definition aggregate (np : Z) (head block : list byte) (rank : Z) (datasizes : list Z) (pl : plan) (prev next ws : Z) (mis : list Z) : proc (list write) :=
  lift (get (pl_writeranks pl) next) (fun wn =>
  lift (get (pl_writeranks pl) prev) (fun wp =>
  lift (get mis rank) (fun mine =>
  lift (get datasizes rank) (fun size =>
  if existsb (Z.eqb rank) (firstn (Z.to_nat (pl_nwriters pl)) (pl_writeranks pl)) then
    if negb (mine <? size) then Fail else   (* assert :1690 *)
    let own := (if rank =? 0 then head else []) ++ skipn (Z.to_nat mine) block in
    let srcs := zrange (rank + 1) (wn + 1) in   (* the silentranks ranks after this one *)
    lift (map_opt (get mis) srcs) (fun sizes =>
    if existsb (Z.eqb 0) sizes then Fail else   (* a request is left uninitialised (:1724), then MPI_Waitall *)
    if ws <? zlen own + sumZ sizes then Fail else
    let receive := fun k => recv_all srcs mis own k in
    let write := fun buf => barrier (file_write pl rank ws (Some (buf ++ repeat 0 (Z.to_nat (ws - zlen buf))))) in
    if 0 <? rank then
      if mine =? 0 then Fail else   (* MPI_Wait on an uninitialised request (:1748) *)
      if negb (wp <? rank) then Fail else
      Isend wp rank (firstn (Z.to_nat mine) block) (receive (fun buf => WaitSend wp rank (write buf)))
    else receive write)
  else if mine <? size then Fail   (* nothing sent: MPI_Wait on an uninitialised request *)
  else if negb ((wp <? rank) && (wp <? np)) then Fail
  else Isend wp rank block (WaitSend wp rank (barrier (file_write pl rank ws None))))))).

(* :1606-1683 *)
Definition align (np blocksize : Z) (head block : list byte) (rank header_offset : Z) (datasizes : list Z) : proc (list write) :=
  lift (guard (forallb (fun n => n <? int_max) (tl datasizes))) (fun _ =>
  lift (make_plan np blocksize header_offset datasizes) (fun pl =>
  lift (rank_plan blocksize pl (gpfs_offsets header_offset datasizes) datasizes rank) (fun '(prev, next, ws, deficiency) =>
  Coll 2 (pd_enc pod_ulong deficiency) (fun ms =>
  barrier (aggregate np head block rank datasizes pl prev next ws (map (pd_dec pod_ulong) ms)))))).

(* :1562-1604 on one rank *)
Definition output_gpfs (np blocksize : Z) (head block : list byte) (rank : Z) : proc (list write) :=
  Coll 1 (pd_enc pod_ulong (if rank =? 0 then zlen head else 0)) (fun ms =>
  lift (get ms 0) (fun m =>
  barrier (
  Coll 2 (pd_enc pod_ulong (zlen block)) (fun sizes =>
  barrier (align np blocksize head block rank (pd_dec pod_ulong m) (map (pd_dec pod_ulong) sizes)))))).
