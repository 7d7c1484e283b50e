(* Checkpoint files: include/MMSP.grid.cpp:1183-1543 and 1818-1909. *)
From Coq Require Import String.
From Verif Require Import Model.Base Model.Text Model.Boundary Model.Layout Model.Setup Model.Codec Model.Region
  Model.MPI Model.Ghostswap.
Local Open Scope string_scope.
Local Open Scope list_scope.
Local Open Scope Z_scope.

(* result of a function that may stop the program: value, exit(code) (or uncaught exception), undefined behaviour *)
Inductive outcome (A : Type) := Done (a : A) | Exit (code : Z) | Undef.
Arguments Done {A}. Arguments Exit {A}. Arguments Undef {A}.
Definition obind {A B} (o : outcome A) (f : A -> outcome B) : outcome B :=
  match o with Done a => f a | Exit c => Exit c | Undef => Undef end.
Notation "'got' x <- e ; k" := (obind e (fun x => k))
  (at level 200, x pattern, e at level 100, k at level 200, right associativity).
(* undefined behaviour of a part *)
Definition req {A} (o : option A) : outcome A := match o with Some a => Done a | None => Undef end.

(* position of the last ':' of s, counting from position i; cur is the last one seen *)
Fixpoint last_colon (s : list byte) (i : Z) (cur : option Z) : option Z :=
  match s with
  | [] => cur
  | b :: t => last_colon t (i + 1) (if b =? 58 then Some i else cur)
  end.
(* :1196: "grid:scalar" + type.substr(type.find_last_of(":", 8)); None: std::out_of_range *)
Definition scalar_alias (type : list byte) : option (list byte) :=
  do p <- last_colon (firstn 9 type) 0 None;
  Some (bytes "grid:scalar" ++ skipn (Z.to_nat p) type).

Section File.
Context {T : Type} (c : codec T) (fresh : Z -> T).   (* fresh fields: a cell after resize(data[i], fields) *)
Context {D : Type} (dshow : D -> list byte) (dparse : list byte -> option D).   (* text form of a double *)
Context (raw : bool).   (* compiled with -DRAW *)
Context (compress : list byte -> list byte).   (* output of zlib's compress2 at level 9 *)
Context (uncompress : list byte -> Z -> option (list byte)).   (* zlib's uncompress into a buffer of the given size; None: not Z_OK *)

(* :1373-1387 and :1446-1455: the text header.  [name] is name( *this ). *)
Definition header (name : list byte) (fields : Z) (gs : list gaxis) (dx : list D) : list byte :=
  (name ++ [10] ++ show_int (zlen gs) ++ [10] ++ show_int fields ++ [10] ++
   flat_map (fun g => show_int (gx_0 g) ++ [32] ++ show_int (gx_1 g) ++ [10]) gs ++
   flat_map (fun d => dshow d ++ [10]) dx)%list.

(* :1818-1909: write_buffer.  None: the compressed data do not fit in the space reserved for them (exit(1)).
   Simplifications: the memcpy calls into one buffer are written as concatenation; memory from new char[n] is zero
   filled; 1.125*size+12 is computed without rounding. *)
Definition write_buffer (axs : list axis) (data : list T) : option (list byte) :=
  let x0 := map a_x0 axs in
  let x1 := map a_x1 axs in
  do size_in_mem <- buffer_size c zrange data axs x0 x1 0;
  do r <- to_buffer c zrange data axs x0 x1 0 (repeat 0 (Z.to_nat size_in_mem)) 0;
  let body := if raw then fst r else compress (firstn (Z.to_nat (snd r)) (fst r)) in
  do _ <- guard (raw || (zlen body <=? 9 * size_in_mem / 8 + 12));
  Some (flat_map (fun a => pd_enc pod_int (a_x0 a) ++ pd_enc pod_int (a_x1 a)) axs ++
        flat_map (fun a => pd_enc pod_int (a_b0 a) ++ pd_enc pod_int (a_b1 a)) axs ++
        pd_enc pod_ulong size_in_mem ++ pd_enc pod_ulong (zlen body) ++ body)%list.

(* :1360-1401: output in the serial build: the contents of the file *)
Definition output_serial (name : list byte) (fields : Z) (axs : list axis) (dx : list D) (data : list T)
    : option (list byte) :=
  do block <- write_buffer axs data;
  Some (header name fields (map (fun a => mkG (a_g0 a) (a_g1 a)) axs) dx ++ pd_enc pod_int 1 ++ block)%list.

(* file.read of one int / unsigned long *)
Definition read_bin_int (s : list byte) : outcome (Z * list byte) :=
  got (b, s) <- req (read_n 4 s); Done (pd_dec pod_int b, s).
Definition read_bin_ulong (s : list byte) : outcome (Z * list byte) :=
  got (b, s) <- req (read_n 8 s); Done (pd_dec pod_ulong b, s).

(* :1271-1281: d pairs of ints *)
Fixpoint read_pairs (d : nat) (s : list byte) : outcome (list (Z * Z) * list byte) :=
  match d with
  | O => Done ([], s)
  | S d' => got (lo, s) <- read_bin_int s; got (hi, s) <- read_bin_int s;
            got (l, s) <- read_pairs d' s; Done ((lo, hi) :: l, s)
  end.

(* :1291-1295: the overlap of the block with the local box *)
Fixpoint overlap_box (axs : list axis) (lims : list (Z * Z)) : list (Z * Z) :=
  match axs, lims with
  | a :: axs', (lo, hi) :: lims' =>
      (if lo <? a_x0 a then a_x0 a else lo, if a_x1 a <? hi then a_x1 a else hi) :: overlap_box axs' lims'
  | _, _ => []
  end.

(* :1339-1342: boundary conditions from the file *)
Fixpoint set_bcs (axs : list axis) (lims bcs : list (Z * Z)) : list axis :=
  match axs, lims, bcs with
  | a :: axs', (lo, hi) :: lims', (blo, bhi) :: bcs' =>
      mkAxis (a_g0 a) (a_g1 a) (a_x0 a) (a_x1 a) (a_s0 a) (a_s1 a) (a_sx a) (a_xx a)
             (if a_x0 a =? lo then blo else a_b0 a) (if a_x1 a =? hi then bhi else a_b1 a)
      :: set_bcs axs' lims' bcs'
  | _, _, _ => axs
  end.

(* the part of the grid that read changes: axes (b0,b1) and data *)
Record local := mkLocal { lo_axes : list axis; lo_data : list T }.

(* :1298-1343: a block that overlaps the local box.  [buffer] are its size_on_disk bytes.
   An error of uncompress other than Z_MEM_ERROR and Z_BUF_ERROR goes unnoticed and leaves raw uninitialised; in the
   model every error is undefined behaviour. *)
Definition read_overlap (fields : Z) (st : local) (lims bcs box : list (Z * Z)) (size_in_mem : Z) (buffer : list byte)
    : outcome local :=
  let axs := lo_axes st in
  let gaxs := ge_axes (setup_single (map (fun l => mkG (fst l) (snd l)) lims) 0) in   (* GRID(fields,lmin,lmax,0,true) *)
  let gdata := repeat (fresh fields) (Z.to_nat (cells gaxs)) in
  got bytes <- (if size_in_mem =? zlen buffer then Done buffer
                else if raw then Exit 1 else req (uncompress buffer size_in_mem));
  got (gdata, _) <- req (from_buffer c zrange gdata gaxs (map a_x0 gaxs) (map a_x1 gaxs) 0 bytes 0);
  got size <- req (buffer_size c zrange gdata gaxs (map fst box) (map snd box) 0);
  got (buf, _) <- req (to_buffer c zrange gdata gaxs (map fst box) (map snd box) 0 (repeat 0 (Z.to_nat size)) 0);
  got (data, _) <- req (from_buffer c zrange (lo_data st) axs (map fst box) (map snd box) 0 buf 0);
  Done (mkLocal (set_bcs axs lims bcs) data).

(* :1267-1349: one iteration of the loop over the blocks.  The flag tells whether the temporary grid was built. *)
Definition read_block (fields : Z) (st : local) (s : list byte) : outcome (local * bool * list byte) :=
  let d := List.length (lo_axes st) in
  got (lims, s) <- read_pairs d s;
  got (bcs, s) <- read_pairs d s;
  got (size_in_mem, s) <- read_bin_ulong s;
  got (size_on_disk, s) <- read_bin_ulong s;
  let box := overlap_box (lo_axes st) lims in
  if forallb (fun r => fst r <? snd r) box then
    got (buffer, s) <- req (read_n size_on_disk s);
    got st' <- read_overlap fields st lims bcs box size_in_mem buffer;
    Done (st', true, s)
  else Done (st, false, skipn (Z.to_nat size_on_disk) s).

Fixpoint read_blocks (n : nat) (fields : Z) (st : local) (s : list byte) : outcome (local * list bool) :=
  match n with
  | O => Done (st, [])
  | S n' => got (st, built, s) <- read_block fields st s;
            got (st, l) <- read_blocks n' fields st s; Done (st, built :: l)
  end.

(* :1248-1356: read.  Also returns which of the blocks made it build a temporary grid. *)
Definition read (fields : Z) (st : local) (s : list byte) : outcome (local * list bool) :=
  got (blocks, s) <- read_bin_int s;
  read_blocks (Z.to_nat blocks) fields st s.

(* input >> g0[i] >> g1[i] for the d axes; a failed extraction leaves the variables undetermined *)
Fixpoint read_gs (d : nat) (s : list byte) : option (list gaxis * list byte) :=
  match d with
  | O => Some ([], s)
  | S d' => do (lo, s) <- read_int s; do (hi, s) <- read_int s;
            do (gs, s) <- read_gs d' s; Some (mkG lo hi :: gs, s)
  end.

(* input >> dx[i] *)
Fixpoint read_dx (d : nat) (s : list byte) : option (list D * list byte) :=
  match d with
  | O => Some ([], s)
  | S d' => let (tok, s) := span is_float_char (skip_space s) in
            do x <- dparse tok; do (l, s) <- read_dx d' s; Some (x :: l, s)
  end.

(* input >> dimen, :1206-1207, where dimen has no value yet.  With nothing but white space left nothing is stored.  Characters that are no number give
   0 (C++11), and so does, in the model, a number beyond the range of int, which gives the limit of the range *)
Definition read_dim (s : list byte) : outcome (Z * list byte) :=
  match read_int s with
  | Some r => Done r
  | None => match skip_space s with [] => Undef | _ => Done (0, s) end
  end.

(* :1193-1238 without the setup: type and dimension checks, fields, bounds, spacing; the rest of the stream *)
Definition read_header (name : list byte) (dim : nat) (s : list byte)
    : outcome (Z * list gaxis * list D * list byte) :=
  let (type, s) := getline s in
  match scalar_alias type with
  | None => Exit 134
  | Some alias =>
      let eqb (u v : list byte) := if list_eq_dec Z.eq_dec u v then true else false in
      if negb (eqb type name) && negb (eqb alias name) then Exit (-2) else
      got (dimen, s) <- read_dim s;
      if negb (dimen =? Z.of_nat dim) then Exit (-3) else
      got (fields, s) <- req (read_int s);
      got (gs, s) <- req (read_gs dim s);
      got (dx, s) <- req (read_dx dim s);
      Done (fields, gs, dx, ignore 10 s)
  end.

Record loaded := mkLoaded { ld_fields : Z; ld_dx : list D; ld_local : local; ld_geom : geom; ld_built : list bool }.

(* :1183-1246: input up to the ghost exchange; [setup] is the effect of setup(SINGLE) on this rank *)
Definition input (setup : list gaxis -> option geom) (name : list byte) (dim : nat) (file : list byte) : outcome loaded :=
  got (fields, gs, dx, s) <- read_header name dim file;
  got ge <- req (setup gs);
  let axs := ge_axes ge in
  got (st, built) <- read fields (mkLocal axs (repeat (fresh fields) (Z.to_nat (cells axs)))) s;
  Done (mkLoaded fields dx st ge built).

(* the serial build: ghosts = 0, no ghost exchange *)
Definition input_serial := input (fun gs => Some (setup_single gs 0)).

(* the MPI build: setup ends with a barrier (:324-326) in the grid itself and in every temporary grid; read ends with
   one (:1353-1355); then the ghost exchange.
   Simplification: the local work between two barriers is done before the first of them. *)
Fixpoint barriers {A} (l : list bool) (k : proc A) : proc A :=
  match l with
  | [] => k
  | true :: l' => barrier (barriers l' k)
  | false :: l' => barriers l' k
  end.
Definition input_mpi (np gh : Z) (name : list byte) (dim : nat) (file : list byte) (r : Z) : proc loaded :=
  match input (fun gs => setup_mpi np gs gh r) name dim file with
  | Done ld =>
      let ge := ld_geom ld in
      let ge' := mkGeom (lo_axes (ld_local ld)) (ge_ghosts ge) (ge_p1 ge) (ge_sp ge) (ge_pos ge) (ge_n0 ge) (ge_n1 ge) in
      barrier (barriers (ld_built ld) (barrier (
        ghostswap c ge' (lo_data (ld_local ld)) (fun d =>
        Ret (mkLoaded (ld_fields ld) (ld_dx ld) (mkLocal (lo_axes (ld_local ld)) d) ge (ld_built ld))))))
  | _ => Fail
  end.

(* MPI_File_write_at(offset, bytes) *)
Definition write : Type := (Z * list byte)%type.

(* :1487-1494: offsets of the blocks *)
Fixpoint block_offsets (off : Z) (sizes : list Z) : list Z :=
  match sizes with [] => [] | n :: t => off :: block_offsets (off + n) t end.

(* :1424-1543: output in the MPI build, file system blocks below 1 MiB.  Returns the writes of the rank before and
   after the MPI_File_sync at :1475; whether the writes of different ranks in one phase are done one after the other,
   and in which order, is not determined.
   Simplification: the opening and closing of the file, its error branches and the final size check are left out. *)
Definition output_mpi (np : Z) (name : list byte) (fields : Z) (axs : list axis) (dx : list D) (data : list T) (r : Z)
    : proc (list write * list write) :=
  barrier (barrier (
  let hd := header name fields (map (fun a => mkG (a_g0 a) (a_g1 a)) axs) dx in
  let header_offset := if r =? 0 then zlen hd + 4 else 0 in
  let first : list write := if r =? 0 then [(0, hd); (zlen hd, pd_enc pod_int np)] else [] in
  barrier (
  Coll 1 (pd_enc pod_ulong header_offset) (fun ms =>
  lift (get ms 0) (fun m =>
  let header_offset := pd_dec pod_ulong m in
  lift (write_buffer axs data) (fun buffer =>
  Coll 2 (pd_enc pod_ulong (zlen buffer)) (fun ms =>
  let datasizes := map (pd_dec pod_ulong) ms in
  lift (guard (forallb (fun n => n <? int_max) (tl datasizes))) (fun _ =>
  let offsets := block_offsets header_offset datasizes in
  lift (get offsets r) (fun off =>
  barrier (barrier (barrier (
  Ret (first, [(off, buffer)]))))))))))))).
End File.
