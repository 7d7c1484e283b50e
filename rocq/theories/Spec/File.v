From Coq Require Import String.
From Verif Require Import Model.Base Model.Text Model.Boundary Model.Layout Model.Access Model.Setup Model.Codec Model.Region
  Spec.Box Spec.Decomp Spec.Bytes.
Local Open Scope list_scope.

(* ---- a file written at positions ---- *)
Definition write_at (f : list byte) (w : Z * list byte) : list byte :=
  let (off, bs) := w in
  firstn (Z.to_nat off) (f ++ repeat 0 (Z.to_nat off)) ++ bs ++ skipn (Z.to_nat (off + zlen bs)) f.

(* p is a contiguous part of the write w *)
Definition part_of (w p : Z * list byte) : Prop :=
  exists pre post, snd w = pre ++ snd p ++ post /\ fst p = fst w + zlen pre.

(* ps is a way of carrying out the writes ws: a sequence of parts of them, in any order and possibly interleaved,
   in which every byte of every write occurs *)
Definition carries_out (ps ws : list (Z * list byte)) : Prop :=
  (forall p, In p ps -> exists w, In w ws /\ part_of w p) /\
  (forall w, In w ws -> forall k, 0 <= k < zlen (snd w) ->
     exists p, In p ps /\ part_of w p /\ fst p <= fst w + k < fst p + zlen (snd p)).

(* ---- compression ---- *)
(* what zlib promises: decompression inverts compression, and the output is at most 1/8 longer plus 12 bytes *)
Definition lossless (compress : list byte -> list byte) (uncompress : list byte -> Z -> option (list byte)) : Prop :=
  forall x, uncompress (compress x) (zlen x) = Some x /\ zlen (compress x) <= 9 * zlen x / 8 + 12.

(* ---- text form of a spacing ---- *)
(* written and read back the number is unchanged, and the text consists of the characters of a number *)
Definition exact_text {D} (dshow : D -> list byte) (dparse : list byte -> option D) (d : D) : Prop :=
  dparse (dshow d) = Some d /\ dshow d <> [] /\
  Forall (fun b => 48 <= b <= 57 \/ b = 43 \/ b = 45 \/ b = 46 \/ b = 69 \/ b = 101) (dshow d).

(* ---- boundary conditions ---- *)
(* the axes axs with the boundary conditions B on the sides that lie on the global boundary *)
Fixpoint with_bcs (B : list (Z * Z)) (axs : list axis) : list axis :=
  match B, axs with
  | (lo, hi) :: B', a :: axs' =>
      mkAxis (a_g0 a) (a_g1 a) (a_x0 a) (a_x1 a) (a_s0 a) (a_s1 a) (a_sx a) (a_xx a)
             (if a_x0 a =? a_g0 a then lo else a_b0 a) (if a_x1 a =? a_g1 a then hi else a_b1 a) :: with_bcs B' axs'
  | _, _ => axs
  end.

(* ---- what can be written ---- *)
(* type names begin with "grid:" and have no line end *)
Definition good_name (name : list byte) := (exists t, name = bytes "grid:" ++ t) /\ Forall (fun b => b <> 10) name.
Definition int_box (g : gaxis) := int_range (gx_0 g) /\ int_range (gx_1 g).

(* the serialised cells fit in the address space, and (compressing build) their compressed form does not happen to have
   the same length *)
Definition recognisable {T} (c : codec T) (raw : bool) (compress : list byte -> list byte) (axs : list axis) (data : list T) :=
  forall n bs, buffer_size c zrange data axs (map a_x0 axs) (map a_x1 axs) 0 = Some n ->
    to_buffer c zrange data axs (map a_x0 axs) (map a_x1 axs) 0 (repeat 0 (Z.to_nat n)) 0 = Some (bs, n) ->
    9 * n / 8 + 12 < 2 ^ 64 /\ (raw = false -> zlen (compress bs) <> zlen bs).

(* the np ranks that split the box gs among them, with boundary conditions B, hold the field V: every rank finds V x in
   its own cell x *)
Definition hold {T} (np : Z) (gs : list gaxis) (gh : Z) (B : list (Z * Z)) (data : Z -> list T) (V : list Z -> T) :=
  forall r ge, 0 <= r < np -> setup_mpi np gs gh r = Some ge ->
    zlen (data r) = cells (ge_axes ge) /\
    forall x, owns ge x -> grid_read true (with_bcs B (ge_axes ge)) (data r) x = Some (V x).

(* the blocks of two ranks (of different decompositions) have a cell in common *)
Definition meets (a b : list axis) : bool :=
  forallb (fun p => Z.max (a_x0 (fst p)) (a_x0 (snd p)) <? Z.min (a_x1 (fst p)) (a_x1 (snd p))) (combine a b).
(* number of blocks of the decomposition among np ranks that have a cell in common with the block a *)
Definition met (np : Z) (gs : list gaxis) (gh : Z) (a : list axis) : nat :=
  length (filter (fun w => match setup_mpi np gs gh w with Some g => meets a (ge_axes g) | None => false end) (zrange 0 np)).

(* ---- block-aligned output ---- *)
(* number of file-system blocks of size bs that a file of F bytes occupies *)
Definition blocks_of (F bs : Z) : Z := (F + bs - 1) / bs.
(* number of ranks that write *)
Definition writers_of (np F bs : Z) : Z := Z.min (blocks_of F bs) np.
(* the whole blocks are dealt out evenly, the first writers get one more: file position where the part of writer w starts *)
Definition boundary (np F bs w : Z) : Z :=
  let b := blocks_of F bs in let n := writers_of np F bs in bs * (w * (b / n) + Z.min w (b mod n)).
(* file position of the data of rank r *)
Definition position (head : list byte) (blk : Z -> list byte) (r : Z) : Z :=
  zlen (head ++ concat (map blk (zrange 0 r))).
