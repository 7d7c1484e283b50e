From Verif Require Import Model.Base.

(* Byte buffers.  A char* buffer of known size is a list of bytes (0..255) with an offset. *)

(* memcpy(dst, buf+off, n) : None when it reads outside the buffer *)
Definition slice (buf : list byte) (off n : Z) : option (list byte) :=
  if (0 <=? off) && (0 <=? n) && (off + n <=? zlen buf)
  then Some (firstn (Z.to_nat n) (skipn (Z.to_nat off) buf)) else None.

(* memcpy(buf+off, src, n) : None when it writes outside the buffer *)
Definition blit (buf : list byte) (off : Z) (bs : list byte) : option (list byte) :=
  if (0 <=? off) && (off + zlen bs <=? zlen buf)
  then Some (firstn (Z.to_nat off) buf ++ bs ++ skipn (Z.to_nat (off + zlen bs)) buf) else None.

(* The object representation of a plain type: sizeof, bytes of a value, value of bytes. *)
Record pod (T : Type) := mkPod { pd_size : Z; pd_enc : T -> list byte; pd_dec : list byte -> T }.
Arguments mkPod {T}. Arguments pd_size {T}. Arguments pd_enc {T}. Arguments pd_dec {T}.

(* little-endian representation of an n-byte integer *)
Fixpoint le_enc (n : nat) (v : Z) : list byte :=
  match n with O => [] | S n' => v mod 256 :: le_enc n' (v / 256) end.
Fixpoint le_dec (bs : list byte) : Z :=
  match bs with [] => 0 | b :: t => b + 256 * le_dec t end.

(* n-byte unsigned and signed integers *)
Definition pod_uint (n : nat) : pod Z := mkPod (Z.of_nat n) (le_enc n) le_dec.
Definition sext (n : nat) (u : Z) : Z := if 256 ^ Z.of_nat n <=? 2 * u then u - 256 ^ Z.of_nat n else u.
Definition pod_sint (n : nat) : pod Z :=
  mkPod (Z.of_nat n) (fun v => le_enc n (v mod 256 ^ Z.of_nat n)) (fun bs => sext n (le_dec bs)).
Definition pod_int := pod_sint 4.
Definition pod_ulong := pod_uint 8.
(* a type whose values are known only by their representation (float, double, ...) *)
Definition pod_raw (n : Z) : pod (list byte) := mkPod n (fun v => v) (fun bs => bs).

(* buffer_size, to_buffer, from_buffer of one cell type; the Z results are the return values *)
Record codec (T : Type) := mkCodec {
  c_size : T -> Z;
  c_to : T -> list byte -> Z -> option (list byte * Z);
  c_from : list byte -> Z -> option (T * Z)
}.
Arguments mkCodec {T}. Arguments c_size {T}. Arguments c_to {T}. Arguments c_from {T}.

(* include/MMSP.utility.h:140-152 (plain types), include/MMSP.scalar.h:53-63 (scalar) *)
Definition pod_codec {T} (p : pod T) : codec T := mkCodec
  (fun _ => pd_size p)
  (fun v buf off => do b <- blit buf off (pd_enc p v); Some (b, pd_size p))
  (fun buf off => do bs <- slice buf off (pd_size p); Some (pd_dec p bs, pd_size p)).

(* the representation of an array of n plain values, and back *)
Definition arr_enc {T} (p : pod T) (v : list T) : list byte := flat_map (pd_enc p) v.
Fixpoint arr_dec {T} (p : pod T) (n : nat) (bs : list byte) : list T :=
  match n with
  | O => []
  | S n' => pd_dec p (firstn (Z.to_nat (pd_size p)) bs) :: arr_dec p n' (skipn (Z.to_nat (pd_size p)) bs)
  end.

(* include/MMSP.vector.cpp:95-117.  A vector<T> is the list of its elements.
   from_buffer: a negative size makes new T[size] fail: None. *)
Definition vector_codec {T} (p : pod T) : codec (list T) := mkCodec
  (fun v => 4 + zlen v * pd_size p)
  (fun v buf off =>
     do b <- blit buf off (pd_enc pod_int (zlen v));
     do b <- blit b (off + 4) (arr_enc p v);
     Some (b, 4 + zlen v * pd_size p))
  (fun buf off =>
     do hb <- slice buf off 4;
     let size := pd_dec pod_int hb in
     do _ <- guard (0 <=? size);
     do bs <- slice buf (off + 4) (size * pd_size p);
     Some (arr_dec p (Z.to_nat size) bs, 4 + size * pd_size p)).

(* include/MMSP.sparse.h:12-16: struct item {int index; T value;}: index, padding, value.
   [pad] is the content of the padding bytes (never looked at). *)
Definition item_pod {T} (pad : list byte) (p : pod T) : pod (Z * T) := mkPod
  (4 + zlen pad + pd_size p)
  (fun it => pd_enc pod_int (fst it) ++ pad ++ pd_enc p (snd it))
  (fun bs => (pd_dec pod_int (firstn 4 bs), pd_dec p (skipn (4 + length pad) bs))).

(* include/MMSP.sparse.cpp:139-161.  A sparse<T> is the list of its items; same layout as vector<item<T>>. *)
Definition sparse_codec {T} (pad : list byte) (p : pod T) : codec (list (Z * T)) :=
  vector_codec (item_pod pad p).
