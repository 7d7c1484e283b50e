From Verif Require Import Model.Base Model.Layout Model.Codec.

(* Nested loops over the box [min,max) starting at storage offset p.
   [rng lo hi] is the list of values of the loop variable: zrange for x++ and zrange2 for x+=2. *)
Section Region.
Context {T : Type} (c : codec T) (rng : Z -> Z -> list Z).

(* include/MMSP.grid.cpp:1111-1132 (and 1056-1073 with x+=2): grid::buffer_size *)
Fixpoint buffer_size (data : list T) (axs : list axis) (mn mx : list Z) (p : Z) : option Z :=
  match axs, mn, mx with
  | [a], lo :: _, hi :: _ =>
      fold_opt (fun size x => do v <- get data (p + (x - a_s0 a) * a_sx a); Some (size + c_size c v))
               (rng lo hi) 0
  | a :: axs', lo :: mn', hi :: mx' =>
      fold_opt (fun size x => do s <- buffer_size data axs' mn' mx' (p + (x - a_s0 a) * a_sx a); Some (size + s))
               (rng lo hi) 0
  | _, _, _ => Some 0
  end.

(* include/MMSP.grid.cpp:1136-1157 (and 1075-1091 with x+=2): grid::to_buffer.
   Result: the buffer and the returned size. *)
Fixpoint to_buffer (data : list T) (axs : list axis) (mn mx : list Z) (p : Z)
    (buf : list byte) (off : Z) : option (list byte * Z) :=
  match axs, mn, mx with
  | [a], lo :: _, hi :: _ =>
      fold_opt (fun '(buf, size) x =>
                  do v <- get data (p + (x - a_s0 a) * a_sx a);
                  do bs <- c_to c v buf (off + size);
                  Some (fst bs, size + snd bs))
               (rng lo hi) (buf, 0)
  | a :: axs', lo :: mn', hi :: mx' =>
      fold_opt (fun '(buf, size) x =>
                  do bs <- to_buffer data axs' mn' mx' (p + (x - a_s0 a) * a_sx a) buf (off + size);
                  Some (fst bs, size + snd bs))
               (rng lo hi) (buf, 0)
  | _, _, _ => Some (buf, 0)
  end.

(* include/MMSP.grid.cpp:1159-1180 (and 1093-1108 with x+=2): grid::from_buffer.
   Result: the new data array and the returned size. *)
Fixpoint from_buffer (data : list T) (axs : list axis) (mn mx : list Z) (p : Z)
    (buf : list byte) (off : Z) : option (list T * Z) :=
  match axs, mn, mx with
  | [a], lo :: _, hi :: _ =>
      fold_opt (fun '(data, size) x =>
                  do vs <- c_from c buf (off + size);
                  do data' <- put data (p + (x - a_s0 a) * a_sx a) (fst vs);
                  Some (data', size + snd vs))
               (rng lo hi) (data, 0)
  | a :: axs', lo :: mn', hi :: mx' =>
      fold_opt (fun '(data, size) x =>
                  do vs <- from_buffer data axs' mn' mx' (p + (x - a_s0 a) * a_sx a) buf (off + size);
                  Some (fst vs, size + snd vs))
               (rng lo hi) (data, 0)
  | _, _, _ => Some (data, 0)
  end.
End Region.
