From Verif Require Import Model.Base Model.Codec.

(* c serialises the values satisfying valid: every such value has a byte string of the announced size;
   writing puts exactly that string at the given place of any buffer with room, changes no other byte and
   returns its length; reading any buffer holding the string there gives the value back and returns the length. *)
Definition serialises {T} (c : codec T) (valid : T -> Prop) : Prop :=
  forall v, valid v -> exists bs, zlen bs = c_size c v /\
    (forall pre old post, zlen old = zlen bs ->
       c_to c v (pre ++ old ++ post) (zlen pre) = Some (pre ++ bs ++ post, zlen bs)) /\
    (forall pre post, c_from c (pre ++ bs ++ post) (zlen pre) = Some (v, zlen bs)).

(* a plain type: fixed number of bytes, decoding inverts encoding *)
Definition pod_ok {T} (p : pod T) (valid : T -> Prop) : Prop :=
  0 <= pd_size p /\ forall v, valid v -> zlen (pd_enc p v) = pd_size p /\ pd_dec p (pd_enc p v) = v.

(* a sequence of cells written one after the other / read one after the other, using only the returned sizes *)
Fixpoint write_all {T} (c : codec T) (vs : list T) (buf : list byte) (off : Z) : option (list byte * Z) :=
  match vs with
  | [] => Some (buf, off)
  | v :: t => do r <- c_to c v buf off; write_all c t (fst r) (off + snd r)
  end.
Fixpoint read_all {T} (c : codec T) (n : nat) (buf : list byte) (off : Z) : option (list T * Z) :=
  match n with
  | O => Some ([], off)
  | S n' => do r <- c_from c buf off; do rs <- read_all c n' buf (off + snd r);
            Some (fst r :: fst rs, snd rs)
  end.

(* the values of a 32-bit int *)
Definition int_range (v : Z) : Prop := - 2147483648 <= v < 2147483648.
