From Coq Require Import String.
From Verif Require Import Model.Base Model.Num Model.Vector Model.Codec Model.MPI Model.Ghostswap.

(* +=, min and max of the type T of the reduced value; None = undefined behaviour or failed assertion *)
Record reduce_ops (T : Type) := mkOps { o_add : T -> T -> option T; o_min : T -> T -> option T; o_max : T -> T -> option T }.
Arguments mkOps {T}. Arguments o_add {T}. Arguments o_min {T}. Arguments o_max {T}.

(* plain types; vectors (all elements initialised) *)
Definition plain_ops {T} (N : num T) : reduce_ops T :=
  mkOps (fun a b => Some (n_add N a b)) (fun a b => Some (n_min N a b)) (fun a b => Some (n_max N a b)).
Definition vector_ops {T} (N : num T) : reduce_ops (list T) :=
  let go f x y := do z <- vbinary f (map Some x) (map Some y); map_opt (fun c => c) z in
  mkOps (go (n_add N)) (go (n_min N)) (go (n_max N)).

(* include/MMSP.utility.cpp:86-92: "perform operation"; any other string leaves the value as it is *)
Definition reduce {T} (R : reduce_ops T) (operation : string) (g temp : T) : option T :=
  if (String.eqb operation "add" || String.eqb operation "sum")%bool then o_add R g temp
  else if (String.eqb operation "min" || String.eqb operation "minimum")%bool then o_min R g temp
  else if (String.eqb operation "max" || String.eqb operation "maximum")%bool then o_max R g temp
  else Some g.

Section Global.
Context {T A : Type} (c : codec T) (R : reduce_ops T) (op : string).

(* MPI_Recv of the size and of the data from rank src into a new buffer (:74-78, :122-124) *)
Definition recv_value (src tag1 tag2 : Z) (k : T -> proc A) : proc A :=
  Recv src tag1 (fun sm =>
  if negb (zlen sm =? 4) then Fail else
  let size := pd_dec pod_int sm in
  if size <? 0 then Fail else
  Recv src tag2 (fun m =>
  if size <? zlen m then Fail else
  lift (c_from c (m ++ repeat 0 (Z.to_nat (size - zlen m))) 0) (fun '(v, _) => k v))).

(* MPI_Send of the size and of the data (:97-101, :111-115); size is an int *)
Definition send_value (v : T) (dst tag1 tag2 : Z) (k : proc A) : proc A :=
  let size := c_size c v in
  if int_max <? size then Fail else
  Isend dst tag1 (pd_enc pod_int size) (WaitSend dst tag1 (
  lift (c_to c v (repeat 0 (Z.to_nat size)) 0) (fun '(buffer, _) =>
  Isend dst tag2 buffer (WaitSend dst tag2 k)))).

(* :72-93: receive from rank i, ..., i+n-1 *)
Fixpoint collect (n : nat) (i : Z) (g : T) (k : T -> proc A) : proc A :=
  match n with
  | O => k g
  | S n' => recv_value i 100 200 (fun temp => lift (reduce R op g temp) (fun g' => collect n' (i + 1) g' k))
  end.
(* :96-106: send to rank i, ..., i+n-1 *)
Fixpoint distribute (n : nat) (i : Z) (g : T) (k : proc A) : proc A :=
  match n with
  | O => k
  | S n' => send_value g i 300 400 (distribute n' (i + 1) g k)
  end.

(* include/MMSP.utility.cpp:61-136: global(value, operation) on rank r of np, MPI build.
   In the serial build it returns value. *)
Definition global (np r : Z) (value : T) (k : T -> proc A) : proc A :=
  if r =? 0 then
    collect (Z.to_nat (np - 1)) 1 value (fun g =>
    distribute (Z.to_nat (np - 1)) 1 g (barrier (k g)))
  else
    send_value value 0 100 200 (recv_value 0 300 400 (fun g => barrier (k g))).
End Global.
