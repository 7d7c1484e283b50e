(* Semantics of the MPI operations used by MMSP (blocking and non-blocking point-to-point, collectives).
   Models the library, not a particular MMSP function. *)
From stdpp Require Import gmap.
From Verif Require Import Model.Base.

Definition msg := list byte.

(* The program of one rank.
   Isend d t m k        MPI_Isend of m to rank d with tag t, then k
   Recv s t k           completion of MPI_Recv/MPI_Irecv from rank s with tag t
   WaitSend d t k       completion of the sends issued to (d,t)
   Coll kind m k        collective operation; k receives the contributions of all ranks in rank order
   MPI_Send = Isend; WaitSend.  MPI_Irecv; MPI_Isend; MPI_Waitall = Isend; Recv; WaitSend.
   Fail = undefined behaviour or error. *)
Inductive proc (A : Type) : Type :=
| Ret (a : A)
| Fail
| Isend (dst tag : Z) (m : msg) (k : proc A)
| Recv (src tag : Z) (k : msg -> proc A)
| WaitSend (dst tag : Z) (k : proc A)
| Coll (kind : Z) (m : msg) (k : list msg -> proc A).
Arguments Ret {A}. Arguments Fail {A}. Arguments Isend {A}. Arguments Recv {A}.
Arguments WaitSend {A}. Arguments Coll {A}.

(* messages in flight, first-in first-out for each (source, destination, tag) *)
Definition chans : Type := gmap (Z * Z * Z) (list msg).
Definition chan (ch : chans) (s d t : Z) : list msg :=
  default [] ((ch : gmap (Z * Z * Z) (list msg)) !! (s, d, t)).
Definition set_chan (ch : chans) (s d t : Z) (q : list msg) : chans :=
  <[(s, d, t) := q]> (ch : gmap (Z * Z * Z) (list msg)).

Definition no_chans : chans := (∅ : gmap (Z * Z * Z) (list msg)).

(* A step of rank r alone, among np ranks.  The flag tells whether MPI guarantees that the step can be taken;
   completing a send before the message has been received (buffering) is allowed but not guaranteed. *)
Inductive lstep {A} (np r : Z) : bool -> proc A -> chans -> proc A -> chans -> Prop :=
| step_isend d t m k ch : 0 <= d < np ->
    lstep np r true (Isend d t m k) ch k (set_chan ch r d t (chan ch r d t ++ [m]))
| step_recv s t k m q ch : 0 <= s < np -> chan ch s r t = m :: q ->
    lstep np r true (Recv s t k) ch (k m) (set_chan ch s r t q)
| step_wait d t k ch : chan ch r d t = [] ->
    lstep np r true (WaitSend d t k) ch k ch
| step_eager d t k ch :
    lstep np r false (WaitSend d t k) ch k ch.

Definition state A := (list (proc A) * chans)%type.

(* all ranks are at the same collective operation, with these contributions and continuations *)
Inductive at_coll {A} (kind : Z) : list (proc A) -> list msg -> list (list msg -> proc A) -> Prop :=
| at_coll_nil : at_coll kind [] [] []
| at_coll_cons m k ps ms ks : at_coll kind ps ms ks ->
    at_coll kind (Coll kind m k :: ps) (m :: ms) (k :: ks).

Inductive step {A} : bool -> state A -> state A -> Prop :=
| step_local g r p p' ps ps' ch ch' :
    get ps r = Some p -> lstep (zlen ps) r g p ch p' ch' -> put ps r p' = Some ps' ->
    step g (ps, ch) (ps', ch')
| step_coll kind ps ms ks ch : ps <> [] ->
    at_coll kind ps ms ks -> step true (ps, ch) (map (fun k => k ms) ks, ch).

(* n steps, guaranteed ones only / any *)
Inductive gsteps {A} : nat -> state A -> state A -> Prop :=
| gsteps_0 s : gsteps 0 s s
| gsteps_S n s1 s2 s3 : step true s1 s2 -> gsteps n s2 s3 -> gsteps (S n) s1 s3.
Inductive steps {A} : nat -> state A -> state A -> Prop :=
| steps_0 s : steps 0 s s
| steps_S n g s1 s2 s3 : step g s1 s2 -> steps n s2 s3 -> steps (S n) s1 s3.

(* the ranks 0..np-1 running P *)
Definition ranks {A} (np : Z) (P : Z -> proc A) : list (proc A) := map P (zrange 0 np).

(* undefined behaviour inside a rank *)
Definition lift {A B} (o : option B) (k : B -> proc A) : proc A :=
  match o with Some b => k b | None => Fail end.

Definition barrier {A} (k : proc A) : proc A := Coll 0 [] (fun _ => k).
