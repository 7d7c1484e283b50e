(* Words for C115: files that end too early. *)
From Verif Require Import Model.Base Model.Layout Model.Setup Model.MPI Model.Ghostswap Model.File Spec.Decomp Spec.File.

(* p is what is left of the file when its last bytes, at least one, are missing *)
Definition cut_short (p file : list byte) : Prop := exists q, q <> [] /\ file = (p ++ q)%list.

(* every one of the np ranks has nodes *)
Definition peopled (np : Z) (gs : list gaxis) (gh : Z) : Prop :=
  forall r ge, 0 <= r < np -> setup_mpi np gs gh r = Some ge -> Forall (fun a => a_x0 a < a_x1 a) (ge_axes ge).
