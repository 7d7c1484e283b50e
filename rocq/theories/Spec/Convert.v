From Coq Require Import QArith Qcanon.
From Verif Require Import Model.Base Model.Boundary Model.Layout Model.Convert Spec.Access.
Local Open Scope Z_scope.

(* the limits of a grid *)
Definition box {T} (g : sgrid T) : list (Z * Z) := map (fun a => (a_x0 a, a_x1 a)) (sg_axes g).
(* a grid object of a program without MPI: it owns its whole box and has one cell for every node *)
Definition serial_grid {T} (g : sgrid T) : Prop :=
  sg_axes g <> [] /\ wf_axes 0 (sg_axes g) /\ Forall (fun a => a_x0 a = a_g0 a /\ a_x1 a = a_g1 a) (sg_axes g) /\ zlen (sg_data g) = cells (sg_axes g).
(* the vector of order parameters of a node in grain id *)
Definition indicator (fields id : Z) : list Qc := map (fun j => if j =? id then 1%Qc else 0%Qc) (zrange 0 fields).
