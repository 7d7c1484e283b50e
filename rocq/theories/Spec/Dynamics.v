(* Vocabulary of the statements about the phase-field programs. *)
From Coq Require Import QArith.QArith QArith.Qcanon.
From Verif Require Import Model.Base Model.Layout Spec.Stencil.

(* the value of field j at a node, and its total over a grid *)
Definition component (j : Z) (cell : list Qc) : Qc := nth (Z.to_nat j) cell 0%Qc.
Definition total (j : Z) (data : list (list Qc)) : Qc := sumQ (map (component j) data).

(* phase fractions: none negative, together 1 *)
Definition on_simplex (n : Z) (cell : list Qc) : Prop := zlen cell = n /\ Forall (fun v => 0 <= v)%Qc cell /\ sumQ cell = 1%Qc.

(* sum over the axes of 2 / h^2 *)
Definition stiffness (dx : list Qc) : Qc := sumQ (map (fun h => Q2Qc (2 # 1) / (h * h)) dx)%Qc.

(* n time steps *)
Fixpoint times {S} (n : nat) (f : S -> option S) (s : S) : option S :=
  match n with O => Some s | Datatypes.S m => do s' <- f s; times m f s' end.
(* A run can be cut in two.  The states contain the field, which is what a checkpoint holds, and work arrays.  After n steps from any
   state s2 with the same field as s1, and m steps from any state with the field so obtained, the field is that after n + m steps
   from s1, whatever the work arrays hold at the start of each part. *)
Definition restartable {S F} (ok : S -> Prop) (field : S -> F) (step : S -> option S) : Prop :=
  forall n m s1 s2, ok s1 -> ok s2 -> field s1 = field s2 ->
  exists a b, times (n + m) step s1 = Some a /\ times n step s2 = Some b /\
    forall s3, ok s3 -> field s3 = field b -> exists c, times m step s3 = Some c /\ field c = field a.
(* the data of a grid of vectors with n elements *)
Definition vector_field (ls : list limits) (n : Z) (data : list (list Qc)) : Prop := zlen data = cells (lay 0 ls) /\ Forall (fun c => zlen c = n) data.
