(* Numbers in texts. *)
From Coq Require Import QArith.QArith QArith.Qcanon QArith.Qpower.
From Verif Require Import Model.Base Spec.Stencil.
Local Open Scope Z_scope.

Definition pow10 (e : Z) : Qc := Q2Qc ((10 # 1) ^ e).
(* v can be written with at most six significant digits *)
Definition six_figures (v : Qc) : Prop := exists m e, 0 < m < 1000000 /\ v = (Qc_of m * pow10 e)%Qc.
(* q differs from v by at most r * v *)
Definition within (r q v : Qc) : Prop := (v - r * v <= q)%Qc /\ (q <= v + r * v)%Qc.
(* the positive numbers for which doubles have their full precision (and some others) *)
Definition ordinary (d : Qc) : Prop := (pow10 (-300) <= d)%Qc /\ (d <= pow10 300)%Qc.
(* a way of rounding numbers to doubles: a number of six digits changes by less than one part in 10^8 *)
Definition rounding (near : Qc -> Qc) : Prop := forall v, six_figures v -> within (pow10 (-8)) (near v) v.
(* d' is d to six significant digits, as a double *)
Definition to_six (near : Qc -> Qc) (d d' : Qc) : Prop := exists v, six_figures v /\ within (Qc_of 5 * pow10 (-6)) v d /\ d' = near v.
