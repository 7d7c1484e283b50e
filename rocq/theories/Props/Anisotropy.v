(* C87: the remembered energies and mobilities of anisotropy.hpp. *)
From Coq Require Import QArith.QArith QArith.Qcanon.
From Verif Require Import Model.Base Model.Anisotropy Spec.Stencil Spec.Zener Spec.Anisotropy Proof.AnisotropyL.
Local Open Scope Z_scope.

(* C87: whatever energies and mobilities a program asks for, in whatever order and however often, every answer is the value for that pair
   of grains, whatever was asked before; values that are zero are no exception *)
Theorem C87_answers : forall energy mobility qs, fst (asks energy mobility no_tables qs) = map (answer energy mobility) qs.
Proof. intros e m qs. apply asks_ok; constructor. Qed.
Print Assumptions C87_answers.
(* so both are symmetric and vanish between a grain and itself: the hypothesis of C73_anisotropic *)
Theorem C87_boundary : forall energy mobility, boundary_like (fun i j => answer energy mobility (Energy i j)) /\ boundary_like (fun i j => answer energy mobility (Mobility i j)).
Proof.
  intros e m. split; split; intros; cbn [answer]; unfold ordered; rewrite ?Z.eqb_refl; try reflexivity; rewrite (Z.eqb_sym t), (Z.min_comm t), (Z.max_comm t); reflexivity.
Qed.
Print Assumptions C87_boundary.
(* the last answer depends neither on the questions before nor on the order of the two grains *)
Theorem C87_history : forall energy mobility before before' i j,
  last (fst (asks energy mobility no_tables (before ++ [Energy i j]))) 0%Qc = last (fst (asks energy mobility no_tables (before' ++ [Energy j i]))) 0%Qc /\
  last (fst (asks energy mobility no_tables (before ++ [Mobility i j]))) 0%Qc = last (fst (asks energy mobility no_tables (before' ++ [Mobility j i]))) 0%Qc.
Proof.
  intros e m b b' i j. rewrite !C87_answers, !map_app. cbn [map]. rewrite !last_last. destruct (C87_boundary e m) as [[_ S1] [_ S2]]. auto.
Qed.
Print Assumptions C87_history.
Example C87_case : let f i j := if (i =? 0)%Z then 0%Qc else Qc_of (i + j) in let g i j := Qc_of (i * j) in
  map this (fst (asks f g no_tables [Energy 3 1; Mobility 1 3; Energy 0 2; Energy 2 0; Energy 1 3; Energy 2 2; Mobility 3 1])) = map this [Qc_of 4; Qc_of 3; 0%Qc; 0%Qc; Qc_of 4; 0%Qc; Qc_of 3].
Proof. vm_compute. reflexivity. Qed.
