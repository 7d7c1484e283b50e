(* Vocabulary for what mmsp2topo reports on the screen *)
From Coq Require Import QArith.QArith QArith.Qcanon Sorting.Sorted.
From Verif Require Import Model.Base Model.Layout Model.Topology Model.Stencil Spec.Box Spec.Stencil Spec.Evolve Spec.Topo.
Local Open Scope Z_scope.

(* l lists, in increasing order, the identifiers with property P *)
Definition listing (P : Z -> Prop) (l : list Z) : Prop := StronglySorted Z.lt l /\ forall a, In a l <-> P a.
(* n is the number of identifiers with property P *)
Definition number (P : Z -> Prop) (n : Z) : Prop := exists l, listing P l /\ n = zlen l.
(* field a is stored at one of the nodes *)
Definition present (F : list Z -> list (Z * Qc)) (xs : list (list Z)) (a : Z) : Prop := exists x, In x xs /\ stored F a x.
(* grain a fills at least one node, or less *)
Definition large (F : list Z -> list (Z * Qc)) (xs : list (list Z)) (a : Z) : Prop := present F xs a /\ (1 <= amount F xs a)%Qc.
Definition tiny (F : list Z -> list (Z * Qc)) (xs : list (list Z)) (a : Z) : Prop := present F xs a /\ (amount F xs a < 1)%Qc.
(* the centre of mass of grain a along axis k *)
Definition middle (F : list Z -> list (Z * Qc)) (xs : list (list Z)) (k : nat) (a : Z) : Qc := (amount_moment F xs k a / amount F xs a)%Qc.
(* the volume of a cell of the grid with these spacings *)
Definition cell_size (scale : list Qc) : Qc := fold_right Qcmult 1%Qc scale.
