(* Words for C119: the layout of a grid file. *)
From Verif Require Import Model.Base Spec.Decimal.
Local Open Scope list_scope.
Local Open Scope Z_scope.

(* n bytes of v, the lowest first; negative numbers in two's complement *)
Definition le (n : nat) (v : Z) : list byte := map (fun i => (v / 256 ^ Z.of_nat i) mod 256) (seq 0 n).
Definition line (s : list byte) : list byte := s ++ [10].

(* the type of the grid, the dimension, the number of fields, the first node and the end of each axis, and the spacings, each on a line *)
Definition header_text (name : list byte) (dim fields : Z) (extents : list (Z * Z)) (spacings : list (list byte)) (head : list byte) : Prop :=
  exists d f es, decimal d dim /\ decimal f fields /\
    Forall2 (fun p e => exists a b, decimal a (fst p) /\ decimal b (snd p) /\ e = a ++ [32] ++ b) extents es /\
    head = line name ++ line d ++ line f ++ flat_map line es ++ flat_map line spacings.
(* limits and boundary conditions of each axis as ints, the sizes of the data in memory and in the file, the data as they are in the file *)
Definition block_text (lims bcs : list (Z * Z)) (data body : list byte) : list byte :=
  flat_map (fun l => le 4 (fst l) ++ le 4 (snd l)) (lims ++ bcs) ++ le 8 (zlen data) ++ le 8 (zlen body) ++ body.
