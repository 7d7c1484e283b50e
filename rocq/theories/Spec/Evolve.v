From Coq Require Import QArith.QArith QArith.Qcanon.
From Verif Require Import Model.Base Spec.Stencil.

(* value of field k in a cell; zero when it is not stored *)
Definition at_index (l : list (Z * Qc)) (k : Z) : Qc :=
  match find (fun it => fst it =? k) l with Some it => snd it | None => 0%Qc end.
(* field k is stored at node x or at one of its neighbours along the axes *)
Definition near (F : list Z -> list (Z * Qc)) (x : list Z) (k : Z) : Prop :=
  In k (map fst (F x)) \/
  exists i, 0 <= i < zlen x /\ (In k (map fst (F (nb x i 1))) \/ In k (map fst (F (nb x i (-1))))).
(* positive fractions that add up to one *)
Definition on_simplex (l : list (Z * Qc)) : Prop :=
  NoDup (map fst l) /\ Forall (fun it => 0 < snd it /\ snd it <= 1)%Qc l /\ sumQ (map snd l) = 1%Qc.
(* the laplacian of field k at x *)
Definition field_laplacian (F : list Z -> list (Z * Qc)) (dx : list Qc) (x : list Z) (k : Z) : Qc :=
  sumQ (map (fun i => second_difference (fun y => at_index (F y) k) x i (spacing dx i)) (zrange 0 (zlen x))).
(* the value computed for field k at x by the sparse grain-growth example *)
Definition grown (F : list Z -> list (Z * Qc)) (dx : list Qc) (x : list Z) (k : Z) : Qc :=
  let phi := at_index (F x) k in
  let squares := sumQ (map (fun it => snd it * snd it)%Qc (F x)) in
  (phi - Q2Qc (1 # 100) * (- phi - phi * phi * phi + Q2Qc (2 # 1) * (phi * squares - field_laplacian F dx x k)))%Qc.
