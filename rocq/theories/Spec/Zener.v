(* Boundary energies of a grain structure on a torus. *)
From Coq Require Import QArith.QArith QArith.Qcanon.
From Verif Require Import Model.Base Model.Layout Spec.Stencil Spec.Spin.

(* the energy of all pairs of neighbouring nodes, every pair counted from both ends *)
Definition pair_energy (nodes : list (list Z)) (neighbours : list Z -> list (list Z)) (energy : Z -> Z -> Qc) (spin : list Z -> Z) : Qc :=
  sumQ (map (fun x => sumQ (map (fun y => energy (spin x) (spin y)) (neighbours x))) nodes).
Definition boundary_energy2 (ls : list limits) (energy : Z -> Z -> Qc) (spin : list Z -> Z) : Qc :=
  pair_energy (all_nodes ls) (torus_neighbours ls) energy spin.
(* a grain has no boundary with itself, and a boundary has one energy *)
Definition boundary_like (energy : Z -> Z -> Qc) : Prop := (forall s, energy s s = 0%Qc) /\ (forall s t, energy s t = energy t s).
