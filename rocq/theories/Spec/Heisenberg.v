(* Classical spins: unit vectors in space on the nodes of a torus. *)
From Coq Require Import QArith.QArith QArith.Qcanon.
From Verif Require Import Model.Base Model.Boundary Model.Layout Model.Access Spec.Box Spec.Stencil Spec.Spin.

Definition dot3 (s t : list Qc) : Qc :=
  (nth 0 s 0 * nth 0 t 0 + nth 1 s 0 * nth 1 t 0 + nth 2 s 0 * nth 2 t 0)%Qc.
Definition unit3 (s : list Qc) : Prop := length s = 3%nat /\ dot3 s s = 1%Qc.
(* the spin at node x of a serial grid *)
Definition spin_at (ls : list limits) (data : list (list Qc)) (x : list Z) : list Qc :=
  match grid_read false (lay 0 ls) data x with Some v => v | None => [] end.
(* twice the energy of an antiferromagnet with unit coupling: s.t for every pair of neighbours, counted from both ends; that of the
   ferromagnet is the opposite *)
Definition antiferro2 (ls : list limits) (data : list (list Qc)) : Qc :=
  sumQ (map (fun x => sumQ (map (fun y => dot3 (spin_at ls data x) (spin_at ls data y)) (torus_neighbours ls x))) (all_nodes ls)).
Definition ferro2 (ls : list limits) (data : list (list Qc)) : Qc := (- antiferro2 ls data)%Qc.
