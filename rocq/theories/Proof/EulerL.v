(* C120: lemmas on explicit steps *)
From Coq Require Import QArith.QArith QArith.Qcanon.
From Verif Require Import Model.Base Model.Boundary Model.Layout Model.Access Model.Stencil Model.Dynamics
  Spec.Box Spec.Access Spec.Stencil Spec.Dynamics Spec.Euler
  Proof.BaseL Proof.LayoutL Proof.AccessL Proof.StencilL Proof.StencilS Proof.StencilQ Proof.StencilM Proof.DynamicsL Proof.DynamicsF.
Local Open Scope list_scope.
Local Open Scope Z_scope.

Section Euler.
Context (ls : list limits) (dx : list Qc) (Hs : Forall serial_axis ls) (Hd : length dx = length ls) (Hz : Forall (fun h => h <> 0%Qc) dx).
Lemma star_lap data x f : zlen data = cells (lay 0 ls) -> box ls x -> star false (lay 0 ls) data x f -> lap ls dx data x = Laplace (zlen ls) dx f x.
Proof.
  intros L B S. pose proof (laplacian_serial ls dx Hs Hd Hz data x L B) as E.
  rewrite (laplacian_eq false (lay 0 ls) dx data x f) in E; auto; try (rewrite length_lay; auto; now apply local_len).
  injection E as E. rewrite <- E. unfold Laplace. now rewrite zlen_lay.
Qed.
Lemma star_nth data i f : zlen data = cells (lay 0 ls) -> 0 <= i < nodes (lay 0 ls) -> star false (lay 0 ls) data (position (lay 0 ls) i) f ->
  nth (Z.to_nat i) data 0%Qc = f (position (lay 0 ls) i).
Proof.
  intros L Hi [R _]. transitivity (at_or 0%Qc (lay 0 ls) data (position (lay 0 ls) i)); [symmetry; apply (nth_at ls dx); auto|]. unfold at_or. now rewrite R.
Qed.
Lemma read_tab t i : 0 <= i < nodes (lay 0 ls) -> grid_read_int false (lay 0 ls) (tab (nodes (lay 0 ls)) t) i = Some (t i).
Proof.
  intros Hi. rewrite read_int_0; auto; [|rewrite tab_len, cells_nodes_0; lia]. f_equal. unfold tab.
  rewrite nth_indep with (d' := t 0) by (rewrite map_length; unfold zrange; rewrite map_length, seq_length; lia).
  rewrite map_nth. f_equal. unfold zrange. rewrite nth_indep with (d' := 0 + Z.of_nat 0) by (rewrite map_length, seq_length; lia).
  rewrite (map_nth (fun k => 0 + Z.of_nat k)), seq_nth; lia.
Qed.
End Euler.
