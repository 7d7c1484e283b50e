(* Words for C100: the total of a field over all ranks. *)
From Coq Require Import QArith.QArith QArith.Qcanon.
From Verif Require Import Model.Base Model.Layout Model.Access Model.Setup Model.Ghostswap Spec.Stencil.

(* the sum over the nodes of one rank, as a program computes it: for (int i=0; i<nodes(GRID); i++) sum += GRID(i) *)
Definition rank_total (ge : geom) (data : list Qc) : option Qc :=
  fold_opt (fun sum i => do v <- grid_read_int true (ge_axes ge) data i; Some (sum + v)%Qc) (zrange 0 (nodes (ge_axes ge))) 0%Qc.
(* the sum of these over all ranks *)
Definition all_total (np : Z) (gs : list gaxis) (gh : Z) (D : Z -> list Qc) : option Qc :=
  fold_opt (fun sum r => do ge <- setup_mpi np gs gh r; do v <- rank_total ge (D r); Some (sum + v)%Qc) (zrange 0 np) 0%Qc.
