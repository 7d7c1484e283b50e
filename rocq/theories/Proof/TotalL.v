From Coq Require Import QArith.QArith QArith.Qcanon Permutation.
From Verif Require Import Model.Base Model.Boundary Model.Layout Model.Access Model.Setup Model.Codec Model.MPI Model.Ghostswap Model.Stencil Model.Simulate Model.Dynamics Model.Stages
  Spec.Box Spec.Access Spec.Bytes Spec.Decomp Spec.Schedule Spec.Stencil Spec.Stages
  Proof.BaseL Proof.LayoutL Proof.AccessL Proof.SetupL Proof.MPIL Proof.StencilL Proof.StencilS Proof.StencilQ Proof.SimulateL Proof.TessellateF Proof.GrainsizeL Proof.CentroidL Proof.ConvertL Proof.StagesL.
Local Open Scope Z_scope.

(* ---- totals ---- *)
Lemma fold_total {A} (f : A -> option Qc) (V : A -> Qc) l s : (forall a, In a l -> f a = Some (V a)) -> fold_opt (fun sum a => do v <- f a; Some (sum + v)%Qc) l s = Some (s + sumQ (map V l))%Qc.
Proof.
  revert s; induction l as [|a l IH]; intros s H; cbn [fold_opt map sumQ]; [f_equal; ring|]. rewrite (H a) by now left. cbn [bind]. rewrite IH by (intros; apply H; now right). f_equal. ring.
Qed.
Lemma sumQ_app l m : sumQ (l ++ m) = (sumQ l + sumQ m)%Qc.
Proof. induction l as [|a l IH]; cbn; [ring|]. rewrite IH. ring. Qed.
Lemma sumQ_concat {A} (f : A -> list Qc) l : sumQ (concat (map f l)) = sumQ (map (fun a => sumQ (f a)) l).
Proof. induction l as [|a l IH]; cbn [map concat sumQ]; [reflexivity|]. now rewrite sumQ_app, IH. Qed.
Lemma map_get (l : list Qc) : map (fun i => match get l i with Some v => v | None => 0%Qc end) (zrange 0 (zlen l)) = l.
Proof.
  induction l as [|a l IH] using rev_ind; [reflexivity|]. rewrite zlen_app. change (zlen [a]) with 1. rewrite zrange_snoc by apply zlen_nonneg. rewrite map_app. f_equal.
  - rewrite <- IH at 2. apply map_ext_in. intros i Hi. apply in_zrange in Hi. unfold get. destruct (_ <? 0); [auto|]. unfold zlen in Hi. rewrite nth_error_app1 by lia. reflexivity.
  - cbn [map]. unfold get. pose proof (zlen_nonneg l). destruct (Z.ltb_spec (zlen l) 0); [lia|]. unfold zlen. rewrite Nat2Z.id, nth_error_app2, Nat.sub_diag by lia. reflexivity.
Qed.

(* ranks that hold the field of a serial grid have its total *)
Lemma totals_agree np gs bs gh (D : Z -> list Qc) (D0 : list Qc) : 0 < np -> gs <> [] -> 1 <= gh -> length bs = length gs -> Forall serial_axis (whole_lims gs bs) -> zlen D0 = cells (whole gs bs) ->
  (forall r ge y, 0 <= r < np -> setup_mpi np gs gh r = Some ge -> owns ge y -> exists v, grid_read true (ge_axes ge) (D r) y = Some v /\ grid_read false (whole gs bs) D0 y = Some v) ->
  all_total np gs gh D = Some (sumQ D0).
Proof.
  intros Hnp Hne Hgh Lb Sa L0 H.
  assert (Forall (fun g => gx_0 g < gx_1 g) gs) as Hg1.
  { rewrite <- (whole_gaxes gs bs Lb). unfold gaxes. apply Forall_map. eapply Forall_impl; [|exact Sa]. intros l (X & _). exact X. }
  assert (gok gs) as Hg by (eapply Forall_impl; [|exact Hg1]; cbv beta; lia).
  set (V := fun y => match grid_read false (whole gs bs) D0 y with Some v => v | None => 0%Qc end).
  set (axs := fun r => match setup_mpi np gs gh r with Some ge => ge_axes ge | None => [] end).
  assert (forall r, 0 <= r < np -> exists ge, setup_mpi np gs gh r = Some ge /\ axs r = ge_axes ge) as HA.
  { intros r Hr. destruct (setup_eq np gs gh r Hnp Hne Hg Hr) as (p1 & _ & _ & _ & _ & E). eexists. split; [exact E|]. unfold axs. now rewrite E. }
  assert (forall r, In r (zrange 0 np) -> (do ge <- setup_mpi np gs gh r; rank_total ge (D r)) = Some (sumQ (map V (local_nodes (axs r))))) as R.
  { intros r Hr. apply in_zrange in Hr. destruct (HA r Hr) as (ge & E & EA). rewrite E, EA. cbn [bind].
    destruct (rank_geometry np gs gh (map (fun _ => (0, 0)) gs) r ge Hnp Hne Hg Hr (map_length _ _) E) as (_ & _ & _ & _ & _ & _ & _ & _ & _ & _ & ls0 & E0 & Lk & _).
    assert (forall i, In i (zrange 0 (nodes (ge_axes ge))) -> grid_read_int true (ge_axes ge) (D r) i = Some (V (position (ge_axes ge) i))) as X.
    { intros i Hi. apply in_zrange in Hi. rewrite E0 in *. destruct (read_int_position true gh ls0 (D r) i) as [-> _]; [lia|discriminate|auto|auto|].
      destruct (position_into gh (lay gh ls0) i (wf_lay gh ls0 Lk) Hi) as [B _].
      destruct (H r ge (position (lay gh ls0) i) Hr E) as (v & R1 & R2); [unfold owns; now rewrite E0|]. rewrite E0 in R1. rewrite R1. unfold V. now rewrite R2. }
    unfold rank_total. rewrite (fold_total _ _ _ _ X). unfold local_nodes. rewrite map_map. f_equal. ring. }
  unfold all_total.
  rewrite (fold_opt_same _ (fun sum r => do v <- (do ge <- setup_mpi np gs gh r; rank_total ge (D r)); Some (sum + v)%Qc)) by (intros r s _; destruct (setup_mpi np gs gh r); reflexivity).
  rewrite (fold_total _ _ _ _ R). f_equal.
  assert (map (fun r => sumQ (map V (local_nodes (axs r)))) (zrange 0 np) = map sumQ (map (fun r => map V (local_nodes (axs r))) (zrange 0 np))) as -> by now rewrite map_map.
  rewrite map_map, <- sumQ_concat.
  assert (concat (map (fun r => map V (local_nodes (axs r))) (zrange 0 np)) = map V (concat (map (fun r => local_nodes (axs r)) (zrange 0 np)))) as -> by now rewrite concat_map, map_map.
  rewrite (sumQ_perm _ _ (Permutation_map V (owned_permutation np gs gh axs Hnp Hne Hg HA))).
  set (w := whole_lims gs bs) in *.
  assert (wf_axes 0 (lay 0 w)) as Ww by (apply wf_lay, lims_le, Sa).
  destruct (domain_nodes_spec gs Hg) as (N1 & M1 & _). destruct (local_nodes_spec 0 (lay 0 w) Ww) as [N2 M2]. destruct (whole_box gs bs Lb) as [Bx0 Bx1].
  assert (Permutation (domain_nodes gs) (local_nodes (lay 0 w))) as P.
  { apply NoDup_Permutation; auto. intros x. rewrite M1, M2, map_x0_lay, map_x1_lay. fold w in Bx0, Bx1. now rewrite Bx0, Bx1. }
  rewrite (sumQ_perm _ _ (Permutation_map V P)).
  assert (map V (local_nodes (lay 0 w)) = D0) as ->; [|ring].
  unfold local_nodes. etransitivity; [|apply (map_get D0)]. rewrite L0, (whole_lay gs bs Lb). fold w. rewrite <- (nodes_cells (lay 0 w) Ww). rewrite map_map. apply map_ext_in. intros i Hi. apply in_zrange in Hi. unfold V. rewrite (whole_lay gs bs Lb). fold w.
  destruct (read_int_position false 0 w D0 i) as [<- _]; [lia|auto|apply lims_le, Sa|auto|]. reflexivity.
Qed.
