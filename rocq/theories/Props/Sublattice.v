(* C17, C18: exchange of the ghost cells of one sublattice. *)
From Verif Require Import Model.Base Model.Boundary Model.Layout Model.Access Model.Setup Model.Codec Model.Region Model.MPI
  Model.Ghostswap Model.Colour Spec.Box Spec.Access Spec.Bytes Spec.Decomp Spec.Schedule
  Proof.BaseL Proof.CodecL Proof.ColourL Proof.ExecL.

(* C17.  As C15, restricted to the cells of sublattice s; all the other cells, ghost or not, are untouched.
   The call ends on every rank under every schedule. *)
Theorem C17_sublattice_exchange : forall T (c : codec T) valid np gs s B (D : Z -> list T),
  serialises c valid -> 0 < np -> (length gs = 2 \/ length gs = 3)%nat -> 0 <= s < 2 ^ zlen gs -> 0 <= B ->
  (forall v, valid v -> c_size c v <= B) ->
  (forall r ge, 0 <= r < np -> setup_mpi np gs 1 r = Some ge ->
     zlen (D r) = cells (ge_axes ge) /\ Forall valid (D r) /\ cells (ge_axes ge) * B <= int_max) ->
  Forall (fun g => gx_0 g < gx_1 g /\ Z.even (gx_1 g - gx_0 g) = true) gs ->
  (forall r ge, 0 <= r < np -> setup_mpi np gs 1 r = Some ge -> Forall (fun a => a_x0 a < a_x1 a) (ge_axes ge)) ->
  exists D' f, finished np D' f /\
    inevitable (ranks np (rank_colour c np gs 1 s D), no_chans) f /\
    forall r ge y, 0 <= r < np -> setup_mpi np gs 1 r = Some ge ->
      in_box (map a_s0 (ge_axes ge)) (map a_s1 (ge_axes ge)) y ->
      (of_sublattice s y -> exists q geq v, 0 <= q < np /\ setup_mpi np gs 1 q = Some geq /\ owns geq (wrap gs y) /\
         grid_read true (ge_axes geq) (D q) (wrap gs y) = Some v /\
         grid_read true (ge_axes ge) (D' r) y = Some v) /\
      (owns ge y \/ ~ of_sublattice s y ->
         grid_read true (ge_axes ge) (D' r) y = grid_read true (ge_axes ge) (D r) y).
Proof. exact @colour_values. Qed.
Print Assumptions C17_sublattice_exchange.

(* the hypotheses hold for three ranks on 6 x 4 cells *)
Example C17_case :
  let gs := [mkG 0 6; mkG (-2) 2] in
  let D r := map (fun k => 100 * r + k) (zrange 0 24) in
  Forall (fun g => gx_0 g < gx_1 g /\ Z.even (gx_1 g - gx_0 g) = true) gs /\
  forall r ge, 0 <= r < 3 -> setup_mpi 3 gs 1 r = Some ge ->
    zlen (D r) = cells (ge_axes ge) /\ Forall int_range (D r) /\ cells (ge_axes ge) * 4 <= int_max /\
    Forall (fun a => a_x0 a < a_x1 a) (ge_axes ge).
Proof.
  intros gs D. split; [repeat constructor|]. intros r ge Hr E.
  assert (r = 0 \/ r = 1 \/ r = 2) as C by lia.
  repeat (destruct C as [->|C]); try subst r; vm_compute in E; inversion E; subst ge; unfold D, gs;
    (split; [vm_compute; reflexivity|]; split; [|split; [vm_compute; discriminate|]];
     [apply Forall_forall; intros v Hv; vm_compute in Hv; unfold int_range; simpl;
      repeat (destruct Hv as [<-|Hv]; [split; vm_compute; congruence|]); destruct Hv
     |repeat constructor; simpl; lia]).
Qed.

(* C18 is false: on 3 x 2 cells and sublattice 2, the rank expects a layer of ghost cells that nobody sends, and
   unpacks it from beyond the end of the (empty) buffer it has received.  So the call never ends normally. *)
Theorem C18_odd_lengths_refuted : exists gs s (D : Z -> list Z),
  (length gs = 2)%nat /\ 0 <= s < 2 ^ zlen gs /\ Forall (fun g => gx_0 g < gx_1 g) gs /\
  (forall r ge, 0 <= r < 1 -> setup_mpi 1 gs 1 r = Some ge ->
     zlen (D r) = cells (ge_axes ge) /\ Forall int_range (D r) /\ Forall (fun a => a_x0 a < a_x1 a) (ge_axes ge)) /\
  (exists f, inevitable (ranks 1 (rank_colour (pod_codec pod_int) 1 gs 1 s D), no_chans) f /\ fst f = [Fail]) /\
  ~ exists D' f, finished 1 D' f /\ inevitable (ranks 1 (rank_colour (pod_codec pod_int) 1 gs 1 s D), no_chans) f.
Proof.
  exists [mkG 0 3; mkG 0 2], 2, (fun _ => zrange 0 20). split; [reflexivity|]. split; [vm_compute; split; congruence|].
  split; [repeat constructor|]. split.
  { intros r ge Hr E. assert (r = 0) by lia. subst r. vm_compute in E. inversion E; subst. split; [reflexivity|].
    split; [|repeat constructor]. apply Forall_forall. intros v Hv. apply in_zrange in Hv. unfold int_range. lia. }
  assert (inevitable (ranks 1 (rank_colour (pod_codec pod_int) 1 [mkG 0 3; mkG 0 2] 1 2 (fun _ => zrange 0 20)), no_chans)
    (run 100 (ranks 1 (rank_colour (pod_codec pod_int) 1 [mkG 0 3; mkG 0 2] 1 2 (fun _ => zrange 0 20)), no_chans))) as I
    by (apply run_halts; vm_compute; reflexivity).
  split; [eexists; split; [exact I|vm_compute; reflexivity]|].
  intros (D' & f & F & I'). rewrite (inevitable_unique _ _ _ I' I) in F. destruct F as [F _].
  vm_compute in F. discriminate.
Qed.
Print Assumptions C18_odd_lengths_refuted.

(* Nor does C17 extend to two ghost layers: the second layer of ghost cells keeps its old value. *)
Theorem C17_two_ghost_layers_refuted : exists gs s (D : Z -> list Z),
  (length gs = 2)%nat /\ 0 <= s < 2 ^ zlen gs /\
  Forall (fun g => gx_0 g < gx_1 g /\ Z.even (gx_1 g - gx_0 g) = true) gs /\
  exists f ge y d, inevitable (ranks 1 (rank_colour (pod_codec pod_int) 1 gs 2 s D), no_chans) f /\
    fst f = [Ret d] /\ setup_mpi 1 gs 2 0 = Some ge /\ zlen (D 0) = cells (ge_axes ge) /\
    in_box (map a_s0 (ge_axes ge)) (map a_s1 (ge_axes ge)) y /\ of_sublattice s y /\
    grid_read true (ge_axes ge) d y <> grid_read true (ge_axes ge) (D 0) (wrap gs y).
Proof.
  exists [mkG 0 4; mkG 0 2], 3, (fun _ => zrange 0 48). split; [reflexivity|]. split; [vm_compute; split; congruence|].
  split; [repeat constructor|].
  exists (run 100 (ranks 1 (rank_colour (pod_codec pod_int) 1 [mkG 0 4; mkG 0 2] 2 3 (fun _ => zrange 0 48)), no_chans)).
  eexists. exists [-1; 1]. eexists. split; [eapply run_inevitable; [discriminate|vm_compute; reflexivity]|].
  split; [vm_compute; reflexivity|]. split; [vm_compute; reflexivity|]. split; [reflexivity|]. split; [simpl; lia|].
  split; [|vm_compute; congruence]. intros [|[|j]] Hj; simpl in *; try lia; reflexivity.
Qed.
Print Assumptions C17_two_ghost_layers_refuted.
