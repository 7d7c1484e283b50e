(* C15, C16: exchange of ghost cells. *)
From Verif Require Import Model.Base Model.Boundary Model.Layout Model.Access Model.Setup Model.Codec Model.Region Model.MPI
  Model.Ghostswap Spec.Box Spec.Access Spec.Bytes Spec.Decomp Spec.Schedule
  Proof.BaseL Proof.CodecL Proof.HaloL Proof.ExecL.

(* C15.  D r is the storage of rank r before the call, D' r after it.  The hypotheses say: the cell type can be
   serialised (C11), no message exceeds the int count of MPI, no block is narrower than the ghost width. *)
Theorem C15_ghost_values : forall T (c : codec T) valid np gs ghosts B (D : Z -> list T),
  serialises c valid -> 0 < np -> gs <> [] -> 0 <= ghosts -> 0 <= B ->
  (forall v, valid v -> c_size c v <= B) ->
  (forall r ge, 0 <= r < np -> setup_mpi np gs ghosts r = Some ge ->
     zlen (D r) = cells (ge_axes ge) /\ Forall valid (D r) /\ cells (ge_axes ge) * B <= int_max) ->
  Forall (fun g => gx_0 g < gx_1 g) gs ->
  (forall r ge, 0 <= r < np -> setup_mpi np gs ghosts r = Some ge ->
     Forall (fun a => a_x0 a < a_x1 a /\ ghosts <= a_x1 a - a_x0 a) (ge_axes ge)) ->
  exists D' f, finished np D' f /\
    inevitable (ranks np (rank_ghostswap c np gs ghosts D), no_chans) f /\
    forall r ge y, 0 <= r < np -> setup_mpi np gs ghosts r = Some ge ->
      in_box (map a_s0 (ge_axes ge)) (map a_s1 (ge_axes ge)) y ->
      (* the cell holds what the owner of its periodic image held *)
      (exists q geq v, 0 <= q < np /\ setup_mpi np gs ghosts q = Some geq /\ owns geq (wrap gs y) /\
         grid_read true (ge_axes geq) (D q) (wrap gs y) = Some v /\
         grid_read true (ge_axes ge) (D' r) y = Some v) /\
      (* owned cells are unchanged *)
      (owns ge y -> grid_read true (ge_axes ge) (D' r) y = grid_read true (ge_axes ge) (D r) y).
Proof. exact @ghost_values. Qed.
Print Assumptions C15_ghost_values.

(* six ranks, 7 x 5 cells, one ghost layer; every rank fills its storage with its own values *)
Example C15_case :
  let gs := [mkG 0 7; mkG (-2) 3] in
  let D r := map (fun k => 100 * r + k) (zrange 0 (match setup_mpi 6 gs 1 r with Some ge => cells (ge_axes ge) | None => 0 end)) in
  forall r ge, 0 <= r < 6 -> setup_mpi 6 gs 1 r = Some ge ->
    zlen (D r) = cells (ge_axes ge) /\ Forall int_range (D r) /\ cells (ge_axes ge) * 4 <= int_max /\
    Forall (fun a => a_x0 a < a_x1 a /\ 1 <= a_x1 a - a_x0 a) (ge_axes ge).
Proof.
  intros gs D r ge Hr E.
  assert (r = 0 \/ r = 1 \/ r = 2 \/ r = 3 \/ r = 4 \/ r = 5) as C by lia.
  repeat (destruct C as [->|C]); try subst r; vm_compute in E; inversion E; subst ge; unfold D, gs;
    (split; [vm_compute; reflexivity|]; split; [|split; [vm_compute; discriminate|]];
     [apply Forall_forall; intros v Hv; vm_compute in Hv; unfold int_range; simpl;
      repeat (destruct Hv as [<-|Hv]; [split; vm_compute; congruence|]); destruct Hv
     |repeat constructor; simpl; lia]).
Qed.

(* C16 *)
Theorem C16_no_deadlock_no_race : forall T (c : codec T) valid np gs ghosts B (D : Z -> list T),
  serialises c valid -> 0 < np -> gs <> [] -> 0 <= ghosts -> 0 <= B ->
  (forall v, valid v -> c_size c v <= B) ->
  (forall r ge, 0 <= r < np -> setup_mpi np gs ghosts r = Some ge ->
     zlen (D r) = cells (ge_axes ge) /\ Forall valid (D r) /\ cells (ge_axes ge) * B <= int_max) ->
  Forall (fun g => gx_0 g <= gx_1 g) gs ->
  exists D' f, finished np D' f /\ inevitable (ranks np (rank_ghostswap c np gs ghosts D), no_chans) f.
Proof. exact @ghost_terminates. Qed.
Print Assumptions C16_no_deadlock_no_race.

(* a concrete run *)
Example C16_case :
  let gs := [mkG 0 4; mkG 0 2] in
  let D r := map (fun k => 100 * r + k) (zrange 0 16) in
  results (fst (run 200 (ranks 2 (rank_ghostswap (pod_codec pod_int) 2 gs 1 D), no_chans))) =
  Some [[110; 109; 110; 109;  6; 5; 6; 5;  10; 9; 10; 9;  106; 105; 106; 105];
        [10; 9; 10; 9;  106; 105; 106; 105;  110; 109; 110; 109;  6; 5; 6; 5]].
Proof. vm_compute. reflexivity. Qed.

(* Without the condition on the ghost width the values are wrong: one cell, two ghost layers. *)
Theorem C15_wide_ghosts_refuted : exists gs (D : Z -> list Z),
  Forall (fun g => gx_0 g < gx_1 g) gs /\
  (forall r ge, 0 <= r < 1 -> setup_mpi 1 gs 2 r = Some ge -> zlen (D r) = cells (ge_axes ge) /\ Forall int_range (D r)) /\
  exists f ge y d, inevitable (ranks 1 (rank_ghostswap (pod_codec pod_int) 1 gs 2 D), no_chans) f /\
    fst f = [Ret d] /\ setup_mpi 1 gs 2 0 = Some ge /\
    in_box (map a_s0 (ge_axes ge)) (map a_s1 (ge_axes ge)) y /\ wrap gs y = [0] /\
    grid_read true (ge_axes ge) d y <> grid_read true (ge_axes ge) (D 0) [0].
Proof.
  exists [mkG 0 1], (fun _ => [1; 2; 3; 4; 5]). split; [repeat constructor|]. split.
  { intros r ge Hr E. assert (r = 0) by lia. subst r. vm_compute in E. inversion E; subst. split; [reflexivity|].
    repeat constructor; vm_compute; congruence. }
  exists (run 100 (ranks 1 (rank_ghostswap (pod_codec pod_int) 1 [mkG 0 1] 2 (fun _ => [1; 2; 3; 4; 5])), no_chans)).
  eexists. exists [-2]. eexists. split; [eapply run_inevitable; [discriminate|vm_compute; reflexivity]|].
  split; [vm_compute; reflexivity|]. split; [vm_compute; reflexivity|]. split; [simpl; lia|].
  split; [reflexivity|]. vm_compute. congruence.
Qed.
Print Assumptions C15_wide_ghosts_refuted.
