(* C102: the Monte Carlo examples that visit nodes at random, on several ranks *)
From Coq Require Import QArith.QArith QArith.Qcanon.
From Verif Require Import Model.Base Model.Boundary Model.Layout Model.Access Model.Setup Model.Codec Model.MPI Model.Ghostswap Model.Spin Model.Zener Model.Heisenberg Model.SpinRanks
  Spec.Box Spec.Access Spec.Bytes Spec.Decomp Spec.Schedule Spec.Stencil Spec.Spin Spec.SpinRanks
  Proof.BaseL Proof.CodecL Proof.ExecL Proof.SpinL Proof.SpinF Proof.SpinRanksF Proof.SpinRanksT Props.Spin.
Local Open Scope list_scope.
Local Open Scope Z_scope.

(* C102.  The ranks hold the values of the field F at their own nodes, and exchange ghosts equally often in a step.  Then the ranks make their
   trials in rounds, in each of which a rank sees its own nodes as they are and all others as they were at the last exchange; under every schedule
   all ranks end, with the values that follow from these rounds. *)
Theorem C102_rounds_partial : forall (T : Type) trial (c : codec T) valid np gs B every rnd s (D : Z -> list T) F,
  serialises c valid -> 0 < np -> gs <> [] -> Forall (fun g => gx_0 g < gx_1 g) gs -> 0 <= B -> (forall v, valid v -> c_size c v <= B) ->
  local_trial valid (length gs) trial -> (forall r k, 0 <= rnd r k) -> 0 <= s ->
  (forall r ge, 0 <= r < np -> setup_mpi np gs 1 r = Some ge ->
     zlen (D r) = cells (ge_axes ge) /\ Forall valid (D r) /\ cells (ge_axes ge) * B <= int_max /\ Forall (fun a => a_x0 a < a_x1 a) (ge_axes ge) /\ 0 < every (ge_axes ge) /\
     (forall y, owns ge y -> grid_read true (ge_axes ge) (D r) y = Some (F y))) ->
  forall e, (forall r ge, 0 <= r < np -> setup_mpi np gs 1 r = Some ge -> swaps_per_step (nodes (ge_axes ge)) (every (ge_axes ge)) = e) ->
  exists G, (forall r, 0 <= r < np -> setup_mpi np gs 1 r = Some (G r)) /\
  let todo r := marks (nodes (ge_axes (G r))) (every (ge_axes (G r))) s in
  exists F' L' D' f, rounds trial gs G rnd np (Z.to_nat (s * e)) (fun r => before_each 0 (todo r)) (fun r => after_last 0 (todo r)) F (fun _ => (F, 0%nat)) F' L' /\
    finished np D' f /\ inevitable (ranks np (rank_spins trial c every np gs rnd s D), no_chans) f /\
    forall r y, 0 <= r < np -> in_box (map a_s0 (ge_axes (G r))) (map a_s1 (ge_axes (G r))) y ->
      grid_read true (ge_axes (G r)) (D' r) y = Some (sees gs (G r) F' (L' r) y).
Proof. exact ranks_rounds. Qed.
Print Assumptions C102_rounds_partial.

(* the trials of the examples are local; on one process a visit is an attempt of C47, C88 or C73 *)
Theorem C102_ising : forall d hot, local_trial (fun s => s = 1 \/ s = -1) d (ising_trial d hot) /\
  forall ls rnd data k, Forall serial_axis ls -> zlen data = cells (lay 0 ls) -> (forall k, 0 <= rnd k) -> length ls = d ->
    visit_one (ising_trial d hot) false (lay 0 ls) rnd (data, k) = ising_attempt (lay 0 ls) hot rnd (data, k).
Proof. intros d hot. split; [apply ising_local; lia|]. intros ls rnd data k F L R <-. now apply ising_serial. Qed.
Print Assumptions C102_ising.
Theorem C102_potts : forall d hot, local_trial (fun s => 0 <= s < 20) d (potts_trial d hot) /\
  forall ls rnd data k, Forall serial_axis ls -> zlen data = cells (lay 0 ls) -> (forall k, 0 <= rnd k) -> length ls = d ->
    visit_one (potts_trial d hot) false (lay 0 ls) rnd (data, k) = potts_attempt (lay 0 ls) hot rnd (data, k).
Proof. intros d hot. split; [apply potts_local|]. intros ls rnd data k F L R <-. now apply potts_serial. Qed.
Print Assumptions C102_potts.
Theorem C102_heisenberg : forall d direction hot (valid : list Qc -> Prop), (forall v, valid v -> zlen v = 3) -> (forall a b, valid (direction a b)) ->
  local_trial valid d (turn_trial d direction hot) /\
  forall ls rnd data k, Forall serial_axis ls -> zlen data = cells (lay 0 ls) -> (forall k, 0 <= rnd k) -> length ls = d ->
    visit_one (turn_trial d direction hot) false (lay 0 ls) rnd (data, k) = turn_attempt (lay 0 ls) direction hot rnd (data, k).
Proof. intros d direction hot valid V3 Vd. split; [now apply turn_local|]. intros ls rnd data k F L R <-. now apply turn_serial. Qed.
Print Assumptions C102_heisenberg.
Theorem C102_zener : forall d energy accept (valid : Z -> Prop), (1 <= d <= 3)%nat ->
  local_trial valid d (zener_trial d energy accept) /\
  forall ls rnd data k, Forall serial_axis ls -> zlen data = cells (lay 0 ls) -> (forall k, 0 <= rnd k) -> length ls = d ->
    visit_one (zener_trial d energy accept) false (lay 0 ls) rnd (data, k) = zener_attempt (lay 0 ls) energy accept rnd (data, k).
Proof. intros d energy accept valid Hd. split; [now apply zener_local|]. intros ls rnd data k F L R <-. now apply zener_serial. Qed.
Print Assumptions C102_zener.

(* The Zener programs, and all of them in one dimension, exchange once in a step, so they end *)
Theorem C102_once : (forall axs, 0 < nodes axs -> swaps_per_step (nodes axs) (nodes axs) = 1) /\ (forall axs, zlen axs = 1 -> 0 < nodes axs -> swaps_per_step (nodes axs) (gss axs) = 1).
Proof. split; intros axs; [apply one_swap|]. intros L H. unfold gss. rewrite L. now apply one_swap. Qed.
Print Assumptions C102_once.

(* The ranks must exchange equally often: if two of them do not, no execution ends. *)
Theorem C102_hang : forall (T : Type) trial (c : codec T) every np gs rnd s D r q ger geq, 0 < np -> gs <> [] -> Forall (fun g => gx_0 g <= gx_1 g) gs ->
  0 <= r < np -> 0 <= q < np -> setup_mpi np gs 1 r = Some ger -> setup_mpi np gs 1 q = Some geq -> 0 < every (ge_axes ger) -> 0 < every (ge_axes geq) -> 0 < s ->
  swaps_per_step (nodes (ge_axes ger)) (every (ge_axes ger)) <> swaps_per_step (nodes (ge_axes geq)) (every (ge_axes geq)) ->
  forall k f D', steps k (ranks np (rank_spins trial c every np gs rnd s D), no_chans) f -> ~ finished np D' f.
Proof. intros T. exact hang. Qed.
Print Assumptions C102_hang.
(* So the Ising, Potts and Heisenberg programs never end on the domains they generate, 128 x 64 x 16 nodes on 3 ranks and 512 x 256 nodes on 7 ranks. *)
Theorem C102_hang_refuted : forall (T : Type) trial (c : codec T) np gs rnd s D, np = 3 /\ gs = [mkG 0 128; mkG 0 64; mkG 0 16] \/ np = 7 /\ gs = [mkG 0 512; mkG 0 256] -> 0 < s ->
  forall k f D', steps k (ranks np (rank_spins trial c gss np gs rnd s D), no_chans) f -> ~ finished np D' f.
Proof.
  intros T trial c np gs rnd s D Hc Hs.
  assert (exists r q ger geq, 0 < np /\ gs <> [] /\ Forall (fun g => gx_0 g <= gx_1 g) gs /\ 0 <= r < np /\ 0 <= q < np /\ setup_mpi np gs 1 r = Some ger /\ setup_mpi np gs 1 q = Some geq /\
    0 < gss (ge_axes ger) /\ 0 < gss (ge_axes geq) /\ swaps_per_step (nodes (ge_axes ger)) (gss (ge_axes ger)) <> swaps_per_step (nodes (ge_axes geq)) (gss (ge_axes geq))) as (r & q & ger & geq & H1 & H2 & H3 & H4 & H5 & H6 & H7 & H8 & H9 & H10).
  { destruct Hc as [[-> ->]|[-> ->]].
    - exists 0, 2. do 2 eexists. split; [lia|]. split; [discriminate|]. split; [repeat constructor; cbn; lia|]. split; [lia|]. split; [lia|]. split; [vm_compute; reflexivity|]. split; [vm_compute; reflexivity|]. split; [vm_compute; reflexivity|]. split; [vm_compute; reflexivity|]. rewrite !swaps_are by (vm_compute; congruence). vm_compute. discriminate.
    - exists 0, 6. do 2 eexists. split; [lia|]. split; [discriminate|]. split; [repeat constructor; cbn; lia|]. split; [lia|]. split; [lia|]. split; [vm_compute; reflexivity|]. split; [vm_compute; reflexivity|]. split; [vm_compute; reflexivity|]. split; [vm_compute; reflexivity|]. rewrite !swaps_are by (vm_compute; congruence). vm_compute. discriminate. }
  exact (C102_hang T trial c gss np gs rnd s D r q ger geq H1 H2 H3 H4 H5 H6 H7 H8 H9 Hs H10).
Qed.
Print Assumptions C102_hang_refuted.

(* eight spins on two ranks, all up *)
Definition row_D (r : Z) : list Z := [1; 1; 1; 1; 1; 1].
(* both visit the node next to the border, then three times one with two neighbours up *)
Definition row_rnd (r : Z) (k : nat) : Z := if r =? 0 then (if (k <? 2)%nat then 3 else 1) else (if (k <? 2)%nat then 0 else 2).
Example C102_case : let gs := [mkG 0 8] in
  (forall r ge, 0 <= r < 2 -> setup_mpi 2 gs 1 r = Some ge ->
     zlen (row_D r) = cells (ge_axes ge) /\ Forall (fun s => s = 1 \/ s = -1) (row_D r) /\ cells (ge_axes ge) * 4 <= int_max /\ Forall (fun a => a_x0 a < a_x1 a) (ge_axes ge) /\ 0 < gss (ge_axes ge) /\
     (forall y, owns ge y -> grid_read true (ge_axes ge) (row_D r) y = Some 1) /\ swaps_per_step (nodes (ge_axes ge)) (gss (ge_axes ge)) = 1) /\
  serialises (pod_codec pod_int) (fun s => s = 1 \/ s = -1) /\ forall r k, 0 <= row_rnd r k.
Proof.
  cbv zeta. split; [|split].
  - intros r ge Hr E. assert (r = 0 \/ r = 1) as [-> | ->] by lia; vm_compute in E; injection E as <-;
    (split; [reflexivity|]; split; [repeat constructor; lia|]; split; [vm_compute; discriminate|]; split; [repeat constructor|]; split; [vm_compute; reflexivity|]; split; [|vm_compute; reflexivity]);
    (intros [|a [|? ?]] O; cbn in O; try tauto; destruct O as (O & _)).
    + assert (a = 0 \/ a = 1 \/ a = 2 \/ a = 3) as [-> |[-> |[-> | ->]]] by lia; vm_compute; reflexivity.
    + assert (a = 4 \/ a = 5 \/ a = 6 \/ a = 7) as [-> |[-> |[-> | ->]]] by lia; vm_compute; reflexivity.
  - intros v Hv. apply (pod_serialises pod_int int_range pod_int_ok). destruct Hv as [-> | ->]; unfold int_range; lia.
  - intros r k. unfold row_rnd. destruct (r =? 0), (k <? 2)%nat; lia.
Qed.

(* One process never raises the energy at temperature zero (C47_ising_descends); two ranks do. *)
Theorem C102_descent_refuted : exists gs D rnd D0 D0' D' f, let w := map serial_limits gs in big_torus w /\ (forall r k, 0 <= rnd r k) /\ Forall (fun s => s = 1 \/ s = -1) D0 /\ zlen D0' = zlen D0 /\
  finished 2 D' f /\ inevitable (ranks 2 (rank_spins (ising_trial 1 never) (pod_codec pod_int) gss 2 gs rnd 1 D), no_chans) f /\
  (forall r ge y, 0 <= r < 2 -> setup_mpi 2 gs 1 r = Some ge -> owns ge y ->
     grid_read true (ge_axes ge) (D r) y = grid_read false (lay 0 w) D0 y /\ grid_read true (ge_axes ge) (D' r) y = grid_read false (lay 0 w) D0' y) /\
  antiferromagnet2 w (value_at w D0) < antiferromagnet2 w (value_at w D0').
Proof.
  destruct C102_case as (HD & Sc & R).
  destruct (C102_rounds_partial Z (ising_trial 1 never) (pod_codec pod_int) (fun s => s = 1 \/ s = -1) 2 [mkG 0 8] 4 gss row_rnd 1 row_D (fun _ => 1) Sc ltac:(lia) ltac:(discriminate) ltac:(repeat constructor) ltac:(lia))
    with (e := 1) as (G & EG & F' & L' & D' & f & _ & Fi & In & _).
  { intros v _. vm_compute. discriminate. }
  { apply (proj1 (C102_ising 1 never)). }
  { exact R. }
  { lia. }
  { intros r ge Hr E. destruct (HD r ge Hr E) as (A1 & A2 & A3 & A4 & A5 & A6 & _). auto 10. }
  { intros r ge Hr E. now apply (HD r ge Hr E). }
  set (s0 := (ranks 2 (rank_spins (ising_trial 1 never) (pod_codec pod_int) gss 2 [mkG 0 8] row_rnd 1 row_D), no_chans)) in *.
  assert (results (fst (run 400 s0)) = Some [[1; 1; -1; 1; -1; -1]; [-1; -1; 1; -1; 1; 1]]) as E by (vm_compute; reflexivity).
  assert (f = run 400 s0) as Ef. { eapply inevitable_unique; [exact In|]. eapply run_inevitable; [discriminate|exact E]. }
  pose proof (proj1 Fi) as Ff. rewrite Ef in Ff. rewrite Ff in E. change (Some [D' 0; D' 1] = Some [[1; 1; -1; 1; -1; -1]; [-1; -1; 1; -1; 1; 1]]) in E. injection E as E0 E1. clear Ff Ef EG HD.
  exists [mkG 0 8], row_D, row_rnd, (repeat 1 8), [1; -1; 1; -1; -1; 1; -1; 1], D', f. cbv zeta. split; [repeat constructor; cbn; lia|]. split; [exact R|]. split; [repeat constructor; lia|]. split; [reflexivity|]. split; [exact Fi|]. split; [exact In|]. split; [|vm_compute; reflexivity].
  intros r ge y Hr E. assert (r = 0 \/ r = 1) as [-> | ->] by lia; vm_compute in E; injection E as <-; [rewrite E0|rewrite E1]; destruct y as [|a [|? ?]]; intros O; cbn in O; try tauto; destruct O as (O & _).
  - assert (a = 0 \/ a = 1 \/ a = 2 \/ a = 3) as [-> |[-> |[-> | ->]]] by lia; vm_compute; auto.
  - assert (a = 4 \/ a = 5 \/ a = 6 \/ a = 7) as [-> |[-> |[-> | ->]]] by lia; vm_compute; auto.
Qed.
Print Assumptions C102_descent_refuted.
