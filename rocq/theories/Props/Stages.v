(* C100: simulations in two stages give the same field for every number of processes, and conserve what the serial program conserves. *)
From Coq Require Import QArith.QArith QArith.Qcanon.
From Verif Require Import Model.Base Model.Boundary Model.Layout Model.Access Model.Setup Model.Codec Model.MPI Model.Ghostswap Model.Stencil Model.Simulate Model.Dynamics Model.Stages
  Spec.Box Spec.Access Spec.Bytes Spec.Decomp Spec.Schedule Spec.Stencil Spec.Stages
  Proof.BaseL Proof.AccessL Proof.CodecL Proof.ExecL Proof.SimulateL Proof.StagesL Proof.TotalL Props.Dynamics.
Local Open Scope list_scope.
Local Open Scope Z_scope.

(* Any two rules; T and U are the types of the cells of the field and of the work grid.  D r, N r, E r: storage of oldGrid, newGrid and
   temp on rank r; D0, N0, E0: of the serial program.  The ranks start from the serial field; conditions as for C60. *)
Theorem C100_parallel_equals_serial : forall T U (c : codec T) (cu : codec U) valid uvalid np gs bs ghosts B first second n (D N : Z -> list T) (E : Z -> list U) (D0 N0 : list T) (E0 : list U),
  serialises c valid -> serialises cu uvalid -> 0 < np -> gs <> [] -> 1 <= ghosts -> 0 <= B -> (forall v, valid v -> c_size c v <= B) -> (forall v, uvalid v -> c_size cu v <= B) ->
  Forall2 (fun g b => gx_0 g < gx_1 g /\ serial_side (fst b) (glen g) /\ serial_side (snd b) (glen g)) gs bs ->
  (forall r ge, 0 <= r < np -> setup_mpi np gs ghosts r = Some ge ->
     Forall (fun a => a_x0 a < a_x1 a /\ ghosts <= a_x1 a - a_x0 a) (ge_axes ge) /\ cells (ge_axes ge) * B <= int_max /\
     zlen (D r) = cells (ge_axes ge) /\ Forall valid (D r) /\ zlen (N r) = cells (ge_axes ge) /\ Forall valid (N r) /\ zlen (E r) = cells (ge_axes ge) /\ Forall uvalid (E r) /\
     forall y, owns ge y -> grid_read true (ge_axes ge) (D r) y = grid_read false (whole gs bs) D0 y) ->
  (forall t x vs, Forall valid vs -> zlen vs = 1 + 2 * zlen gs -> exists v, first t x vs = Some v /\ uvalid v) ->
  (forall t x vs us, Forall valid vs -> zlen vs = 1 + 2 * zlen gs -> Forall uvalid us -> zlen us = 1 + 2 * zlen gs -> exists v, second t x vs us = Some v /\ valid v) ->
  zlen D0 = cells (whole gs bs) -> zlen N0 = cells (whole gs bs) -> zlen E0 = cells (whole gs bs) ->
  exists D0' D' f, serial_stages (stage_one first) (stage_two second) (whole gs bs) 0 n D0 N0 E0 = Some D0' /\ finished np D' f /\
    inevitable (ranks np (rank_staged (stage_one first) (stage_two second) c cu np gs bs ghosts D N E n), no_chans) f /\
    forall r ge y, 0 <= r < np -> setup_mpi np gs ghosts r = Some ge -> owns ge y ->
      exists v, grid_read true (ge_axes ge) (D' r) y = Some v /\ grid_read false (whole gs bs) D0' y = Some v.
Proof.
  intros T U c cu valid uvalid np gs bs gh B first second n D N E D0 N0 E0 S Su Hnp Hne Hgh B0 HB HBu Hbs HD Hf Hs L0 L1 L2.
  destruct (staged c cu valid uvalid np gs bs gh B first second (stage_one first) (stage_two second) n D N E D0 N0 E0) as (D0' & D' & f & R1 & R2 & R3 & R4); auto.
  exists D0', D', f. split; [auto|]. split; [auto|]. split; [auto|]. intros r ge y Hr Eg. apply (R4 r ge Hr Eg).
Qed.
Print Assumptions C100_parallel_equals_serial.

(* Model B, spinodal decomposition and (without noise) explicit Cahn-Hilliard, in exact arithmetic: on any number of ranks and under every
   schedule the program ends with the field of the serial program that draws the same random number for every node in every step. *)
Theorem C100_model_B : forall (c : codec Qc) np gs bs ghosts B dx r u K k noise n (D N E : Z -> list Qc) (D0 N0 E0 : list Qc),
  serialises c (fun _ => True) -> 0 < np -> gs <> [] -> 1 <= ghosts -> 0 <= B -> (forall v, c_size c v <= B) -> length dx = length gs -> Forall (fun h => h <> 0%Qc) dx ->
  Forall2 (fun g b => gx_0 g < gx_1 g /\ serial_side (fst b) (glen g) /\ serial_side (snd b) (glen g)) gs bs ->
  (forall q ge, 0 <= q < np -> setup_mpi np gs ghosts q = Some ge ->
     Forall (fun a => a_x0 a < a_x1 a /\ ghosts <= a_x1 a - a_x0 a) (ge_axes ge) /\ cells (ge_axes ge) * B <= int_max /\
     zlen (D q) = cells (ge_axes ge) /\ zlen (N q) = cells (ge_axes ge) /\ zlen (E q) = cells (ge_axes ge) /\
     forall y, owns ge y -> grid_read true (ge_axes ge) (D q) y = grid_read false (whole gs bs) D0 y) ->
  zlen D0 = cells (whole gs bs) -> zlen N0 = cells (whole gs bs) -> zlen E0 = cells (whole gs bs) ->
  exists D0' N0' E0' D' f,
    steps_from 0 n (fun t => model_B_step false (whole gs bs) dx r u K k (fun i => noise t (position (whole gs bs) i))) (D0, N0, E0) = Some (D0', N0', E0') /\ finished np D' f /\
    inevitable (ranks np (rank_staged (B_potential dx r u K noise) (B_flow dx k) c c np gs bs ghosts D N E n), no_chans) f /\
    forall q ge y, 0 <= q < np -> setup_mpi np gs ghosts q = Some ge -> owns ge y ->
      exists v, grid_read true (ge_axes ge) (D' q) y = Some v /\ grid_read false (whole gs bs) D0' y = Some v.
Proof.
  intros c np gs bs gh B dx r u K k noise n D N E D0 N0 E0 S Hnp Hne Hgh B0 HB Ld Fd Hbs HD L0 L1 L2.
  destruct (staged c c (fun _ => True) (fun _ => True) np gs bs gh B (B_first dx r u K noise) (B_second dx k) (B_potential dx r u K noise) (B_flow dx k) n D N E D0 N0 E0) as (D0' & D' & f & R1 & R2 & R3 & R4); auto.
  - intros q ge Hq Eg. destruct (HD q ge Hq Eg) as (A1 & A2 & A3 & A4 & A5 & A6). assert (forall l : list Qc, Forall (fun _ => True) l) as X by (intros l; apply Forall_forall; auto). auto 10.
  - intros t x vs _ _. eexists. split; [reflexivity|auto].
  - intros t x vs us _ _ _ _. eexists. split; [reflexivity|auto].
  - intros mpi g ls t old temp Hg Hm Lo Ll. apply B_one; auto. congruence.
  - intros mpi g ls t old temp new Hg Hm Lo Ll Ho. apply B_two; auto. congruence.
  - rewrite serial_B in R1. destruct (steps_from 0 n _ (D0, N0, E0)) as [[[o m] e]|]; cbn [bind fst] in R1; [|discriminate]. injection R1 as <-.
    exists o, m, e, D', f. split; [reflexivity|]. split; [auto|]. split; [auto|]. intros q ge y Hq Eg. apply (R4 q ge Hq Eg).
Qed.
Print Assumptions C100_model_B.

(* Between periodic and insulated sides, the composition summed over the nodes of all ranks is the same after any number of steps, under every
   schedule and whatever the random numbers. *)
Theorem C100_conserves : forall (c : codec Qc) np gs bs ghosts B dx r u K k noise n (D N E : Z -> list Qc) (D0 : list Qc),
  serialises c (fun _ => True) -> 0 < np -> gs <> [] -> 1 <= ghosts -> 0 <= B -> (forall v, c_size c v <= B) -> length dx = length gs -> Forall (fun h => h <> 0%Qc) dx ->
  Forall2 (fun g b => gx_0 g < gx_1 g /\ (b = (periodic, periodic) \/ b = (Neumann, Neumann))) gs bs ->
  (forall q ge, 0 <= q < np -> setup_mpi np gs ghosts q = Some ge ->
     Forall (fun a => a_x0 a < a_x1 a /\ ghosts <= a_x1 a - a_x0 a) (ge_axes ge) /\ cells (ge_axes ge) * B <= int_max /\
     zlen (D q) = cells (ge_axes ge) /\ zlen (N q) = cells (ge_axes ge) /\ zlen (E q) = cells (ge_axes ge) /\
     forall y, owns ge y -> grid_read true (ge_axes ge) (D q) y = grid_read false (whole gs bs) D0 y) ->
  zlen D0 = cells (whole gs bs) ->
  exists D' f, all_total np gs ghosts D = Some (sumQ D0) /\ finished np D' f /\
    inevitable (ranks np (rank_staged (B_potential dx r u K noise) (B_flow dx k) c c np gs bs ghosts D N E n), no_chans) f /\
    all_total np gs ghosts D' = Some (sumQ D0).
Proof.
  intros c np gs bs gh B dx r u K k noise n D N E D0 S Hnp Hne Hgh B0 HB Ld Fd Hb HD L0.
  assert (Forall2 (fun g b => gx_0 g < gx_1 g /\ serial_side (fst b) (glen g) /\ serial_side (snd b) (glen g)) gs bs /\
          Forall (fun l => periodic_axis l \/ insulated_axis l) (whole_lims gs bs)) as [Hbs Ha].
  { clear -Hb. induction Hb as [|g b gs bs (H1 & H2) Hb [I1 I2]]; [split; constructor|].
    split; (constructor; [|assumption]); destruct H2 as [-> | ->]; unfold serial_side, periodic_axis, insulated_axis, set_lim, serial_limits; cbn [fst snd l_x0 l_x1 l_g0 l_g1 l_b0 l_b1]; rewrite ?Z.eqb_refl; auto 8. }
  destruct (whole_serial gs bs Hbs) as [Lb Sa].
  destruct (C100_model_B c np gs bs gh B dx r u K k noise O D N E D0 D0 D0) as (D1 & N1 & E1 & D' & f & R1 & _ & _ & R4); auto.
  cbn [steps_from] in R1. injection R1 as <- <- <-.
  assert (all_total np gs gh D = Some (sumQ D0)) as T0.
  { apply (totals_agree np gs bs); auto. intros q ge y Hq Eg Oy. destruct (R4 q ge y Hq Eg Oy) as (v & _ & X). exists v. destruct (HD q ge Hq Eg) as (_ & _ & _ & _ & _ & Y). now rewrite Y. }
  clear R4 D' f. destruct (C100_model_B c np gs bs gh B dx r u K k noise n D N E D0 D0 D0) as (D1 & N1 & E1 & D' & f & R1 & R2 & R3 & R4); auto.
  rewrite (whole_lay gs bs Lb) in R1, L0.
  destruct (C67_model_B (whole_lims gs bs) dx r u K k (fun t i => noise t (position (lay 0 (whole_lims gs bs)) i)) n D0 D0 D0) as (o & m & e & P1 & P2 & P3); auto.
  { rewrite length_whole; auto. }
  assert (D1 = o) as -> by congruence.
  exists D', f. split; [auto|]. split; [auto|]. split; [auto|]. rewrite <- P3. apply (totals_agree np gs bs); auto. now rewrite (whole_lay gs bs Lb).
Qed.
Print Assumptions C100_conserves.

(* An example: four nodes in a ring on two ranks, two steps of model B with noise 1, 2, 3, ... *)
Definition fraction : codec Qc := pod_codec (mkPod 2 (fun q => [Qnum (this q); Zpos (Qden (this q))]) (fun b => Q2Qc (nth 0 b 0 # Z.to_pos (nth 1 b 1)))).
Definition ring : list gaxis := [mkG 0 4].
Definition ring_sides : list (Z * Z) := [(periodic, periodic)].
Definition ring_field : list Qc := map (fun z => Q2Qc (inject_Z z)) [3; -1; 0; 2].
Definition ring_rank (r : Z) : list Qc := map (fun z => Q2Qc (inject_Z z)) (if r =? 0 then [7; 3; -1; 7] else [7; 0; 2; 7]).
Definition ring_noise (t : Z) (x : list Z) : Qc := Q2Qc (inject_Z (1 + 4 * t + sumZ x)).
Definition zeros (n : nat) : list Qc := repeat 0%Qc n.
Definition ring_run (np : Z) (D : Z -> list Qc) (cells : nat) (n : nat) : option (list (list Qc)) :=
  results (fst (run 2000 (ranks np (rank_staged (B_potential [1%Qc] 1%Qc 1%Qc 1%Qc ring_noise) (B_flow [1%Qc] (Q2Qc (1 # 8))) fraction fraction np ring ring_sides 1 D (fun _ => zeros cells) (fun _ => zeros cells) n), no_chans))).
Lemma fraction_ok : serialises fraction (fun _ => True).
Proof.
  apply pod_serialises. split; [cbn; lia|]. intros q _. split; [reflexivity|]. cbn [pd_enc pd_dec nth Z.to_pos]. apply Qc_is_canon. cbn [this Q2Qc]. rewrite Qred_correct. destruct q as [[a b] H]. reflexivity.
Qed.
Example C100_case :
  serialises fraction (fun _ => True) /\ (forall v, c_size fraction v <= 2) /\ Forall2 (fun g b => gx_0 g < gx_1 g /\ (b = (periodic, periodic) \/ b = (Neumann, Neumann))) ring ring_sides /\
  (forall q ge, 0 <= q < 2 -> setup_mpi 2 ring 1 q = Some ge ->
     Forall (fun a => a_x0 a < a_x1 a /\ 1 <= a_x1 a - a_x0 a) (ge_axes ge) /\ cells (ge_axes ge) * 2 <= int_max /\ zlen (ring_rank q) = cells (ge_axes ge) /\ zlen (zeros 4) = cells (ge_axes ge) /\
     forall y, owns ge y -> grid_read true (ge_axes ge) (ring_rank q) y = grid_read false (whole ring ring_sides) ring_field y) /\
  zlen ring_field = cells (whole ring ring_sides).
Proof.
  split; [exact fraction_ok|]. split; [intros v; cbn; lia|]. split; [repeat constructor|]. split; [|reflexivity].
  intros q ge Hq E. assert (q = 0 \/ q = 1) as [-> | ->] by lia; vm_compute in E; inversion E; subst ge; (split; [repeat constructor; simpl; lia|]; split; [vm_compute; discriminate|]; split; [reflexivity|]; split; [reflexivity|]);
    intros y O; unfold owns in O; simpl in O; destruct y as [|a [|b y]]; try tauto; destruct O as [O _];
      [assert (a = 0 \/ a = 1) as [-> | ->] by lia|assert (a = 2 \/ a = 3) as [-> | ->] by lia]; vm_compute; reflexivity.
Qed.
(* two ranks and the serial program, after two steps; owned nodes are 1 and 2 of each rank's storage; the total stays 4 *)
Example C100_value :
  exists a b, ring_run 2 ring_rank 4 2 = Some [a; b] /\
    map this (map (fun p => nth p a 0%Qc) [1; 2]%nat ++ map (fun p => nth p b 0%Qc) [1; 2]%nat) = [2925 # 128; -4759 # 256; 1869 # 128; -3805 # 256]%Q /\
    option_map (map this) (serial_stages (B_potential [1%Qc] 1%Qc 1%Qc 1%Qc ring_noise) (B_flow [1%Qc] (Q2Qc (1 # 8))) (whole ring ring_sides) 0 2 ring_field (zeros 4) (zeros 4)) =
      Some [2925 # 128; -4759 # 256; 1869 # 128; -3805 # 256]%Q /\
    option_map this (all_total 2 ring 1 (fun r => if r =? 0 then a else b)) = Some (4 # 1)%Q /\ option_map this (all_total 2 ring 1 ring_rank) = Some (4 # 1)%Q.
Proof. do 2 eexists. split; [vm_compute; reflexivity|]. repeat split; vm_compute; reflexivity. Qed.
