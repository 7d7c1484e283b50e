(* C120: the explicit programs make Euler steps of their equations (exact arithmetic). *)
From Coq Require Import QArith.QArith QArith.Qcanon.
From Verif Require Import Model.Base Model.Boundary Model.Layout Model.Access Model.Stencil Model.Dynamics
  Spec.Box Spec.Access Spec.Stencil Spec.Dynamics Spec.Euler
  Proof.BaseL Proof.LayoutL Proof.AccessL Proof.StencilL Proof.StencilS Proof.StencilQ Proof.StencilM Proof.DynamicsL Proof.DynamicsF Proof.EulerL.
Local Open Scope list_scope.
Local Open Scope Z_scope.


(* examples/phase_transitions/allen-cahn: phi' = phi - dt M (- r phi + u phi^3 - K laplacian phi) *)
Theorem C120_allen_cahn : forall ls dx r u K M dt old new, Forall serial_axis ls -> length dx = length ls -> Forall (fun h => h <> 0%Qc) dx ->
  zlen old = cells (lay 0 ls) -> zlen new = cells (lay 0 ls) ->
  exists next, allen_cahn_step false (lay 0 ls) dx r u K M dt (old, new) = Some (next, old) /\ zlen next = cells (lay 0 ls) /\
    obeys ls dx old next (fun _ phi lap => phi - dt * M * (- r * phi + u * (phi * phi * phi) - K * lap))%Qc.
Proof.
  intros ls dx r u K M dt old new F Ld Fd L Ln. exists (next_A ls dx r u K M dt (fun _ => 0%Qc) old).
  split; [now apply allen_cahn_eq|]. split; [now apply next_A_len|]. intros i f Hi x S. unfold next_A. rewrite (read_tab ls dx) by auto.
  rewrite (star_nth ls dx F Ld old i f), (star_lap ls dx F Ld Fd old _ f) by (auto; now apply pos_box). fold x. f_equal. unfold cube. ring.
Qed.
Print Assumptions C120_allen_cahn.

(* examples/phase_transitions/model_A: the same with a random number added at every node *)
Theorem C120_model_A : forall ls dx r u K M dt noise old new, Forall serial_axis ls -> length dx = length ls -> Forall (fun h => h <> 0%Qc) dx ->
  zlen old = cells (lay 0 ls) -> zlen new = cells (lay 0 ls) ->
  exists next, model_A_step false (lay 0 ls) dx r u K M dt noise (old, new) = Some (next, old) /\ zlen next = cells (lay 0 ls) /\
    obeys ls dx old next (fun i phi lap => phi - dt * M * (- r * phi + u * (phi * phi * phi) - K * lap + noise i))%Qc.
Proof.
  intros ls dx r u K M dt noise old new F Ld Fd L Ln. exists (next_A ls dx r u K M dt noise old).
  split; [now apply model_A_eq|]. split; [now apply next_A_len|]. intros i f Hi x S. unfold next_A. rewrite (read_tab ls dx) by auto.
  rewrite (star_nth ls dx F Ld old i f), (star_lap ls dx F Ld Fd old _ f) by (auto; now apply pos_box). fold x. reflexivity.
Qed.
Print Assumptions C120_model_A.

(* examples/beginners_diffusion: c' = c + k laplacian c *)
Theorem C120_diffusion : forall ls dx k old new, Forall serial_axis ls -> length dx = length ls -> Forall (fun h => h <> 0%Qc) dx ->
  zlen old = cells (lay 0 ls) -> zlen new = cells (lay 0 ls) ->
  exists next, diffusion_step false (lay 0 ls) dx k (old, new) = Some (next, old) /\ zlen next = cells (lay 0 ls) /\
    obeys ls dx old next (fun _ c lap => c + k * lap)%Qc.
Proof.
  intros ls dx k old new F Ld Fd L Ln. exists (next_D ls dx k old).
  split; [now apply diffusion_eq|]. split; [now apply tab_C|]. intros i f Hi x S. unfold next_D. rewrite (read_tab ls dx) by auto.
  rewrite (star_nth ls dx F Ld old i f), (star_lap ls dx F Ld Fd old _ f) by (auto; now apply pos_box). fold x. f_equal. ring.
Qed.
Print Assumptions C120_diffusion.

(* examples/phase_transitions/model_B and spinodal: the potential mu = - r phi + u phi^3 - K laplacian phi + noise of the whole
   field, then phi' = phi + k laplacian mu *)
Theorem C120_model_B : forall ls dx r u K k noise old new temp, Forall serial_axis ls -> length dx = length ls -> Forall (fun h => h <> 0%Qc) dx ->
  zlen old = cells (lay 0 ls) -> zlen new = cells (lay 0 ls) -> zlen temp = cells (lay 0 ls) ->
  exists next mu, model_B_step false (lay 0 ls) dx r u K k noise (old, new, temp) = Some (next, old, mu) /\
    zlen next = cells (lay 0 ls) /\ zlen mu = cells (lay 0 ls) /\
    obeys ls dx old mu (fun i phi lap => - r * phi + u * (phi * phi * phi) - K * lap + noise i)%Qc /\ flows ls dx k old mu next.
Proof.
  intros ls dx r u K k noise old new temp F Ld Fd L Ln Lt. exists (next_B ls dx r u K k noise old), (mu_B ls dx r u K noise old).
  split; [now apply model_B_eq|]. split; [now apply tab_C|]. split; [now apply tab_C|]. split.
  - intros i f Hi x S. unfold mu_B. rewrite (read_tab ls dx) by auto.
    rewrite (star_nth ls dx F Ld old i f), (star_lap ls dx F Ld Fd old _ f) by (auto; now apply pos_box). fold x. reflexivity.
  - intros i f g Hi x S T. unfold next_B. rewrite (read_tab ls dx) by auto.
    rewrite (star_nth ls dx F Ld old i f), (star_lap ls dx F Ld Fd _ _ g) by (auto; try apply pos_box; auto; now apply tab_C). reflexivity.
Qed.
Print Assumptions C120_model_B.

(* examples/phase_transitions/cahn-hilliard/explicit *)
Theorem C120_cahn_hilliard : forall ls dx r u K M dt old new temp, Forall serial_axis ls -> length dx = length ls -> Forall (fun h => h <> 0%Qc) dx ->
  zlen old = cells (lay 0 ls) -> zlen new = cells (lay 0 ls) -> zlen temp = cells (lay 0 ls) ->
  exists next mu, cahn_hilliard_step false (lay 0 ls) dx r u K M dt (old, new, temp) = Some (next, old, mu) /\
    zlen next = cells (lay 0 ls) /\ zlen mu = cells (lay 0 ls) /\
    obeys ls dx old mu (fun _ phi lap => - r * phi + u * (phi * phi * phi) - K * lap)%Qc /\ flows ls dx (dt * M) old mu next.
Proof.
  intros ls dx r u K M dt old new temp F Ld Fd L Ln Lt.
  destruct (C120_model_B ls dx r u K (dt * M) (fun _ => 0%Qc) old new temp F Ld Fd L Ln Lt) as (next & mu & E & A & B & O & W).
  exists next, mu. rewrite model_B_eq in E by auto. split; [rewrite cahn_hilliard_eq by auto; exact E|]. split; [auto|]. split; [auto|]. split; [|auto].
  intros i f Hi x S. rewrite (O i f Hi S). fold x. f_equal. ring.
Qed.
Print Assumptions C120_cahn_hilliard.

(* at every node the hypothesis on the values around it can be met, so the rules determine the new field *)
Theorem C120_determined : forall ls dx old next next' rule, Forall serial_axis ls -> zlen old = cells (lay 0 ls) ->
  zlen next = cells (lay 0 ls) -> zlen next' = cells (lay 0 ls) -> obeys ls dx old next rule -> obeys ls dx old next' rule -> next = next'.
Proof.
  intros ls dx old next next' rule F L Ln Ln' O O'. apply nth_ext with (d := 0%Qc) (d' := 0%Qc); [unfold zlen in *; lia|]. intros k Hk.
  assert (0 <= Z.of_nat k < nodes (lay 0 ls)) as Hi by (rewrite <- cells_nodes_0; unfold zlen in *; lia).
  pose proof (serial_star 0%Qc ls old _ F L (pos_box ls F _ Hi)) as S. pose proof (O _ _ Hi S) as E. pose proof (O' _ _ Hi S) as E'.
  rewrite read_int_0, Nat2Z.id in E, E' by auto. cbv zeta in E, E'. congruence.
Qed.
Print Assumptions C120_determined.

(* a ring of four nodes: 1, 0, 0, 2 with r = u = K = M = 1 and dt = 1/10 *)
Example C120_case : let ls := [mkLim 0 4 0 4 periodic periodic] in let old := map Q2Qc [1; 0; 0; 2]%Q in
  Forall serial_axis ls /\ zlen old = cells (lay 0 ls) /\
  exists next, allen_cahn_step false (lay 0 ls) [1%Qc] 1 1 1 1 (Q2Qc (1 # 10)) (old, old) = Some (next, old) /\
    map this next = [1; 1 # 10; 1 # 5; 11 # 10]%Q.
Proof.
  cbv zeta. split; [|split; [reflexivity|]].
  - constructor; [|constructor]. unfold serial_axis. cbn. unfold serial_side. repeat split; try lia; tauto.
  - eexists. split; [vm_compute; reflexivity|]. vm_compute. reflexivity.
Qed.
