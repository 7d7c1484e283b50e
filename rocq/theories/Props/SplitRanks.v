(* C104: the semi-implicit Cahn-Hilliard solver gives the same field on any number of processes. *)
From Coq Require Import QArith.QArith QArith.Qcanon Sorting.Permutation.
From Verif Require Import Model.Base Model.Boundary Model.Layout Model.Access Model.Setup Model.Codec Model.MPI Model.Ghostswap Model.File Model.Stencil Model.Simulate Model.Split Model.SplitRanks
  Spec.Box Spec.Access Spec.Bytes Spec.Decomp Spec.Schedule Spec.Stencil Spec.Split Spec.Program
  Proof.BaseL Proof.CodecL Proof.LayoutL Proof.AccessL Proof.SimulateL Proof.StagesL Proof.ExecL Proof.ProgramL Proof.SplitRM Props.Stages Props.Program Props.Split.
Local Open Scope Z_scope.

(* axes along which the checkerboard has no two neighbours of one colour: no negative coordinates, and an even number of nodes (or one)
   where the axis is periodic *)
Definition checkered (g : gaxis) (b : Z * Z) : Prop :=
  0 <= gx_0 g /\ (fst b = periodic \/ snd b = periodic -> Z.even (gx_1 g - gx_0 g) = true \/ gx_1 g - gx_0 g = 1).

(* Either the serial calls are done, and then every execution of the ranks ends with the field that the serial calls leave, or the serial
   program gives up with Abort(-1), and then so do all ranks in every execution. *)
Theorem C104_convex_splitting : forall c pq np gs bs ghosts B en h D K dt omega tolerance residual_step max_iter root ns schedule data data0,
  grids np gs bs ghosts B -> Forall2 checkered gs bs ->
  serialises c (fun v => zlen v = 2) -> (forall v, zlen v = 2 -> c_size c v <= B) -> pod_ok pq (fun _ => True) ->
  h <> 0%Qc -> (0 <= dt * D)%Qc -> (0 <= K)%Qc -> (forall c, 0 <= nonlinear en c)%Qc ->
  zlen data0 = cells (whole gs bs) -> Forall (fun v => zlen v = 2) data0 ->
  (forall r ge, 0 <= r < np -> setup_mpi np gs ghosts r = Some ge -> zlen (data r) = cells (ge_axes ge) /\ Forall (fun v => zlen v = 2) (data r)) ->
  same_field np gs bs ghosts data data0 ->
  (forall call step iter loop, Permutation (schedule call step iter loop) (zrange 0 (nodes (whole gs bs)))) ->
  let program := split_program en h D K dt omega tolerance residual_step max_iter root c pq np gs bs ghosts data ns in
  match serial_updates en h D K dt omega tolerance residual_step max_iter root (whole gs bs) 0 ns schedule data0 with
  | Done data0' => zlen data0' = cells (whole gs bs) /\ exists data', always_ends np program (fun r => Some (data' r)) /\ same_field np gs bs ghosts data' data0'
  | Exit e => e = -1 /\ always_ends np program (fun _ => None)
  | Undef => False
  end.
Proof.
  intros c pq np gs bs gh B en h D K dt omega tol rs mi root ns schedule data data0 Gr Ck S HB Pq Hh Hdt HK Hen L0 V0 HD HS Hsch program.
  assert (Forall tiled (whole_lims gs bs)) as Ht.
  { unfold whole_lims. clear - Ck. induction Ck as [|g b gs bs [C1 C2] _ IH]; cbn [combine map]; constructor; [|exact IH]. unfold tiled, set_lim, serial_limits. cbn [l_x0 l_x1 l_g0 l_g1 l_b0 l_b1]. rewrite !Z.eqb_refl. split; [exact C1|exact C2]. }
  destruct (split_ranks c pq np gs bs gh B en h D K dt omega tol rs mi root ns schedule data data0 Gr Ht S HB Pq Hh Hdt HK Hen L0 V0 HD HS Hsch) as [(E & A)|(d' & d0' & E & L & _ & A & Sf)]; rewrite E.
  - split; [reflexivity|exact A].
  - split; [exact L|]. exists d'. split; [exact A|exact Sf].
Qed.
Print Assumptions C104_convex_splitting.

(* A square root rounded up to an integer: whatever passes the test with it passes the test with the true root. *)
Definition root_up (q : Qc) : Qc := Q2Qc (inject_Z (Z.sqrt_up (Z.div (Qnum (this q)) (Zpos (Qden (this q))) + 1))).

(* The four nodes of the example of C103 on two processes, two calls, one of two steps: the serial solver accepts after some iterations, so
   every parallel execution ends with its field; with a tolerance out of reach it gives up, and so do the processes. *)
Definition half_step : Qc := Q2Qc (1 # 4).
Definition ring_pair (z : Z) : list Qc := [Qz z; 0%Qc].
Definition solver (tol : Q) (ns : list Z) : outcome cells2 :=
  serial_updates vanilla 1 1 1 half_step 1 (Q2Qc tol) 10 3 root_up (whole ring ring_sides) 0 ns (fun _ _ _ _ => [3; 1; 0; 2]) (around ring_pair).
Definition solvers (tol : Q) (ns : list Z) : Z -> proc (option cells2) :=
  split_program vanilla 1 1 1 half_step 1 (Q2Qc tol) 10 3 root_up fractions fraction_pod 2 ring ring_sides 1 (around_rank ring_pair) ns.
Example C104_case :
  (exists data0' data', solver (9 # 10) [2; 1] = Done data0' /\ data0' <> around ring_pair /\ always_ends 2 (solvers (9 # 10) [2; 1]) (fun r => Some (data' r)) /\ same_field 2 ring ring_sides 1 data' data0') /\
  always_ends 2 (solvers (1 # 1000) [2; 1]) (fun _ => None).
Proof.
  assert (forall tol ns, let program := solvers tol ns in match solver tol ns with
    | Done data0' => zlen data0' = 4 /\ exists data', always_ends 2 program (fun r => Some (data' r)) /\ same_field 2 ring ring_sides 1 data' data0'
    | Exit e => e = -1 /\ always_ends 2 program (fun _ => None)
    | Undef => False
    end) as T.
  { intros tol ns. apply (C104_convex_splitting fractions fraction_pod 2 ring ring_sides 1 8).
    - apply ring_grids; unfold int_max; lia.
    - constructor; [split; [cbn; lia|intros _; left; reflexivity]|constructor].
    - apply fractions_ok. unfold int_max. lia.
    - intros v Hv. cbn [fractions vector_codec c_size fraction_pod pd_size]. lia.
    - apply fraction_pod_ok.
    - discriminate.
    - discriminate.
    - discriminate.
    - apply Props.Split.C80_coefficients.
    - reflexivity.
    - repeat constructor.
    - intros q ge Hq Eg. rewrite (ring_cells q ge Hq Eg). assert (q = 0 \/ q = 1) as [-> | ->] by lia; (split; [reflexivity|repeat constructor]).
    - apply ring_same.
    - intros. change (Permutation [3; 1; 0; 2] [0; 1; 2; 3]). apply NoDup_Permutation; [repeat constructor; cbn; lia|repeat constructor; cbn; lia|intros x; cbn; lia]. }
  split.
  - pose proof (T (9 # 10)%Q [2; 1]) as H. cbv zeta in H.
    assert (match solver (9 # 10) [2; 1] with Done n => map (map this) n <> map (map this) (around ring_pair) | _ => False end) as V by (vm_compute; discriminate).
    destruct (solver (9 # 10) [2; 1]) as [n| |]; [|easy|easy]. destruct H as (_ & d' & A & Sf). exists n, d'. split; [reflexivity|]. split; [intros ->; now apply V|]. split; [exact A|exact Sf].
  - pose proof (T (1 # 1000)%Q [2; 1]) as H. cbv zeta in H.
    assert (match solver (1 # 1000) [2; 1] with Exit _ => True | _ => False end) as V by (vm_compute; exact I).
    destruct (solver (1 # 1000) [2; 1]) as [n|e|]; [easy|apply H|easy].
Qed.

(* With three nodes around a periodic axis the nodes 0 and 2 are neighbours of one colour.  The serial loop relaxes node 2 with the new value
   of node 0, a process of its own has the former one: the fields differ after one step.  Everything else is as in the theorem. *)
Definition ring3 : list gaxis := [mkG 0 3].
Definition ring3_field : cells2 := map ring_pair [2; 0; 1].
Definition ring3_rank (r : Z) : cells2 := map ring_pair (if r =? 0 then [7; 2; 0; 7] else [7; 1; 7]).
Definition ring3_ranks : state (option cells2) :=
  (ranks 2 (split_program vanilla 1 1 1 half_step 1 (Q2Qc (9 # 10)) 10 3 root_up fractions fraction_pod 2 ring3 ring_sides 1 ring3_rank [1]), no_chans).
Theorem C104_odd_refuted : exists c pq gs bs B en dt tolerance root data data0 data0',
  grids 2 gs bs 1 B /\ Forall (fun g => 0 <= gx_0 g) gs /\
  serialises c (fun v => zlen v = 2) /\ (forall v, zlen v = 2 -> c_size c v <= B) /\ pod_ok pq (fun _ => True) /\ (0 <= dt)%Qc /\ (forall c, 0 <= nonlinear en c)%Qc /\
  zlen data0 = cells (whole gs bs) /\ Forall (fun v => zlen v = 2) data0 /\
  (forall r ge, 0 <= r < 2 -> setup_mpi 2 gs 1 r = Some ge -> zlen (data r) = cells (ge_axes ge) /\ Forall (fun v => zlen v = 2) (data r)) /\
  same_field 2 gs bs 1 data data0 /\
  serial_updates en 1 1 1 dt 1 tolerance 10 3 root (whole gs bs) 0 [1] (fun _ _ _ _ => zrange 0 (nodes (whole gs bs))) data0 = Done data0' /\
  ~ exists data', always_ends 2 (split_program en 1 1 1 dt 1 tolerance 10 3 root c pq 2 gs bs 1 data [1]) (fun r => Some (data' r)) /\ same_field 2 gs bs 1 data' data0'.
Proof.
  assert (exists d, serial_updates vanilla 1 1 1 half_step 1 (Q2Qc (9 # 10)) 10 3 root_up (whole ring3 ring_sides) 0 [1] (fun _ _ _ _ => zrange 0 (nodes (whole ring3 ring_sides))) ring3_field = Done d /\
    option_map (map this) (nth_error d 2) = Some [1; 9 # 8]%Q) as (d & E & V) by (eexists; split; vm_compute; reflexivity).
  assert (exists a b, results (fst (run 400 ring3_ranks)) = Some [Some a; Some b] /\ option_map (map this) (nth_error b 1) = Some [1; 0]%Q) as (a & b & R & Vb) by (do 2 eexists; split; vm_compute; reflexivity).
  exists fractions, fraction_pod, ring3, ring_sides, 8, vanilla, half_step, (Q2Qc (9 # 10)), root_up, ring3_rank, ring3_field, d.
  split.
  { split; [lia|]. split; [discriminate|]. split; [lia|]. split; [lia|]. split; [apply Forall2_cons; [split; [cbn; lia|]; split; right; right; left; reflexivity|apply Forall2_nil]|].
    intros q ge Hq Eg. assert (q = 0 \/ q = 1) as [-> | ->] by lia; vm_compute in Eg; inversion Eg; subst ge; (split; [repeat constructor; simpl; lia|vm_compute; discriminate]). }
  split; [repeat constructor; cbn; lia|]. split; [apply fractions_ok; unfold int_max; lia|]. split; [intros v Hv; cbn [fractions vector_codec c_size fraction_pod pd_size]; lia|].
  split; [apply fraction_pod_ok|]. split; [discriminate|]. split; [apply C80_coefficients|]. split; [reflexivity|]. split; [repeat constructor|]. split.
  { intros q ge Hq Eg. assert (q = 0 \/ q = 1) as [-> | ->] by lia; vm_compute in Eg; inversion Eg; (split; [reflexivity|repeat constructor]). }
  split.
  { intros q ge y Hq Eg. assert (q = 0 \/ q = 1) as [-> | ->] by lia; vm_compute in Eg; inversion Eg; subst ge; intros O; unfold owns in O; simpl in O; destruct y as [|x [|x' y]]; try tauto; destruct O as [O _];
      [assert (x = 0 \/ x = 1) as [-> | ->] by lia|assert (x = 2) as -> by lia]; eexists; split; vm_compute; reflexivity. }
  split; [exact E|]. clear E. intros (D' & (fin & Fi & In) & Sf). change (inevitable ring3_ranks fin) in In.
  assert (fin = run 400 ring3_ranks) as Ef by (eapply inevitable_unique; [exact In|]; eapply run_inevitable; [discriminate|exact R]).
  pose proof (proj1 Fi) as Ff. rewrite Ef in Ff. rewrite Ff in R. change (Some [Some (D' 0); Some (D' 1)] = Some [Some a; Some b]) in R. assert (D' 1 = b) as Rb by congruence. clear Ff Ef Fi In R.
  destruct (setup_mpi 2 ring3 1 1) as [ge|] eqn:Eg; [|vm_compute in Eg; discriminate]. destruct (Sf 1 ge [2] ltac:(lia) Eg) as (v & G1 & G2); [vm_compute in Eg; inversion Eg; subst ge; cbn; lia|].
  vm_compute in Eg. inversion Eg; subst ge. rewrite Rb in G1. change (nth_error b 1 = Some v) in G1. change (nth_error d 2 = Some v) in G2. rewrite G1 in Vb. rewrite G2 in V. rewrite Vb in V. discriminate.
Qed.
Print Assumptions C104_odd_refuted.
