(* C110: Monte Carlo simulations run as a series of parallel jobs. *)
From stdpp Require Import gmap.
From Coq Require Import Strings.String.
From Verif Require Import Model.Base Model.Text Model.Boundary Model.Layout Model.Access Model.Setup Model.Codec Model.MPI Model.Ghostswap Model.File
  Model.Simulate Model.Jobs Model.Runs Model.Spin Model.McRanks Model.McRuns
  Spec.Box Spec.Bytes Spec.Access Spec.Stencil Spec.Decomp Spec.File Spec.Schedule Spec.Jobs Spec.Program Spec.Runs Spec.McRanks Spec.McRuns
  Proof.BaseL Proof.CodecL Proof.FileL Proof.WriteL Proof.RunsL Proof.McRunsL Props.File Props.Jobs Props.McRanks Props.Runs.
From Verif Require Spec.Spin Props.Spin.
Local Open Scope Z_scope.

(* One job.  Provided that sweeps may be long enough, every execution ends; every output is a file of a grid that one process gets from D by the attempts
   of all ranks one after the other; that grid has no spin that D has not, and no more energy at temperature zero *)
Theorem C110_job : forall (c : codec Z) valid fresh S (dshow : S -> list byte) dparse raw compress uncompress name fields gs dx hot sel rand,
  storable c valid fresh dshow dparse compress uncompress name fields gs dx (periodic_sides gs) 1 ->
  (length gs = 2 \/ length gs = 3)%nat -> Forall (fun g => Z.even (gx_1 g - gx_0 g) = true) gs -> (forall seed k, 0 <= rand seed k) ->
  forall s np D file, suitable c valid sel rand gs s -> zlen D = cells (domain gs) ->
  checkpoint c valid dshow dparse raw compress name fields gs dx (periodic_sides gs) 1 np D file -> evenly np gs 1 (s_ranks s) 1 ->
  (forall D', zlen D' = cells (domain gs) -> Forall (fun v => In v D) D' -> can_write c valid raw compress gs (periodic_sides gs) 1 (s_ranks s) D') ->
  exists fuel0, forall fuel, (fuel0 <= fuel)%nat ->
    exists W f, finished (s_ranks s) W f /\
      inevitable (starts c fresh dshow dparse raw compress uncompress name gs 1 (spin_run c hot sel rand gs fuel s) (Datatypes.S (s_turns s)) file) f /\
      (forall r, length (W r) = Datatypes.S (s_turns s)) /\
      forall k, (k <= s_turns s)%nat -> exists D', spin_turns hot sel rand gs s (Datatypes.S k) 0 D D' /\
        Forall (fun v => In v D) D' /\ ((forall r dE, 0 < dE -> hot r dE = false) -> energy2 gs D' <= energy2 gs D) /\
        forall file', produces (s_ranks s) W k file' -> checkpoint c valid dshow dparse raw compress name fields gs dx (periodic_sides gs) 1 (s_ranks s) D' file'.
Proof.
  intros c valid fresh S dshow dparse raw compress uncompress name fields gs dx hot sel rand St Hdim He R s np D file Hs LD Ck Ev Hw. pose proof St as [].
  assert (Forall (fun g => gx_0 g < gx_1 g /\ Z.even (gx_1 g - gx_0 g) = true) gs) as Hg by (rewrite Forall_forall in *; intros g Ig; split; [now apply t_box|now apply He]).
  assert (zlen D = cells (domain gs) /\ Forall valid D) as GD.
  { eapply (ckpt_valid c valid fresh dshow dparse raw compress uncompress name fields gs dx (periodic_sides gs) 1); eauto. }
  destruct (turns_exist c valid hot sel rand gs t_codec Hdim R Hg s Hs (Datatypes.S (s_turns s)) 0 D GD) as (h & f & Dn & Se & Fa & _ & _ & Be).
  exists f. intros fuel Hf.
  destruct (C106_job Z c valid fresh S dshow dparse raw compress uncompress name fields gs dx (periodic_sides gs) 1 St (against c hot sel rand gs fuel s h) np D file (Datatypes.S (s_turns s)) Dn) as (W & fin & F & I & L & H); auto.
  { apply Hs. }
  { intros n D' Hn En. destruct (Be (Datatypes.S n) D' fuel ltac:(lia) En) as (_ & (L' & _) & In' & _). now apply Hw. }
  exists W, fin. split; [exact F|]. split; [exact I|]. split; [exact L|]. intros k Hk. destruct (H k ltac:(lia)) as (D' & E' & P'). destruct (Be (Datatypes.S k) D' fuel ltac:(lia) E') as (T & _ & In' & En). exists D'. auto.
Qed.
Print Assumptions C110_job.

(* A campaign: it can be carried out, and however the jobs are scheduled its last file is one of the grid that one process gets from D by the attempts of
   all ranks of all jobs, one after the other *)
Theorem C110_campaign : forall (c : codec Z) valid fresh S (dshow : S -> list byte) dparse raw compress uncompress name fields gs dx hot sel rand,
  storable c valid fresh dshow dparse compress uncompress name fields gs dx (periodic_sides gs) 1 ->
  (length gs = 2 \/ length gs = 3)%nat -> Forall (fun g => Z.even (gx_1 g - gx_0 g) = true) gs -> (forall seed k, 0 <= rand seed k) ->
  forall jobs np D file, Forall (suitable c valid sel rand gs) jobs -> zlen D = cells (domain gs) ->
  checkpoint c valid dshow dparse raw compress name fields gs dx (periodic_sides gs) 1 np D file -> follow gs np jobs ->
  (forall s D', In s jobs -> zlen D' = cells (domain gs) -> Forall (fun v => In v D) D' -> can_write c valid raw compress gs (periodic_sides gs) 1 (s_ranks s) D') ->
  exists D', spin_jobs hot sel rand gs jobs D D' /\ Forall (fun v => In v D) D' /\ ((forall r dE, 0 < dE -> hot r dE = false) -> energy2 gs D' <= energy2 gs D) /\
  exists fuel0, forall fuel, (fuel0 <= fuel)%nat -> let js := map (spin_run c hot sel rand gs fuel) jobs in
    (exists np' file', leads c fresh dshow dparse raw compress uncompress name gs 1 np file js np' file') /\
    forall np' file', leads c fresh dshow dparse raw compress uncompress name gs 1 np file js np' file' ->
      checkpoint c valid dshow dparse raw compress name fields gs dx (periodic_sides gs) 1 np' D' file'.
Proof.
  intros c valid fresh S dshow dparse raw compress uncompress name fields gs dx hot sel rand St Hdim He R jobs np D file Hs LD Ck Fo Hw. pose proof St as [].
  assert (Forall (fun g => gx_0 g < gx_1 g /\ Z.even (gx_1 g - gx_0 g) = true) gs) as Hg by (rewrite Forall_forall in *; intros g Ig; split; [now apply t_box|now apply He]).
  assert (zlen D = cells (domain gs) /\ Forall valid D) as GD.
  { eapply (ckpt_valid c valid fresh dshow dparse raw compress uncompress name fields gs dx (periodic_sides gs) 1); eauto. }
  destruct (jobs_exist c valid hot sel rand gs t_codec Hdim R Hg raw compress jobs np D Hs GD Fo Hw) as (hs & f & D' & Sj & (_ & In' & En) & H).
  exists D'. split; [exact Sj|]. split; [exact In'|]. split; [exact En|]. exists f. intros fuel Hf js. destruct (H fuel Hf) as (js' & J1 & _ & J3 & J4 & J5). fold js in J1.
  destruct (C106_campaign Z c valid fresh S dshow dparse raw compress uncompress name fields gs dx (periodic_sides gs) 1 St js' np D D' file J3 LD Ck J5 J4) as ((np' & file' & Le) & Al).
  split.
  - exists np', file'. eapply leads_same; [exact J1|exact Le].
  - intros np2 file2 L2. apply Al. eapply leads_same; [|exact L2]. clear -J1. induction J1 as [|? ? ? ? (E1 & E2 & E3)]; constructor; auto.
Qed.
Print Assumptions C110_campaign.

(* The case of C101: 4 x 2 nodes with eight spins, written by two ranks; two ranks make two turns of a step each, then one rank a turn of two steps *)
Local Notation eight := [mkG 0 4; mkG (-2) 0].
Local Notation count := (fun seed k => Z.abs seed + Z.of_nat k).
Definition eight_job (np : Z) (turns : nat) (steps : Z) : spin_job := {| s_ranks := np; s_turns := turns; s_steps := steps; s_clock := fun _ _ _ _ => 1000 |}.
Definition eight_name := bytes "grid:scalar:int"%string.
Definition eight_V (x : list Z) : Z := match x with [a; b] => 2 * a + b + 3 | _ => 0 end.
Lemma eight_storable : storable (pod_codec pod_int) int_range (fun _ => 0) show_int ex_parse (fun x => x) (fun y _ => Some y) eight_name 1 eight [2; 2] (periodic_sides eight) 1.
Proof.
  destruct rod_storable. split; auto.
  - apply pod_serialises, pod_int_ok.
  - repeat constructor; simpl; unfold serial_side, Neumann, Dirichlet, periodic, mirror, glen; simpl; auto; lia.
  - split; [exists (bytes "scalar:int"%string); reflexivity|]. apply Forall_forall. intros b Hb. vm_compute in Hb. intuition congruence.
  - clear. repeat constructor; vm_compute; congruence.
  - pose proof (Forall_inv t_exact) as X. constructor; [exact X|constructor; [exact X|constructor]].
  - clear. repeat constructor; vm_compute; congruence.
Qed.
Lemma eight_usable np : np = 1 \/ np = 2 -> usable (pod_codec pod_int) int_range eight 1 np.
Proof.
  intros H. split; [lia|]. split; [unfold int_range; lia|]. exists 4. split; [lia|]. split; [intros; simpl; lia|]. intros r ge Hr E.
  destruct H as [-> | ->]; (assert (r = 0 \/ r = 1) as [-> | ->] by lia); try lia; vm_compute in E; inversion E; subst ge; (split; [repeat constructor; simpl; lia|vm_compute; congruence]).
Qed.
Lemma eight_can_write np D : np = 1 \/ np = 2 -> can_write (pod_codec pod_int) int_range true (fun x => x) eight (periodic_sides eight) 1 np D.
Proof.
  intros H. eapply (C106_raw_builds _ _ _ _ _ _ _ _ _ _ _ _ _ _ _ eight_storable np 4); [now apply eight_usable|lia|intros; simpl; lia|].
  intros r ge Hr E. destruct H as [-> | ->]; (assert (r = 0 \/ r = 1) as [-> | ->] by lia); try lia; vm_compute in E; inversion E; subst ge; vm_compute; reflexivity.
Qed.
Lemma eight_hold : hold 2 eight 1 (periodic_sides eight) case_D eight_V.
Proof.
  intros r ge Hr E. assert (r = 0 \/ r = 1) as [->| ->] by lia; vm_compute in E; inversion E; subst ge; (split; [reflexivity|]);
    intros [|a [|b [|? ?]]] O; cbn in O; try tauto; destruct O as (O1 & O2 & _).
  - assert (a = 0 \/ a = 1) as [-> | ->] by lia; assert (b = -2 \/ b = -1) as [-> | ->] by lia; vm_compute; reflexivity.
  - assert (a = 2 \/ a = 3) as [-> | ->] by lia; assert (b = -2 \/ b = -1) as [-> | ->] by lia; vm_compute; reflexivity.
Qed.
Lemma eight_field : has_field eight (periodic_sides eight) (zrange 1 9) eight_V.
Proof.
  intros [|a [|b [|? ?]]] O; cbn in O; try tauto; destruct O as (O1 & O2 & _). assert (a = 0 \/ a = 1 \/ a = 2 \/ a = 3) as [-> |[-> |[-> | ->]]] by lia; assert (b = -2 \/ b = -1) as [-> | ->] by lia; vm_compute; reflexivity.
Qed.
Lemma eight_checkpoint : exists file, checkpoint (pod_codec pod_int) int_range show_int ex_parse true (fun x => x) eight_name 1 eight [2; 2] (periodic_sides eight) 1 2 (zrange 1 9) file.
Proof.
  assert (writable_run (pod_codec pod_int) int_range true (fun x => x) show_int ex_parse eight_name 1 eight [2; 2] (periodic_sides eight) 2 1 case_D eight_V) as Wr.
  { pose proof eight_storable as []. pose proof (eight_can_write 2 (zrange 1 9) ltac:(auto) case_D eight_V eight_field eight_hold) as Cw.
    assert (forall r ge, 0 <= r < 2 -> setup_mpi 2 eight 1 r = Some ge -> Forall int_range (case_D r)) as Vd.
    { intros r ge Hr _. assert (r = 0 \/ r = 1) as [->| ->] by lia; repeat constructor; vm_compute; congruence. }
    split; auto; try lia; try reflexivity.
    - exact eight_hold.
    - intros [|a [|b [|? ?]]] O; cbn in O; try tauto. unfold eight_V, int_range. lia.
    - intros r ge Hr E. apply (Cw r ge Hr E). eapply Vd; eauto.
    - intros r ge blk Hr E W. apply (Cw r ge Hr E); [eapply Vd; eauto|exact W]. }
  eexists. exists case_D, eight_V. split; [exact Wr|]. split; [exact eight_field|].
  eapply (writes_portable Z (pod_codec pod_int) true (fun x => x) Z show_int ex_parse int_range (fun _ => 0) (fun y _ => Some y)); [apply pod_serialises, pod_int_ok|exact ex_lossless|exact Wr].
Qed.
Lemma eight_suitable np turns steps : np = 1 \/ np = 2 -> suitable (pod_codec pod_int) int_range (fun _ => Props.Spin.always) count eight (eight_job np turns steps).
Proof.
  intros H. split; [now apply eight_usable|]. split; [intros; cbn; lia|]. intros r ge Hr E. cbn [s_ranks eight_job] in Hr, E.
  destruct H as [-> | ->]; (assert (r = 0 \/ r = 1) as [-> | ->] by lia); try lia; vm_compute in E; inversion E; subst ge; (split; [repeat constructor; simpl; lia|]); (split; [|reflexivity]); intros; apply fair_count; vm_compute; reflexivity.
Qed.
Definition eight_jobs := [eight_job 2 1 1; eight_job 1 0 2].
Example C110_case : exists file D' fuel np' file',
  checkpoint (pod_codec pod_int) int_range show_int ex_parse true (fun x => x) eight_name 1 eight [2; 2] (periodic_sides eight) 1 2 (zrange 1 9) file /\
  spin_jobs Props.Spin.never (fun _ => Props.Spin.always) count eight eight_jobs (zrange 1 9) D' /\ energy2 eight D' <= energy2 eight (zrange 1 9) /\
  leads (pod_codec pod_int) (fun _ => 0) show_int ex_parse true (fun x => x) (fun y _ => Some y) eight_name eight 1 2 file
    (map (spin_run (pod_codec pod_int) Props.Spin.never (fun _ => Props.Spin.always) count eight fuel) eight_jobs) np' file' /\
  checkpoint (pod_codec pod_int) int_range show_int ex_parse true (fun x => x) eight_name 1 eight [2; 2] (periodic_sides eight) 1 np' D' file'.
Proof.
  destruct eight_checkpoint as [file Ck].
  assert (evenly 2 eight 1 2 1 /\ evenly 2 eight 1 1 1) as [E1 E2].
  { split; [exists 1%nat|exists 2%nat]; intros r ge Hr E; (assert (r = 0 \/ r = 1) as [-> | ->] by lia); try lia; vm_compute in E; inversion E; subst ge; vm_compute; reflexivity. }
  destruct (C110_campaign (pod_codec pod_int) int_range (fun _ => 0) Z show_int ex_parse true (fun x => x) (fun y _ => Some y) eight_name 1 eight [2; 2] Props.Spin.never (fun _ => Props.Spin.always) count eight_storable)
    with (jobs := eight_jobs) (np := 2) (D := zrange 1 9) (file := file) as (D' & Sj & _ & En & fuel & H).
  - now left.
  - repeat constructor.
  - intros. lia.
  - repeat (constructor; [apply eight_suitable; auto|]). constructor.
  - reflexivity.
  - exact Ck.
  - cbn [follow eight_jobs eight_job s_ranks]. auto.
  - intros s D' [<-|[<-|[]]] _ _; apply eight_can_write; auto.
  - destruct (H fuel (le_n fuel)) as ((np' & file' & Le) & Al). exists file, D', fuel, np', file'. split; [exact Ck|]. split; [exact Sj|]. split; [now apply En|]. split; [exact Le|]. now apply Al.
Qed.
