(* C99: a simulation cut into parallel jobs that continue each other's checkpoints is the same simulation. *)
From Coq Require Import String.
From Verif Require Import Model.Base Model.Text Model.Boundary Model.Layout Model.Access Model.Setup Model.Codec Model.Region Model.MPI Model.Ghostswap Model.File
  Model.Simulate Model.Jobs Spec.Box Spec.Bytes Spec.Stencil Spec.Decomp Spec.File Spec.Schedule Spec.Jobs
  Proof.BaseL Proof.CodecL Proof.LayoutL Proof.MPIL Proof.SetupL Proof.HaloL Proof.SimulateL Proof.JobsL Props.File.
Local Open Scope list_scope.
Local Open Scope Z_scope.

(* One job: np ranks read a file in which np0 ranks had stored the grid D.  Under every schedule the job ends, after the wanted number of
   outputs; output number k+1 is a checkpoint of the grid that the serial program has after (k+1)*inc steps from D. *)
Theorem C99_job : forall T rule (c : codec T) valid fresh S (dshow : S -> list byte) dparse raw compress uncompress name fields gs dx B gh,
  sound rule c valid fresh dshow dparse compress uncompress name fields gs dx B gh ->
  forall np0 D file np inc turns junk,
  zlen D = cells (whole gs B) -> checkpoint c valid dshow dparse raw compress name fields gs dx B gh np0 D file ->
  usable c valid gs gh np -> evenly np0 gs gh np gh -> some_memory valid gs gh np junk ->
  (forall k D', (k < turns)%nat -> after rule gs B (Datatypes.S k * inc) D D' -> can_write c valid raw compress gs B gh np D') ->
  exists W f, finished np W f /\ inevitable (started rule c fresh dshow dparse raw compress uncompress name gs gh np file inc turns junk) f /\
    (forall r, 0 <= r < np -> length (W r) = turns) /\
    forall k, (k < turns)%nat -> exists D', after rule gs B (Datatypes.S k * inc) D D' /\
      forall file', produces np W k file' -> checkpoint c valid dshow dparse raw compress name fields gs dx B gh np D' file'.
Proof.
  intros T rule c valid fresh S dshow dparse raw compress uncompress name fields gs dx B gh [] np0 D file np inc turns junk H1 H2 H3 H4 H5 H6.
  edestruct (job_ok rule c valid fresh dshow dparse raw compress uncompress name fields gs dx B gh) with (np0 := np0) (D := D) (file := file) (np := np) (inc := inc) (turns := turns) (junk := junk)
    as (_ & W & f & F & I & L & H); auto.
  exists W, f. auto.
Qed.
Print Assumptions C99_job.

(* A campaign of any number of jobs, each with its own number of ranks: wherever it leads, it leads to a checkpoint of the grid that one serial
   run over the same total number of steps has; and it leads somewhere. *)
Theorem C99_campaign : forall T rule (c : codec T) valid fresh S (dshow : S -> list byte) dparse raw compress uncompress name fields gs dx B gh,
  sound rule c valid fresh dshow dparse compress uncompress name fields gs dx B gh ->
  forall jobs np D file, zlen D = cells (whole gs B) -> checkpoint c valid dshow dparse raw compress name fields gs dx B gh np D file ->
  feasible rule c valid raw compress gs B gh np D jobs ->
  (exists np' file', campaign rule c valid fresh dshow dparse raw compress uncompress name gs gh np file jobs np' file') /\
  forall np' file', campaign rule c valid fresh dshow dparse raw compress uncompress name gs gh np file jobs np' file' ->
    exists D', after rule gs B (steps_of jobs) D D' /\ checkpoint c valid dshow dparse raw compress name fields gs dx B gh np' D' file'.
Proof.
  intros T rule c valid fresh S dshow dparse raw compress uncompress name fields gs dx B gh [].
  induction jobs as [|((np1 & inc) & t) jobs IH]; intros np D file LD Ck Fe.
  - split; [exists np, file; constructor|]. intros np' file' H. inversion H; subst. exists D. split; [intros U _; reflexivity|auto].
  - destruct Fe as (Hu & Ev & Hw & Fe).
    assert (forall junk, some_memory valid gs gh np1 junk -> vf valid gs B D /\
      exists W f, finished np1 W f /\ inevitable (started rule c fresh dshow dparse raw compress uncompress name gs gh np1 file inc (Datatypes.S t) junk) f /\
      (forall r, length (W r) = Datatypes.S t) /\
      forall k, (k < Datatypes.S t)%nat -> exists D', after rule gs B (Datatypes.S k * inc) D D' /\
        forall file', produces np1 W k file' -> checkpoint c valid dshow dparse raw compress name fields gs dx B gh np1 D' file') as X.
    { intros junk Hj. eapply job_ok; eauto. intros k D' Hk. apply Hw. lia. }
    pose proof Hu as (Hnp & _). destruct (whole_serial gs B s_sides) as [Lb Sa].
    assert (forall D', vf valid gs B D -> after rule gs B (Datatypes.S t * inc) D D' -> zlen D' = cells (whole gs B)) as Lz.
    { intros D' VD A. destruct (after_ex valid gs B rule Lb Sa s_rule (Datatypes.S t * inc) D VD) as (D2 & [L2 _] & A2).
      now rewrite (after_fun gs B rule _ D D' D2 LD A A2). }
    split.
    + set (junk := fun r (_ : nat) => match setup_mpi np1 gs gh r with Some ge => repeat (fresh fields) (Z.to_nat (cells (ge_axes ge))) | None => [] end).
      assert (some_memory valid gs gh np1 junk) as Hj.
      { intros r ge i Hr E. unfold junk. rewrite E. split; [|apply Forall_forall; intros v Hv; apply repeat_spec in Hv; now subst v].
        unfold zlen. rewrite repeat_length. apply Z2Nat.id.
        assert (gok gs) as Hok by (unfold gok; eapply Forall_impl; [|exact s_box]; simpl; lia).
        pose proof (dc_wf _ _ _ _ (deco_setup np1 gs gh Hnp s_ne Hok ltac:(lia)) r Hr) as Wf. cbv beta in Wf. rewrite E in Wf. eapply cells_nonneg; [|exact Wf]. lia. }
      destruct (X junk Hj) as (VD & W & f & F & I & L & H). destruct (H t ltac:(lia)) as (D' & A & Pf).
      destruct (inevitable_gsteps _ _ I) as [n G].
      set (file1 := fold_left write_at ((flat_map (fun r => fst (nth t (W r) ([], []))) (zrange 0 np1)) ++ flat_map (fun r => snd (nth t (W r) ([], []))) (zrange 0 np1)) []).
      assert (produces np1 W t file1) as Pr by (eexists _, _; split; [apply carries_self|split; [apply carries_self|reflexivity]]).
      destruct (IH np1 D' file1 (Lz D' VD A) (Pf _ Pr) (Fe D' A)) as ((np2 & file2 & C) & _).
      exists np2, file2. econstructor; eauto. eapply gsteps_steps; eauto.
    + intros np2 file2 C. inversion C as [|? ? ? ? ? ? ? ? junk k s W file1 Hj St Fi Pr C']; subst.
      destruct (X junk Hj) as (VD & W' & f & F & I & L & H). destruct (H t ltac:(lia)) as (D' & A & Pf).
      assert (s = f) as -> by (eapply inevitable_end; eauto).
      assert (forall r, In r (zrange 0 np1) -> W' r = W r) as EW by (intros r Hr; apply in_zrange in Hr; eapply finished_fun; eauto).
      assert (produces np1 W' t file1) as Pr'.
      { destruct Pr as (ps1 & ps2 & C1 & C2 & E). exists ps1, ps2. 
        assert (forall g : list write * list write -> list write, flat_map (fun r => g (nth t (W' r) ([], []))) (zrange 0 np1) = flat_map (fun r => g (nth t (W r) ([], []))) (zrange 0 np1)) as Y.
        { intros g. rewrite !flat_map_concat_map. f_equal. apply map_ext_in. intros r Hr. now rewrite EW. }
        now rewrite !Y. }
      destruct (IH np1 D' file1 (Lz D' VD A) (Pf _ Pr') (Fe D' A)) as (_ & Y). destruct (Y np2 file2 C') as (D2 & A2 & Ck2).
      exists D2. split; [|exact Ck2]. change (steps_of ((np1, inc, t) :: jobs)) with (Datatypes.S t * inc + steps_of jobs)%nat.
      eapply (after_app valid gs B rule Lb Sa s_rule); eauto.
Qed.
Print Assumptions C99_campaign.

(* In builds without compression every field of valid values can be written, if no block is too large. *)
Theorem C99_raw_builds : forall T rule (c : codec T) valid fresh S (dshow : S -> list byte) dparse compress uncompress name fields gs dx B gh,
  sound rule c valid fresh dshow dparse compress uncompress name fields gs dx B gh ->
  forall np bound, usable c valid gs gh np -> 0 <= bound -> (forall v, valid v -> c_size c v <= bound) ->
  (forall r ge, 0 <= r < np -> setup_mpi np gs gh r = Some ge -> cells (ge_axes ge) * bound + 16 * zlen gs + 16 < int_max) ->
  forall D, can_write c valid true compress gs B gh np D.
Proof.
  intros T rule c valid fresh S dshow dparse compress uncompress name fields gs dx B gh [] np bound Hu B0 HB Hs D. eapply raw_can_write; eauto.
Qed.
Print Assumptions C99_raw_builds.

(* The run of Props/File.v (six cells, two ranks, 10*x in cell x, Neumann below and periodic above), continued by two ranks for two outputs of one step,
   by one rank for three steps and by three ranks for three outputs of two steps; the rule adds all values modulo 1000 *)
Definition ex_rule (_ : list Z) (vs : list Z) : option Z := Some (sumZ vs mod 1000).
Definition ex_bcs := [(Neumann, periodic)].
Lemma ex_sound : sound ex_rule (pod_codec pod_int) int_range (fun _ => 0) show_int ex_parse (fun x => x) (fun y _ => Some y) ex_name 1 ex_gs [2] ex_bcs 1.
Proof.
  destruct ex_run. split; auto.
  - apply pod_serialises, pod_int_ok.
  - exact ex_lossless.
  - unfold int_range; lia.
  - intros x vs _ _. eexists. split; [reflexivity|]. pose proof (Z.mod_pos_bound (sumZ vs) 1000). unfold int_range. cbn. lia.
  - repeat constructor; simpl; unfold serial_side, Neumann, Dirichlet, periodic, mirror, glen; simpl; auto; lia.
Qed.
Lemma ex_checkpoint : exists file, checkpoint (pod_codec pod_int) int_range show_int ex_parse true (fun x => x) ex_name 1 ex_gs [2] ex_bcs 1 2 [0; 10; 20; 30; 40; 50] file.
Proof.
  eexists. exists ex_data, ex_V. split; [exact ex_run|]. split.
  - intros [|x [|y t]] O; simpl in O; try tauto. assert (x = 0 \/ x = 1 \/ x = 2 \/ x = 3 \/ x = 4 \/ x = 5) as H by lia.
    repeat (destruct H as [-> | H]; [reflexivity|]). subst x. reflexivity.
  - eapply (writes_portable Z (pod_codec pod_int) true (fun x => x) Z show_int ex_parse int_range (fun _ => 0) (fun y _ => Some y)); [apply pod_serialises, pod_int_ok|exact ex_lossless|exact ex_run].
Qed.
Lemma ex_usable np : np = 1 \/ np = 2 \/ np = 3 -> usable (pod_codec pod_int) int_range ex_gs 1 np.
Proof.
  intros H. split; [lia|]. split; [unfold int_range; lia|]. exists 4. split; [lia|]. split; [intros; simpl; lia|]. intros r ge Hr E.
  destruct H as [-> | [-> | ->]]; (assert (r = 0 \/ r = 1 \/ r = 2) as [-> | [-> | ->]] by lia); try lia; vm_compute in E; inversion E; subst ge; (split; [repeat constructor; simpl; lia|vm_compute; congruence]).
Qed.
Lemma ex_can_write np D : np = 1 \/ np = 2 \/ np = 3 -> can_write (pod_codec pod_int) int_range true (fun x => x) ex_gs ex_bcs 1 np D.
Proof.
  intros H. eapply (C99_raw_builds _ _ _ _ _ _ _ _ _ _ _ _ _ _ _ _ ex_sound np 4); [now apply ex_usable|lia|intros; simpl; lia|].
  intros r ge Hr E. destruct H as [-> | [-> | ->]]; (assert (r = 0 \/ r = 1 \/ r = 2) as [-> | [-> | ->]] by lia); try lia; vm_compute in E; inversion E; subst ge; vm_compute; reflexivity.
Qed.
Definition ex_jobs : list (Z * nat * nat) := [(2, 1%nat, 1%nat); (1, 3%nat, 0%nat); (3, 2%nat, 2%nat)].
Lemma ex_even : evenly 2 ex_gs 1 2 1 /\ evenly 2 ex_gs 1 1 1 /\ evenly 1 ex_gs 1 3 1.
Proof.
  split; [|split]; [exists 1%nat|exists 2%nat|exists 1%nat]; intros r ge Hr E; (assert (r = 0 \/ r = 1 \/ r = 2) as [-> | [-> | ->]] by lia); try lia;
    vm_compute in E; inversion E; subst ge; vm_compute; reflexivity.
Qed.
Example C99_case : exists file,
  checkpoint (pod_codec pod_int) int_range show_int ex_parse true (fun x => x) ex_name 1 ex_gs [2] ex_bcs 1 2 [0; 10; 20; 30; 40; 50] file /\
  feasible ex_rule (pod_codec pod_int) int_range true (fun x => x) ex_gs ex_bcs 1 2 [0; 10; 20; 30; 40; 50] ex_jobs /\ steps_of ex_jobs = 11%nat /\
  exists np' file', campaign ex_rule (pod_codec pod_int) int_range (fun _ => 0) show_int ex_parse true (fun x => x) (fun y _ => Some y) ex_name ex_gs 1 2 file ex_jobs np' file'.
Proof.
  destruct ex_checkpoint as [file Ck]. exists file. split; [exact Ck|].
  assert (feasible ex_rule (pod_codec pod_int) int_range true (fun x => x) ex_gs ex_bcs 1 2 [0; 10; 20; 30; 40; 50] ex_jobs) as Fe.
  { destruct ex_even as (E1 & E2 & E3). unfold ex_jobs. cbn [feasible].
    split; [apply ex_usable; auto|]. split; [exact E1|]. split; [intros; apply ex_can_write; auto|]. intros D1 _.
    split; [apply ex_usable; auto|]. split; [exact E2|]. split; [intros; apply ex_can_write; auto|]. intros D2 _.
    split; [apply ex_usable; auto|]. split; [exact E3|]. split; [intros; apply ex_can_write; auto|]. auto. }
  split; [exact Fe|]. split; [reflexivity|].
  apply (C99_campaign Z ex_rule (pod_codec pod_int) int_range (fun _ => 0) Z show_int ex_parse true (fun x => x) (fun y _ => Some y) ex_name 1 ex_gs [2] ex_bcs 1 ex_sound ex_jobs 2 [0; 10; 20; 30; 40; 50] file); auto.
Qed.
(* where it leads: the serial program after eleven steps *)
Example C99_value : serial_loop ex_rule (whole ex_gs ex_bcs) 11 [0; 10; 20; 30; 40; 50] (repeat 0 6) = Some [10; 940; 990; 830; 430; 380].
Proof. vm_compute. reflexivity. Qed.
