(* C111: the serial and the parallel program read each other's files and continue each other's runs. *)
From stdpp Require Import gmap.
From Coq Require Import Strings.String.
From Coq Require Import QArith.QArith QArith.Qcanon.
From Verif Require Import Model.Base Model.Text Model.Num Model.Boundary Model.Layout Model.Access Model.Setup Model.Codec Model.Region Model.MPI Model.Ghostswap
  Model.Stencil Model.File Model.Simulate Model.Jobs Model.Program Model.SolidRanks Model.Runs Model.SerialRun
  Spec.Box Spec.Bytes Spec.Access Spec.Stencil Spec.Decomp Spec.File Spec.Schedule Spec.Jobs Spec.Program Spec.Runs Spec.Mixed
  Proof.BaseL Proof.LayoutL Proof.AccessL Proof.MPIL Proof.ExecL Proof.CodecL Proof.FileL Proof.SetupL Proof.SimulateL Proof.JobsL Proof.RunsL Proof.MixedL
  Props.File Props.Program Props.Jobs Props.Runs.
Local Open Scope Z_scope.

(* The serial program finds in a file of any number of ranks the whole grid, with its field, its boundary conditions and its spacing *)
Theorem C111_serial_reads : forall T (c : codec T) valid fresh S (dshow : S -> list byte) dparse raw compress uncompress name fields gs dx B gh,
  storable c valid fresh dshow dparse compress uncompress name fields gs dx B gh ->
  forall np D file, zlen D = cells (whole gs B) -> checkpoint c valid dshow dparse raw compress name fields gs dx B gh np D file ->
  shows c fresh dparse raw uncompress name fields gs dx B file D.
Proof. intros. eapply read_alone; eauto. Qed.
Print Assumptions C111_serial_reads.

(* The serial program writes, byte for byte, the file that one rank writes *)
Theorem C111_serial_writes : forall T (c : codec T) valid fresh S (dshow : S -> list byte) dparse raw compress uncompress name fields gs dx B gh,
  storable c valid fresh dshow dparse compress uncompress name fields gs dx B gh ->
  forall D, zlen D = cells (whole gs B) -> Forall valid D -> writes_alone c raw compress gs B D ->
  (exists file, output_serial c dshow raw compress name fields (whole gs B) dx D = Some file) /\
  forall file, output_serial c dshow raw compress name fields (whole gs B) dx D = Some file <-> checkpoint c valid dshow dparse raw compress name fields gs dx B gh 1 D file.
Proof.
  intros T c valid fresh S dshow dparse raw compress uncompress name fields gs dx B gh Hs D LD VD Wr.
  destruct (write_alone c valid fresh dshow dparse raw compress uncompress name fields gs dx B gh Hs D (conj LD VD) Wr) as (file & E & Ck).
  split; [eauto|]. intros file'. split; [|intros H; eapply file_alone; eauto]. intros E'. rewrite E in E'. injection E' as <-. exact Ck.
Qed.
Print Assumptions C111_serial_writes.

(* What one rank can write the serial program can write; C106_raw_builds says when that is so *)
Theorem C111_writes_alone : forall T (c : codec T) valid fresh S (dshow : S -> list byte) dparse raw compress uncompress name fields gs dx B gh,
  storable c valid fresh dshow dparse compress uncompress name fields gs dx B gh ->
  forall D, zlen D = cells (whole gs B) -> Forall valid D -> can_write c valid raw compress gs B gh 1 D -> writes_alone c raw compress gs B D.
Proof. intros T c valid fresh S dshow dparse raw compress uncompress name fields gs dx B gh Hs D LD VD. eapply one_writes; eauto. now split. Qed.
Print Assumptions C111_writes_alone.

(* A run of the serial program that begins with a file of any number of ranks: every output of it is a file of what it has at that point *)
Theorem C111_run : forall T (c : codec T) valid fresh S (dshow : S -> list byte) dparse raw compress uncompress name fields gs dx B gh,
  storable c valid fresh dshow dparse compress uncompress name fields gs dx B gh ->
  forall update turns np D file Dn, sensible valid gs B gh (Alone turns update) -> zlen D = cells (whole gs B) ->
  checkpoint c valid dshow dparse raw compress name fields gs dx B gh np D file -> makes gs B update turns 0 D = Some Dn ->
  (forall n D', (n < turns)%nat -> makes gs B update (Datatypes.S n) 0 D = Some D' -> writes_alone c raw compress gs B D') ->
  exists files, alone_run c fresh dshow dparse raw compress uncompress update name (length gs) file turns = Done files /\ length files = turns /\
    forall k, (k < turns)%nat -> exists D' file', makes gs B update (Datatypes.S k) 0 D = Some D' /\ nth_error files k = Some file' /\
      checkpoint c valid dshow dparse raw compress name fields gs dx B gh 1 D' file'.
Proof.
  intros T c valid fresh S dshow dparse raw compress uncompress name fields gs dx B gh Hs update turns np D file Dn Hk LD Ck E Hw.
  destruct (alone_ok c valid fresh dshow dparse raw compress uncompress name fields gs dx B gh Hs update Hk np D file turns Dn LD Ck E Hw) as (_ & X). exact X.
Qed.
Print Assumptions C111_run.

(* The update() of every program of C106 can be run by the serial program as well *)
Theorem C111_same_program : forall T (c : codec T) valid fresh S (dshow : S -> list byte) dparse compress uncompress name fields gs dx B gh,
  storable c valid fresh dshow dparse compress uncompress name fields gs dx B gh ->
  forall j turns update, usable c valid gs gh (j_ranks j) -> faithful valid gs B gh j -> (forall i D, update i (whole gs B) D = j_serial j i D) ->
  sensible valid gs B gh (Alone turns update).
Proof.
  intros T c valid fresh S dshow dparse compress uncompress name fields gs dx B gh Hs j turns update Hu Hf E i D D' LD VD. rewrite E.
  eapply (sensible_serial c valid fresh dshow dparse true compress uncompress name fields gs dx B gh Hs j Hu Hf); eauto.
Qed.
Print Assumptions C111_same_program.

(* A campaign: it can be carried out, and however its parallel runs are scheduled its last file is one of what a single serial run has, which the
   serial program and the programs made to look at files find in it *)
Theorem C111_campaign : forall T (c : codec T) valid fresh S (dshow : S -> list byte) dparse raw compress uncompress name fields gs dx B gh,
  storable c valid fresh dshow dparse compress uncompress name fields gs dx B gh ->
  forall runs np D D' file, Forall (sensible valid gs B gh) runs ->
  zlen D = cells (whole gs B) -> checkpoint c valid dshow dparse raw compress name fields gs dx B gh np D file ->
  feasible c valid raw compress gs B gh np D runs -> serial_runs gs B runs D = Some D' ->
  (exists np' file', passes c fresh dshow dparse raw compress uncompress name gs gh np file runs np' file') /\
  forall np' file', passes c fresh dshow dparse raw compress uncompress name gs gh np file runs np' file' ->
    checkpoint c valid dshow dparse raw compress name fields gs dx B gh np' D' file' /\ shows c fresh dparse raw uncompress name fields gs dx B file' D'.
Proof.
  intros T c valid fresh S dshow dparse raw compress uncompress name fields gs dx B gh Hs.
  induction runs as [|r runs IH]; intros np D D' file Fj LD Ck Fe E.
  - injection E as <-. split; [exists np, file; constructor|]. intros np' file' H. inversion H; subst. split; [exact Ck|]. eapply read_alone; eauto.
  - inversion Fj as [|? ? Hf Fj']; subst. unfold serial_runs in E; fold (@serial_runs T) in E.
    destruct (serial_run gs B r D) as [D1|] eqn:E1; cbn [bind] in E; [|discriminate]. destruct r as [j|turns update]; cbn [serial_run] in E1.
    + destruct Fe as (Hu & Ev & Hw & Fe).
      assert (exists W f, zlen D1 = cells (whole gs B) /\ finished (j_ranks j) W f /\ inevitable (starts c fresh dshow dparse raw compress uncompress name gs gh j (Datatypes.S (j_turns j)) file) f /\
        forall file1, produces (j_ranks j) W (j_turns j) file1 -> checkpoint c valid dshow dparse raw compress name fields gs dx B gh (j_ranks j) D1 file1) as (W & f & L1 & F & I & Pf).
      { destruct Hs. destruct (run_ok c valid fresh dshow dparse raw compress uncompress name fields gs dx B gh t_codec t_zip t_ghosts t_fresh t_sides t_name t_fields t_dim t_ne t_box t_dx t_exact t_bcs t_head j Hu Hf
          np D file (Datatypes.S (j_turns j)) D1 LD Ck Ev E1) as (L1 & W & f & F & I & L & H).
        { intros n Dn Hn. apply Hw. lia. }
        destruct (H (j_turns j) ltac:(lia)) as (D2 & E2 & Pf). rewrite E1 in E2. injection E2 as <-. exists W, f. auto. }
      pose proof Hu as (Hnp & _). specialize (Fe D1 E1). split.
      * destruct (inevitable_gsteps _ _ I) as [n G].
        set (file1 := fold_left write_at ((flat_map (fun r => fst (nth (j_turns j) (W r) ([], []))) (zrange 0 (j_ranks j))) ++ flat_map (fun r => snd (nth (j_turns j) (W r) ([], []))) (zrange 0 (j_ranks j))) []).
        assert (produces (j_ranks j) W (j_turns j) file1) as Pr by (eexists _, _; split; [apply carries_self|split; [apply carries_self|reflexivity]]).
        destruct (IH (j_ranks j) D1 D' file1 Fj' L1 (Pf _ Pr) Fe E) as ((np2 & file2 & C) & _).
        exists np2, file2. eapply passes_parallel; eauto. eapply gsteps_steps; eauto.
      * intros np2 file2 C. inversion C as [|? ? ? ? ? ? k s W' file1 St Fi Pr C'|]; subst.
        assert (s = f) as -> by (eapply inevitable_end; eauto).
        assert (forall r, In r (zrange 0 (j_ranks j)) -> W r = W' r) as EW by (intros r Hr; apply in_zrange in Hr; eapply finished_fun; eauto).
        assert (produces (j_ranks j) W (j_turns j) file1) as Pr'.
        { destruct Pr as (ps1 & ps2 & C1 & C2 & Ef). exists ps1, ps2.
          assert (forall g : list write * list write -> list write, flat_map (fun r => g (nth (j_turns j) (W r) ([], []))) (zrange 0 (j_ranks j)) = flat_map (fun r => g (nth (j_turns j) (W' r) ([], []))) (zrange 0 (j_ranks j))) as Y.
          { intros g. rewrite !flat_map_concat_map. f_equal. apply map_ext_in. intros r Hr. now rewrite EW. }
          now rewrite !Y. }
        destruct (IH (j_ranks j) D1 D' file1 Fj' L1 (Pf _ Pr') Fe E) as (_ & Y). now apply Y.
    + destruct Fe as (Hw & Fe). specialize (Fe D1 E1).
      destruct (alone_ok c valid fresh dshow dparse raw compress uncompress name fields gs dx B gh Hs update Hf np D file (Datatypes.S turns) D1 LD Ck E1) as (L1 & files & R & _ & H).
      { intros n Dn Hn. apply Hw. lia. }
      destruct (H turns ltac:(lia)) as (D2 & file1 & E2 & Nf & Ck1). rewrite E1 in E2. injection E2 as <-. destruct (IH 1 D1 D' file1 Fj' L1 Ck1 Fe E) as ((np2 & file2 & C) & Y). split.
      * exists np2, file2. eapply passes_alone; eauto.
      * intros np3 file3 C3. inversion C3 as [| |? ? ? ? ? ? ? files' file1' R' Nf' C']; subst. rewrite R in R'. injection R' as <-. rewrite Nf in Nf'. injection Nf' as <-. now apply Y.
Qed.
Print Assumptions C111_campaign.

(* The rod of C106: two ranks begin, the serial program makes one output after two steps, three ranks two after a step each, the serial program two more *)
Local Notation numbers := (fun _ : Qc => True).
Definition rod_alone (inc : nat) (i : nat) (axs : list axis) : list Qc -> option (list Qc) :=
  serial_one (fun _ => allen_cahn_program [1%Qc] 1%Qc 0%Qc 1%Qc 1%Qc eighth) axs inc (fun _ => repeat (Qz 7) 6) i.
Lemma rod_sensible turns inc : sensible numbers ex_gs ex_bcs 1 (Alone turns (rod_alone inc)).
Proof. eapply (C111_same_program _ _ _ _ _ _ _ _ _ _ _ _ _ _ _ rod_storable (rod_job 1 turns inc)); [apply rod_usable; auto|apply rod_faithful; auto|reflexivity]. Qed.
Lemma rod_writes turns inc n D D' : zlen D = cells (whole ex_gs ex_bcs) -> Forall numbers D -> (n <= turns)%nat -> makes ex_gs ex_bcs (rod_alone inc) (Datatypes.S n) 0 D = Some D' ->
  zlen D' = cells (whole ex_gs ex_bcs) /\ writes_alone rod_codec true (fun x => x) ex_gs ex_bcs D'.
Proof.
  intros LD VD _ E. assert (forall m i E0 E1, zlen E0 = cells (whole ex_gs ex_bcs) -> makes ex_gs ex_bcs (rod_alone inc) m i E0 = Some E1 -> zlen E1 = cells (whole ex_gs ex_bcs)) as L.
  { induction m as [|m IH]; intros i E0 E1 L0 H; [injection H as <-; exact L0|]. cbn [makes] in H. destruct (rod_alone inc i (whole ex_gs ex_bcs) E0) as [E2|] eqn:H2; cbn [bind] in H; [|discriminate].
    apply (IH (Datatypes.S i) E2 E1); [|exact H]. apply (rod_sensible O inc i E0 E2 L0); [now apply Forall_forall|exact H2]. }
  specialize (L _ _ _ _ LD E). split; [exact L|]. eapply (C111_writes_alone _ _ _ _ _ _ _ _ _ _ _ _ _ _ _ _ rod_storable); [exact L|now apply Forall_forall|apply rod_can_write; auto].
Qed.
Definition rod_runs : list (Spec.Mixed.run (T := Qc)) := [Alone 0 (rod_alone 2); Parallel (rod_job 3 1 1); Alone 1 (rod_alone 1)].
Example C111_case : exists file D' file',
  checkpoint rod_codec numbers show_int ex_parse true (fun x => x) rod_name 1 ex_gs [2] ex_bcs 1 2 rod_field file /\
  serial_runs ex_gs ex_bcs rod_runs rod_field = Some D' /\ D' <> rod_field /\
  passes rod_codec (fun _ => 0%Qc) show_int ex_parse true (fun x => x) (fun y _ => Some y) rod_name ex_gs 1 2 file rod_runs 1 file' /\
  shows rod_codec (fun _ => 0%Qc) ex_parse true (fun y _ => Some y) rod_name 1 ex_gs [2] ex_bcs file' D'.
Proof.
  destruct rod_checkpoint as [file Ck].
  assert (feasible rod_codec numbers true (fun x => x) ex_gs ex_bcs 1 2 rod_field rod_runs) as Fe.
  { destruct ex_even as (E1 & E2 & E3). unfold rod_runs. cbn [feasible].
    split; [intros n D' Hn E; eapply (rod_writes 0 2 n rod_field D'); [reflexivity|now apply Forall_forall|exact Hn|exact E]|]. intros D1 H1.
    destruct (rod_writes 0 2 0 rod_field D1 eq_refl ltac:(now apply Forall_forall) ltac:(lia) H1) as [L1 _].
    cbn [rod_job j_ranks j_turns]. split; [apply rod_usable; auto|]. split; [exact E3|]. split; [intros; apply rod_can_write; auto|]. intros D2 H2.
    assert (zlen D2 = cells (whole ex_gs ex_bcs)) as L2.
    { revert H2. cbn [serial_turns]. destruct (j_serial (rod_job 3 1 1) 0 D1) as [D3|] eqn:H3; cbn [bind]; [|discriminate].
      destruct (j_serial (rod_job 3 1 1) 1 D3) as [D4|] eqn:H4; cbn [bind]; [|discriminate]. intros H. injection H as <-.
      apply (rod_sensible O 1 1%nat D3 D4); [|now apply Forall_forall|exact H4]. apply (rod_sensible O 1 0%nat D1 D3); [exact L1|now apply Forall_forall|exact H3]. }
    split; [intros n D' Hn E; eapply (rod_writes 1 1 n D2 D'); [exact L2|now apply Forall_forall|exact Hn|exact E]|]. auto. }
  assert (Forall (sensible numbers ex_gs ex_bcs 1) rod_runs) as Fa.
  { constructor; [apply rod_sensible|]. constructor; [exact (rod_faithful 3 1 1 ltac:(auto))|]. constructor; [apply rod_sensible|constructor]. }
  assert (match serial_runs ex_gs ex_bcs rod_runs rod_field with Some D' => hd_error (map this D') <> hd_error (map this rod_field) | None => False end) as V by (vm_compute; discriminate).
  destruct (serial_runs ex_gs ex_bcs rod_runs rod_field) as [D'|] eqn:E; [|easy].
  destruct (C111_campaign Qc rod_codec numbers (fun _ => 0%Qc) Z show_int ex_parse true (fun x => x) (fun y _ => Some y) rod_name 1 ex_gs [2] ex_bcs 1 rod_storable rod_runs 2 rod_field D' file Fa eq_refl Ck Fe E) as ((np' & file' & C) & H).
  assert (np' = 1) as ->.
  { inversion C as [| |? ? ? ? ? ? ? ? ? ? ? C1]; subst. inversion C1 as [|? ? ? ? ? ? ? ? ? ? ? ? ? C2|]; subst. inversion C2 as [| |? ? ? ? ? ? ? ? ? ? ? C3]; subst. now inversion C3. }
  exists file, D', file'. split; [exact Ck|]. split; [reflexivity|]. split; [intros ->; now apply V|]. split; [exact C|]. now apply (H 1 file').
Qed.
