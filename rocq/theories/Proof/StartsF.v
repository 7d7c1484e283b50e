From stdpp Require Import gmap.
From Verif Require Import Model.Base Model.Text Model.Boundary Model.Layout Model.Access Model.Setup Model.Codec Model.Region Model.MPI Model.Ghostswap
  Model.Stencil Model.File Model.Simulate Model.Jobs Model.Runs Model.Starts Spec.Box Spec.Bytes Spec.Access Spec.Stencil Spec.Decomp Spec.File Spec.Schedule Spec.Jobs Spec.Program Spec.Runs Spec.Starts
  Proof.BaseL Proof.LayoutL Proof.AccessL Proof.StencilS Proof.MPIL Proof.ExecL Proof.CodecL Proof.RegionL Proof.FileL Proof.SetupL Proof.HaloL Proof.CheckpointL Proof.WriteL Proof.SimulateL Proof.JobsL Proof.RunsL Proof.StartsL Props.File.
Local Open Scope Z_scope.

Section Files.
Context {T : Type} (c : codec T) (valid : T -> Prop) (fresh : Z -> T).
Context {S : Type} (dshow : S -> list byte) (dparse : list byte -> option S).
Context (raw : bool) (compress : list byte -> list byte) (uncompress : list byte -> Z -> option (list byte)).
Context (name : list byte) (fields : Z) (gs : list gaxis) (dx : list S) (gh : Z).
Notation B := (faces gs).
Context (Sc : serialises c valid) (Ll : lossless compress uncompress) (Hgh : 1 <= gh) (Hfr : valid (fresh fields)).
Context (Hbs : Forall2 (fun g b => gx_0 g < gx_1 g /\ serial_side (fst b) (glen g) /\ serial_side (snd b) (glen g)) gs B).
Context (Hname : good_name name) (Hfields : int_range fields) (Hdim : int_range (zlen gs)) (Hne : gs <> []).
Context (Hbox : Forall (fun g => int_box g /\ gx_0 g < gx_1 g) gs) (Hdx : length dx = length gs) (Hex : Forall (exact_text dshow dparse) dx).
Context (HBi : Forall (fun b => int_range (fst b) /\ int_range (snd b)) B).
Context (Hhead : zlen (header dshow name fields gs dx) + 4 < 2 ^ 64).
Ltac with_rule L := apply (L T some_rule c valid fresh S dshow dparse raw compress uncompress name fields gs dx B gh Sc Ll Hgh Hfr (some_rule_ok valid gs) Hbs Hname Hfields Hdim Hne Hbox Hdx Hex HBi Hhead).
Context (np : Z) (Hu : usable c valid gs gh np).
Notation geo := (geo gs gh np).
Lemma geo_some r : 0 <= r < np -> setup_mpi np gs gh r = Some (geo r).
Proof using All. with_rule @JobsL.geo_some. exact Hu. Qed.

Lemma makes_file (fill : Z -> proc (list T)) D : computes valid np gs B gh fill D -> can_write c valid raw compress gs B gh np D ->
  makes c valid dshow dparse raw compress name fields gs dx gh np fill D.
Proof using All.
  intros ((data & (f1 & F1 & I1) & Sf & Fi) & LD & VD) Cw. pose proof Hu as (U1 & _).
  assert (same valid gs B gh np data D) as Sm.
  { intros r Hr. destruct (Fi r (geo r) Hr (geo_some r Hr)) as [? ?]. split; [auto|]. split; [auto|]. intros y Oy. destruct (Sf r (geo r) y Hr (geo_some r Hr) Oy) as (v & -> & ->). reflexivity. }
  assert (exists V, has_field gs B D V /\ writable_run c valid raw compress dshow dparse name fields gs dx B np gh data V) as (V & Fd & Wr) by (with_rule @JobsL.writable_same; auto; split; auto).
  pose proof (writes_portable T c raw compress S dshow dparse valid fresh uncompress name fields gs dx B np gh data V Sc Ll Wr) as (W & f2 & F2 & I2 & H2).
  match type of (writes_portable T c raw compress S dshow dparse valid fresh uncompress name fields gs dx B np gh data V Sc Ll Wr) with writes_file _ _ _ _ _ _ _ _ _ _ ?fl => set (file1 := fl) in * end.
  assert (inevitable (ranks np (fun r => lift (setup_mpi np gs gh r) (fun ge => output_mpi c dshow raw compress np name fields (ge_axes ge) dx (data r) r)), no_chans) f2) as I2'.
  { erewrite ranks_ext; [exact I2|]. intros r Hr. simpl. unfold rank_axes. rewrite (geo_some r Hr). cbn [lift]. f_equal. rewrite <- zip_bcs.
    - assert (gok gs) as Hok by (unfold gok; eapply Forall_impl; [|exact Hbox]; simpl; lia). pose proof (faces_geom np gs gh r (geo r) U1 Hne Hok Hr (geo_some r Hr)) as Eg. apply (f_equal ge_axes) in Eg. symmetry. exact Eg.
    - assert (length (ge_axes (geo r)) = length gs) as -> by (with_rule @JobsL.geo_len; auto). apply map_length. }
  destruct (phase np fill data f1 (fun r d => lift (setup_mpi np gs gh r) (fun ge => output_mpi c dshow raw compress np name fields (ge_axes ge) dx d r)) no_chans I1 F1 quiet_empty) as (n1 & ch1 & Q1 & G1).
  destruct (inevitable_gsteps _ _ I2') as [n2 G2]. destruct f2 as [ps2 c2]. pose proof F2 as [E2 Q2']. cbn [fst snd] in E2, Q2'. rewrite E2 in G2.
  destruct (gsteps_ceq n2 _ _ no_chans ch1 c2 (quiet_ceq _ _ quiet_empty Q1) G2) as (ch2 & G2' & C2).
  assert (quiet ch2) as Q2 by (intros s d t; rewrite <- C2; apply Q2').
  destruct (conclude np (example_mpi c dshow raw compress np name fields gs gh dx fill) W (n1 + n2) no_chans ch2 U1 Q2) as (f & Ff & If).
  { eapply gsteps_app; [exact G1|exact G2']. }
  exists W, f. split; [auto|]. split; [exact If|]. intros file (q1 & q2 & X1 & X2 & ->). simpl in X1, X2. rewrite (H2 q1 q2 X1 X2).
  exists data, V. split; [auto|]. split; [auto|]. exists W, (ps2, c2). auto.
Qed.
End Files.
