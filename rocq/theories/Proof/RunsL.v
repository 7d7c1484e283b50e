From stdpp Require Import gmap.
From Verif Require Import Model.Base Model.Text Model.Boundary Model.Layout Model.Access Model.Setup Model.Codec Model.Region Model.MPI Model.Ghostswap
  Model.Stencil Model.File Model.Simulate Model.Jobs Model.Runs Spec.Box Spec.Bytes Spec.Access Spec.Stencil Spec.Decomp Spec.File Spec.Schedule Spec.Jobs Spec.Program Spec.Runs
  Proof.BaseL Proof.LayoutL Proof.AccessL Proof.StencilS Proof.MPIL Proof.ExecL Proof.CodecL Proof.RegionL Proof.FileL Proof.SetupL Proof.HaloL Proof.CheckpointL Proof.WriteL Proof.SimulateL Proof.JobsL Props.File.
From Coq Require Import ZifyBool.
Local Open Scope Z_scope.

Section Runs.
Context {T : Type} (c : codec T) (valid : T -> Prop) (fresh : Z -> T).
Context {S : Type} (dshow : S -> list byte) (dparse : list byte -> option S).
Context (raw : bool) (compress : list byte -> list byte) (uncompress : list byte -> Z -> option (list byte)).
Context (name : list byte) (fields : Z) (gs : list gaxis) (dx : list S) (B : list (Z * Z)) (gh : Z).
Context (Sc : serialises c valid) (Ll : lossless compress uncompress) (Hgh : 1 <= gh) (Hfr : valid (fresh fields)).
Context (Hbs : Forall2 (fun g b => gx_0 g < gx_1 g /\ serial_side (fst b) (glen g) /\ serial_side (snd b) (glen g)) gs B).
Context (Hname : good_name name) (Hfields : int_range fields) (Hdim : int_range (zlen gs)) (Hne : gs <> []).
Context (Hbox : Forall (fun g => int_box g /\ gx_0 g < gx_1 g) gs) (Hdx : length dx = length gs) (Hex : Forall (exact_text dshow dparse) dx).
Context (HBi : Forall (fun b => int_range (fst b) /\ int_range (snd b)) B).
Context (Hhead : zlen (header dshow name fields gs dx) + 4 < 2 ^ 64).

Notation ckpt := (checkpoint c valid dshow dparse raw compress name fields gs dx B gh).
(* a rule for the lemmas of Proof/JobsL.v that do not use it *)
Definition some_rule (_ : list Z) (vs : list T) : option T := hd_error vs.
Lemma some_rule_ok : forall x vs, Forall valid vs -> zlen vs = 1 + 2 * zlen gs -> exists v, some_rule x vs = Some v /\ valid v.
Proof using.
  intros x [|v vs] F L; [exfalso; clear -L; unfold zlen in L; cbn [length] in L; lia|]. exists v. split; [reflexivity|]. now inversion F.
Qed.
Ltac with_rule L := apply (L T some_rule c valid fresh S dshow dparse raw compress uncompress name fields gs dx B gh Sc Ll Hgh Hfr some_rule_ok Hbs Hname Hfields Hdim Hne Hbox Hdx Hex HBi Hhead).
Lemma Lb : length B = length gs. Proof using All. symmetry. eapply Forall2_length, Hbs. Qed.
Lemma Sa : Forall serial_axis (whole_lims gs B). Proof using All. apply whole_serial, Hbs. Qed.

Lemma ckpt_valid np0 D file : zlen D = cells (whole gs B) -> ckpt np0 D file -> vf valid gs B D.
Proof using All.
  intros LD (data0 & V & Wr & Fd & _). split; [auto|]. apply Forall_forall. intros v Hv. apply In_nth_error in Hv as [p Hp].
    assert (0 <= Z.of_nat p < cells (lay 0 (whole_lims gs B))) as Rp.
    { rewrite <- whole_lay by apply Lb. rewrite <- LD. assert (p < length D)%nat by (apply nth_error_Some; congruence). unfold zlen. lia. }
    destruct (cell_node gs B Lb Sa _ Rp) as (y & By & Ey). destruct (whole_box gs B Lb) as [Bx0 Bx1].
    assert (in_box (map gx_0 gs) (map gx_1 gs) y) as By' by (rewrite <- Bx0, <- Bx1; exact By).
    pose proof (Fd y By') as E. rewrite whole_lay in E by apply Lb. rewrite read_idx in E by now apply local_len. rewrite cbs_in in E by auto.
    unfold idx in E. rewrite Ey in E. unfold get in E. destruct (Z.ltb_spec (Z.of_nat p) 0); [lia|]. rewrite Nat2Z.id, Hp in E. inversion E; subst v. apply (w_valid _ _ _ _ _ _ _ _ _ _ _ _ _ _ _ Wr y By').
Qed.

Section Job.
Context (j : job_of (T := T)) (Hu : usable c valid gs gh (j_ranks j)) (Hf : faithful valid gs B gh j).
Notation np := (j_ranks j).
Notation geo := (geo gs gh np).
Notation geo' := (geo' gs B gh np).
Notation same := (same valid gs B gh np).
Notation vf := (vf valid gs B).
Lemma geo_some r : 0 <= r < np -> setup_mpi np gs gh r = Some (geo r).
Proof using All. with_rule @JobsL.geo_some. exact Hu. Qed.
Lemma geo_bounds r : 0 <= r < np -> with_bounds set_bounds_axis B (geo r) = geo' r.
Proof using All. with_rule @JobsL.geo_bounds. exact Hu. Qed.

Lemma update_faithful i data D D' : vf D -> same data D -> j_serial j i D = Some D' -> exists data' f, vf D' /\ same data' D' /\
  finished np data' f /\ inevitable (ranks np (fun r => j_update j i r (geo' r) (data r)), no_chans) f.
Proof using All.
  intros [L V] Sm E. destruct (Hf i data D D') as ((data' & (f & F1 & F2) & Sf & Fi) & L' & V'); auto.
  - intros r ge Hr Eg. rewrite (geo_some r Hr) in Eg. inversion Eg; subst ge. destruct (Sm r Hr) as (? & ? & _). auto.
  - intros r ge y Hr Eg Oy. rewrite (geo_some r Hr) in Eg. inversion Eg; subst ge. destruct (Sm r Hr) as (_ & _ & Y).
    destruct (vf_field valid gs B Lb Sa D (conj L V)) as (F & _ & A). destruct (whole_box gs B Lb) as [Bx0 Bx1].
    assert (in_box (map gx_0 gs) (map gx_1 gs) y) as By by (eapply (owned_inside np gs gh r (geo r)); auto; [apply Hu|unfold gok; eapply Forall_impl; [|exact Hbox]; simpl; lia|now apply geo_some]).
    rewrite <- Bx0, <- Bx1 in By. exists (F y). rewrite Y by auto. split; (rewrite whole_lay by apply Lb; rewrite read_idx by (now apply local_len); rewrite cbs_in by auto; now apply A).
  - exists data', f. split; [split; auto|]. split; [|split; [auto|]].
    + intros r Hr. destruct (Fi r (geo r) Hr (geo_some r Hr)) as [? ?]. split; [auto|]. split; [auto|]. intros y Oy. destruct (Sf r (geo r) y Hr (geo_some r Hr) Oy) as (v & -> & ->). reflexivity.
    + erewrite ranks_ext; [exact F2|]. intros r Hr. cbv beta. rewrite (geo_some r Hr). cbn [lift]. now rewrite geo_bounds.
Qed.

Lemma turns_ok turns : forall i data D Dn ch, vf D -> same data D -> quiet ch ->
  serial_turns j turns i D = Some Dn ->
  (forall n D', (n < turns)%nat -> serial_turns j (Datatypes.S n) i D = Some D' -> can_write c valid raw compress gs B gh np D') ->
  vf Dn /\ exists W n ch', quiet ch' /\ (forall r, length (W r) = turns) /\
    gsteps n (ranks np (fun r => turns_of c dshow raw compress (j_update j) np name fields dx (geo' r) r turns i (data r)), ch) (ranks np (fun r => Ret (W r)), ch') /\
    forall k, (k < turns)%nat -> exists D', serial_turns j (Datatypes.S k) i D = Some D' /\ forall file, produces np W k file -> ckpt np D' file.
Proof using All.
  induction turns as [|t IH]; intros i data D Dn ch VD Sm Q E Hw.
  - cbn [serial_turns] in E. injection E as <-. split; [auto|]. exists (fun _ => []), O, ch. split; [auto|]. split; [auto|]. split; [constructor|]. intros k Hk. lia.
  - cbn [serial_turns] in E. destruct (j_serial j i D) as [D1|] eqn:E1; cbn [bind] in E; [|discriminate].
    destruct (update_faithful i data D D1 VD Sm E1) as (data1 & f1 & V1 & S1 & F1 & I1).
    assert (exists V, has_field gs B D1 V /\ writable_run c valid raw compress dshow dparse name fields gs dx B np gh data1 V) as (V & Fd & Wr).
    { with_rule @JobsL.writable_same; [exact Hu|exact V1|exact S1|]. apply (Hw O); [lia|]. cbn [serial_turns]. rewrite E1. reflexivity. }
    pose proof (writes_portable T c raw compress S dshow dparse valid fresh uncompress name fields gs dx B np gh data1 V Sc Ll Wr) as (W1 & f2 & F2 & I2 & H2).
    match type of (writes_portable T c raw compress S dshow dparse valid fresh uncompress name fields gs dx B np gh data1 V Sc Ll Wr) with writes_file _ _ _ _ _ _ _ _ _ _ ?fl => set (file1 := fl) in * end.
    destruct (phase np _ data1 f1 (fun r d => pbind (output_mpi c dshow raw compress np name fields (ge_axes (geo' r)) dx d r) (fun w =>
           pbind (turns_of c dshow raw compress (j_update j) np name fields dx (geo' r) r t (Datatypes.S i) d) (fun ws => Ret (w :: ws)))) ch I1 F1 Q) as (n1 & ch1 & Q1 & G1).
    assert (inevitable (ranks np (fun r => output_mpi c dshow raw compress np name fields (ge_axes (geo' r)) dx (data1 r) r), no_chans) f2) as I2'.
    { erewrite ranks_ext; [exact I2|]. intros r Hr. simpl. unfold rank_axes. now rewrite (geo_some r Hr). }
    destruct (phase np _ W1 f2 (fun r w => pbind (turns_of c dshow raw compress (j_update j) np name fields dx (geo' r) r t (Datatypes.S i) (data1 r)) (fun ws => Ret (w :: ws))) ch1 I2' F2 Q1) as (n2 & ch2 & Q2 & G2).
    destruct (IH (Datatypes.S i) data1 D1 Dn ch2 V1 S1 Q2 E) as (Vn & W & n3 & ch3 & Q3 & L3 & G3 & H3).
    { intros n D' Hn En. apply (Hw (Datatypes.S n)); [lia|]. cbn [serial_turns]. rewrite E1. exact En. }
    split; [exact Vn|]. exists (fun r => W1 r :: W r), (n1 + (n2 + n3))%nat, ch3. split; [auto|]. split; [intros r; simpl; now rewrite L3|]. split.
    + eapply gsteps_app; [exact G1|]. eapply gsteps_app; [exact G2|]. exact (gsteps_bind np n3 _ (fun r => Ret (W r)) (fun r ws => Ret (W1 r :: ws)) ch2 ch3 G3).
    + intros [|k] Hk.
      * exists D1. split; [cbn [serial_turns]; rewrite E1; reflexivity|]. intros file (ps1 & ps2 & C1 & C2 & ->). simpl in C1, C2. rewrite (H2 ps1 ps2 C1 C2).
        exists data1, V. split; [auto|]. split; [auto|]. exists W1, f2. auto.
      * destruct (H3 k ltac:(lia)) as (D' & A' & H'). exists D'. split; [cbn [serial_turns]; rewrite E1; exact A'|].
        intros file (ps1 & ps2 & C1 & C2 & Ef). apply H'. exists ps1, ps2. auto.
Qed.

Lemma run_ok np0 D file turns Dn : zlen D = cells (whole gs B) -> ckpt np0 D file -> evenly np0 gs gh np gh -> serial_turns j turns 0 D = Some Dn ->
  (forall n D', (n < turns)%nat -> serial_turns j (Datatypes.S n) 0 D = Some D' -> can_write c valid raw compress gs B gh np D') ->
  zlen Dn = cells (whole gs B) /\
  exists W f, finished np W f /\ inevitable (starts c fresh dshow dparse raw compress uncompress name gs gh j turns file) f /\
    (forall r, length (W r) = turns) /\
    forall k, (k < turns)%nat -> exists D', serial_turns j (Datatypes.S k) 0 D = Some D' /\ forall file, produces np W k file -> ckpt np D' file.
Proof using All.
  intros LD (data0 & V & Wr & Fd & Wf) Ev En Hw.
  assert (vf D) as VD by (eapply ckpt_valid; [exact LD|]; exists data0, V; split; [exact Wr|]; split; [exact Fd|exact Wf]).
  destruct (C25_read_ends_iff T c valid fresh raw compress uncompress S dshow dparse name fields gs dx B np0 gh data0 V Sc Ll Wr) as (file' & Wf' & Rd).
  assert (file' = file) as -> by (eapply writes_unique; eauto).
  pose proof Hu as (U1 & U2 & bound & U3 & U4 & U5).
  destruct (Rd np gh U1 ltac:(lia)) as [Re _].
  { split; [exact Hfr|]. exists bound. split; [auto|]. split; [auto|]. intros r ge Hr E. apply (U5 r ge Hr E). }
  destruct (Re Ev) as (L & f1 & F1 & I1 & H1).
  assert (forall r, 0 <= r < np -> ld_fields (L r) = fields /\ ld_dx (L r) = dx /\ ld_geom (L r) = geo r /\ lo_axes (ld_local (L r)) = with_bcs B (ge_axes (geo r))) as HL.
  { intros r Hr. destruct (H1 r (geo r) Hr (geo_some r Hr)) as (E1 & E2 & E3 & _ & _ & E6). destruct E6 as [E6 _]; [intros q geq Hq Eq; apply (U5 q geq Hq Eq)|auto]. }
  assert (same (fun r => lo_data (ld_local (L r))) D) as Sm.
  { intros r Hr. destruct (H1 r (geo r) Hr (geo_some r Hr)) as (E1 & E2 & E3 & E4 & E5 & E6). split; [auto|]. split; [auto|]. intros y Oy.
    destruct E6 as [E6 E7]; [intros q geq Hq Eq; apply (U5 q geq Hq Eq)|].
    assert (gok gs) as Hok by (unfold gok; eapply Forall_impl; [|exact Hbox]; simpl; lia).
    pose proof (deco_setup np gs gh U1 Hne Hok ltac:(lia)) as DC. pose proof (dc_wf _ _ _ _ DC r Hr) as Wf0. change (wf_axes gh (ge_axes (geo r))) in Wf0.
    assert (in_box (map gx_0 gs) (map gx_1 gs) y) as By by (eapply (owned_inside np gs gh r (geo r)); auto; now apply geo_some).
    assert (grid_read true (with_bcs B (ge_axes (geo r))) (lo_data (ld_local (L r))) y = grid_read true (ge_axes (geo r)) (lo_data (ld_local (L r))) y) as <-
      by (with_rule @JobsL.own_read; [exact Hu|exact Hr|exact Oy]).
    rewrite <- E6. rewrite E7.
    - rewrite Fd by auto. f_equal. f_equal. rewrite <- (whole_gaxes gs B Lb). apply wrap_in. destruct (whole_box gs B Lb) as [-> ->]. exact By.
    - apply (local_in_storage gh); [lia|auto|]. exact Oy.
    - intros k g b Hg Hb. assert (gx_0 g <= nth k y 0 < gx_1 g) as N by (eapply in_box_at; eauto). split; intros; lia. }
  destruct (phase np _ L f1 (fun r ld => let ge0 := ld_geom ld in
     let ge := mkGeom (lo_axes (ld_local ld)) (ge_ghosts ge0) (ge_p1 ge0) (ge_sp ge0) (ge_pos ge0) (ge_n0 ge0) (ge_n1 ge0) in
     turns_of c dshow raw compress (j_update j) np name (ld_fields ld) (ld_dx ld) ge r turns 0 (lo_data (ld_local ld))) no_chans I1 F1 quiet_empty) as (n1 & ch1 & Q1 & G1).
  destruct (turns_ok turns 0 _ D Dn ch1 VD Sm Q1 En Hw) as ([Ln _] & W' & n' & ch2 & Q' & LW' & G' & H'). split; [exact Ln|].
  destruct (conclude np (run_of c fresh dshow dparse raw compress uncompress (j_update j) np gh name (length gs) file turns) W' (n1 + n') no_chans ch2 U1 Q') as (f & Ff & If).
  { eapply gsteps_app; [exact G1|]. erewrite ranks_ext; [exact G'|]. intros r Hr. cbv zeta. destruct (HL r Hr) as (-> & -> & -> & ->). reflexivity. }
  exists W', f. auto.
Qed.
End Job.
End Runs.
