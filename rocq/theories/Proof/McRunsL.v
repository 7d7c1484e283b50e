From stdpp Require Import gmap.
From Verif Require Import Model.Base Model.Boundary Model.Layout Model.Access Model.Setup Model.Codec Model.MPI Model.Ghostswap Model.File
  Model.Simulate Model.Jobs Model.Runs Model.Spin Model.McRanks Model.McRuns
  Spec.Box Spec.Bytes Spec.Access Spec.Stencil Spec.Decomp Spec.File Spec.Schedule Spec.Jobs Spec.Program Spec.Runs Spec.McRanks Spec.McRuns
  Proof.BaseL Proof.LayoutL Proof.AccessL Proof.StencilS Proof.MPIL Proof.ExecL Proof.SetupL Proof.HaloL Proof.ConvertL Proof.McRanksF Props.File Props.Runs.
From Verif Require Spec.Spin Proof.SimulateL.
Local Open Scope Z_scope.

Lemma domain_eq gs : domain gs = lay 0 (map serial_limits gs).
Proof.
  unfold domain, whole, setup_single. cbn [ge_axes]. rewrite SimulateL.zip_lay by (unfold periodic_sides; now rewrite !map_length). f_equal.
  unfold periodic_sides. induction gs as [|g gs IH]; [reflexivity|]. cbn [map SimulateL.set_lim zip_with]. rewrite IH. f_equal. unfold SimulateL.set_lim, serial_limits. cbn. now rewrite !Z.eqb_refl.
Qed.
Lemma bounds_same np gs r ge : 0 < np -> gs <> [] -> gok gs -> 0 <= r < np -> setup_mpi np gs 1 r = Some ge -> with_bounds set_bounds_axis (periodic_sides gs) ge = ge.
Proof.
  intros Hnp Hne Hg Hr E. destruct (setup_eq np gs 1 r Hnp Hne Hg Hr) as (p1 & _ & (L & _) & Hb & _ & E'). cbv zeta in *. rewrite E in E'. injection E' as ->. unfold with_bounds. cbn [ge_axes ge_ghosts ge_p1 ge_sp ge_pos ge_n0 ge_n1].
  assert (length (rank_pos (slices p1) r) = length gs) as Lp by (apply in_box_length in Hb as [Hb _]; rewrite map_length in Hb; congruence).
  f_equal. destruct (zip_global gs p1 _ L Lp) as (E0 & _). rewrite SimulateL.zip_lay by (unfold periodic_sides; now rewrite map_length). f_equal.
  clear -L Lp. revert L Lp. generalize (rank_pos (slices p1) r) as pos. intros pos. revert p1 pos. induction gs as [|g gs IH]; intros [|p p1] [|q pos] L1 L2; cbn in L1, L2; try discriminate; [reflexivity|].
  unfold periodic_sides in *. cbn [map zip_limits zip_with]. rewrite IH by lia. f_equal. unfold axis_limits. destruct (local_limits g p q) as [x0 x1]. unfold SimulateL.set_lim. cbn.
  destruct (x0 =? gx_0 g), (x1 =? gx_1 g); reflexivity.
Qed.

(* j_serial plays no part in what jobs lead to *)
Lemma leads_same {T} (c : codec T) fresh {S} (dshow : S -> list byte) dparse raw compress uncompress name gs gh jobs jobs' :
  Forall2 (fun j j' => j_ranks j = j_ranks j' /\ j_turns j = j_turns j' /\ j_update j = j_update j') jobs jobs' -> forall np file np2 file2,
  leads c fresh dshow dparse raw compress uncompress name gs gh np file jobs np2 file2 -> leads c fresh dshow dparse raw compress uncompress name gs gh np file jobs' np2 file2.
Proof.
  induction 1 as [|j j' jobs jobs' (E1 & E2 & E3) _ IH]; intros np file np2 file2 H; inversion H; subst; [constructor|].
  eapply leads_job with (W := W); [unfold starts in *; rewrite <- E1, <- E2, <- E3; eassumption|rewrite <- E1; eassumption|rewrite <- E1, <- E2; eassumption|]. apply IH. rewrite <- E1. assumption.
Qed.

Section Spins.
Context (c : codec Z) (valid : Z -> Prop) (hot : Z -> Z -> bool) (sel : list axis -> list Z -> Z -> bool) (rand : Z -> nat -> Z) (gs : list gaxis).
Context (Sc : serialises c valid) (Hdim : (length gs = 2 \/ length gs = 3)%nat) (R : forall seed k, 0 <= rand seed k).
Context (Hg : Forall (fun g => gx_0 g < gx_1 g /\ Z.even (gx_1 g - gx_0 g) = true) gs).
Notation w := (map serial_limits gs).
Notation good D := (zlen D = cells (domain gs) /\ Forall valid D).

Lemma ne : gs <> []. Proof using All. intros ->. destruct Hdim; discriminate. Qed.
Lemma ok : gok gs. Proof using All. unfold gok. eapply Forall_impl; [|exact Hg]. cbn. lia. Qed.
Lemma w_ok : lims_ok w.
Proof using All. unfold lims_ok. apply Forall_forall. intros l Hl. apply in_map_iff in Hl as (g & <- & Ig). rewrite Forall_forall in Hg. specialize (Hg g Ig). cbn. lia. Qed.
Lemma owns_box np r ge y : 0 < np -> 0 <= r < np -> setup_mpi np gs 1 r = Some ge -> owns ge y -> box w y.
Proof using All.
  intros Hnp Hr E O. assert (in_box (map gx_0 gs) (map gx_1 gs) y) as By by (eapply (owned_inside np gs 1 r ge); eauto using ne, ok). rewrite !map_map. exact By.
Qed.

(* grids of the ranks that hold the field of D *)
Lemma some_grids np D : 0 < np -> good D -> (forall r ge, 0 <= r < np -> setup_mpi np gs 1 r = Some ge -> Forall (fun a => a_x0 a + 2 <= a_x1 a) (ge_axes ge)) ->
  exists data, forall r ge, 0 <= r < np -> setup_mpi np gs 1 r = Some ge -> (zlen (data r) = cells (ge_axes ge) /\ Forall valid (data r)) /\
    forall y, owns ge y -> grid_read true (ge_axes ge) (data r) y = grid_read false (lay 0 w) D y.
Proof using All.
  intros Hnp [LD VD] H2. rewrite domain_eq in LD. pose proof w_ok as Wo.
  assert (exists v0, valid v0) as (v0 & V0).
  { destruct D as [|v D]; [|exists v; now inversion VD]. exfalso. destruct (local_encode false 0 w (@nil Z) (map gx_0 gs) ltac:(lia) Wo) as (_ & _ & X); [|rewrite <- LD in X; unfold zlen in X; cbn in X; lia].
    rewrite !map_map. clear -Hg. revert Hg. generalize gs as l. induction l as [|g l IH]; intros Hl; cbn; [exact I|]. assert (gx_0 g < gx_1 g) by (now inversion Hl). split; [lia|apply IH; now inversion Hl]. }
  assert (forall y, box w y -> exists v, valid v /\ grid_read false (lay 0 w) D y = Some v) as Rd.
  { intros y By. destruct (local_encode false 0 w D y ltac:(lia) Wo By) as (E & _ & Hb). rewrite <- LD in Hb. rewrite E, (BaseL.get_nth _ _ v0) by exact Hb. eexists. split; [|reflexivity].
    rewrite Forall_forall in VD. apply VD, nth_In. unfold zlen in Hb. lia. }
  assert (forall r, 0 <= r < np -> exists d, forall ge, setup_mpi np gs 1 r = Some ge -> (zlen d = cells (ge_axes ge) /\ Forall valid d) /\ forall y, owns ge y -> grid_read true (ge_axes ge) d y = grid_read false (lay 0 w) D y) as X.
  { intros r Hr. destruct (setup_mpi np gs 1 r) as [ge|] eqn:E; [|exists []; discriminate].
    pose proof (deco_setup np gs 1 Hnp ne ok ltac:(lia)) as DC. pose proof (dc_wf _ _ _ _ DC r Hr) as Wf. cbv beta in Wf. rewrite E in Wf. pose proof (cells_nonneg 1 _ ltac:(lia) Wf) as C0.
    assert (Forall (fun a => a_x0 a < a_x1 a) (ge_axes ge)) as H1 by (eapply Forall_impl; [|exact (H2 r ge Hr E)]; cbn; lia).
    destruct (Z.eq_dec (cells (ge_axes ge)) 0) as [Z0|N0].
    - exists []. intros ge' Eg. injection Eg as <-. split; [split; [rewrite Z0; reflexivity|constructor]|]. intros y O. exfalso. pose proof (encode_bounds 1 _ y Wf (local_in_storage 1 _ y ltac:(lia) Wf O)). lia.
    - destruct (choose_ranks (fun p v => valid v /\ forall y, owns ge y -> encode (ge_axes ge) y = p -> grid_read false (lay 0 w) D y = Some v) (cells (ge_axes ge)) ltac:(lia)) as (f & Hf).
      { intros p Hp. destruct (encode_onto 1 _ p Wf ltac:(lia) Hp) as (y & Hy & Ey). destruct (Spec.Spin.in_boxb w y) eqn:Eb.
        - apply GrowthL.in_boxb_ok in Eb. destruct (Rd y Eb) as (v & Vv & Ev). exists v. split; [auto|]. intros z O Ez.
          assert (z = y) as -> by (apply (encode_inj 1 (ge_axes ge)); auto; [now apply (local_in_storage 1)|congruence]). exact Ev.
        - exists v0. split; [auto|]. intros z O Ez. assert (z = y) as -> by (apply (encode_inj 1 (ge_axes ge)); auto; [now apply (local_in_storage 1)|congruence]).
          pose proof (owns_box np r ge y Hnp Hr E O) as By. apply GrowthL.in_boxb_ok in By. congruence. }
      exists (map f (zrange 0 (cells (ge_axes ge)))). intros ge' Eg. injection Eg as <-.
      assert (zlen (map f (zrange 0 (cells (ge_axes ge)))) = cells (ge_axes ge)) as Lf by (rewrite BaseL.zlen_map, BaseL.zlen_zrange; lia). split; [split; [exact Lf|]|].
      + apply Forall_forall. intros v Hv. apply in_map_iff in Hv as (p & <- & Hp). apply in_zrange in Hp. now apply Hf.
      + intros y O. pose proof (local_in_storage 1 _ y ltac:(lia) Wf O) as Sy. destruct (storage_read np gs 1 r ge _ y Hnp ne ok ltac:(lia) Hr E H1 Lf Sy) as [-> _].
        pose proof (encode_bounds 1 _ y Wf Sy) as Eb. rewrite ConvertL.get_map_zrange by exact Eb. symmetry. now apply (proj2 (Hf _ Eb)). }
  destruct (choose_ranks _ np Hnp X) as (data & H). exists data. intros r ge Hr E. exact (H r Hr ge E).
Qed.

(* one turn *)
Lemma turn_exists s i D : suitable c valid sel rand gs s -> good D -> exists D' f, spin_turn hot sel rand gs s i D D' /\ good D' /\ Forall (fun v => In v D) D' /\
  ((forall r dE, 0 < dE -> hot r dE = false) -> energy2 gs D' <= energy2 gs D) /\
  forall fuel data, (f <= fuel)%nat -> filled valid (s_ranks s) gs 1 data -> same_field (s_ranks s) gs (periodic_sides gs) 1 data D ->
    computes valid (s_ranks s) gs (periodic_sides gs) 1
      (fun r => lift (setup_mpi (s_ranks s) gs 1 r) (fun ge => j_update (spin_run c hot sel rand gs fuel s) i r (with_bounds set_bounds_axis (periodic_sides gs) ge) (data r))) D'.
Proof using All.
  intros ((Hnp & _ & bound & B0 & HB & HI) & HC & Hs) GD.
  destruct (some_grids (s_ranks s) D Hnp GD) as (data0 & H0). { intros r ge Hr E. now apply (Hs r ge Hr E). }
  destruct GD as [LD VD]. rewrite domain_eq in LD.
  destruct (ranks_uniform c valid (s_ranks s) gs bound hot sel rand (s_clock s i) (s_steps s) data0 D Sc Hnp Hdim B0 HB Hg) as (Ls & D' & A1 & A2 & A3 & A4 & L' & V' & f & E' & F' & H); auto.
  { intros r ge Hr E. destruct (H0 r ge Hr E) as ((Z1 & Z2) & Z3), (HI r ge Hr E) as [_ Z4], (Hs r ge Hr E) as (Z5 & Z6 & Z7). repeat (split; [auto; fail|]).
    intros x rd. now rewrite Z7, domain_eq. }
  exists D', f. split; [exists Ls; split; [exact A1|rewrite domain_eq; exact A2]|]. split; [rewrite domain_eq; auto|]. split; [auto|]. split; [exact A4|].
  intros fuel data Hf Fd Sf. destruct (H fuel data Hf) as (fin & Fi & In & Rs).
  { intros r ge Hr E. destruct (Fd r ge Hr E) as [Y1 Y2]. split; [auto|]. split; [auto|]. intros y O. destruct (Sf r ge y Hr E O) as (v & -> & Ev). fold (domain gs) in Ev. rewrite domain_eq in Ev. now rewrite Ev. }
  split; [|fold (domain gs); rewrite domain_eq; auto]. exists E'. split; [|split].
  - exists fin. split; [exact Fi|]. erewrite ranks_ext; [exact In|]. intros r Hr. cbv beta. unfold rank_growth. destruct (setup_mpi (s_ranks s) gs 1 r) as [ge|] eqn:E; [|reflexivity]. cbn [lift]. rewrite (bounds_same (s_ranks s) gs r ge) by (auto using ne, ok). reflexivity.
  - intros r ge y Hr E O. destruct (Rs r ge y Hr E) as [_ Y]. rewrite (Y O). fold (domain gs). rewrite domain_eq.
    destruct (local_encode false 0 w D' y ltac:(lia) w_ok (owns_box _ r ge y Hnp Hr E O)) as (Er & _ & Eb). rewrite Er. rewrite <- L' in Eb. rewrite (BaseL.get_nth _ _ 0) by exact Eb. eauto.
  - exact F'.
Qed.

(* the job with a serial program to compare with *)
Definition against (fuel : nat) (s : spin_job) (h : nat -> list Z -> option (list Z)) : @job_of Z := {| j_ranks := s_ranks s; j_turns := s_turns s;
  j_update := j_update (spin_run c hot sel rand gs fuel s); j_serial := h |}.
Definition kept (D D' : list Z) : Prop := good D' /\ Forall (fun v => In v D) D' /\ ((forall r dE, 0 < dE -> hot r dE = false) -> energy2 gs D' <= energy2 gs D).
Lemma kept_refl D : good D -> kept D D.
Proof using. intros G. split; [exact G|]. split; [apply Forall_forall; auto|intros _; apply Z.le_refl]. Qed.
Lemma kept_trans D D1 D2 : kept D D1 -> kept D1 D2 -> kept D D2.
Proof using.
  intros (_ & A1 & A2) (B0 & B1 & B2). split; [exact B0|]. split; [|intros Cold; eapply Z.le_trans; [apply B2, Cold|apply A2, Cold]].
  rewrite Forall_forall in *. intros v Hv. apply A1, B1, Hv.
Qed.
Lemma turns_agree (j j' : @job_of Z) n : forall i D, (forall i', (i <= i')%nat -> forall E, j_serial j i' E = j_serial j' i' E) -> serial_turns j n i D = serial_turns j' n i D.
Proof using.
  induction n as [|n IH]; intros i D H; [reflexivity|]. cbn [serial_turns]. rewrite (H i (le_n i)). destruct (j_serial j' i D) as [D1|]; [|reflexivity]. cbn [bind]. apply IH. intros i' Hi. apply H. clear -Hi. lia.
Qed.

Lemma turns_exist s : suitable c valid sel rand gs s -> forall n i D, good D -> exists h f Dn, (forall fuel, serial_turns (against fuel s h) n i D = Some Dn) /\
  (forall fuel, (f <= fuel)%nat -> faithful valid gs (periodic_sides gs) 1 (against fuel s h)) /\ spin_turns hot sel rand gs s n i D Dn /\ kept D Dn /\
  forall k Dk fuel, (k <= n)%nat -> serial_turns (against fuel s h) k i D = Some Dk -> spin_turns hot sel rand gs s k i D Dk /\ kept D Dk.
Proof using All.
  intros Hs. induction n as [|n IH]; intros i D GD.
  - exists (fun _ _ => None), O, D. split; [reflexivity|]. split; [intros fuel _ i' data E E' _ _ _ _ X; discriminate|]. split; [reflexivity|]. split; [now apply kept_refl|].
    intros [|k] Dk fuel Hk E; [|lia]. injection E as <-. split; [reflexivity|now apply kept_refl].
  - destruct (turn_exists s i D Hs GD) as (D1 & f1 & T1 & G1 & I1 & E1 & C1). assert (kept D D1) as K1 by (split; auto).
    destruct (IH (S i) D1 G1) as (h & f & Dn & Se & Fa & Tn & Kn & Be).
    set (h' := fun i' E => if Nat.eqb i' i then if list_eq_dec Z.eq_dec E D then Some D1 else None else h i' E).
    assert (forall k fuel, serial_turns (against fuel s h') k (S i) D1 = serial_turns (against fuel s h) k (S i) D1) as Ag.
    { intros k fuel. apply turns_agree. intros i' Hi E. cbn [j_serial against]. unfold h'. destruct (Nat.eqb_spec i' i); [lia|reflexivity]. }
    assert (h' i D = Some D1) as Eh by (unfold h'; rewrite Nat.eqb_refl; destruct (list_eq_dec Z.eq_dec D D); congruence).
    exists h', (Nat.max f1 f), Dn. split; [|split; [|split; [|split]]].
    + intros fuel. cbn [serial_turns]. change (j_serial (against fuel s h')) with h'. rewrite Eh. cbn [bind]. rewrite Ag. apply Se.
    + intros fuel Hf i' data E E' Fd LE VE Sf X. cbn [j_serial against] in X. unfold h' in X. destruct (Nat.eqb_spec i' i) as [->|Ni].
      * destruct (list_eq_dec Z.eq_dec E D) as [->|]; [|discriminate]. injection X as <-. apply C1; auto. lia.
      * apply (Fa fuel ltac:(lia) i' data E E'); auto.
    + exists D1. auto.
    + eapply kept_trans; eauto.
    + intros [|k] Dk fuel Hk E; [injection E as <-; split; [reflexivity|now apply kept_refl]|]. cbn [serial_turns] in E. change (j_serial (against fuel s h')) with h' in E. rewrite Eh in E. cbn [bind] in E. rewrite Ag in E.
      destruct (Be k Dk fuel ltac:(lia) E) as [B1 B2]. split; [exists D1; auto|eapply kept_trans; eauto].
Qed.

Lemma jobs_exist raw compress jobs : forall np D, Forall (suitable c valid sel rand gs) jobs -> good D -> follow gs np jobs ->
  (forall s D', In s jobs -> zlen D' = cells (domain gs) -> Forall (fun v => In v D) D' -> can_write c valid raw compress gs (periodic_sides gs) 1 (s_ranks s) D') ->
  exists hs f D', spin_jobs hot sel rand gs jobs D D' /\ kept D D' /\
    forall fuel, (f <= fuel)%nat -> exists js, Forall2 (fun j j' => j_ranks j = j_ranks j' /\ j_turns j = j_turns j' /\ j_update j = j_update j') js (map (spin_run c hot sel rand gs fuel) jobs) /\
      js = map (fun p => against fuel (fst p) (snd p)) (combine jobs hs) /\
      Forall (faithful valid gs (periodic_sides gs) 1) js /\ serial_jobs js D = Some D' /\ possible c valid raw compress gs (periodic_sides gs) 1 np D js.
Proof using All.
  induction jobs as [|s jobs IH]; intros np D Fs GD Fo Cw.
  - exists [], O, D. split; [reflexivity|]. split; [now apply kept_refl|]. intros fuel _. exists []. repeat split; constructor.
  - inversion Fs as [|? ? Hs Fs']; subst. destruct Fo as [Ev Fo]. destruct (turns_exist s Hs (S (s_turns s)) 0 D GD) as (h & f & D1 & Se & Fa & T1 & K1 & Be).
    destruct (IH (s_ranks s) D1 Fs' (proj1 K1) Fo) as (hs & f' & D' & Sj & Kj & Hj).
    { intros s' D2 Is L2 F2. apply Cw; [now right|auto|]. destruct K1 as (_ & K1 & _). rewrite Forall_forall in *. intros v Hv. apply K1, F2, Hv. }
    exists (h :: hs), (Nat.max f f'), D'. split; [exists D1; auto|]. split; [eapply kept_trans; eauto|]. intros fuel Hf.
    destruct (Hj fuel ltac:(lia)) as (js & J1 & J2 & J3 & J4 & J5). exists (against fuel s h :: js). split; [constructor; auto|]. split; [cbn [combine map fst snd]; now rewrite J2|]. split; [constructor; [apply Fa; lia|auto]|]. split.
    + unfold serial_jobs; fold (@serial_jobs Z). change (j_turns (against fuel s h)) with (s_turns s). rewrite Se. exact J4.
    + cbn [possible]. change (j_ranks (against fuel s h)) with (s_ranks s). change (j_turns (against fuel s h)) with (s_turns s). split; [apply Hs|]. split; [exact Ev|]. split.
      * intros n Dn Hn En. destruct (Be (S n) Dn fuel ltac:(lia) En) as (_ & (L & _) & In & _). apply Cw; [now left|auto|auto].
      * intros D2 E2. rewrite Se in E2. injection E2 as <-. exact J5.
Qed.
End Spins.
