(* C106: simulations run as a series of parallel jobs that continue from one another's files give what one serial run gives. *)
From stdpp Require Import gmap.
From Coq Require Import Strings.String.
From Coq Require Import QArith.QArith QArith.Qcanon.
From Verif Require Import Model.Base Model.Text Model.Num Model.Boundary Model.Layout Model.Access Model.Setup Model.Codec Model.Region Model.MPI Model.Ghostswap Model.Sparse
  Model.Stencil Model.Evolve Model.File Model.Simulate Model.Jobs Model.Dynamics Model.AnisoSparse Model.Zener Model.Stages Model.Program Model.SolidRanks Model.Runs
  Spec.Box Spec.Bytes Spec.Access Spec.Stencil Spec.Decomp Spec.File Spec.Schedule Spec.Jobs Spec.AnisoSparse Spec.Program Spec.Runs
  Proof.BaseL Proof.LayoutL Proof.AccessL Proof.MPIL Proof.ExecL Proof.CodecL Proof.FileL Proof.SetupL Proof.HaloL Proof.WriteL Proof.SimulateL Proof.JobsL Proof.SolidRL Proof.RunsL
  Props.File Props.Stages Props.Program Props.SolidRanks Props.Jobs.
Local Open Scope Z_scope.

(* One job: every output of it is a file of what the serial program has at that point *)
Theorem C106_job : forall T (c : codec T) valid fresh S (dshow : S -> list byte) dparse raw compress uncompress name fields gs dx B gh,
  storable c valid fresh dshow dparse compress uncompress name fields gs dx B gh ->
  forall j np D file turns Dn, usable c valid gs gh (j_ranks j) -> faithful valid gs B gh j ->
  zlen D = cells (whole gs B) -> checkpoint c valid dshow dparse raw compress name fields gs dx B gh np D file -> evenly np gs gh (j_ranks j) gh ->
  serial_turns j turns 0 D = Some Dn ->
  (forall n D', (n < turns)%nat -> serial_turns j (Datatypes.S n) 0 D = Some D' -> can_write c valid raw compress gs B gh (j_ranks j) D') ->
  exists W f, finished (j_ranks j) W f /\ inevitable (starts c fresh dshow dparse raw compress uncompress name gs gh j turns file) f /\ (forall r, length (W r) = turns) /\
    forall k, (k < turns)%nat -> exists D', serial_turns j (Datatypes.S k) 0 D = Some D' /\
      forall file', produces (j_ranks j) W k file' -> checkpoint c valid dshow dparse raw compress name fields gs dx B gh (j_ranks j) D' file'.
Proof.
  intros T c valid fresh S dshow dparse raw compress uncompress name fields gs dx B gh [] j np D file turns Dn Hu Hf LD Ck Ev En Hw.
  eapply (run_ok c valid fresh dshow dparse raw compress uncompress name fields gs dx B gh t_codec t_zip t_ghosts t_fresh t_sides t_name t_fields t_dim t_ne t_box t_dx t_exact t_bcs t_head j Hu Hf); eauto.
Qed.
Print Assumptions C106_job.

(* A campaign: it can be carried out, and however the jobs are scheduled its last file is one of what a single serial run has *)
Theorem C106_campaign : forall T (c : codec T) valid fresh S (dshow : S -> list byte) dparse raw compress uncompress name fields gs dx B gh,
  storable c valid fresh dshow dparse compress uncompress name fields gs dx B gh ->
  forall jobs np D D' file, Forall (faithful valid gs B gh) jobs ->
  zlen D = cells (whole gs B) -> checkpoint c valid dshow dparse raw compress name fields gs dx B gh np D file ->
  possible c valid raw compress gs B gh np D jobs -> serial_jobs jobs D = Some D' ->
  (exists np' file', leads c fresh dshow dparse raw compress uncompress name gs gh np file jobs np' file') /\
  forall np' file', leads c fresh dshow dparse raw compress uncompress name gs gh np file jobs np' file' ->
    checkpoint c valid dshow dparse raw compress name fields gs dx B gh np' D' file'.
Proof.
  intros T c valid fresh S dshow dparse raw compress uncompress name fields gs dx B gh [].
  induction jobs as [|j jobs IH]; intros np D D' file Fj LD Ck Fe E.
  - cbn [serial_jobs] in E. injection E as <-. split; [exists np, file; constructor|]. intros np' file' H. inversion H; subst. exact Ck.
  - destruct Fe as (Hu & Ev & Hw & Fe). inversion Fj as [|? ? Hf Fj']; subst. unfold serial_jobs in E; fold (@serial_jobs T) in E.
    destruct (serial_turns j (Datatypes.S (j_turns j)) 0 D) as [D1|] eqn:E1; cbn [bind] in E; [|discriminate].
    destruct (run_ok c valid fresh dshow dparse raw compress uncompress name fields gs dx B gh t_codec t_zip t_ghosts t_fresh t_sides t_name t_fields t_dim t_ne t_box t_dx t_exact t_bcs t_head j Hu Hf
      np D file (Datatypes.S (j_turns j)) D1 LD Ck Ev E1) as (L1 & W & f & F & I & L & H).
    { intros n Dn Hn. apply Hw. lia. }
    pose proof Hu as (Hnp & _).     destruct (H (j_turns j) ltac:(lia)) as (D2 & E2 & Pf). rewrite E1 in E2. injection E2 as <-. specialize (Fe D1 eq_refl).
    split.
    + destruct (inevitable_gsteps _ _ I) as [n G].
      set (file1 := fold_left write_at ((flat_map (fun r => fst (nth (j_turns j) (W r) ([], []))) (zrange 0 (j_ranks j))) ++ flat_map (fun r => snd (nth (j_turns j) (W r) ([], []))) (zrange 0 (j_ranks j))) []).
      assert (produces (j_ranks j) W (j_turns j) file1) as Pr by (eexists _, _; split; [apply carries_self|split; [apply carries_self|reflexivity]]).
      destruct (IH (j_ranks j) D1 D' file1 Fj' L1 (Pf _ Pr) Fe E) as ((np2 & file2 & C) & _).
      exists np2, file2. econstructor; eauto. eapply gsteps_steps; eauto.
    + intros np2 file2 C. inversion C as [|? ? ? ? ? ? k s W' file1 St Fi Pr C']; subst.
      assert (s = f) as -> by (eapply inevitable_end; eauto).
      assert (forall r, In r (zrange 0 (j_ranks j)) -> W r = W' r) as EW by (intros r Hr; apply in_zrange in Hr; eapply finished_fun; eauto).
      assert (produces (j_ranks j) W (j_turns j) file1) as Pr'.
      { destruct Pr as (ps1 & ps2 & C1 & C2 & Ef). exists ps1, ps2.
        assert (forall g : list write * list write -> list write, flat_map (fun r => g (nth (j_turns j) (W r) ([], []))) (zrange 0 (j_ranks j)) = flat_map (fun r => g (nth (j_turns j) (W' r) ([], []))) (zrange 0 (j_ranks j))) as Y.
        { intros g. rewrite !flat_map_concat_map. f_equal. apply map_ext_in. intros r Hr. now rewrite EW. }
        now rewrite !Y. }
      destruct (IH (j_ranks j) D1 D' file1 Fj' L1 (Pf _ Pr') Fe E) as (_ & Y). now apply Y.
Qed.
Print Assumptions C106_campaign.

(* Which programs this is about.  In all of them junk r i and temp r i (junk0 i and temp0 i in the serial run) are whatever the memory of the
   grids made in the call holds. *)
Lemma usable_grids {T} (c : codec T) valid gs B gh np : 1 <= gh -> gs <> [] -> Forall2 (fun g b => gx_0 g < gx_1 g /\ serial_side (fst b) (glen g) /\ serial_side (snd b) (glen g)) gs B ->
  usable c valid gs gh np -> exists bound, grids np gs B gh bound /\ forall v, valid v -> c_size c v <= bound.
Proof. intros Hgh Hne Hs (U1 & U2 & bound & U3 & U4 & U5). exists bound. split; [|exact U4]. split; [exact U1|]. split; [exact Hne|]. split; [exact Hgh|]. split; [exact U3|]. split; [exact Hs|exact U5]. Qed.
Local Ltac instance Hs Hu :=
  destruct (usable_grids _ _ _ _ _ _ (t_ghosts _ _ _ _ _ _ _ _ _ _ _ _ _ Hs) (t_ne _ _ _ _ _ _ _ _ _ _ _ _ _ Hs) (t_sides _ _ _ _ _ _ _ _ _ _ _ _ _ Hs) Hu) as (bound & Gr & HB);
  pose proof (t_codec _ _ _ _ _ _ _ _ _ _ _ _ _ Hs) as Sc; intros i data D D' Fd LD VD Sf E; cbn [j_ranks j_update j_serial] in *.
Local Notation numbers := (fun _ : Qc => True).

Theorem C106_allen_cahn : forall (c : codec Qc) fresh S (dshow : S -> list byte) dparse compress uncompress name fields gs dxs bs ghosts dx r u K M dt np turns inc junk junk0,
  storable c numbers fresh dshow dparse compress uncompress name fields gs dxs bs ghosts -> usable c numbers gs ghosts np ->
  some_memory numbers gs ghosts np junk -> (forall i, zlen (junk0 i) = cells (whole gs bs)) ->
  faithful numbers gs bs ghosts {| j_ranks := np; j_turns := turns;
    j_update := update_one (fun _ => allen_cahn_program dx r u K M dt) c inc junk; j_serial := serial_one (fun _ => allen_cahn_program dx r u K M dt) (whole gs bs) inc junk0 |}.
Proof.
  intros c fresh S dshow dparse compress uncompress name fields gs dxs bs gh dx r u K M dt np turns inc junk junk0 Hs Hu Hj H0. instance Hs Hu.
  apply (C103_allen_cahn c np gs bs gh bound dx r u K M dt data (fun q => [(inc, junk q i)]) D D' [(inc, junk0 i)]); auto; try (constructor; [cbn; first [apply H0|split; apply H0|split; [apply H0|split; apply H0]]|constructor]).
  intros q ge Hq Eg. destruct (Fd q ge Hq Eg). destruct (Hj q ge i Hq Eg). repeat (split; [auto; fail|]). constructor; [cbn; auto|constructor].
Qed.
Print Assumptions C106_allen_cahn.

Theorem C106_model_A : forall (c : codec Qc) fresh S (dshow : S -> list byte) dparse compress uncompress name fields gs dxs bs ghosts dx r u K M dt (noise : nat -> Z -> list Z -> Qc) np turns inc junk junk0,
  storable c numbers fresh dshow dparse compress uncompress name fields gs dxs bs ghosts -> usable c numbers gs ghosts np ->
  some_memory numbers gs ghosts np junk -> (forall i, zlen (junk0 i) = cells (whole gs bs)) ->
  faithful numbers gs bs ghosts {| j_ranks := np; j_turns := turns;
    j_update := update_one (fun i => model_A_program dx r u K M dt (noise i)) c inc junk; j_serial := serial_one (fun i => model_A_program dx r u K M dt (noise i)) (whole gs bs) inc junk0 |}.
Proof.
  intros c fresh S dshow dparse compress uncompress name fields gs dxs bs gh dx r u K M dt noise np turns inc junk junk0 Hs Hu Hj H0. instance Hs Hu.
  apply (C103_model_A c np gs bs gh bound dx r u K M dt (noise i) data (fun q => [(inc, junk q i)]) D D' [(inc, junk0 i)]); auto; try (constructor; [cbn; first [apply H0|split; apply H0|split; [apply H0|split; apply H0]]|constructor]).
  intros q ge Hq Eg. destruct (Fd q ge Hq Eg). destruct (Hj q ge i Hq Eg). repeat (split; [auto; fail|]). constructor; [cbn; auto|constructor].
Qed.
Print Assumptions C106_model_A.

Theorem C106_model_B : forall (c : codec Qc) fresh S (dshow : S -> list byte) dparse compress uncompress name fields gs dxs bs ghosts dx r u K k (noise : nat -> _) np turns inc junk temp junk0 temp0,
  storable c numbers fresh dshow dparse compress uncompress name fields gs dxs bs ghosts -> usable c numbers gs ghosts np ->
  some_memory numbers gs ghosts np junk -> some_memory numbers gs ghosts np temp -> (forall i, zlen (junk0 i) = cells (whole gs bs) /\ zlen (temp0 i) = cells (whole gs bs)) ->
  faithful numbers gs bs ghosts {| j_ranks := np; j_turns := turns;
    j_update := update_two (fun i => B_potential dx r u K (noise i)) (fun _ => B_flow dx k) c c inc junk temp; j_serial := serial_two (fun i => B_potential dx r u K (noise i)) (fun _ => B_flow dx k) (whole gs bs) inc junk0 temp0 |}.
Proof.
  intros c fresh S dshow dparse compress uncompress name fields gs dxs bs gh dx r u K k noise np turns inc junk temp junk0 temp0 Hs Hu Hj Ht H0. instance Hs Hu.
  apply (C103_model_B c np gs bs gh bound dx r u K k (noise i) data (fun q => [(inc, junk q i, temp q i)]) D D' [(inc, junk0 i, temp0 i)]); auto; try (constructor; [cbn; first [apply H0|split; apply H0|split; [apply H0|split; apply H0]]|constructor]).
  intros q ge Hq Eg. destruct (Fd q ge Hq Eg). destruct (Hj q ge i Hq Eg), (Ht q ge i Hq Eg). repeat (split; [auto; fail|]). constructor; [cbn; auto|constructor].
Qed.
Print Assumptions C106_model_B.

Local Notation vectors n := (fun v : list Qc => zlen v = n).
Theorem C106_dense : forall (c : codec (list Qc)) fresh S (dshow : S -> list byte) dparse compress uncompress name fields gs dxs bs ghosts dx dt pinned np turns inc junk junk0,
  storable c (vectors fields) fresh dshow dparse compress uncompress name fields gs dxs bs ghosts -> usable c (vectors fields) gs ghosts np -> 0 <= fields ->
  some_memory (vectors fields) gs ghosts np junk -> (forall i, zlen (junk0 i) = cells (whole gs bs) /\ Forall (vectors fields) (junk0 i)) ->
  faithful (vectors fields) gs bs ghosts {| j_ranks := np; j_turns := turns;
    j_update := update_one (fun _ => dense_program dx dt pinned fields) c inc junk; j_serial := serial_one (fun _ => dense_program dx dt pinned fields) (whole gs bs) inc junk0 |}.
Proof.
  intros c fresh S dshow dparse compress uncompress name fields gs dxs bs gh dx dt pinned np turns inc junk junk0 Hs Hu Hf Hj H0. instance Hs Hu.
  apply (C103_dense c np gs bs gh bound dx dt pinned fields data (fun q => [(inc, junk q i)]) D D' [(inc, junk0 i)]); auto; try (constructor; [cbn; first [apply H0|split; apply H0|split; [apply H0|split; apply H0]]|constructor]).
  intros q ge Hq Eg. destruct (Fd q ge Hq Eg). specialize (Hj q ge i Hq Eg). repeat (split; [auto; fail|]). constructor; [cbn; auto|constructor].
Qed.
Print Assumptions C106_dense.

Theorem C106_multiphase : forall (c : codec (list Qc)) fresh S (dshow : S -> list byte) dparse compress uncompress name fields gs dxs bs ghosts dx dt width energy eps mobility pinned np turns inc junk junk0,
  storable c (vectors fields) fresh dshow dparse compress uncompress name fields gs dxs bs ghosts -> usable c (vectors fields) gs ghosts np ->
  some_memory (vectors fields) gs ghosts np junk -> (forall i, zlen (junk0 i) = cells (whole gs bs) /\ Forall (vectors fields) (junk0 i)) ->
  faithful (vectors fields) gs bs ghosts {| j_ranks := np; j_turns := turns;
    j_update := update_one (fun _ => multiphase_program dx dt width energy eps mobility pinned fields) c inc junk;
    j_serial := serial_one (fun _ => multiphase_program dx dt width energy eps mobility pinned fields) (whole gs bs) inc junk0 |}.
Proof.
  intros c fresh S dshow dparse compress uncompress name fields gs dxs bs gh dx dt width energy eps mobility pinned np turns inc junk junk0 Hs Hu Hj H0. instance Hs Hu.
  apply (C103_multiphase c np gs bs gh bound dx dt width energy eps mobility pinned fields data (fun q => [(inc, junk q i)]) D D' [(inc, junk0 i)]); auto; try (constructor; [cbn; first [apply H0|split; apply H0|split; [apply H0|split; apply H0]]|constructor]).
  intros q ge Hq Eg. destruct (Fd q ge Hq Eg). specialize (Hj q ge i Hq Eg). repeat (split; [auto; fail|]). constructor; [cbn; auto|constructor].
Qed.
Print Assumptions C106_multiphase.

Theorem C106_ostwald : forall (c : codec (list Qc)) (cw : codec Qc) fresh S (dshow : S -> list byte) dparse compress uncompress name fields gs dxs bs ghosts dx P np turns inc junk temp junk0 temp0,
  storable c (vectors fields) fresh dshow dparse compress uncompress name fields gs dxs bs ghosts -> usable c (vectors fields) gs ghosts np -> 1 <= fields ->
  serialises cw numbers -> (forall v w, zlen v = fields -> c_size cw w <= c_size c v) ->
  some_memory (vectors fields) gs ghosts np junk -> some_memory numbers gs ghosts np temp ->
  (forall i, zlen (junk0 i) = cells (whole gs bs) /\ Forall (vectors fields) (junk0 i) /\ zlen (temp0 i) = cells (whole gs bs)) ->
  faithful (vectors fields) gs bs ghosts {| j_ranks := np; j_turns := turns;
    j_update := update_two (fun _ => ostwald_one dx P fields) (fun _ => ostwald_two dx P fields) c cw inc junk temp;
    j_serial := serial_two (fun _ => ostwald_one dx P fields) (fun _ => ostwald_two dx P fields) (whole gs bs) inc junk0 temp0 |}.
Proof.
  intros c cw fresh S dshow dparse compress uncompress name fields gs dxs bs gh dx P np turns inc junk temp junk0 temp0 Hs Hu Hf Sw Hw Hj Ht H0. instance Hs Hu.
  apply (C103_ostwald c cw np gs bs gh bound dx P fields data (fun q => [(inc, junk q i, temp q i)]) D D' [(inc, junk0 i, temp0 i)]); auto; try (constructor; [cbn; first [apply H0|split; apply H0|split; [apply H0|split; apply H0]]|constructor]).
  - intros w. pose proof (t_fresh _ _ _ _ _ _ _ _ _ _ _ _ _ Hs) as Vf. cbv beta in Vf. specialize (Hw _ w Vf). specialize (HB _ Vf). lia.
  - intros q ge Hq Eg. destruct (Fd q ge Hq Eg). specialize (Hj q ge i Hq Eg). specialize (Ht q ge i Hq Eg). split; [auto|]. split; [auto|]. split; [auto|]. constructor; [|auto]. cbn. tauto.
Qed.
Print Assumptions C106_ostwald.

(* the sparse programs, whose new grids have empty cells *)
Definition empty_cells (gs : list gaxis) (gh np : Z) (junk : Z -> nat -> list (sobj Qc)) : Prop :=
  forall q ge i, 0 <= q < np -> setup_mpi np gs gh q = Some ge -> junk q i = repeat [] (Z.to_nat (cells (ge_axes ge))).
Theorem C106_grow : forall (c : codec (sobj Qc)) fresh S (dshow : S -> list byte) dparse compress uncompress name fields gs dxs bs ghosts dx M np turns inc junk,
  storable c (indexed M) fresh dshow dparse compress uncompress name fields gs dxs bs ghosts -> usable c (indexed M) gs ghosts np -> empty_cells gs ghosts np junk ->
  faithful (indexed M) gs bs ghosts {| j_ranks := np; j_turns := turns;
    j_update := update_one (fun _ => grow_program dx) c inc junk; j_serial := serial_one (fun _ => grow_program dx) (whole gs bs) inc (fun _ => repeat [] (Z.to_nat (cells (whole gs bs)))) |}.
Proof.
  intros c fresh S dshow dparse compress uncompress name fields gs dxs bs gh dx M np turns inc junk Hs Hu Hj. instance Hs Hu.
  apply (C103_grow c np gs bs gh bound M dx data (fun q => [(inc, junk q i)]) D D' [inc]); auto.
  intros q ge Hq Eg. destruct (Fd q ge Hq Eg). cbn [map]. rewrite (Hj q ge i Hq Eg). auto.
Qed.
Print Assumptions C106_grow.
Theorem C106_aniso : forall (c : codec (sobj Qc)) fresh S (dshow : S -> list byte) dparse compress uncompress name fields gs dxs bs ghosts dx energy eps mobility pinned M np turns inc junk,
  storable c (indexed M) fresh dshow dparse compress uncompress name fields gs dxs bs ghosts -> usable c (indexed M) gs ghosts np -> empty_cells gs ghosts np junk ->
  faithful (indexed M) gs bs ghosts {| j_ranks := np; j_turns := turns;
    j_update := update_one (fun _ => aniso_program dx energy eps mobility pinned) c inc junk;
    j_serial := serial_one (fun _ => aniso_program dx energy eps mobility pinned) (whole gs bs) inc (fun _ => repeat [] (Z.to_nat (cells (whole gs bs)))) |}.
Proof.
  intros c fresh S dshow dparse compress uncompress name fields gs dxs bs gh dx energy eps mobility pinned M np turns inc junk Hs Hu Hj. instance Hs Hu.
  apply (C103_aniso c np gs bs gh bound M dx energy eps mobility pinned data (fun q => [(inc, junk q i)]) D D' [inc]); auto.
  intros q ge Hq Eg. destruct (Fd q ge Hq Eg). cbn [map]. rewrite (Hj q ge i Hq Eg). auto.
Qed.
Print Assumptions C106_aniso.

(* ref q i: what the static grid of the solidification program holds when turn i begins, left there by the turn before *)
Theorem C106_solidification : forall (c : codec (list Qc)) fresh S (dshow : S -> list byte) dparse compress uncompress name fields gs dxs bs ghosts dx flux melt tau dt diffusivity np turns inc junk ref junk0 ref0,
  storable c (vectors 2) fresh dshow dparse compress uncompress name fields gs dxs bs ghosts -> usable c (vectors 2) gs ghosts np ->
  some_memory (vectors 2) gs ghosts np junk -> some_memory numbers gs ghosts np ref ->
  (forall i, zlen (junk0 i) = cells (whole gs bs) /\ Forall (vectors 2) (junk0 i) /\ zlen (ref0 i) = cells (whole gs bs)) ->
  faithful (vectors 2) gs bs ghosts {| j_ranks := np; j_turns := turns;
    j_update := update_solid dx flux melt tau dt diffusivity c inc junk ref; j_serial := serial_solid_turn dx flux melt tau dt diffusivity (whole gs bs) inc junk0 ref0 |}.
Proof.
  intros c fresh S dshow dparse compress uncompress name fields gs dxs bs gh dx flux melt tau dt df np turns inc junk ref junk0 ref0 Hs Hu Hj Hr H0. instance Hs Hu. destruct (H0 i) as (A1 & A2 & A3).
  apply (solid_ranks_from (Nat.eqb i 0) c np gs bs gh bound dx flux melt tau dt df data (fun q => ref q i) (fun q => [(inc, junk q i)]) D (ref0 i) [(inc, junk0 i)] D'); auto; try (constructor; [cbn; first [apply H0|split; apply H0|split; [apply H0|split; apply H0]]|constructor]).
  intros q ge Hq Eg. destruct (Fd q ge Hq Eg). destruct (Hj q ge i Hq Eg), (Hr q ge i Hq Eg). split; [auto|]. split; [auto|]. split; [auto|]. constructor; [|constructor]. cbn. auto.
Qed.
Print Assumptions C106_solidification.

(* In builds without compression every field of valid values can be written, if no block is too large. *)
Theorem C106_raw_builds : forall T (c : codec T) valid fresh S (dshow : S -> list byte) dparse compress uncompress name fields gs dx B gh,
  storable c valid fresh dshow dparse compress uncompress name fields gs dx B gh ->
  forall np bound, usable c valid gs gh np -> 0 <= bound -> (forall v, valid v -> c_size c v <= bound) ->
  (forall r ge, 0 <= r < np -> setup_mpi np gs gh r = Some ge -> cells (ge_axes ge) * bound + 16 * zlen gs + 16 < int_max) ->
  forall D, can_write c valid true compress gs B gh np D.
Proof.
  intros T c valid fresh S dshow dparse compress uncompress name fields gs dx B gh [] np bound Hu B0 HB Hs D.
  eapply (@raw_can_write T some_rule c valid fresh S dshow dparse true compress uncompress name fields gs dx B gh); eauto using some_rule_ok.
Qed.
Print Assumptions C106_raw_builds.

(* A rod of six nodes, Neumann below and periodic above, started by two ranks with x in node x: two ranks make two outputs, one rank one after
   two steps, three ranks two after a step each; Allen-Cahn without its cubic term. *)
Definition rod_codec : codec Qc := pod_codec fraction_pod.
Definition rod_name := bytes "grid:scalar:double"%string.
Definition rod_field : list Qc := map Qz [0; 1; 2; 3; 4; 5].
Definition rod_start (r : Z) : list Qc := map Qz (if r =? 0 then [99; 0; 1; 2; 99] else [99; 3; 4; 5; 99]).
Definition rod_V (x : list Z) : Qc := match x with [k] => Qz k | _ => 0%Qc end.
Lemma rod_storable : storable rod_codec numbers (fun _ => 0%Qc) show_int ex_parse (fun x => x) (fun y _ => Some y) rod_name 1 ex_gs [2] ex_bcs 1.
Proof.
  destruct ex_run. split; auto.
  - apply pod_serialises, fraction_pod_ok.
  - exact ex_lossless.
  - lia.
  - repeat constructor; simpl; unfold serial_side, Neumann, Dirichlet, periodic, mirror, glen; simpl; auto; lia.
  - split; [exists (bytes "scalar:double"%string); reflexivity|]. apply Forall_forall. intros b Hb. vm_compute in Hb. intuition congruence.
Qed.
Lemma rod_usable np : np = 1 \/ np = 2 \/ np = 3 -> usable rod_codec numbers ex_gs 1 np.
Proof.
  intros H. split; [lia|]. split; [unfold int_range; lia|]. exists 2. split; [lia|]. split; [intros; simpl; lia|]. intros r ge Hr E.
  destruct H as [-> | [-> | ->]]; (assert (r = 0 \/ r = 1 \/ r = 2) as [-> | [-> | ->]] by lia); try lia; vm_compute in E; inversion E; subst ge; (split; [repeat constructor; simpl; lia|vm_compute; congruence]).
Qed.
Lemma rod_can_write np D : np = 1 \/ np = 2 \/ np = 3 -> can_write rod_codec numbers true (fun x => x) ex_gs ex_bcs 1 np D.
Proof.
  intros H. eapply (C106_raw_builds _ _ _ _ _ _ _ _ _ _ _ _ _ _ _ rod_storable np 2); [now apply rod_usable|lia|intros; simpl; lia|].
  intros r ge Hr E. destruct H as [-> | [-> | ->]]; (assert (r = 0 \/ r = 1 \/ r = 2) as [-> | [-> | ->]] by lia); try lia; vm_compute in E; inversion E; subst ge; vm_compute; reflexivity.
Qed.
Lemma rod_run : writable_run rod_codec numbers true (fun x => x) show_int ex_parse rod_name 1 ex_gs [2] ex_bcs 2 1 rod_start rod_V.
Proof.
  destruct rod_storable. split; auto; try lia.
  - intros r ge Hr E. assert (r = 0 \/ r = 1) as [->| ->] by lia; vm_compute in E; inversion E; subst ge; (split; [reflexivity|]).
    + intros [|x [|y t]] O; unfold owns in O; simpl in O; try tauto. assert (x = 0 \/ x = 1 \/ x = 2) as [->|[->| ->]] by lia; reflexivity.
    + intros [|x [|y t]] O; unfold owns in O; simpl in O; try tauto. assert (x = 3 \/ x = 4 \/ x = 5) as [->|[->| ->]] by lia; reflexivity.
  - intros r ge Hr E n bs Sz _. split; [|discriminate].
    assert (r = 0 \/ r = 1) as [->| ->] by lia; vm_compute in E; inversion E; subst ge; vm_compute in Sz; inversion Sz; subst n; vm_compute; congruence.
  - intros r ge blk Hr E W.
    assert (r = 0 \/ r = 1) as [->| ->] by lia; vm_compute in E; inversion E; subst ge; vm_compute in W; inversion W; subst blk; vm_compute; congruence.
Qed.
Lemma rod_checkpoint : exists file, checkpoint rod_codec numbers show_int ex_parse true (fun x => x) rod_name 1 ex_gs [2] ex_bcs 1 2 rod_field file.
Proof.
  eexists. exists rod_start, rod_V. split; [exact rod_run|]. split.
  - intros [|x [|y t]] O; simpl in O; try tauto. assert (x = 0 \/ x = 1 \/ x = 2 \/ x = 3 \/ x = 4 \/ x = 5) as H by lia.
    repeat (destruct H as [-> | H]; [reflexivity|]). subst x. reflexivity.
  - eapply (writes_portable Qc rod_codec true (fun x => x) Z show_int ex_parse numbers (fun _ => 0%Qc) (fun y _ => Some y)); [apply pod_serialises, fraction_pod_ok|exact ex_lossless|exact rod_run].
Qed.
(* the memory of a new grid holds sevens *)
Definition rod_junk (np : Z) (r : Z) (_ : nat) : list Qc := match setup_mpi np ex_gs 1 r with Some ge => repeat (Qz 7) (Z.to_nat (cells (ge_axes ge))) | None => [] end.
Definition rod_job (np : Z) (turns inc : nat) : job_of := {| j_ranks := np; j_turns := turns;
  j_update := update_one (fun _ => allen_cahn_program [1%Qc] 1%Qc 0%Qc 1%Qc 1%Qc eighth) rod_codec inc (rod_junk np);
  j_serial := serial_one (fun _ => allen_cahn_program [1%Qc] 1%Qc 0%Qc 1%Qc 1%Qc eighth) (whole ex_gs ex_bcs) inc (fun _ => repeat (Qz 7) 6) |}.
Lemma rod_faithful np turns inc : np = 1 \/ np = 2 \/ np = 3 -> faithful numbers ex_gs ex_bcs 1 (rod_job np turns inc).
Proof.
  intros H. eapply C106_allen_cahn; [exact rod_storable|now apply rod_usable| |intros; reflexivity].
  intros r ge i Hr E. unfold rod_junk. rewrite E. split; [|now apply Forall_forall].
  destruct H as [-> | [-> | ->]]; (assert (r = 0 \/ r = 1 \/ r = 2) as [-> | [-> | ->]] by lia); try lia; vm_compute in E; inversion E; subst ge; reflexivity.
Qed.
Definition rod_jobs : list (job_of (T := Qc)) := [rod_job 2 1 1; rod_job 1 0 2; rod_job 3 1 1].
Example C106_case : exists file D' np' file',
  checkpoint rod_codec numbers show_int ex_parse true (fun x => x) rod_name 1 ex_gs [2] ex_bcs 1 2 rod_field file /\
  serial_jobs rod_jobs rod_field = Some D' /\ D' <> rod_field /\
  leads rod_codec (fun _ => 0%Qc) show_int ex_parse true (fun x => x) (fun y _ => Some y) rod_name ex_gs 1 2 file rod_jobs np' file' /\
  checkpoint rod_codec numbers show_int ex_parse true (fun x => x) rod_name 1 ex_gs [2] ex_bcs 1 np' D' file'.
Proof.
  destruct rod_checkpoint as [file Ck].
  assert (possible rod_codec numbers true (fun x => x) ex_gs ex_bcs 1 2 rod_field rod_jobs) as Fe.
  { destruct ex_even as (E1 & E2 & E3). unfold rod_jobs. cbn [possible rod_job j_ranks j_turns].
    split; [apply rod_usable; auto|]. split; [exact E1|]. split; [intros; apply rod_can_write; auto|]. intros D1 _.
    split; [apply rod_usable; auto|]. split; [exact E2|]. split; [intros; apply rod_can_write; auto|]. intros D2 _.
    split; [apply rod_usable; auto|]. split; [exact E3|]. split; [intros; apply rod_can_write; auto|]. auto. }
  assert (Forall (faithful numbers ex_gs ex_bcs 1) rod_jobs) as Fa by (repeat (constructor; [apply rod_faithful; auto|]); constructor).
  assert (match serial_jobs rod_jobs rod_field with Some D' => hd_error (map this D') <> hd_error (map this rod_field) | None => False end) as V by (vm_compute; discriminate).
  destruct (serial_jobs rod_jobs rod_field) as [D'|] eqn:E; [|easy].
  destruct (C106_campaign Qc rod_codec numbers (fun _ => 0%Qc) Z show_int ex_parse true (fun x => x) (fun y _ => Some y) rod_name 1 ex_gs [2] ex_bcs 1 rod_storable rod_jobs 2 rod_field D' file Fa eq_refl Ck Fe E) as ((np' & file' & C) & H).
  exists file, D', np', file'. split; [exact Ck|]. split; [reflexivity|]. split; [intros ->; now apply V|]. split; [exact C|]. now apply H.
Qed.
