(* C19 - C25: checkpoint files. *)
From Coq Require Import String.
From Verif Require Import Model.Base Model.Text Model.Boundary Model.Layout Model.Access Model.Setup Model.Codec Model.Region
  Model.MPI Model.Ghostswap Model.File Spec.Box Spec.Access Spec.Bytes Spec.Decomp Spec.File Spec.Schedule
  Proof.BaseL Proof.CodecL Proof.MPIL Proof.ExecL Proof.FileL Proof.SetupL Proof.HaloL Proof.CheckpointL Proof.WriteL Proof.RestartL Proof.RestartF.
Local Open Scope list_scope.

(* C19.  [axs] is a serial grid without ghost cells over a non-empty box, with any boundary conditions; its type name,
   numbers and cells can be written in the file format; the text form of the spacing is exact; the compressed length of
   the data is not accidentally that of the data (see C23). *)
Theorem C19_serial_round_trip : forall T (c : codec T) valid fresh raw compress uncompress D (dshow : D -> list byte) dparse,
  serialises c valid -> lossless compress uncompress ->
  forall name fields axs dx data,
  good_name name -> int_range fields -> int_range (zlen axs) -> axs <> [] ->
  wf_axes 0 axs -> Forall (fun a => a_x0 a = a_g0 a /\ a_x1 a = a_g1 a /\ a_g0 a < a_g1 a) axs ->
  Forall (fun a => int_range (a_g0 a) /\ int_range (a_g1 a) /\ int_range (a_b0 a) /\ int_range (a_b1 a)) axs ->
  length dx = length axs -> Forall (exact_text dshow dparse) dx ->
  zlen data = cells axs -> Forall valid data -> recognisable c raw compress axs data ->
  exists file ld,
    output_serial c dshow raw compress name fields axs dx data = Some file /\
    input_serial c fresh dparse raw uncompress name (length axs) file = Done ld /\
    ld_fields ld = fields /\ ld_dx ld = dx /\ lo_axes (ld_local ld) = axs /\ lo_data (ld_local ld) = data.
Proof. intros. eapply serial_round_trip; eauto. Qed.
Print Assumptions C19_serial_round_trip.

(* np ranks that split the box gs hold the field V, and everything about them can be written in the file format *)
Record writable_run {T D} (c : codec T) (valid : T -> Prop) (raw : bool) (compress : list byte -> list byte)
    (dshow : D -> list byte) (dparse : list byte -> option D) (name : list byte) (fields : Z) (gs : list gaxis) (dx : list D)
    (B : list (Z * Z)) (np gh : Z) (data : Z -> list T) (V : list Z -> T) : Prop := {
  w_name : good_name name; w_fields : int_range fields; w_dim : int_range (zlen gs); w_ne : gs <> [];
  w_box : Forall (fun g => int_box g /\ gx_0 g < gx_1 g) gs;
  w_dx : length dx = length gs; w_exact : Forall (exact_text dshow dparse) dx;
  w_bc : length B = length gs; w_bcs : Forall (fun b => int_range (fst b) /\ int_range (snd b)) B;
  w_np : 0 < np; w_npi : int_range np; w_gh : 0 <= gh;
  w_hold : hold np gs gh B data V;
  w_valid : forall x, in_box (map gx_0 gs) (map gx_1 gs) x -> valid (V x);
  w_rec : forall r ge, 0 <= r < np -> setup_mpi np gs gh r = Some ge -> recognisable c raw compress (with_bcs B (ge_axes ge)) (data r);
  w_size : forall r ge blk, 0 <= r < np -> setup_mpi np gs gh r = Some ge ->
             write_buffer c raw compress (with_bcs B (ge_axes ge)) (data r) = Some blk -> zlen blk < int_max;
  w_head : zlen (header dshow name fields gs dx) + 4 < 2 ^ 64
}.

(* the np ranks calling output(): whatever the schedule they return, and whatever the order in which the file system
   carries out their writes (those before the MPI_File_sync first) the file then contains [file] *)
Definition writes_file {T D} (c : codec T) raw compress (dshow : D -> list byte) name fields np (axs : Z -> list axis) dx (data : Z -> list T)
    (file : list byte) : Prop :=
  exists W f, finished np W f /\
    inevitable (ranks np (fun r => output_mpi c dshow raw compress np name fields (axs r) dx (data r) r), no_chans) f /\
    forall ps1 ps2, carries_out ps1 (flat_map (fun r => fst (W r)) (zrange 0 np)) ->
                    carries_out ps2 (flat_map (fun r => snd (W r)) (zrange 0 np)) ->
      fold_left write_at (ps1 ++ ps2) [] = file.

(* the axes of rank r *)
Definition rank_axes np gs gh B r := match setup_mpi np gs gh r with Some ge => with_bcs B (ge_axes ge) | None => [] end.

(* C21: any ranks with any blocks of less than int_max bytes *)
Theorem C21_writes_tile : forall T (c : codec T) raw compress D (dshow : D -> list byte) np name fields (axs : Z -> list axis) dx (data : Z -> list T) blk,
  0 < np -> (forall r, 0 <= r < np -> write_buffer c raw compress (axs r) (data r) = Some (blk r) /\ zlen (blk r) < int_max) ->
  let hd := header dshow name fields (map (fun a => mkG (a_g0 a) (a_g1 a)) (axs 0)) dx in
  zlen hd + 4 < 2 ^ 64 ->
  exists W f, finished np W f /\
    inevitable (ranks np (fun r => output_mpi c dshow raw compress np name fields (axs r) dx (data r) r), no_chans) f /\
    (forall ps1 ps2, carries_out ps1 (flat_map (fun r => fst (W r)) (zrange 0 np)) ->
                     carries_out ps2 (flat_map (fun r => snd (W r)) (zrange 0 np)) ->
       fold_left write_at (ps1 ++ ps2) [] = hd ++ pd_enc pod_int np ++ concat (map blk (zrange 0 np))) /\
    (* rank r writes its block right after those of the ranks below it *)
    forall r, 0 <= r < np -> snd (W r) = [(zlen hd + 4 + sumZ (map (fun q => zlen (blk q)) (zrange 0 r)), blk r)].
Proof. exact @tiles. Qed.
Print Assumptions C21_writes_tile.

Lemma writes_header T c raw compress D dshow dparse valid name fields gs dx B np gh (data : Z -> list T) V :
  @writable_run T D c valid raw compress dshow dparse name fields gs dx B np gh data V ->
  header dshow name fields (map (fun a => mkG (a_g0 a) (a_g1 a)) (rank_axes np gs gh B 0)) dx = header dshow name fields gs dx.
Proof.
  intros []. f_equal. unfold rank_axes.
  assert (gok gs) as Hok by (unfold gok; eapply Forall_impl; [|exact w_box0]; simpl; lia).
  destruct (setup_eq np gs gh 0 w_np0 w_ne0 Hok ltac:(lia)) as (p & _ & _ & _ & _ & E). cbv zeta in E.
  pose proof (fun i H => axis_at np gs gh 0 _ i w_np0 w_ne0 Hok ltac:(lia) E H) as A.
  pose proof (deco_setup np gs gh w_np0 w_ne0 Hok w_gh0) as DC. destruct (dc_len _ _ _ _ DC 0 ltac:(lia)) as (L & _).
  rewrite E in *. cbv zeta in L, A. 
  match goal with |- context [with_bcs B ?l] => set (axs := l) in * end.
  destruct (with_bcs_same B axs) as (_ & _ & _ & _ & _ & _ & E7 & E8).
  assert (map (fun a => mkG (a_g0 a) (a_g1 a)) (with_bcs B axs) = map (fun a => mkG (a_g0 a) (a_g1 a)) axs) as ->.
  { revert E7 E8. generalize (with_bcs B axs) as l. clear. induction axs as [|a axs IH]; intros [|b l]; simpl; intros E7 E8; try discriminate; [reflexivity|].
    inversion E7; inversion E8. rewrite (IH l) by auto. congruence. }
  assert (forall (l l' : list gaxis), (forall i, nth_error l i = nth_error l' i) -> l = l') as Ext.
  { induction l as [|u l IH]; intros [|v l'] H; [auto|discriminate (H O)|discriminate (H O)|].
    pose proof (H O) as H0. inversion H0. f_equal. apply IH. intros i. apply (H (Datatypes.S i)). }
  apply Ext. intros i. rewrite nth_error_map. destruct (Nat.lt_ge_cases i (length gs)) as [H|H].
  - destruct (A i H) as (g & p1 & k & a & N1 & _ & _ & N4 & _ & _ & N7 & N8 & _). simpl in N4. fold axs in N4. rewrite N4, N1. simpl. rewrite N7, N8.
    now destruct g.
  - assert (nth_error axs i = None) as -> by (apply nth_error_None; simpl in L; fold axs in L; lia).
    symmetry. apply nth_error_None. lia.
Qed.

Lemma writes_portable T c raw compress D dshow dparse valid (fresh : Z -> T) uncompress name fields gs dx B np gh (data : Z -> list T) V :
  serialises c valid -> lossless compress uncompress ->
  @writable_run T D c valid raw compress dshow dparse name fields gs dx B np gh data V ->
  writes_file c raw compress dshow name fields np (rank_axes np gs gh B) dx data
     (CheckpointL.file c raw compress dshow name fields gs dx B np gh data).
Proof.
  intros S L R. pose proof R as []. 
  assert (gok gs) as Hok by (unfold gok; eapply Forall_impl; [|exact w_box0]; simpl; lia).
  assert (forall r, 0 <= r < np -> write_buffer c raw compress (rank_axes np gs gh B r) (data r) = Some (wblk c raw compress gs B np gh data r)) as Wb.
  { intros r Hr. pose proof (wblk_ok c valid fresh raw compress uncompress dshow dparse S L name fields gs dx B w_name0 w_fields0 w_dim0 w_ne0 w_box0
      w_dx0 w_exact0 w_bc0 w_bcs0 np gh w_np0 w_npi0 w_gh0 data V w_hold0 w_valid0 w_rec0 r Hr) as X.
    rewrite <- X. f_equal. unfold rank_axes, wax, geo.
    destruct (setup_eq np gs gh r w_np0 w_ne0 Hok Hr) as (p & _ & _ & _ & _ & E). cbv zeta in E. now rewrite E. }
  destruct (tiles c raw compress dshow np name fields (rank_axes np gs gh B) dx data (wblk c raw compress gs B np gh data)) as (W & f & F1 & F2 & F3 & _).
  - auto.
  - intros r Hr. split; [auto|]. specialize (Wb r Hr). unfold rank_axes in Wb.
    destruct (setup_eq np gs gh r w_np0 w_ne0 Hok Hr) as (p & _ & _ & _ & _ & E). cbv zeta in E. rewrite E in Wb.
    eapply w_size0; eauto.
  - rewrite (writes_header _ _ _ _ _ _ _ _ _ _ _ _ _ _ _ _ _ R). auto.
  - exists W, f. split; [auto|]. split; [auto|]. intros ps1 ps2 C1 C2. rewrite F3 by auto.
    rewrite (writes_header _ _ _ _ _ _ _ _ _ _ _ _ _ _ _ _ _ R). reflexivity.
Qed.

(* C20: the file can be read by any number of ranks np' with any number of ghost cells; rank r then finds the field V in
   its own cells, and the boundary conditions on the global boundary are those of the writer *)
Theorem C20_portable : forall T (c : codec T) valid fresh raw compress uncompress D (dshow : D -> list byte) dparse
    name fields gs dx B np gh (data : Z -> list T) V,
  serialises c valid -> lossless compress uncompress ->
  writable_run c valid raw compress dshow dparse name fields gs dx B np gh data V ->
  exists file, writes_file c raw compress dshow name fields np (rank_axes np gs gh B) dx data file /\
  forall np' gh' r ge, 0 < np' -> 0 <= gh' -> 0 <= r < np' -> setup_mpi np' gs gh' r = Some ge ->
  exists ld, input c fresh dparse raw uncompress (fun gs => setup_mpi np' gs gh' r) name (length gs) file = Done ld /\
    ld_fields ld = fields /\ ld_dx ld = dx /\ ld_geom ld = ge /\ zlen (lo_data (ld_local ld)) = cells (ge_axes ge) /\
    (forall x, owns ge x -> grid_read true (lo_axes (ld_local ld)) (lo_data (ld_local ld)) x = Some (V x)) /\
    (Forall (fun a => a_x0 a < a_x1 a) (ge_axes ge) -> lo_axes (ld_local ld) = with_bcs B (ge_axes ge)).
Proof.
  intros T c valid fresh raw compress uncompress D dshow dparse name fields gs dx B np gh data V S L R.
  eexists. split; [eapply (writes_portable T c raw compress D dshow dparse valid fresh); eauto|].
  intros np' gh' r ge H1 H2 H3 H4. destruct R.
  destruct (portable c valid fresh raw compress uncompress dshow dparse S L name fields gs dx B w_name0 w_fields0 w_dim0 w_ne0 w_box0
      w_dx0 w_exact0 w_bc0 w_bcs0 np gh w_np0 w_npi0 w_gh0 data V w_hold0 w_valid0 w_rec0 np' gh' r ge H1 H2 H3 H4)
    as (ld & P1 & P2 & P3 & P4 & P5 & P6 & P7 & P8 & _).
  exists ld. auto 10.
Qed.
Print Assumptions C20_portable.

(* np' ranks calling input() on the file, until they have exchanged their ghost cells *)
Definition all_input {T D} (c : codec T) fresh (dparse : list byte -> option D) raw uncompress np' gh' name dim file :=
  (ranks np' (input_mpi c fresh dparse raw uncompress np' gh' name dim file), no_chans).

(* the readers can exchange ghost cells: the default cell can be serialised and messages are at most int_max bytes long *)
Definition can_exchange {T} (c : codec T) (valid : T -> Prop) (fresh : Z -> T) fields gs np' gh' : Prop :=
  valid (fresh fields) /\ exists bound, 0 <= bound /\ (forall v, valid v -> c_size c v <= bound) /\
    forall r ge, 0 <= r < np' -> setup_mpi np' gs gh' r = Some ge -> cells (ge_axes ge) * bound <= int_max.

(* every reader meets the same number of blocks of the file *)
Definition evenly np gs gh np' gh' : Prop := exists m, forall r ge, 0 <= r < np' -> setup_mpi np' gs gh' r = Some ge ->
  met np gs gh (ge_axes ge) = m.

(* C25: the parallel read ends exactly if every reader meets the same number of written blocks (because every temporary
   grid contains a barrier); otherwise no execution gets all ranks to the end. *)
Theorem C25_read_ends_iff : forall T (c : codec T) valid fresh raw compress uncompress D (dshow : D -> list byte) dparse
    name fields gs dx B np gh (data : Z -> list T) V,
  serialises c valid -> lossless compress uncompress ->
  writable_run c valid raw compress dshow dparse name fields gs dx B np gh data V ->
  exists file, writes_file c raw compress dshow name fields np (rank_axes np gs gh B) dx data file /\
  forall np' gh', 0 < np' -> 0 <= gh' -> can_exchange c valid fresh fields gs np' gh' ->
  (evenly np gs gh np' gh' ->
     exists L f, finished np' L f /\ inevitable (all_input c fresh dparse raw uncompress np' gh' name (length gs) file) f /\
     forall r ge, 0 <= r < np' -> setup_mpi np' gs gh' r = Some ge ->
       ld_fields (L r) = fields /\ ld_dx (L r) = dx /\ ld_geom (L r) = ge /\
       zlen (lo_data (ld_local (L r))) = cells (ge_axes ge) /\ Forall valid (lo_data (ld_local (L r))) /\
       ((forall q geq, 0 <= q < np' -> setup_mpi np' gs gh' q = Some geq -> Forall (fun a => a_x0 a < a_x1 a /\ gh' <= a_x1 a - a_x0 a) (ge_axes geq)) ->
        lo_axes (ld_local (L r)) = with_bcs B (ge_axes ge) /\
        (* own and ghost cells, the latter across periodic sides too *)
        forall y, in_box (map a_s0 (ge_axes ge)) (map a_s1 (ge_axes ge)) y ->
          (forall j g b, nth_error gs j = Some g -> nth_error B j = Some b ->
             (nth j y 0 < gx_0 g -> fst b = periodic) /\ (gx_1 g <= nth j y 0 -> snd b = periodic)) ->
          grid_read true (lo_axes (ld_local (L r))) (lo_data (ld_local (L r))) y = Some (V (wrap gs y)))) /\
  (~ evenly np gs gh np' gh' ->
     forall k s, steps k (all_input c fresh dparse raw uncompress np' gh' name (length gs) file) s ->
     forall a, ~ finished np' a s).
Proof.
  intros T c valid fresh raw compress uncompress D dshow dparse name fields gs dx B np gh data V S L R.
  eexists. split; [eapply (writes_portable T c raw compress D dshow dparse valid fresh); eauto|]. 
  set (fl := file c raw compress dshow name fields gs dx B np gh data).
  intros np' gh' H1 H2 (Vf & bound & B0 & Hb & Hc). destruct R.
  assert (gok gs) as Hok by (unfold gok; eapply Forall_impl; [|exact w_box0]; simpl; lia).
  assert (Forall (fun g => gx_0 g < gx_1 g) gs) as Hgs by (eapply Forall_impl; [|exact w_box0]; simpl; tauto).
  set (ge := fun r => match setup_mpi np' gs gh' r with Some g => g | None => dgeom end).
  assert (forall r, 0 <= r < np' -> setup_mpi np' gs gh' r = Some (ge r)) as Hge.
  { intros r Hr. destruct (setup_eq np' gs gh' r H1 w_ne0 Hok Hr) as (p & _ & _ & _ & _ & E). unfold ge. now rewrite E. }
  set (inp := fun r => input c fresh dparse raw uncompress (fun gs => setup_mpi np' gs gh' r) name (length gs) fl).
  pose proof (fun r Hr => portable c valid fresh raw compress uncompress dshow dparse S L name fields gs dx B w_name0 w_fields0 w_dim0 w_ne0 w_box0
      w_dx0 w_exact0 w_bc0 w_bcs0 np gh w_np0 w_npi0 w_gh0 data V w_hold0 w_valid0 w_rec0 np' gh' r (ge r) H1 H2 Hr (Hge r Hr)) as P.
  destruct (P 0 ltac:(lia)) as (ld0 & _).
  set (ld := fun r => match inp r with Done l => l | _ => ld0 end).
  assert (forall r, 0 <= r < np' -> inp r = Done (ld r) /\
   ld_fields (ld r) = fields /\ ld_dx (ld r) = dx /\ ld_geom (ld r) = ge r /\ zlen (lo_data (ld_local (ld r))) = cells (ge_axes (ge r)) /\
   same_layout (lo_axes (ld_local (ld r))) (ge_axes (ge r)) /\
   (forall x, owns (ge r) x -> grid_read true (lo_axes (ld_local (ld r))) (lo_data (ld_local (ld r))) x = Some (V x)) /\
   (Forall (fun a => a_x0 a < a_x1 a) (ge_axes (ge r)) -> lo_axes (ld_local (ld r)) = with_bcs B (ge_axes (ge r))) /\
   (forall x, in_box (map a_s0 (ge_axes (ge r))) (map a_s1 (ge_axes (ge r))) x -> ~ owns (ge r) x ->
       get (lo_data (ld_local (ld r))) (encode (ge_axes (ge r)) x) = Some (fresh fields)) /\
   ld_built (ld r) = map (fun w => touches (ge_axes (ge r)) (wax gs B np gh w)) (zrange 0 np)) as Q.
  { intros r Hr. destruct (P r Hr) as (l & E & X). unfold ld. replace (inp r) with (Done l). simpl. auto. }
  assert (forall r, 0 <= r < np' -> count ld r = met np gs gh (ge_axes (ge r))) as Hm.
  { intros r Hr. unfold count. destruct (Q r Hr) as (_ & _ & _ & _ & _ & _ & _ & _ & _ & ->). rewrite count_filter. unfold met. f_equal.
    apply filter_ext_in. intros w Hw. apply in_zrange in Hw.
    destruct (setup_eq np gs gh w w_np0 w_ne0 Hok Hw) as (p & _ & _ & _ & _ & E). cbv zeta in E.
    unfold wax, geo. rewrite E. apply touches_meets.
    pose proof (deco_setup np gs gh w_np0 w_ne0 Hok w_gh0) as DC. destruct (dc_len _ _ _ _ DC w Hw) as (Lw & _). rewrite E in Lw.
    pose proof (deco_setup np' gs gh' H1 w_ne0 Hok H2) as DC'. destruct (dc_len _ _ _ _ DC' r Hr) as (Lr & _). rewrite (Hge r Hr) in Lr. congruence. }
  split.
  - intros (m & Ev).
    destruct (even_reads c valid fresh raw uncompress dparse S name fl fields dx gs np' gh' H1 H2 w_ne0 Hgs V B w_bc0 w_valid0 Vf bound B0 Hb ge Hge
      ltac:(intros; eapply Hc; eauto) ld) with (m := m) as (f & D' & F1 & F2 & F3).
    + intros r Hr. destruct (Q r Hr) as (Q1 & Q2 & Q3 & Q4 & Q5 & Q6 & Q7 & Q8 & Q9 & _). auto 10.
    + intros r Hr. rewrite Hm by auto. apply (Ev r); auto.
    + eexists _, f. split; [exact F1|]. split; [exact F2|]. intros r g Hr E. rewrite (Hge r Hr) in E. inversion E; subst g. clear E. simpl.
      split; [auto|]. split; [auto|]. split; [auto|]. destruct (F3 r Hr) as (X1 & X2 & X). split; [auto|]. split; [auto|]. intros Wd. apply X.
      intros q Hq. apply (Wd q); auto.
  - intros Ne k s St a [E _]. apply Ne. exists (count ld 0). intros r g Hr Eg. rewrite (Hge r Hr) in Eg. inversion Eg; subst g.
    rewrite <- Hm by auto.
    destruct (Nat.eq_dec (count ld r) (count ld 0)) as [e|e]; [exact e|]. exfalso.
    eapply (uneven_hangs c fresh raw uncompress dparse name fl fields dx gs np' gh' H1 H2 w_ne0 Hgs V B ge Hge ld) with (r := r) (q := 0); eauto; [|lia].
    intros q Hq. destruct (Q q Hq) as (Q1 & Q2 & Q3 & Q4 & Q5 & Q6 & Q7 & Q8 & Q9 & _). auto 10.
Qed.
Print Assumptions C25_read_ends_iff.

(* restarting with the same number of ranks, none of them without cells, ends *)
Theorem C25_same_ranks : forall gs np gh gh', 0 < np -> gs <> [] -> Forall (fun g => gx_0 g < gx_1 g) gs -> 0 <= gh -> 0 <= gh' ->
  (forall r ge, 0 <= r < np -> setup_mpi np gs gh' r = Some ge -> Forall (fun a => a_x0 a < a_x1 a) (ge_axes ge)) ->
  evenly np gs gh np gh'.
Proof.
  intros gs np gh gh' Hnp Hne Hg Hgh Hgh' F. exists 1%nat. intros r ge Hr E.
  eapply met_same; eauto. unfold gok. eapply Forall_impl; [|exact Hg]. simpl. lia.
Qed.
Print Assumptions C25_same_ranks.

(* a run that meets the hypotheses: six cells in one dimension, 10*x in cell x, written by two ranks *)
Definition ex_parse (t : list byte) : option Z := match read_int t with Some (v, _) => Some v | None => None end.
Definition ex_gs := [mkG 0 6].
Definition ex_V (x : list Z) : Z := match x with [k] => 10 * k | _ => 0 end.
Definition ex_data (r : Z) : list Z := if r =? 0 then [99; 0; 10; 20; 99] else [99; 30; 40; 50; 99].
Definition ex_name := bytes "grid:scalar:int".
Lemma ex_run : writable_run (pod_codec pod_int) int_range true (fun x => x) show_int ex_parse ex_name 1 ex_gs [2] [(Neumann, periodic)] 2 1 ex_data ex_V.
Proof.
  split.
  - split; [exists (bytes "scalar:int"); reflexivity|]. apply Forall_forall. intros b Hb. vm_compute in Hb. intuition congruence.
  - unfold int_range; lia.
  - vm_compute; intuition congruence.
  - discriminate.
  - repeat constructor; vm_compute; congruence.
  - reflexivity.
  - repeat constructor; try (vm_compute; congruence).
  - reflexivity.
  - repeat constructor; vm_compute; congruence.
  - lia.
  - unfold int_range; lia.
  - lia.
  - intros r ge Hr E. assert (r = 0 \/ r = 1) as [->| ->] by lia; vm_compute in E; inversion E; subst ge; (split; [reflexivity|]).
    + intros [|x [|y t]] O; unfold owns in O; simpl in O; try tauto. assert (x = 0 \/ x = 1 \/ x = 2) as [->|[->| ->]] by lia; reflexivity.
    + intros [|x [|y t]] O; unfold owns in O; simpl in O; try tauto. assert (x = 3 \/ x = 4 \/ x = 5) as [->|[->| ->]] by lia; reflexivity.
  - intros [|x [|y t]] O; simpl in O; try tauto. unfold ex_V, int_range. lia.
  - intros r ge Hr E n bs Sz _. split; [|discriminate].
    assert (r = 0 \/ r = 1) as [->| ->] by lia; vm_compute in E; inversion E; subst ge; vm_compute in Sz; inversion Sz; subst n; vm_compute; congruence.
  - intros r ge blk Hr E W.
    assert (r = 0 \/ r = 1) as [->| ->] by lia; vm_compute in E; inversion E; subst ge; vm_compute in W; inversion W; subst blk; vm_compute; congruence.
  - vm_compute; congruence.
Qed.
Lemma ex_lossless : lossless (fun x => x) (fun y _ => Some y).
Proof. intros x. split; [auto|]. pose proof (zlen_nonneg x). Z.to_euclidean_division_equations; lia. Qed.

(* C19: two dimensions, four boundary conditions, a compressor that adds a byte *)
Example C19_case :
  let axs := with_bcs [(Neumann, mirror); (Dirichlet, periodic)] (ge_axes (setup_single [mkG (-1) 1; mkG 0 3] 0)) in
  exists file ld,
    output_serial (pod_codec pod_int) show_int false (cons 0) ex_name 1 axs [2; 3] [10; -20; 30; 40; 50; 60] = Some file /\
    input_serial (pod_codec pod_int) (fun _ => 0) ex_parse false (fun y _ => Some (tl y)) ex_name 2 file = Done ld /\
    ld_fields ld = 1 /\ ld_dx ld = [2; 3] /\ lo_axes (ld_local ld) = axs /\ lo_data (ld_local ld) = [10; -20; 30; 40; 50; 60].
Proof.
  intros axs.
  eapply (C19_serial_round_trip Z (pod_codec pod_int) int_range (fun _ => 0) false (cons 0) (fun y _ => Some (tl y)) Z show_int ex_parse
    (pod_serialises pod_int int_range pod_int_ok)).
  - intros x. split; [reflexivity|]. rewrite zlen_cons. pose proof (zlen_nonneg x). Z.to_euclidean_division_equations; lia.
  - split; [exists (bytes "scalar:int"); reflexivity|]. apply Forall_forall. intros b Hb. vm_compute in Hb. intuition congruence.
  - unfold int_range; lia.
  - unfold int_range; simpl; unfold zlen; simpl; lia.
  - discriminate.
  - vm_compute. intuition congruence.
  - repeat constructor.
  - repeat constructor; vm_compute; congruence.
  - reflexivity.
  - repeat constructor; try (vm_compute; congruence).
  - reflexivity.
  - repeat constructor; vm_compute; congruence.
  - intros n bs Sz To. vm_compute in Sz. inversion Sz; subst n. vm_compute in To. inversion To; subst bs. vm_compute; intuition congruence.
Qed.
(* C21 *)
Example C21_case : exists blk, forall r, 0 <= r < 2 ->
  write_buffer (pod_codec pod_int) true (fun x => x) (rank_axes 2 ex_gs 1 [(Neumann, periodic)] r) (ex_data r) = Some (blk r) /\ zlen (blk r) < int_max.
Proof.
  exists (fun r => match write_buffer (pod_codec pod_int) true (fun x => x) (rank_axes 2 ex_gs 1 [(Neumann, periodic)] r) (ex_data r) with Some b => b | None => [] end).
  intros r Hr. assert (r = 0 \/ r = 1) as [->| ->] by lia; vm_compute; auto.
Qed.

(* C20, C25 apply to it *)
Example C20_case : exists file,
  writes_file (pod_codec pod_int) true (fun x => x) show_int ex_name 1 2 (rank_axes 2 ex_gs 1 [(Neumann, periodic)]) [2] ex_data file /\
  forall r ge, 0 <= r < 3 -> setup_mpi 3 ex_gs 0 r = Some ge ->
  exists ld, input (pod_codec pod_int) (fun _ => 0) ex_parse true (fun y _ => Some y) (fun gs => setup_mpi 3 gs 0 r) ex_name 1 file = Done ld /\
    forall x, owns ge [x] -> grid_read true (lo_axes (ld_local ld)) (lo_data (ld_local ld)) [x] = Some (10 * x).
Proof.
  destruct (C20_portable Z (pod_codec pod_int) int_range (fun _ => 0) true (fun x => x) (fun y _ => Some y) Z show_int ex_parse _ _ _ _ _ _ _ _ _
    (pod_serialises pod_int int_range pod_int_ok) ex_lossless ex_run) as (file & W & R).
  exists file. split; [exact W|]. intros r ge Hr E. destruct (R 3 0 r ge ltac:(lia) ltac:(lia) Hr E) as (ld & I & _ & _ & _ & _ & V & _).
  exists ld. split; [exact I|]. intros x O. rewrite V by exact O. reflexivity.
Qed.

Example C25_case : evenly 2 ex_gs 1 2 1 /\ can_exchange (pod_codec pod_int) int_range (fun _ => 0) 1 ex_gs 2 1.
Proof.
  split.
  - apply C25_same_ranks; try lia; try discriminate; [repeat constructor|].
    intros r ge Hr E. assert (r = 0 \/ r = 1) as [->| ->] by lia; vm_compute in E; inversion E; subst ge; repeat constructor.
  - split; [unfold int_range; lia|]. exists 4. split; [lia|]. split; [intros; simpl; lia|].
    intros r ge Hr E. assert (r = 0 \/ r = 1) as [->| ->] by lia; vm_compute in E; inversion E; subst ge; vm_compute; congruence.
Qed.

(* C25 fails: the file of the run above, read by three ranks: the middle one meets two blocks, the others one *)
Theorem C25_refuted : exists file,
  writes_file (pod_codec pod_int) true (fun x => x) show_int ex_name 1 2 (rank_axes 2 ex_gs 1 [(Neumann, periodic)]) [2] ex_data file /\
  forall k s, steps k (all_input (pod_codec pod_int) (fun _ => 0) ex_parse true (fun y _ => Some y) 3 1 ex_name 1 file) s ->
  forall a, ~ finished 3 a s.
Proof.
  destruct (C25_read_ends_iff Z (pod_codec pod_int) int_range (fun _ => 0) true (fun x => x) (fun y _ => Some y) Z show_int ex_parse _ _ _ _ _ _ _ _ _
    (pod_serialises pod_int int_range pod_int_ok) ex_lossless ex_run) as (file & W & R).
  exists file. split; [exact W|]. destruct (R 3 1) as [_ N]; try lia.
  - split; [unfold int_range; lia|]. exists 4. split; [lia|]. split; [intros; simpl; lia|].
    intros r ge Hr E. assert (r = 0 \/ r = 1 \/ r = 2) as [->|[->| ->]] by lia; vm_compute in E; inversion E; subst ge; vm_compute; congruence.
  - apply N. intros (m & Ev).
    assert (exists g0 g1, setup_mpi 3 ex_gs 1 0 = Some g0 /\ setup_mpi 3 ex_gs 1 1 = Some g1 /\
      met 2 ex_gs 1 (ge_axes g0) = 1%nat /\ met 2 ex_gs 1 (ge_axes g1) = 2%nat) as (g0 & g1 & E0 & E1 & M0 & M1).
    { eexists _, _. split; [reflexivity|]. split; [reflexivity|]. split; reflexivity. }
    pose proof (Ev 0 g0 ltac:(lia) E0). pose proof (Ev 1 g1 ltac:(lia) E1). congruence.
Qed.
Print Assumptions C25_refuted.

(* C23 fails.  Three cells 1000, 0, 0 of type int; [ex_z] is what zlib makes of their twelve bytes at level 9 (obtained
   with zlib 1.2.13).  A lossless compressor with this value makes the reader take the compressed bytes for the cells. *)
Definition ex_d : list Z := [1000; 0; 0].
Definition ex_raw : list byte := [232; 3; 0; 0; 0; 0; 0; 0; 0; 0; 0; 0].
Definition ex_z : list byte := [120; 218; 123; 193; 204; 0; 7; 0; 11; 13; 0; 236].
Definition ex_axs := ge_axes (setup_single [mkG 0 3] 0).
Theorem C23_refuted : forall compress uncompress, compress ex_raw = ex_z ->
  exists file ld,
    output_serial (pod_codec pod_int) show_int false compress ex_name 1 ex_axs [1] ex_d = Some file /\
    input_serial (pod_codec pod_int) (fun _ => 0) ex_parse false uncompress ex_name 1 file = Done ld /\
    lo_data (ld_local ld) <> ex_d.
Proof.
  intros compress uncompress H.
  assert (exists file, output_serial (pod_codec pod_int) show_int false compress ex_name 1 ex_axs [1] ex_d = Some file /\
    file = header show_int ex_name 1 [mkG 0 3] [1] ++ pd_enc pod_int 1 ++
      (pd_enc pod_int 0 ++ pd_enc pod_int 3) ++ (pd_enc pod_int 2 ++ pd_enc pod_int 2) ++ pd_enc pod_ulong 12 ++ pd_enc pod_ulong 12 ++ ex_z) as (file & E1 & E2).
  { eexists. split; [|reflexivity]. unfold output_serial, write_buffer.
    assert (buffer_size (pod_codec pod_int) zrange ex_d ex_axs (map a_x0 ex_axs) (map a_x1 ex_axs) 0 = Some 12) as -> by reflexivity.
    cbn [bind]. assert (to_buffer (pod_codec pod_int) zrange ex_d ex_axs (map a_x0 ex_axs) (map a_x1 ex_axs) 0 (repeat 0 (Z.to_nat 12)) 0 = Some (ex_raw, 12)) as -> by reflexivity.
    cbn [bind fst snd]. change (firstn (Z.to_nat 12) ex_raw) with ex_raw. rewrite H. reflexivity. }
  exists file. eexists. split; [exact E1|]. subst file. split.
  - unfold input_serial, input.
    match goal with |- (got _ <- ?e; _) = _ => let v := eval vm_compute in e in change e with v end. cbn [obind req].
    vm_compute. reflexivity.
  - vm_compute. congruence.
Qed.
Print Assumptions C23_refuted.
(* there is such a lossless compressor *)
Example C23_case : exists compress uncompress, lossless compress uncompress /\ compress ex_raw = ex_z.
Proof.
  set (sw := fun x : list byte => if list_eq_dec Z.eq_dec x ex_raw then ex_z else if list_eq_dec Z.eq_dec x ex_z then ex_raw else x).
  exists sw, (fun y _ => Some (sw y)). split; [|reflexivity]. intros x. unfold sw.
  assert (forall n, 0 <= n -> n <= 9 * n / 8 + 12) as A by (intros; Z.to_euclidean_division_equations; lia).
  pose proof (zlen_nonneg x).
  destruct (list_eq_dec Z.eq_dec x ex_raw) as [->|N1].
  - destruct (list_eq_dec Z.eq_dec ex_z ex_raw); [discriminate|]. destruct (list_eq_dec Z.eq_dec ex_z ex_z); [|contradiction].
    split; [reflexivity|vm_compute; congruence].
  - destruct (list_eq_dec Z.eq_dec x ex_z) as [->|N2].
    + destruct (list_eq_dec Z.eq_dec ex_raw ex_raw); [|contradiction]. split; [reflexivity|vm_compute; congruence].
    + destruct (list_eq_dec Z.eq_dec x ex_raw); [contradiction|]. destruct (list_eq_dec Z.eq_dec x ex_z); [contradiction|]. split; auto.
Qed.

(* C24.  The type line: the bytes before the first line end. *)
Theorem C24_wrong_type_rejected : forall T (c : codec T) fresh D (dparse : list byte -> option D) raw uncompress setup name dim (type rest : list byte),
  good_name name -> Forall (fun b => b <> 10) type -> type <> name ->
  (forall u t, type <> u ++ 58 :: t \/ name <> bytes "grid:scalar:" ++ t) ->
  exists code, input c fresh dparse raw uncompress setup name dim (type ++ (10 : byte) :: rest) = Exit code.
Proof.
  intros T c fresh D dparse raw uncompress setup name dim type rest Gn Nl Ne Na.
  unfold input, read_header. rewrite TextL.getline_app by auto. unfold scalar_alias.
  destruct (last_colon (firstn 9 type) 0 None) as [p|] eqn:Lc; cbn [bind]; [|eexists; reflexivity].
  destruct (list_eq_dec Z.eq_dec type name); [contradiction|].
  destruct (list_eq_dec Z.eq_dec (bytes "grid:scalar" ++ skipn (Z.to_nat p) type) name) as [e|e]; [|eexists; reflexivity].
  exfalso.
  assert (forall s i cur q, last_colon s i cur = Some q -> cur = Some q \/ exists u t, s = u ++ 58 :: t /\ q = i + zlen u) as LC.
  { induction s as [|b s IH]; intros i cur q; simpl; [auto|]. intros H. destruct (IH _ _ _ H) as [H1|(u & t & -> & ->)].
    - destruct (Z.eqb_spec b 58) as [->|]; [|auto]. inversion H1. right. exists [], s. split; [reflexivity|]. unfold zlen; simpl; lia.
    - right. exists (b :: u), t. split; [reflexivity|]. rewrite zlen_cons. lia. }
  destruct (LC _ _ _ _ Lc) as [|(u & t & E & ->)]; [discriminate|].
  assert (type = u ++ 58 :: t ++ skipn 9 type) as Et.
  { rewrite <- (firstn_skipn 9 type) at 1. rewrite E, <- app_assoc. reflexivity. }
  assert (skipn (Z.to_nat (0 + zlen u)) type = 58 :: t ++ skipn 9 type) as Es.
  { rewrite Et at 1. unfold zlen. replace (Z.to_nat (0 + Z.of_nat (length u))) with (length u + 0)%nat by lia.
    rewrite skipn_app, skipn_all2 by lia. replace (length u + 0 - length u)%nat with O by lia. reflexivity. }
  destruct (Na u (t ++ skipn 9 type)) as [N|N]; [contradiction|]. apply N. rewrite <- e, Es. reflexivity.
Qed.
Print Assumptions C24_wrong_type_rejected.

(* a file with the grid's type but another dimension d *)
Theorem C24_wrong_dimension_rejected : forall T (c : codec T) fresh D (dparse : list byte -> option D) raw uncompress setup name dim d (rest : list byte),
  good_name name -> int_range d -> d <> Z.of_nat dim ->
  input c fresh dparse raw uncompress setup name dim (name ++ (10 : byte) :: show_int d ++ (10 : byte) :: rest) = Exit (-3).
Proof.
  intros T c fresh D dparse raw uncompress setup name dim d rest Gn Hi Hne.
  unfold input, read_header. destruct Gn as [(t & Et) Nl]. rewrite TextL.getline_app by auto.
  destruct (scalar_alias name) as [al|] eqn:Ea.
  2:{ exfalso. destruct (alias_good name) as (al & E). { split; eauto. } congruence. }
  destruct (list_eq_dec Z.eq_dec name name); [|contradiction]. cbn [negb andb].
  unfold read_dim. change (show_int d ++ ?l) with ([] ++ show_int d ++ l). rewrite TextL.read_show; [|constructor|auto|reflexivity]. cbn [obind].
  destruct (Z.eqb_spec d (Z.of_nat dim)); [contradiction|]. reflexivity.
Qed.
Print Assumptions C24_wrong_dimension_rejected.

(* the legacy name: a scalar grid "grid:scalar:t" also reads files whose type line is "grid:t" *)
Theorem C24_alias_accepted : forall D (dshow : D -> list byte) dparse t fields gs dx rest,
  Forall (fun b => b <> 10 /\ b <> 58) t -> int_range fields -> int_range (zlen gs) ->
  Forall int_box gs -> Forall (exact_text dshow dparse) dx -> length dx = length gs ->
  read_header dparse (bytes "grid:scalar:" ++ t) (length gs) (header dshow (bytes "grid:" ++ t) fields gs dx ++ rest) =
  Done (fields, gs, dx, rest).
Proof.
  intros D dshow dparse t fields gs dx rest Ft Hf Hd Hg Hx Ld.
  set (old := bytes "grid:" ++ t).
  assert (good_name old) as Go.
  { split; [exists t; reflexivity|]. unfold old. apply Forall_app. split; [|eapply Forall_impl; [|exact Ft]; simpl; tauto].
    apply Forall_forall. intros b Hb. vm_compute in Hb. intuition congruence. }
  rewrite <- (read_header_ok dshow dparse old fields gs dx rest) by auto.
  unfold read_header, header. rewrite <- !app_assoc. change ([10 : byte] ++ ?l) with ((10 : byte) :: l) at 1 4.
  rewrite TextL.getline_app by apply Go.
  assert (scalar_alias old = Some (bytes "grid:scalar:" ++ t)) as Ea.
  { unfold scalar_alias, old. change (firstn 9 (bytes "grid:" ++ t)) with (bytes "grid:" ++ firstn 4 t).
    change (last_colon (bytes "grid:" ++ firstn 4 t) 0 None) with (last_colon (firstn 4 t) 5 (Some 4)).
    assert (forall s i q, Forall (fun b => b <> 58) s -> last_colon s i (Some q) = Some q) as LC.
    { induction s as [|b s IH]; intros i q F; [reflexivity|]. inversion F; subst. simpl. destruct (Z.eqb_spec b 58); [contradiction|]. auto. }
    rewrite LC; [reflexivity|]. apply Forall_forall. intros b Hb. rewrite Forall_forall in Ft. apply Ft.
    rewrite <- (firstn_skipn 4 t). apply in_or_app; auto. }
  rewrite Ea. destruct (list_eq_dec Z.eq_dec (bytes "grid:scalar:" ++ t) (bytes "grid:scalar:" ++ t)); [|contradiction].
  destruct (list_eq_dec Z.eq_dec old old); [|contradiction]. rewrite andb_false_r. reflexivity.
Qed.
Print Assumptions C24_alias_accepted.
(* ... but the prefix is not checked: the alias test also accepts "junk:int" *)
Theorem C24_strict_alias_refuted : exists type, type <> bytes "grid:scalar:int" /\ type <> bytes "grid:int" /\ 
  read_header ex_parse (bytes "grid:scalar:int") 1 (header show_int type 1 ex_gs [2]) = Done (1, ex_gs, [2], []).
Proof. exists (bytes "junk:int"). split; [discriminate|]. split; [discriminate|]. vm_compute. reflexivity. Qed.
Print Assumptions C24_strict_alias_refuted.

(* a grid of vectors does not read a file of scalars, and a two-dimensional grid not one of dimension 3 *)
Example C24_case :
  (exists code, input (pod_codec pod_int) (fun _ => 0) ex_parse true (fun y _ => Some y) (fun _ => None) (bytes "grid:vector:int") 1
     (bytes "grid:scalar:int" ++ (10 : byte) :: []) = Exit code) /\
  input (pod_codec pod_int) (fun _ => 0) ex_parse true (fun y _ => Some y) (fun _ => None) (bytes "grid:scalar:int") 2
     (bytes "grid:scalar:int" ++ (10 : byte) :: show_int 3 ++ (10 : byte) :: []) = Exit (-3).
Proof.
  split.
  - apply C24_wrong_type_rejected.
    + split; [exists (bytes "vector:int"); reflexivity|]. apply Forall_forall. intros b Hb. vm_compute in Hb. intuition congruence.
    + apply Forall_forall. intros b Hb. vm_compute in Hb. intuition congruence.
    + discriminate.
    + intros u t. right. vm_compute. congruence.
  - apply C24_wrong_dimension_rejected; [|unfold int_range; lia|lia].
    split; [exists (bytes "scalar:int"); reflexivity|]. apply Forall_forall. intros b Hb. vm_compute in Hb. intuition congruence.
Qed.
