From Coq Require Import Permutation.
From Verif Require Import Model.Base Model.Text Model.Boundary Model.Layout Model.Access Model.Setup Model.Codec Model.Region Model.MPI Model.Ghostswap Model.File Model.Endian
  Spec.Box Spec.Bytes Spec.Access Spec.Decomp Spec.File Spec.Schedule Spec.Jobs Spec.Runs Spec.Endian Spec.Moved
  Proof.BaseL Proof.TextL Proof.LayoutL Proof.AccessL Proof.MPIL Proof.CodecL Proof.RegionL Proof.FileL Proof.SetupL Proof.HaloL Proof.CheckpointL Proof.EndianL Proof.EndianF Proof.ExecL Proof.WriteL Proof.RestartL Proof.RestartF Proof.JobsL Proof.MixedL Props.File.
Local Open Scope list_scope.
Local Open Scope Z_scope.

Lemma nodes_coords : forall lo hi, length lo = length hi -> nodes_in lo hi = coords zrange lo hi.
Proof. induction lo as [|l lo IH]; intros [|h hi] L; try discriminate; [reflexivity|]. cbn [nodes_in coords]. rewrite IH by (simpl in L; lia). reflexivity. Qed.

Lemma wrap_in : forall gs y, in_box (map gx_0 gs) (map gx_1 gs) y -> wrap gs y = y.
Proof.
  induction gs as [|g gs IH]; intros [|e y] H; simpl in H; try easy. cbn [wrap]. rewrite IH by apply H. f_equal. unfold glen. rewrite Z.mod_small; lia.
Qed.

(* the block of a rank, ghost cells or not, is the sequence of the numbers of its own cells *)
Lemma native_block {T} (c : codec T) nums raw compress axs (d : list T) V :
  axs <> [] -> (forall y, in_box (map a_x0 axs) (map a_x1 axs) y -> get d (encode axs y) = Some (V y) /\ numbered c nums (V y)) ->
  (forall x, zlen (compress x) <= 9 * zlen x / 8 + 12) ->
  write_buffer c raw compress axs d = Some (stored_block (fun x => x) (if raw then fun x => x else compress)
    (mkBlock (map (fun a => (a_x0 a, a_x1 a)) axs) (map (fun a => (a_b0 a, a_b1 a)) axs) (flat_map (fun x => nums (V x)) (nodes_in (map a_x0 axs) (map a_x1 axs))))).
Proof.
  intros Ne G ZC. set (vals := map V (nodes_in (map a_x0 axs) (map a_x1 axs))).
  assert (length (map a_x0 axs) = length (map a_x1 axs)) as Lx by now rewrite !map_length.
  assert (forall y, In y (nodes_in (map a_x0 axs) (map a_x1 axs)) -> in_box (map a_x0 axs) (map a_x1 axs) y) as Bx.
  { intros y Hy. rewrite nodes_coords in Hy by exact Lx. apply in_coords in Hy; [|exact Lx]. now apply in_rng1. }
  assert (map_opt (get d) (addrs zrange axs (map a_x0 axs) (map a_x1 axs) 0) = Some vals) as E.
  { rewrite addrs_coords by (rewrite ?map_length; auto). rewrite <- nodes_coords by exact Lx. unfold vals. revert Bx. generalize (nodes_in (map a_x0 axs) (map a_x1 axs)).
    induction l as [|y l IH]; intros Bx; [reflexivity|]. cbn [map map_opt]. rewrite Z.add_0_l. destruct (G y (Bx y (or_introl eq_refl))) as [-> _]. cbn [bind]. rewrite IH by (intros z Hz; apply Bx; now right). reflexivity. }
  assert (Forall (numbered c nums) vals) as N.
  { apply Forall_forall. intros v Hv. apply in_map_iff in Hv as (y & <- & Hy). apply G, Bx, Hy. }
  assert (flat_map (fun x => nums (V x)) (nodes_in (map a_x0 axs) (map a_x1 axs)) = flat_map nums vals) as -> by (unfold vals; now rewrite flat_map_map).
  unfold write_buffer. set (bs := concat (flat_map nums vals)) in *.
  rewrite (buffer_size_flat _ _ _ _ _ _ _ _ E). cbn [bind].
  assert (total c vals = zlen bs) as Et by (now destruct (write_numbers c nums vals N [] bs [] eq_refl)). rewrite Et.
  set (old := repeat 0 (Z.to_nat (zlen bs))). assert (@zlen byte old = zlen bs) as Lo by (unfold old, zlen; rewrite repeat_length; lia).
  destruct (write_numbers c nums vals N [] old [] Lo) as [Wr _]. fold bs in Wr. cbn [app] in Wr. rewrite !app_nil_r in Wr. change (zlen (@nil byte)) with 0 in Wr. rewrite Z.add_0_l, Lo in Wr.
  rewrite (to_buffer_flat _ _ _ _ _ _ _ _ _ _ _ E Wr). cbn [bind fst snd]. rewrite ?Z.sub_0_r, to_nat_zlen, firstn_all.
  replace (if raw then bs else compress bs) with ((if raw then fun x => x else compress) bs) by (now destruct raw).
  assert (raw || (zlen ((if raw then fun x => x else compress) bs) <=? 9 * zlen bs / 8 + 12) = true) as -> by (destruct raw; cbn [orb]; [reflexivity|apply Z.leb_le, ZC]).
  cbn [guard bind]. set (pk := if raw then fun x => x else compress). unfold stored_block. cbn [bk_lims bk_bcs bk_numbers]. rewrite !stored_same. fold bs.
  f_equal. rewrite flat_map_app, !concat_app. cbn [concat]. rewrite !flat_map_map, app_nil_r, <- !app_assoc.
  assert (forall f : axis -> Z * Z, flat_map (fun a => pd_enc pod_int (fst (f a)) ++ pd_enc pod_int (snd (f a))) axs = concat (flat_map (fun a => [pd_enc pod_int (fst (f a)); pd_enc pod_int (snd (f a))]) axs)) as Gf.
  { intros f. clear. induction axs as [|a axs IH]; [reflexivity|]. cbn [flat_map concat app]. rewrite IH, <- app_assoc. reflexivity. }
  rewrite <- (Gf (fun a => (a_x0 a, a_x1 a))), <- (Gf (fun a => (a_b0 a, a_b1 a))). reflexivity.
Qed.

Lemma filter_length_perm {A} (f : A -> bool) l l' : Permutation l l' -> length (filter f l) = length (filter f l').
Proof. induction 1 as [|x l l' P IH|x y l|l l' l'' P1 IH1 P2 IH2]; cbn [filter]; [reflexivity| | |congruence]; [destruct (f x); cbn; congruence|destruct (f x), (f y); reflexivity]. Qed.

Section Ranks.
Context {T : Type} (c : codec T) (valid : T -> Prop) (fresh : Z -> T) (raw : bool) (compress : list byte -> list byte) (uncompress : list byte -> Z -> option (list byte)).
Context {S : Type} (dshow : S -> list byte) (dparse : list byte -> option S) (name : list byte) (fields : Z) (gs : list gaxis) (dx : list S) (B : list (Z * Z)) (np gh : Z) (data : Z -> list T) (V : list Z -> T).
Context (Sc : serialises c valid) (Ll : lossless compress uncompress) (R : writable_run c valid raw compress dshow dparse name fields gs dx B np gh data V).

Lemma rank_wax r : 0 <= r < np -> rank_axes np gs gh B r = wax gs B np gh r.
Proof using All.
  intros Hr. destruct R. assert (gok gs) as Hok by (unfold gok; eapply Forall_impl; [|exact w_box]; simpl; lia).
  destruct (setup_eq np gs gh r w_np w_ne Hok Hr) as (p & _ & _ & _ & _ & E). cbv zeta in E. unfold rank_axes, wax, CheckpointL.geo. now rewrite E.
Qed.

Lemma rank_stored k w nums : cell_type k w T c nums valid -> forall r, 0 <= r < np ->
  wblk c raw compress gs B np gh data r = stored_block (fun x => x) (if raw then fun x => x else compress) (rank_block nums gs B gh np V r).
Proof using All.
  intros CT r Hr. pose proof (rank_wax r Hr) as Ew. pose proof R as []. 
  pose proof (wblk_ok c valid fresh raw compress uncompress dshow dparse Sc Ll name fields gs dx B w_name w_fields w_dim w_ne w_box w_dx w_exact w_bc w_bcs np gh w_np w_npi w_gh data V w_hold w_valid w_rec r Hr) as Wb.
  destruct (rank_writable c valid fresh raw compress uncompress dshow dparse Sc Ll name fields gs dx B w_name w_fields w_dim w_ne w_box w_dx w_exact w_bc w_bcs np gh w_np w_npi w_gh data V w_hold w_valid w_rec r Hr) as (Lw & _ & _ & Vg).
  rewrite (native_block c nums raw compress _ _ V) in Wb.
  - injection Wb as <-. unfold rank_block. now rewrite Ew.
  - intros E. rewrite E in Lw. destruct gs; [easy|discriminate].
  - intros y Hy. split; [now apply Vg|]. apply (cell_type_ok k w T c nums valid CT), w_valid.
    apply (wax_owns c valid fresh raw compress uncompress dshow dparse Sc Ll name fields gs dx B w_name w_fields w_dim w_ne w_box w_dx w_exact w_bc w_bcs np gh w_np w_npi w_gh data V w_hold w_valid w_rec) in Hy.
    assert (gok gs) as Hok by (unfold gok; eapply Forall_impl; [|exact w_box]; simpl; lia).
    pose proof (CheckpointL.geo_some c valid fresh raw compress uncompress dshow dparse Sc Ll name fields gs dx B w_name w_fields w_dim w_ne w_box w_dx w_exact w_bc w_bcs np gh w_np w_npi w_gh data V w_hold w_valid w_rec np gh r w_np Hr) as Eg.
    eapply owned_inside; eauto.
  - intros x. apply Ll.
Qed.

Lemma file_stored k w nums ws : cell_type k w T c nums valid -> Permutation (zrange 0 np) ws ->
  stored_file (fun x => x) (if raw then fun x => x else compress) (header dshow name fields gs dx) (map (rank_block nums gs B gh np V) ws) = file_in c raw compress dshow name fields gs dx B np gh data ws.
Proof using All.
  intros CT Pw. pose proof R as []. unfold stored_file, file_in. rewrite stored_same. cbn [concat]. rewrite app_nil_r.
  assert (zlen (map (rank_block nums gs B gh np V) ws) = np) as -> by (rewrite zlen_map; unfold zlen; rewrite <- (Permutation_length Pw); fold (zlen (zrange 0 np)); rewrite zlen_zrange; lia).
  assert (map (stored_block (fun x => x) (if raw then fun x => x else compress)) (map (rank_block nums gs B gh np V) ws) = map (wblk c raw compress gs B np gh data) ws) as ->; [|reflexivity].
  rewrite map_map. apply map_ext_in. intros r Hr. symmetry. apply (rank_stored k w); [exact CT|]. apply in_zrange. eapply Permutation_in; [apply Permutation_sym; exact Pw|exact Hr].
Qed.

(* np' ranks read the file, its blocks in any order: as Props/File.v, C25_read_ends_iff *)
Lemma reads_in ws np' gh' : Permutation (zrange 0 np) ws -> 0 < np' -> 0 <= gh' -> can_exchange c valid fresh fields gs np' gh' ->
  let file := file_in c raw compress dshow name fields gs dx B np gh data ws in
  (evenly np gs gh np' gh' ->
     exists L f, finished np' L f /\ inevitable (all_input c fresh dparse raw uncompress np' gh' name (length gs) file) f /\
     forall r ge, 0 <= r < np' -> setup_mpi np' gs gh' r = Some ge ->
       ld_fields (L r) = fields /\ ld_dx (L r) = dx /\ ld_geom (L r) = ge /\
       zlen (lo_data (ld_local (L r))) = cells (ge_axes ge) /\ Forall valid (lo_data (ld_local (L r))) /\
       ((forall q geq, 0 <= q < np' -> setup_mpi np' gs gh' q = Some geq -> Forall (fun a => a_x0 a < a_x1 a /\ gh' <= a_x1 a - a_x0 a) (ge_axes geq)) ->
        lo_axes (ld_local (L r)) = with_bcs B (ge_axes ge) /\
        forall y, in_box (map a_s0 (ge_axes ge)) (map a_s1 (ge_axes ge)) y ->
          (forall j g b, nth_error gs j = Some g -> nth_error B j = Some b ->
             (nth j y 0 < gx_0 g -> fst b = periodic) /\ (gx_1 g <= nth j y 0 -> snd b = periodic)) ->
          grid_read true (lo_axes (ld_local (L r))) (lo_data (ld_local (L r))) y = Some (V (wrap gs y)))) /\
  (~ evenly np gs gh np' gh' ->
     forall k s, steps k (all_input c fresh dparse raw uncompress np' gh' name (length gs) file) s ->
     forall a, ~ finished np' a s).
Proof using All.
  intros Pw H1 H2 (Vf & bound & B0 & Hb & Hc) fl. destruct R.
  assert (gok gs) as Hok by (unfold gok; eapply Forall_impl; [|exact w_box]; simpl; lia).
  assert (Forall (fun g => gx_0 g < gx_1 g) gs) as Hgs by (eapply Forall_impl; [|exact w_box]; simpl; tauto).
  set (ge := fun r => match setup_mpi np' gs gh' r with Some g => g | None => dgeom end).
  assert (forall r, 0 <= r < np' -> setup_mpi np' gs gh' r = Some (ge r)) as Hge.
  { intros r Hr. destruct (setup_eq np' gs gh' r H1 w_ne Hok Hr) as (p & _ & _ & _ & _ & E). unfold ge. now rewrite E. }
  set (inp := fun r => input c fresh dparse raw uncompress (fun gs => setup_mpi np' gs gh' r) name (length gs) fl).
  pose proof (fun r Hr => portable_in c valid fresh raw compress uncompress dshow dparse Sc Ll name fields gs dx B w_name w_fields w_dim w_ne w_box
      w_dx w_exact w_bc w_bcs np gh w_np w_npi w_gh data V w_hold w_valid w_rec ws np' gh' r (ge r) Pw H1 H2 Hr (Hge r Hr)) as P.
  destruct (P 0 ltac:(lia)) as (ld0 & _).
  set (ld := fun r => match inp r with Done l => l | _ => ld0 end).
  assert (forall r, 0 <= r < np' -> inp r = Done (ld r) /\
   ld_fields (ld r) = fields /\ ld_dx (ld r) = dx /\ ld_geom (ld r) = ge r /\ zlen (lo_data (ld_local (ld r))) = cells (ge_axes (ge r)) /\
   same_layout (lo_axes (ld_local (ld r))) (ge_axes (ge r)) /\
   (forall x, owns (ge r) x -> grid_read true (lo_axes (ld_local (ld r))) (lo_data (ld_local (ld r))) x = Some (V x)) /\
   (Forall (fun a => a_x0 a < a_x1 a) (ge_axes (ge r)) -> lo_axes (ld_local (ld r)) = with_bcs B (ge_axes (ge r))) /\
   (forall x, in_box (map a_s0 (ge_axes (ge r))) (map a_s1 (ge_axes (ge r))) x -> ~ owns (ge r) x ->
       get (lo_data (ld_local (ld r))) (encode (ge_axes (ge r)) x) = Some (fresh fields)) /\
   ld_built (ld r) = map (fun w => touches (ge_axes (ge r)) (wax gs B np gh w)) ws) as Q.
  { intros r Hr. destruct (P r Hr) as (l & E & X). unfold ld. replace (inp r) with (Done l). simpl. auto. }
  assert (forall r, 0 <= r < np' -> RestartL.count ld r = met np gs gh (ge_axes (ge r))) as Hm.
  { intros r Hr. unfold RestartL.count. destruct (Q r Hr) as (_ & _ & _ & _ & _ & _ & _ & _ & _ & ->). rewrite count_filter. rewrite <- (filter_length_perm _ _ _ Pw). unfold met. f_equal.
    apply filter_ext_in. intros w Hw. apply in_zrange in Hw.
    destruct (setup_eq np gs gh w w_np w_ne Hok Hw) as (p & _ & _ & _ & _ & E). cbv zeta in E.
    unfold wax, CheckpointL.geo. rewrite E. apply touches_meets.
    pose proof (deco_setup np gs gh w_np w_ne Hok w_gh) as DC. destruct (dc_len _ _ _ _ DC w Hw) as (Lw & _). rewrite E in Lw.
    pose proof (deco_setup np' gs gh' H1 w_ne Hok H2) as DC'. destruct (dc_len _ _ _ _ DC' r Hr) as (Lr & _). rewrite (Hge r Hr) in Lr. congruence. }
  split.
  - intros (m & Ev).
    destruct (even_reads c valid fresh raw uncompress dparse Sc name fl fields dx gs np' gh' H1 H2 w_ne Hgs V B w_bc w_valid Vf bound B0 Hb ge Hge
      ltac:(intros; eapply Hc; eauto) ld) with (m := m) as (f & D' & F1 & F2 & F3).
    + intros r Hr. destruct (Q r Hr) as (Q1 & Q2 & Q3 & Q4 & Q5 & Q6 & Q7 & Q8 & Q9 & _). auto 10.
    + intros r Hr. rewrite Hm by auto. apply (Ev r); auto.
    + eexists _, f. split; [exact F1|]. split; [exact F2|]. intros r g Hr E. rewrite (Hge r Hr) in E. inversion E; subst g. clear E. simpl.
      split; [auto|]. split; [auto|]. split; [auto|]. destruct (F3 r Hr) as (X1 & X2 & X). split; [auto|]. split; [auto|]. intros Wd. apply X.
      intros q Hq. apply (Wd q); auto.
  - intros Ne k s St a [E _]. apply Ne. exists (RestartL.count ld 0). intros r g Hr Eg. rewrite (Hge r Hr) in Eg. inversion Eg; subst g.
    rewrite <- Hm by auto.
    destruct (Nat.eq_dec (RestartL.count ld r) (RestartL.count ld 0)) as [e|e]; [exact e|]. exfalso.
    eapply (uneven_hangs c fresh raw uncompress dparse name fl fields dx gs np' gh' H1 H2 w_ne Hgs V B ge Hge ld) with (r := r) (q := 0); eauto; [|lia].
    intros q Hq. destruct (Q q Hq) as (Q1 & Q2 & Q3 & Q4 & Q5 & Q6 & Q7 & Q8 & Q9 & _). auto 10.
Qed.
End Ranks.
