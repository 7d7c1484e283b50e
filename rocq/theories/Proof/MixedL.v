From stdpp Require Import gmap.
From Verif Require Import Model.Base Model.Text Model.Boundary Model.Layout Model.Access Model.Setup Model.Codec Model.Region Model.MPI Model.Ghostswap
  Model.Stencil Model.File Model.Simulate Model.Jobs Model.Runs Model.SerialRun Spec.Box Spec.Bytes Spec.Access Spec.Stencil Spec.Decomp Spec.File Spec.Schedule Spec.Jobs Spec.Program Spec.Runs Spec.Mixed
  Proof.BaseL Proof.LayoutL Proof.AccessL Proof.StencilS Proof.MPIL Proof.ExecL Proof.CodecL Proof.RegionL Proof.FileL Proof.SetupL Proof.HaloL Proof.CheckpointL Proof.WriteL Proof.SimulateL Proof.JobsL Proof.RunsL Props.File.
From Verif Require Proof.McRanksF Proof.ConvertL.
From Coq Require Import ZifyBool.
Local Open Scope Z_scope.

(* ---- buffers depend on the values of the nodes only ---- *)
Lemma fold_opt_ext {A B} (f g : A -> B -> option A) l : (forall x a, In x l -> f a x = g a x) -> forall a, fold_opt f l a = fold_opt g l a.
Proof.
  induction l as [|x l IH]; intros H a; cbn [fold_opt]; [reflexivity|]. rewrite (H x a) by now left. destruct (g a x); cbn [bind]; [|reflexivity]. apply IH. intros y b Hy. apply H. now right.
Qed.

Section Ext.
Context {T : Type} (c : codec T) (dA dB : list T).
Definition agree (axsA axsB : list axis) mn mx p q := forall y, in_box mn mx y -> get dA (p + encode axsA y) = get dB (q + encode axsB y).
Lemma agree_tail a axs b axs' lo mn hi mx p q x : agree (a :: axs) (b :: axs') (lo :: mn) (hi :: mx) p q -> lo <= x < hi ->
  agree axs axs' mn mx (p + (x - a_s0 a) * a_sx a) (q + (x - a_s0 b) * a_sx b).
Proof. intros H Hx y By. specialize (H (x :: y)). cbn [encode] in H. rewrite <- !Z.add_assoc. apply H. cbn. auto. Qed.
Lemma agree_last a b lo hi p q x : agree [a] [b] [lo] [hi] p q -> lo <= x < hi -> get dA (p + (x - a_s0 a) * a_sx a) = get dB (q + (x - a_s0 b) * a_sx b).
Proof. intros H Hx. specialize (H [x]). cbn [encode] in H. rewrite !Z.add_0_r in H. apply H. cbn. auto. Qed.

Lemma buffer_size_ext : forall axsA axsB mn mx p q, length axsA = length axsB -> length mn = length axsA -> length mx = length axsA -> agree axsA axsB mn mx p q ->
  buffer_size c zrange dA axsA mn mx p = buffer_size c zrange dB axsB mn mx q.
Proof.
  induction axsA as [|a axsA IH]; intros [|b axsB] [|lo mn] [|hi mx] p q L1 L2 L3 H; try discriminate; [reflexivity|].
  destruct axsA as [|a2 axsA], axsB as [|b2 axsB]; try discriminate.
  - destruct mn, mx; try discriminate. cbn [buffer_size]. apply fold_opt_ext. intros x s Hx. apply in_zrange in Hx. now rewrite (agree_last a b lo hi p q x H Hx).
  - rewrite !buffer_size_cons. apply fold_opt_ext. intros x s Hx. apply in_zrange in Hx.
    rewrite (IH (b2 :: axsB) mn mx (p + (x - a_s0 a) * a_sx a) (q + (x - a_s0 b) * a_sx b)); auto. eapply agree_tail; eauto.
Qed.
Lemma to_buffer_ext : forall axsA axsB mn mx p q buf off, length axsA = length axsB -> length mn = length axsA -> length mx = length axsA -> agree axsA axsB mn mx p q ->
  to_buffer c zrange dA axsA mn mx p buf off = to_buffer c zrange dB axsB mn mx q buf off.
Proof.
  induction axsA as [|a axsA IH]; intros [|b axsB] [|lo mn] [|hi mx] p q buf off L1 L2 L3 H; try discriminate; [reflexivity|].
  destruct axsA as [|a2 axsA], axsB as [|b2 axsB]; try discriminate.
  - destruct mn, mx; try discriminate. cbn [to_buffer]. apply fold_opt_ext. intros x [s n] Hx. apply in_zrange in Hx. now rewrite (agree_last a b lo hi p q x H Hx).
  - rewrite !to_buffer_cons. apply fold_opt_ext. intros x [s n] Hx. apply in_zrange in Hx.
    rewrite (IH (b2 :: axsB) mn mx (p + (x - a_s0 a) * a_sx a) (q + (x - a_s0 b) * a_sx b)); auto. eapply agree_tail; eauto.
Qed.
End Ext.

(* axes that differ in their ghost cells only *)
Definition edges (a b : axis) : Prop := a_g0 a = a_g0 b /\ a_g1 a = a_g1 b /\ a_x0 a = a_x0 b /\ a_x1 a = a_x1 b /\ a_b0 a = a_b0 b /\ a_b1 a = a_b1 b.
Lemma edges_lay g h : forall ls, Forall2 edges (lay g ls) (lay h ls).
Proof. induction ls as [|l ls IH]; cbn [lay]; constructor; [repeat split|exact IH]. Qed.
Lemma edges_bcs : forall B axs axs', Forall2 edges axs axs' -> Forall2 edges (with_bcs B axs) (with_bcs B axs').
Proof.
  induction B as [|[lo hi] B IH]; intros axs axs' H; [exact H|]. inversion H as [|a b l m (E1 & E2 & E3 & E4 & E5 & E6) F]; subst; [constructor|]. cbn [with_bcs]. constructor; [|now apply IH].
  unfold edges. cbn. rewrite E1, E2, E3, E4, E5, E6. repeat split.
Qed.
Lemma edges_map axs axs' : Forall2 edges axs axs' -> length axs = length axs' /\ map a_x0 axs = map a_x0 axs' /\ map a_x1 axs = map a_x1 axs' /\
  map (fun a => mkG (a_g0 a) (a_g1 a)) axs = map (fun a => mkG (a_g0 a) (a_g1 a)) axs' /\
  flat_map (fun a => pd_enc pod_int (a_x0 a) ++ pd_enc pod_int (a_x1 a)) axs = flat_map (fun a => pd_enc pod_int (a_x0 a) ++ pd_enc pod_int (a_x1 a)) axs' /\
  flat_map (fun a => pd_enc pod_int (a_b0 a) ++ pd_enc pod_int (a_b1 a)) axs = flat_map (fun a => pd_enc pod_int (a_b0 a) ++ pd_enc pod_int (a_b1 a)) axs'.
Proof.
  induction 1 as [|a b l m (E1 & E2 & E3 & E4 & E5 & E6) F (I1 & I2 & I3 & I4 & I5 & I6)]; [repeat split|]. cbn [length map flat_map].
  rewrite I1, I2, I3, I4, I5, I6, E1, E2, E3, E4, E5, E6. repeat split.
Qed.

Section Same.
Context {T : Type} (c : codec T) (raw : bool) (compress : list byte -> list byte) (axs axs' : list axis) (d d' : list T).
Context (He : Forall2 edges axs axs') (Hv : forall y, in_box (map a_x0 axs) (map a_x1 axs) y -> get d (encode axs y) = get d' (encode axs' y)).
Lemma same_size : buffer_size c zrange d axs (map a_x0 axs) (map a_x1 axs) 0 = buffer_size c zrange d' axs' (map a_x0 axs') (map a_x1 axs') 0.
Proof using All. destruct (edges_map _ _ He) as (L & E0 & E1 & _). rewrite <- E0, <- E1. apply buffer_size_ext; rewrite ?map_length; auto. Qed.
Lemma same_buffer buf : to_buffer c zrange d axs (map a_x0 axs) (map a_x1 axs) 0 buf 0 = to_buffer c zrange d' axs' (map a_x0 axs') (map a_x1 axs') 0 buf 0.
Proof using All. destruct (edges_map _ _ He) as (L & E0 & E1 & _). rewrite <- E0, <- E1. apply to_buffer_ext; rewrite ?map_length; auto. Qed.
Lemma same_block : write_buffer c raw compress axs d = write_buffer c raw compress axs' d'.
Proof using All.
  unfold write_buffer. rewrite same_size. destruct (buffer_size c zrange d' axs' (map a_x0 axs') (map a_x1 axs') 0) as [n|]; cbn [bind]; [|reflexivity].
  rewrite same_buffer. destruct (edges_map _ _ He) as (_ & _ & _ & _ & -> & ->). reflexivity.
Qed.
Lemma same_recognisable : recognisable c raw compress axs' d' -> recognisable c raw compress axs d.
Proof using All. intros H n bs Sz To. rewrite same_size in Sz. rewrite same_buffer in To. now apply H. Qed.
End Same.

(* ---- one rank has the whole domain ---- *)
Lemma prod_one : forall p, Forall (fun v => 0 < v) p -> prodZ p = 1 -> Forall (eq 1) p.
Proof.
  induction p as [|v p IH]; intros F E; [constructor|]. inversion F as [|? ? H1 H2]; subst. change (prodZ (v :: p)) with (v * prodZ p) in E.
  assert (0 < prodZ p) as P. { clear -H2. induction H2 as [|w q Hw Hq IH]; [reflexivity|]. change (prodZ (w :: q)) with (w * prodZ q). nia. }
  assert (v = 1) as -> by nia. constructor; [reflexivity|]. apply IH; [auto|lia].
Qed.
Lemma one_limits : forall gs p pos, Forall (fun g => gx_0 g <= gx_1 g) gs -> length p = length gs -> Forall (eq 1) p -> in_box (map (fun _ => 0) p) p pos -> zip_limits gs p pos = map serial_limits gs.
Proof.
  induction gs as [|g gs IH]; intros [|v p] [|q pos] G L F Hb; try discriminate; try (cbn in Hb; contradiction); try reflexivity. cbn in Hb.
  inversion F as [|? ? <- F']; subst. inversion G as [|? ? Hg G']; subst. destruct Hb as [Hq Hb]. assert (q = 0) as -> by lia. cbn [zip_limits map]. rewrite IH by (auto; simpl in L; lia). f_equal.
  unfold axis_limits, local_limits, serial_limits, glen. rewrite Z.quot_1_r. replace (gx_1 g - gx_0 g - 1 * (gx_1 g - gx_0 g)) with 0 by lia. rewrite Z.mul_0_l. change (0 <? 0) with false. cbv beta iota zeta.
  replace (gx_0 g + 0) with (gx_0 g) by lia. replace (gx_0 g + (gx_1 g - gx_0 g)) with (gx_1 g) by lia. now rewrite !Z.eqb_refl.
Qed.
Lemma one_rank gs gh : gs <> [] -> gok gs -> exists ge, setup_mpi 1 gs gh 0 = Some ge /\ ge_axes ge = lay gh (map serial_limits gs).
Proof.
  intros Hne Hok. destruct (setup_eq 1 gs gh 0 ltac:(lia) Hne Hok ltac:(lia)) as (p & _ & (L & Q & E) & Hb & _ & Es). eexists. split; [exact Es|]. cbn [ge_axes]. f_equal.
  apply one_limits; auto. apply prod_one; auto.
Qed.

Section Mixed.
Context {T : Type} (c : codec T) (valid : T -> Prop) (fresh : Z -> T).
Context {S : Type} (dshow : S -> list byte) (dparse : list byte -> option S).
Context (raw : bool) (compress : list byte -> list byte) (uncompress : list byte -> Z -> option (list byte)).
Context (name : list byte) (fields : Z) (gs : list gaxis) (dx : list S) (B : list (Z * Z)) (gh : Z).
Context (Hs : storable c valid fresh dshow dparse compress uncompress name fields gs dx B gh).
Notation ckpt := (checkpoint c valid dshow dparse raw compress name fields gs dx B gh).
Notation w := (whole gs B).
Notation L0 := (map serial_limits gs).

Lemma ok : gok gs.
Proof using All. unfold gok. eapply Forall_impl; [|apply (t_box _ _ _ _ _ _ _ _ _ _ _ _ _ Hs)]. simpl. lia. Qed.
Lemma Lb : length B = length gs. Proof using All. symmetry. eapply Forall2_length, (t_sides _ _ _ _ _ _ _ _ _ _ _ _ _ Hs). Qed.
Lemma Sa : Forall serial_axis (whole_lims gs B). Proof using All. apply whole_serial, (t_sides _ _ _ _ _ _ _ _ _ _ _ _ _ Hs). Qed.
Lemma len_lay g : forall ls, length (lay g ls) = length ls.
Proof using. induction ls; cbn [lay length]; congruence. Qed.
Lemma whole_bcs : w = with_bcs B (lay 0 L0).
Proof using All. unfold whole, setup_single. cbn [ge_axes]. apply zip_bcs. rewrite len_lay, map_length. apply Lb. Qed.
Lemma whole_x : map a_x0 w = map gx_0 gs /\ map a_x1 w = map gx_1 gs.
Proof using All. rewrite whole_lay by apply Lb. rewrite map_x0_lay, map_x1_lay. apply whole_box, Lb. Qed.
Lemma whole_edges : Forall2 edges (with_bcs B (lay gh L0)) w.
Proof using All. rewrite whole_bcs. apply edges_bcs, edges_lay. Qed.

Lemma field_unique (D D' : list T) V : zlen D = cells w -> zlen D' = cells w -> has_field gs B D V -> has_field gs B D' V -> D = D'.
Proof using All.
  intros E E' F F'. apply MPIL.get_ext; [congruence|]. intros p Hp. rewrite E, whole_lay in Hp by apply Lb.
  destruct (cell_node gs B Lb Sa p Hp) as (y & By & <-). destruct (whole_box gs B Lb) as [Bx0 Bx1]. rewrite Bx0, Bx1 in By.
  pose proof (F y By) as G. pose proof (F' y By) as G'. destruct whole_x as [X0 X1]. rewrite read_local in G, G' by (rewrite X0, X1; exact By).
  rewrite whole_lay in G, G' by apply Lb. congruence.
Qed.

(* ---- reading ---- *)
(* the blocks may be in any order *)
Lemma read_any np D data V ws : zlen D = cells w -> writable_run c valid raw compress dshow dparse name fields gs dx B np gh data V -> has_field gs B D V -> Permutation (zrange 0 np) ws ->
  shows c fresh dparse raw uncompress name fields gs dx B (file_in c raw compress dshow name fields gs dx B np gh data ws) D.
Proof using All.
  intros LD Wr Fd Pw. pose proof Hs as [Sc Ll Hgh Hfr _ _ _ _ _ _ _ _ _ _]. pose proof ok as Hok.
  destruct Wr. destruct (one_rank gs 0 w_ne Hok) as (ge & E & Ea).
  destruct (portable_in c valid fresh raw compress uncompress dshow dparse Sc Ll name fields gs dx B w_name w_fields w_dim w_ne w_box w_dx w_exact w_bc w_bcs np gh w_np w_npi w_gh data V w_hold w_valid w_rec
    ws 1 0 0 ge Pw ltac:(lia) ltac:(lia) ltac:(lia) E) as (ld & H1 & H2 & H3 & H4 & H5 & H6 & H7 & H8 & _ & _).
  assert (lo_axes (ld_local ld) = w) as Ax.
  { rewrite whole_bcs, <- Ea. apply H8. rewrite Ea. clear -w_box. induction w_box as [|g l Hg F IH]; cbn [map lay]; constructor; [cbn; lia|exact IH]. }
  assert (lo_data (ld_local ld) = D) as Da.
  { destruct whole_x as [X0 X1]. eapply (field_unique _ _ V); [rewrite H5, Ea|exact LD| |exact Fd].
    - rewrite whole_bcs. symmetry. apply same_cells, with_bcs_same.
    - intros y By. rewrite read_local by (rewrite X0, X1; exact By). rewrite <- Ax. rewrite <- (read_local true) by (rewrite Ax, X0, X1; exact By). apply H7. unfold owns.
      rewrite Ea, !map_x0_lay, !map_x1_lay, !map_map. exact By. }
  unfold input in H1. unfold shows, input_serial, input. unfold file_in in *. rewrite read_header_ok in H1 |- *; auto; try (eapply Forall_impl; [|exact w_box]; simpl; tauto).
  cbn [obind] in *. rewrite E in H1. cbn [req obind] in *. unfold setup_single at 1 2. cbn [ge_axes]. rewrite Ea in H1.
  destruct (read c fresh raw uncompress fields (mkLocal (lay 0 L0) (repeat (fresh fields) (Z.to_nat (cells (lay 0 L0))))) (pd_enc pod_int np ++ concat (map (wblk c raw compress gs B np gh data) ws))) as [[st built]| |]; cbn [obind] in *; try discriminate.
  injection H1 as <-. eexists. split; [reflexivity|]. cbn in *. auto.
Qed.
Lemma read_alone np D file : zlen D = cells w -> ckpt np D file -> shows c fresh dparse raw uncompress name fields gs dx B file D.
Proof using All.
  intros LD (data & V & Wr & Fd & Wf). pose proof Hs as [Sc Ll Hgh Hfr _ _ _ _ _ _ _ _ _ _].
  assert (file = CheckpointL.file c raw compress dshow name fields gs dx B np gh data) as -> by (eapply writes_unique; [exact Wf|]; eapply writes_portable; eauto).
  exact (read_any np D data V (zrange 0 np) LD Wr Fd (Permutation_refl _)).
Qed.

(* ---- writing ---- *)
Lemma values (data : Z -> list T) V D : hold 1 gs gh B data V -> has_field gs B D V -> forall ge, setup_mpi 1 gs gh 0 = Some ge -> forall y, in_box (map a_x0 (with_bcs B (lay gh L0))) (map a_x1 (with_bcs B (lay gh L0))) y ->
  get (data 0) (encode (with_bcs B (lay gh L0)) y) = get D (encode w y).
Proof using All.
  intros Hh Fd ge E y By. destruct (one_rank gs gh (t_ne _ _ _ _ _ _ _ _ _ _ _ _ _ Hs) ok) as (ge' & E' & Ea). rewrite E in E'. injection E' as <-.
  destruct (Hh 0 ge ltac:(lia) E) as [_ H]. destruct whole_x as [X0 X1]. destruct (edges_map _ _ whole_edges) as (_ & Y0 & Y1 & _).
  assert (in_box (map gx_0 gs) (map gx_1 gs) y) as Hy by (rewrite <- X0, <- X1, <- Y0, <- Y1; exact By).
  rewrite <- (read_local true) by exact By. rewrite <- (read_local false w) by (rewrite X0, X1; exact Hy). rewrite (Fd y Hy). rewrite Ea in H. apply H. unfold owns. rewrite Ea, map_x0_lay, map_x1_lay, !map_map. exact Hy.
Qed.
Lemma file_alone D file : ckpt 1 D file -> output_serial c dshow raw compress name fields w dx D = Some file.
Proof using All.
  intros (data & V & Wr & Fd & Wf). pose proof Hs as [Sc Ll Hgh Hfr _ _ _ _ _ _ _ _ _ _]. pose proof ok as Hok.
  assert (file = CheckpointL.file c raw compress dshow name fields gs dx B 1 gh data) as -> by (eapply writes_unique; [exact Wf|]; eapply writes_portable; eauto).
  destruct Wr. destruct (one_rank gs gh w_ne Hok) as (ge & E & Ea).
  pose proof (wblk_ok c valid fresh raw compress uncompress dshow dparse Sc Ll name fields gs dx B w_name w_fields w_dim w_ne w_box w_dx w_exact w_bc w_bcs 1 gh w_np w_npi w_gh data V w_hold w_valid w_rec 0 ltac:(lia)) as Wb.
  unfold output_serial, file. assert (wax gs B 1 gh 0 = with_bcs B (lay gh L0)) as Ew by (unfold wax, CheckpointL.geo; rewrite E, Ea; reflexivity). rewrite Ew in Wb.
  rewrite (same_block c raw compress _ _ _ _ whole_edges (values data V D w_hold Fd ge E)) in Wb. rewrite Wb. cbn [bind]. change (zrange 0 1) with [0]. cbn [map concat]. rewrite app_nil_r. do 3 f_equal.
  destruct (edges_map _ _ whole_edges) as (_ & _ & _ & <- & _). rewrite <- Ea. clear -Ea w_bc. rewrite Ea. clear Ea. revert B w_bc. induction gs as [|g l IH]; intros [|[lo hi] B] Lb; try discriminate; [reflexivity|].
  cbn [map lay with_bcs]. f_equal; [now destruct g|]. apply IH. simpl in Lb. lia.
Qed.

(* grids of the ranks that hold the field of D *)
Lemma some_grids np D : 0 < np -> vf valid gs B D -> (forall r ge, 0 <= r < np -> setup_mpi np gs gh r = Some ge -> Forall (fun a => a_x0 a < a_x1 a) (ge_axes ge)) ->
  exists data, filled valid np gs gh data /\ same_field np gs B gh data D.
Proof using All.
  intros Hnp VD H1. destruct (vf_field valid gs B Lb Sa D VD) as (F & VF & A). destruct (whole_box gs B Lb) as [Bx0 Bx1]. rewrite Bx0, Bx1 in VF, A. pose proof ok as Hok. pose proof Hs as [Sc Ll Hgh Hfr _ _ _ _ Hne _ _ _ _ _].
  assert (forall r, 0 <= r < np -> exists d, forall ge, setup_mpi np gs gh r = Some ge -> (zlen d = cells (ge_axes ge) /\ Forall valid d) /\ forall y, owns ge y -> grid_read true (ge_axes ge) d y = Some (F y)) as X.
  { intros r Hr. destruct (setup_mpi np gs gh r) as [ge|] eqn:E; [|exists []; discriminate].
    pose proof (deco_setup np gs gh Hnp Hne Hok ltac:(lia)) as DC. pose proof (dc_wf _ _ _ _ DC r Hr) as Wf. cbv beta in Wf. rewrite E in Wf. pose proof (cells_nonneg gh _ ltac:(lia) Wf) as C0.
    destruct (Z.eq_dec (cells (ge_axes ge)) 0) as [Z0|N0].
    - exists []. intros ge' Eg. injection Eg as <-. split; [split; [rewrite Z0; reflexivity|constructor]|]. intros y O. exfalso. pose proof (encode_bounds gh _ y Wf (local_in_storage gh _ y ltac:(lia) Wf O)). lia.
    - destruct (McRanksF.choose_ranks (fun p v => valid v /\ forall y, owns ge y -> encode (ge_axes ge) y = p -> v = F y) (cells (ge_axes ge)) ltac:(lia)) as (f & Hf).
      { intros p Hp. destruct (encode_onto gh _ p Wf ltac:(lia) Hp) as (y & Hy & Ey). 
        assert (owns ge y \/ ~ owns ge y) as [O|O] by (unfold owns; generalize (map a_x0 (ge_axes ge)) (map a_x1 (ge_axes ge)) y; clear; induction l as [|a l IH]; intros [|b m] [|x z]; cbn; try tauto; destruct (IH m z), (Z_le_gt_dec a x), (Z_lt_le_dec x b); [left|right|right|right|right|right|right|right]; lia || tauto).
        - exists (F y). split; [apply VF; eapply (owned_inside np gs gh r ge); eauto|]. intros z Oz Ez.
          assert (z = y) as -> by (apply (encode_inj gh (ge_axes ge)); auto; [now apply (local_in_storage gh); auto; lia|congruence]). reflexivity.
        - exists (fresh fields). split; [exact Hfr|]. intros z Oz Ez. exfalso. apply O.
          assert (z = y) as <- by (apply (encode_inj gh (ge_axes ge)); auto; [now apply (local_in_storage gh); auto; lia|congruence]). exact Oz. }
      exists (map f (zrange 0 (cells (ge_axes ge)))). intros ge' Eg. injection Eg as <-.
      assert (zlen (map f (zrange 0 (cells (ge_axes ge)))) = cells (ge_axes ge)) as Lf by (rewrite BaseL.zlen_map, BaseL.zlen_zrange; lia). split; [split; [exact Lf|]|].
      + apply Forall_forall. intros v Hv. apply in_map_iff in Hv as (p & <- & Hp). apply in_zrange in Hp. now apply Hf.
      + intros y O. pose proof (encode_bounds gh _ y Wf (local_in_storage gh _ y ltac:(lia) Wf O)) as Hb. rewrite read_local by exact O.
        rewrite ConvertL.get_map_zrange by lia. f_equal. destruct (Hf _ Hb) as [_ G]. now apply G. }
  destruct (McRanksF.choose_ranks _ np Hnp X) as (data & Hd). exists data. split.
  - intros r ge Hr E. now apply (Hd r Hr).
  - intros r ge y Hr E O. destruct (Hd r Hr ge E) as [_ H]. exists (F y). split; [now apply H|]. assert (in_box (map gx_0 gs) (map gx_1 gs) y) as By by (eapply (owned_inside np gs gh r ge); eauto).
    destruct whole_x as [X0 X1]. rewrite read_local by (rewrite X0, X1; exact By). rewrite whole_lay by apply Lb. now apply A.
Qed.

Lemma one_nonempty r ge : 0 <= r < 1 -> setup_mpi 1 gs gh r = Some ge -> Forall (fun a => a_x0 a < a_x1 a) (ge_axes ge).
Proof using All.
  intros Hr E. assert (r = 0) as -> by lia. destruct (one_rank gs gh (t_ne _ _ _ _ _ _ _ _ _ _ _ _ _ Hs) ok) as (ge' & E' & Ea). rewrite E in E'. injection E' as <-. rewrite Ea.
  pose proof (t_box _ _ _ _ _ _ _ _ _ _ _ _ _ Hs) as Hb. clear -Hb. induction Hb as [|g l Hg F IH]; cbn [map lay]; constructor; [cbn; lia|exact IH].
Qed.
Lemma write_alone D : vf valid gs B D -> writes_alone c raw compress gs B D -> exists file, output_serial c dshow raw compress name fields w dx D = Some file /\ ckpt 1 D file.
Proof using All.
  intros VD [Hr Hb]. destruct (some_grids 1 D ltac:(lia) VD one_nonempty) as (data & Fl & Sf). destruct (vf_field valid gs B Lb Sa D VD) as (V & VF & A).
  destruct (whole_box gs B Lb) as [Bx0 Bx1]. rewrite Bx0, Bx1 in VF, A. destruct whole_x as [X0 X1]. pose proof ok as Hok.
  assert (has_field gs B D V) as Fd. { intros y By. rewrite read_local by (rewrite X0, X1; exact By). rewrite whole_lay by apply Lb. now apply A. }
  destruct (one_rank gs gh (t_ne _ _ _ _ _ _ _ _ _ _ _ _ _ Hs) Hok) as (ge & E & Ea).
  assert (hold 1 gs gh B data V) as Hh.
  { intros r ge' Hr' E'. destruct (Fl r ge' Hr' E') as [L _]. split; [exact L|]. intros y O. destruct (Sf r ge' y Hr' E' O) as (v & E1 & E2).
    assert (in_box (map gx_0 gs) (map gx_1 gs) y) as By. { eapply (owned_inside 1 gs gh r ge'); eauto using (t_ne _ _ _ _ _ _ _ _ _ _ _ _ _ Hs). lia. }
    rewrite (Fd y By) in E2. injection E2 as <-. rewrite <- E1. destruct (with_bcs_same B (ge_axes ge')) as (Y0 & Y1 & _).
    rewrite !read_local by (rewrite ?Y0, ?Y1; exact O). f_equal. apply same_encode, with_bcs_same. }
  pose proof (values data V D Hh Fd ge E) as Vl.
  assert (writable_run c valid raw compress dshow dparse name fields gs dx B 1 gh data V) as Wr.
  { destruct Hs. split; auto; try lia.
    - apply Lb.
    - unfold int_range. lia.
    - intros r ge' Hr' E'. assert (r = 0) as -> by lia. rewrite E in E'. injection E' as <-. rewrite Ea. eapply same_recognisable; [apply whole_edges|exact Vl|exact Hr].
    - intros r ge' blk Hr' E'. assert (r = 0) as -> by lia. rewrite E in E'. injection E' as <-. rewrite Ea. rewrite (same_block c raw compress _ _ _ _ whole_edges Vl). apply Hb. }
  exists (CheckpointL.file c raw compress dshow name fields gs dx B 1 gh data). assert (ckpt 1 D (CheckpointL.file c raw compress dshow name fields gs dx B 1 gh data)) as Ck.
  { exists data, V. split; [exact Wr|]. split; [exact Fd|]. destruct Hs as [Sc Ll]. exact (writes_portable T c raw compress S dshow dparse valid fresh uncompress name fields gs dx B 1 gh data V Sc Ll Wr). }
  split; [now apply file_alone|exact Ck].
Qed.

(* ---- a run of the serial program ---- *)
Section Alone.
Context (update : nat -> list axis -> list T -> option (list T)).
Context (Hok : forall i D D', zlen D = cells w -> Forall valid D -> update i w D = Some D' -> zlen D' = cells w /\ Forall valid D').
Lemma alone_turns_ok turns : forall i D Dn, vf valid gs B D -> makes gs B update turns i D = Some Dn ->
  (forall n D', (n < turns)%nat -> makes gs B update (Datatypes.S n) i D = Some D' -> writes_alone c raw compress gs B D') ->
  vf valid gs B Dn /\ exists files, alone_turns c dshow raw compress update name fields w dx turns i D = Done files /\ length files = turns /\
    forall k, (k < turns)%nat -> exists D' file, makes gs B update (Datatypes.S k) i D = Some D' /\ nth_error files k = Some file /\ ckpt 1 D' file.
Proof using All.
  induction turns as [|t IH]; intros i D Dn VD E Hw.
  - injection E as <-. split; [exact VD|]. exists []. split; [reflexivity|]. split; [reflexivity|]. intros k Hk. lia.
  - cbn [makes] in E. destruct (update i w D) as [D1|] eqn:E1; cbn [bind] in E; [|discriminate].
    assert (vf valid gs B D1) as V1 by (destruct VD; eapply Hok; eauto).
    destruct (write_alone D1 V1) as (file & W & Ck). { apply (Hw O); [lia|]. cbn [makes]. rewrite E1. reflexivity. }
    destruct (IH (Datatypes.S i) D1 Dn V1 E) as (Vn & files & R & L & H).
    { intros n D' Hn En. apply (Hw (Datatypes.S n)); [lia|]. change (makes gs B update (Datatypes.S (Datatypes.S n)) i D) with (do D <- update i w D; makes gs B update (Datatypes.S n) (Datatypes.S i) D). now rewrite E1. }
    split; [exact Vn|]. exists (file :: files). split; [|split; [cbn; congruence|]].
    + cbn [alone_turns]. rewrite E1. cbn [req obind]. rewrite W. cbn [req obind]. now rewrite R.
    + intros [|k] Hk; [exists D1, file; cbn [makes]; rewrite E1; auto|]. destruct (H k ltac:(lia)) as (D' & file' & H1 & H2 & H3). exists D', file'.
      split; [|auto]. change (makes gs B update (Datatypes.S (Datatypes.S k)) i D) with (do D <- update i w D; makes gs B update (Datatypes.S k) (Datatypes.S i) D). now rewrite E1.
Qed.
Lemma alone_ok np D file turns Dn : zlen D = cells w -> ckpt np D file -> makes gs B update turns 0 D = Some Dn ->
  (forall n D', (n < turns)%nat -> makes gs B update (Datatypes.S n) 0 D = Some D' -> writes_alone c raw compress gs B D') ->
  zlen Dn = cells w /\ exists files, alone_run c fresh dshow dparse raw compress uncompress update name (length gs) file turns = Done files /\ length files = turns /\
    forall k, (k < turns)%nat -> exists D' file', makes gs B update (Datatypes.S k) 0 D = Some D' /\ nth_error files k = Some file' /\ ckpt 1 D' file'.
Proof using All.
  intros LD Ck E Hw. destruct (read_alone np D file LD Ck) as (ld & I & F1 & F2 & F3 & F4).
  assert (vf valid gs B D) as VD. { destruct Hs. eapply (ckpt_valid c valid fresh dshow dparse raw compress uncompress name fields gs dx B gh); eauto. }
  destruct (alone_turns_ok turns 0 D Dn VD E Hw) as ((L & _) & files & R & X). split; [exact L|]. exists files. split; [|exact X].
  unfold alone_run. rewrite I. cbn [obind]. rewrite F1, F2, F3, F4. exact R.
Qed.
End Alone.

(* the update() of a program that runs in parallel as well *)
Lemma sensible_serial j : usable c valid gs gh (j_ranks j) -> faithful valid gs B gh j -> forall i D D', zlen D = cells w -> Forall valid D -> j_serial j i D = Some D' -> zlen D' = cells w /\ Forall valid D'.
Proof using All.
  intros Hu Hf i D D' LD VD E. pose proof Hu as (Hnp & _ & bound & _ & _ & HI).
  destruct (some_grids (j_ranks j) D Hnp (conj LD VD)) as (data & Fl & Sf). { intros r ge Hr Eg. destruct (HI r ge Hr Eg) as [X _]. eapply Forall_impl; [|exact X]. cbn. tauto. }
  apply (Hf i data D D' Fl LD VD Sf E).
Qed.

(* what one rank can write the serial program can write *)
Lemma one_writes D : vf valid gs B D -> can_write c valid raw compress gs B gh 1 D -> writes_alone c raw compress gs B D.
Proof using All.
  intros VD Hc. destruct (some_grids 1 D ltac:(lia) VD one_nonempty) as (data & Fl & Sf). destruct (vf_field valid gs B Lb Sa D VD) as (V & VF & A).
  destruct (whole_box gs B Lb) as [Bx0 Bx1]. rewrite Bx0, Bx1 in VF, A. destruct whole_x as [X0 X1]. pose proof ok as Hok.
  assert (has_field gs B D V) as Fd. { intros y By. rewrite read_local by (rewrite X0, X1; exact By). rewrite whole_lay by apply Lb. now apply A. }
  destruct (one_rank gs gh (t_ne _ _ _ _ _ _ _ _ _ _ _ _ _ Hs) Hok) as (ge & E & Ea).
  assert (hold 1 gs gh B data V) as Hh.
  { intros r ge' Hr' E'. destruct (Fl r ge' Hr' E') as [L _]. split; [exact L|]. intros y O. destruct (Sf r ge' y Hr' E' O) as (v & E1 & E2).
    assert (in_box (map gx_0 gs) (map gx_1 gs) y) as By. { eapply (owned_inside 1 gs gh r ge'); eauto using (t_ne _ _ _ _ _ _ _ _ _ _ _ _ _ Hs). lia. }
    rewrite (Fd y By) in E2. injection E2 as <-. rewrite <- E1. destruct (with_bcs_same B (ge_axes ge')) as (Y0 & Y1 & _).
    rewrite !read_local by (rewrite ?Y0, ?Y1; exact O). f_equal. apply same_encode, with_bcs_same. }
  pose proof (values data V D Hh Fd ge E) as Vl. destruct (Hc data V Fd Hh 0 ge ltac:(lia) E) as [H1 H2]; [apply (Fl 0 ge ltac:(lia) E)|]. rewrite Ea in H1, H2.
  split.
  - intros n bs Sz To. apply (H1 n bs); [rewrite (same_size c raw compress _ _ _ _ whole_edges Vl); exact Sz|rewrite (same_buffer c raw compress _ _ _ _ whole_edges Vl); exact To].
  - intros blk W. apply H2. now rewrite (same_block c raw compress _ _ _ _ whole_edges Vl).
Qed.
End Mixed.
