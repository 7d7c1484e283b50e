From stdpp Require Import gmap.
From Verif Require Import Model.Base Model.Text Model.Boundary Model.Layout Model.Access Model.Setup Model.Codec Model.Region Model.MPI Model.Ghostswap
  Model.Stencil Model.File Model.Simulate Model.Jobs Spec.Box Spec.Bytes Spec.Access Spec.Stencil Spec.Decomp Spec.File Spec.Schedule Spec.Jobs
  Proof.BaseL Proof.LayoutL Proof.AccessL Proof.StencilS Proof.MPIL Proof.ExecL Proof.CodecL Proof.RegionL Proof.FileL Proof.SetupL Proof.HaloL Proof.CheckpointL Proof.WriteL Proof.SimulateL Props.File.
From Coq Require Import ZifyBool.
Local Open Scope Z_scope.

(* ---- sequencing ---- *)
Section Seq.
Context {A B : Type}.

Lemma lstep_bind np r g (p p' : proc A) ch ch' (k : A -> proc B) : lstep np r g p ch p' ch' -> lstep np r g (pbind p k) ch (pbind p' k) ch'.
Proof. intros H. inversion H; subst; simpl; try (constructor; auto; fail). eapply (step_recv np r s t (fun m => pbind (k0 m) k)); eauto. Qed.

Fixpoint zipb (ps : list (proc A)) (ks : list (A -> proc B)) : list (proc B) :=
  match ps, ks with p :: ps', k :: ks' => pbind p k :: zipb ps' ks' | _, _ => [] end.
Lemma length_zipb ps : forall ks, length ks = length ps -> length (zipb ps ks) = length ps.
Proof. induction ps as [|p ps IH]; intros [|k ks]; simpl; intros; try discriminate; auto. Qed.
Lemma nth_zipb ps : forall ks i p k, nth_error ps i = Some p -> nth_error ks i = Some k -> nth_error (zipb ps ks) i = Some (pbind p k).
Proof. induction ps as [|q ps IH]; intros [|l ks] [|i] p k; simpl; intros H1 H2; try discriminate; [congruence|]. eauto. Qed.
Lemma set_nth_zipb ps : forall ks i p k, nth_error ks i = Some k -> set_nth i (zipb ps ks) (pbind p k) = zipb (set_nth i ps p) ks.
Proof. induction ps as [|q ps IH]; intros [|l ks] [|i] p k; simpl; intros H; try discriminate; auto; [congruence|]. f_equal. now apply IH. Qed.
Lemma at_coll_zipb kind ps ms cs : at_coll kind ps ms cs -> forall ks, length ks = length ps ->
  exists cs', at_coll kind (zipb ps ks) ms cs' /\ forall l, map (fun k => k l) cs' = zipb (map (fun k => k l) cs) ks.
Proof.
  induction 1 as [|m k ps ms cs H IH]; intros [|l ks]; simpl; intros L; try discriminate.
  - exists []. split; [constructor|reflexivity].
  - destruct (IH ks ltac:(lia)) as (cs' & H1 & H2). eexists (_ :: cs'). split; [constructor; exact H1|]. intros x. simpl. now rewrite H2.
Qed.

Lemma step_zipb g ps ch ps' ch' ks : length ks = length ps -> step g (ps, ch) (ps', ch') -> step g (zipb ps ks, ch) (zipb ps' ks, ch') /\ length ps' = length ps.
Proof.
  intros L H. inversion H as [g1 r p p' qs qs' c0 c1 G S P|kind qs ms cs c0 Hne AC]; subst.
  - apply put_some in P as [R ->]. split; [|now rewrite length_set_nth].
    unfold get in G. destruct (Z.ltb_spec r 0); [discriminate|].
    destruct (nth_error ks (Z.to_nat r)) as [k|] eqn:Ek; [|apply nth_error_None in Ek; unfold zlen in R; lia].
    apply (step_local g r (pbind p k) (pbind p' k)).
    + unfold get. destruct (Z.ltb_spec r 0); [lia|]. now apply nth_zipb.
    + replace (zlen (zipb ps ks)) with (zlen ps) by (unfold zlen; rewrite length_zipb; auto). now apply lstep_bind.
    + rewrite put_ok by (unfold zlen in *; rewrite length_zipb; auto). f_equal. now apply set_nth_zipb.
  - destruct (at_coll_zipb _ _ _ _ AC ks L) as (cs' & A1 & A2). split.
    + rewrite <- A2. eapply step_coll; eauto. destruct ps, ks; simpl in *; try discriminate; congruence.
    + rewrite map_length. clear - AC. induction AC; simpl; auto.
Qed.
Lemma gsteps_zipb n : forall ps ch ps' ch' ks, length ks = length ps -> gsteps n (ps, ch) (ps', ch') -> gsteps n (zipb ps ks, ch) (zipb ps' ks, ch').
Proof.
  induction n as [|n IH]; intros ps ch ps' ch' ks L H; inversion H as [|n' s1 [ps2 ch2] s3 S G]; subst; [constructor|].
  destruct (step_zipb _ _ _ _ _ ks L S) as [S' L']. econstructor; [exact S'|]. apply IH; congruence || auto.
Qed.
Lemma zipb_ranks np (P : Z -> proc A) (K : Z -> A -> proc B) : zipb (ranks np P) (map K (zrange 0 np)) = ranks np (fun r => pbind (P r) (K r)).
Proof. unfold ranks. induction (zrange 0 np) as [|r l IH]; simpl; [reflexivity|]. now rewrite IH. Qed.
Lemma gsteps_bind np n (P Q : Z -> proc A) (K : Z -> A -> proc B) ch ch' : gsteps n (ranks np P, ch) (ranks np Q, ch') ->
  gsteps n (ranks np (fun r => pbind (P r) (K r)), ch) (ranks np (fun r => pbind (Q r) (K r)), ch').
Proof. intros H. rewrite <- !zipb_ranks. apply gsteps_zipb; [|exact H]. unfold ranks. now rewrite !map_length. Qed.
End Seq.

(* ---- the initial channels ---- *)
Section Quiet.
Context {A : Type}.
Definition ceq (a b : chans) := forall s d t, chan a s d t = chan b s d t.
Lemma ceq_set a b s d t q : ceq a b -> ceq (set_chan a s d t q) (set_chan b s d t q).
Proof. intros E s' d' t'. rewrite !chan_set. destruct (_ && _); auto. Qed.
Lemma lstep_ceq np r g (p p' : proc A) a b a' : ceq a b -> lstep np r g p a p' a' -> exists b', lstep np r g p b p' b' /\ ceq a' b'.
Proof.
  intros E H. inversion H; subst.
  - eexists. split; [constructor; auto|]. rewrite <- (E r d t). now apply ceq_set.
  - eexists. split; [eapply step_recv; eauto; rewrite <- E; eauto|]. now apply ceq_set.
  - eexists. split; [constructor; rewrite <- E; auto|auto].
  - eexists. split; [constructor|auto].
Qed.
Lemma step_ceq g (ps ps' : list (proc A)) a b a' : ceq a b -> step g (ps, a) (ps', a') -> exists b', step g (ps, b) (ps', b') /\ ceq a' b'.
Proof.
  intros E H. inversion H as [g1 r p p' qs qs' c0 c1 G S P|kind qs ms cs c0 Hne AC]; subst.
  - destruct (lstep_ceq _ _ _ _ _ _ _ _ E S) as (b' & S' & E'). exists b'. split; [eapply step_local; eauto|auto].
  - exists b. split; [eapply step_coll; eauto|auto].
Qed.
Lemma gsteps_ceq n : forall (ps ps' : list (proc A)) a b a', ceq a b -> gsteps n (ps, a) (ps', a') -> exists b', gsteps n (ps, b) (ps', b') /\ ceq a' b'.
Proof.
  induction n as [|n IH]; intros ps ps' a b a' E H; inversion H as [|n' s1 [ps2 a2] s3 S G]; subst; [exists b; split; [constructor|auto]|].
  destruct (step_ceq _ _ _ _ _ _ E S) as (b2 & S' & E2). destruct (IH _ _ _ _ _ E2 G) as (b' & G' & E'). exists b'. split; [econstructor; eauto|auto].
Qed.

Lemma gsteps_steps n (s s' : state A) : gsteps n s s' -> steps n s s'.
Proof. induction 1; econstructor; eauto. Qed.
Lemma inevitable_gsteps (s f : state A) : inevitable s f -> exists n, gsteps n s f.
Proof.
  intros [n H]. exists n.
  assert (forall j, (j <= n)%nat -> exists s', gsteps j s s') as X.
  { induction j as [|j IH]; intros Hj; [exists s; constructor|]. destruct (IH ltac:(lia)) as [s' G].
    destruct (H j s' (gsteps_steps _ _ _ G)) as [[_ [s'' S]]|[E _]]; [|lia].
    exists s''. replace (Datatypes.S j) with (j + 1)%nat by lia. eapply gsteps_app; [exact G|]. now apply gsteps_1. }
  destruct (X n ltac:(lia)) as [s' G]. destruct (H n s' (gsteps_steps _ _ _ G)) as [[H0 _]|[_ ->]]; [lia|exact G].
Qed.
Lemma quiet_ceq a b : quiet a -> quiet b -> ceq a b.
Proof. intros Ha Hb s d t. now rewrite Ha, Hb. Qed.

(* the only end of an execution *)
Lemma inevitable_end np (s f g : state A) a k : 0 < np -> inevitable s f -> steps k s g -> finished np a g -> g = f.
Proof.
  intros Hnp [n H] St [E _]. destruct (H k g St) as [[_ [s'' S]]|[_ ->]]; [|reflexivity]. exfalso.
  destruct g as [ps ch]. simpl in E. subst ps. exact (finished_stuck np a ch Hnp true s'' S).
Qed.
Lemma finished_fun np (a b : Z -> A) f : finished np a f -> finished np b f -> forall r, 0 <= r < np -> a r = b r.
Proof.
  intros [E1 _] [E2 _] r Hr. rewrite E1 in E2. assert (get (ranks np (fun r => Ret (a r))) r = get (ranks np (fun r => Ret (b r))) r) as E by now rewrite E2.
  rewrite !get_ranks in E by auto. congruence.
Qed.
End Quiet.

(* one phase of a parallel program, then the rest *)
Lemma phase {A B} np (P : Z -> proc A) a f (K : Z -> A -> proc B) ch : inevitable (ranks np P, no_chans) f -> finished np a f -> quiet ch ->
  exists n ch', quiet ch' /\ gsteps n (ranks np (fun r => pbind (P r) (K r)), ch) (ranks np (fun r => K r (a r)), ch').
Proof.
  intros I [E Q] Qc. destruct (inevitable_gsteps _ _ I) as [n G]. destruct f as [ps c1]. simpl in E, Q. subst ps.
  destruct (gsteps_ceq n _ _ _ _ _ (quiet_ceq _ _ quiet_empty Qc) G) as (ch' & G' & E'). exists n, ch'. split.
  - intros s d t. rewrite <- E'. apply Q.
  - exact (gsteps_bind np n P (fun r => Ret (a r)) K ch ch' G').
Qed.

(* ---- the serial program ---- *)
Lemma some_node ls : Forall serial_axis ls -> exists y, in_box (map l_x0 ls) (map l_x1 ls) y.
Proof. induction 1 as [|l w' (H & _) F [y IH]]; [exists []; exact I|]. exists (l_x0 l :: y). simpl. split; [lia|auto]. Qed.
Section Serial.
Context {T : Type} (valid : T -> Prop) (gs : list gaxis) (bs : list (Z * Z)) (rule : list Z -> list T -> option T).
Context (Lb : length bs = length gs) (Sa : Forall serial_axis (whole_lims gs bs)).
Context (Hrule : forall x vs, Forall valid vs -> zlen vs = 1 + 2 * zlen gs -> exists v, rule x vs = Some v /\ valid v).
Let w := whole_lims gs bs.
Let bx y := in_box (map l_x0 w) (map l_x1 w) y.

Definition vf (D : list T) := zlen D = cells (whole gs bs) /\ Forall valid D.

Lemma cell_node p : 0 <= p < cells (lay 0 w) -> exists y, bx y /\ encode (lay 0 w) y = p.
Proof using Lb Sa.
  intros Hp. assert (wf_axes 0 (lay 0 w)) as W by (apply wf_lay, lims_le, Sa). destruct (encode_onto 0 (lay 0 w) p W ltac:(lia) Hp) as (y & Iy & E).
  exists y. split; [|exact E]. unfold bx. rewrite <- map_x0_lay with (g := 0), <- map_x1_lay with (g := 0).
  assert (map a_s0 (lay 0 w) = map a_x0 (lay 0 w) /\ map a_s1 (lay 0 w) = map a_x1 (lay 0 w)) as [<- <-]; [|exact Iy].
  clear - W. revert W. induction (lay 0 w) as [|a l IH]; simpl; [auto|]. intros (W0 & W1 & _ & _ & _ & Wt). destruct (IH Wt) as [-> ->]. split; f_equal; lia.
Qed.
Lemma vf_field D : vf D -> exists F, (forall y, bx y -> valid (F y)) /\ forall y, bx y -> get D (encode (lay 0 w) y) = Some (F y).
Proof using Lb Sa.
  intros [L V]. rewrite whole_lay in L by auto. fold w in L.
  assert (exists v0 : T, True) as [v0 _].
  { destruct D as [|v0 D]; [exfalso|eauto]. rewrite zlen_nil in L. assert (exists y, bx y) as [y By].
    { apply some_node, Sa. }
    pose proof (idx_bounds w y Sa By). lia. }
  exists (fun y => match get D (encode (lay 0 w) y) with Some v => v | None => v0 end).
  assert (forall y, bx y -> exists v, get D (encode (lay 0 w) y) = Some v) as X.
  { intros y By. apply get_ok. pose proof (idx_bounds w y Sa By). unfold idx in *. lia. }
  split; intros y By; destruct (X y By) as [v Ev]; rewrite Ev; [|reflexivity].
  rewrite Forall_forall in V. apply V. unfold get in Ev. destruct (_ <? 0); [discriminate|]. eapply nth_error_In; eauto.
Qed.

Lemma sweep_total D : vf D -> exists D', vf D' /\ forall U, zlen U = cells (whole gs bs) -> sweep rule false (whole gs bs) D U = Some D'.
Proof using Lb Sa Hrule.
  intros VD. destruct (vf_field D VD) as (F & VF & A). unfold vf in *. rewrite whole_lay in VD |- * by auto. fold w in VD |- *.
  assert (forall U, zlen U = cells (lay 0 w) -> exists U', sweep rule false (lay 0 w) D U = Some U' /\ zlen U' = cells (lay 0 w) /\
    forall y, bx y -> get U' (encode (lay 0 w) y) = Some (next rule w F y)) as X.
  { intros U LU. eapply (whole_sweep valid 0 gs bs 0 0 rule Lb Sa); auto; intros; lia. }
  destruct (X D (proj1 VD)) as (D' & _ & L' & A'). exists D'. split; [split; [auto|]|].
  - apply Forall_forall. intros v Hv. apply In_nth_error in Hv as [p Hp].
    assert (0 <= Z.of_nat p < cells (lay 0 w)) as Rp.
    { assert (p < length D')%nat by (apply nth_error_Some; congruence). unfold zlen in L'. lia. }
    destruct (cell_node _ Rp) as (y & By & Ey). pose proof (A' y By) as E. rewrite Ey in E. unfold get in E. destruct (Z.ltb_spec (Z.of_nat p) 0); [lia|].
    rewrite Nat2Z.id, Hp in E. inversion E; subst v. eapply next_valid; eauto.
  - intros U LU. destruct (X U LU) as (U' & -> & LU' & AU). f_equal. apply get_ext; [congruence|]. intros p Hp. rewrite LU' in Hp.
    destruct (cell_node p Hp) as (y & By & <-). now rewrite AU, A'.
Qed.

Lemma after_ex n : forall D, vf D -> exists D', vf D' /\ after rule gs bs n D D'.
Proof using Lb Sa Hrule.
  induction n as [|n IH]; intros D VD; [exists D; split; [auto|intros U _; reflexivity]|].
  destruct (sweep_total D VD) as (D1 & V1 & E1). destruct (IH D1 V1) as (D' & V' & A'). exists D'. split; [auto|].
  intros U LU. cbn [serial_loop]. rewrite (E1 U LU). cbn [bind]. apply A', VD.
Qed.
Lemma after_fun n D D1 D2 : zlen D = cells (whole gs bs) -> after rule gs bs n D D1 -> after rule gs bs n D D2 -> D1 = D2.
Proof. intros L A1 A2. specialize (A1 D L). specialize (A2 D L). congruence. Qed.
Lemma after_app n m : forall D D1 D2, vf D -> after rule gs bs n D D1 -> after rule gs bs m D1 D2 -> after rule gs bs (n + m) D D2.
Proof using Lb Sa Hrule.
  induction n as [|n IH]; intros D D1 D2 VD A1 A2.
  - specialize (A1 D (proj1 VD)). simpl in A1. inversion A1; subst. exact A2.
  - destruct (sweep_total D VD) as (D' & V' & E'). intros U LU. cbn [Nat.add serial_loop]. rewrite (E' U LU). cbn [bind].
    apply (IH D' D1 D2 V'); [|auto|apply VD]. destruct (after_ex n D' V') as (D1' & _ & A'). 
    specialize (A1 D (proj1 VD)). cbn [serial_loop] in A1. rewrite (E' D (proj1 VD)) in A1. cbn [bind] in A1. rewrite (A' D (proj1 VD)) in A1. inversion A1; subst. exact A'.
Qed.
End Serial.

(* ---- jobs ---- *)
Lemma in_box_at gs : forall y j g, in_box (map gx_0 gs) (map gx_1 gs) y -> nth_error gs j = Some g -> gx_0 g <= nth j y 0 < gx_1 g.
Proof. induction gs as [|g gs IH]; intros [|v y] [|j] g' H E; simpl in *; try easy; [inversion E; subst; lia|]. apply (IH y j g'); tauto. Qed.
Lemma carries_self ws : carries_out ws ws.
Proof.
  assert (forall w, part_of w w) as P by (intros w; exists [], []; rewrite app_nil_r, zlen_nil; split; [reflexivity|lia]).
  split; [intros p Hp; eauto|]. intros w Hw k Hk. exists w. split; [auto|]. split; [auto|]. lia.
Qed.
Lemma writes_unique {T D} (c : codec T) raw compress (dshow : D -> list byte) name fields np axs dx (data : Z -> list T) file1 file2 :
  writes_file c raw compress dshow name fields np axs dx data file1 -> writes_file c raw compress dshow name fields np axs dx data file2 -> file1 = file2.
Proof.
  intros (W & f & F & I & H) (W' & f' & F' & I' & H'). assert (f' = f) as -> by (eapply inevitable_unique; eauto).
  rewrite <- (H _ _ (carries_self _) (carries_self _)), <- (H' _ _ (carries_self _) (carries_self _)).
  assert (forall r, In r (zrange 0 np) -> W r = W' r) as E by (intros r Hr; apply in_zrange in Hr; eapply finished_fun; eauto).
  assert (forall g : list write * list write -> list write, flat_map (fun r => g (W r)) (zrange 0 np) = flat_map (fun r => g (W' r)) (zrange 0 np)) as X.
  { intros g. rewrite !flat_map_concat_map. f_equal. apply map_ext_in. intros r Hr. now rewrite E. }
  now rewrite !X.
Qed.

Lemma flat16 (f : axis -> list byte) l : (forall a, zlen (f a) = 8) -> zlen (flat_map f l) = 8 * zlen l.
Proof. intros H. induction l as [|a l IH]; [reflexivity|]. simpl. rewrite zlen_app, zlen_cons, H, IH. lia. Qed.
Lemma zip_bcs B : forall axs, length B = length axs -> zip_with set_bounds_axis axs B = with_bcs B axs.
Proof. induction B as [|[lo hi] B IH]; intros [|a axs]; simpl; intros L; try discriminate; [reflexivity|]. now rewrite IH by lia. Qed.

Section Job.
Context {T : Type} (rule : list Z -> list T -> option T) (c : codec T) (valid : T -> Prop) (fresh : Z -> T).
Context {S : Type} (dshow : S -> list byte) (dparse : list byte -> option S).
Context (raw : bool) (compress : list byte -> list byte) (uncompress : list byte -> Z -> option (list byte)).
Context (name : list byte) (fields : Z) (gs : list gaxis) (dx : list S) (B : list (Z * Z)) (gh : Z).
Context (Sc : serialises c valid) (Ll : lossless compress uncompress) (Hgh : 1 <= gh) (Hfr : valid (fresh fields)).
Context (Hrule : forall x vs, Forall valid vs -> zlen vs = 1 + 2 * zlen gs -> exists v, rule x vs = Some v /\ valid v).
Context (Hbs : Forall2 (fun g b => gx_0 g < gx_1 g /\ serial_side (fst b) (glen g) /\ serial_side (snd b) (glen g)) gs B).
Context (Hname : good_name name) (Hfields : int_range fields) (Hdim : int_range (zlen gs)) (Hne : gs <> []).
Context (Hbox : Forall (fun g => int_box g /\ gx_0 g < gx_1 g) gs) (Hdx : length dx = length gs) (Hex : Forall (exact_text dshow dparse) dx).
Context (HBi : Forall (fun b => int_range (fst b) /\ int_range (snd b)) B).
Context (Hhead : zlen (header dshow name fields gs dx) + 4 < 2 ^ 64).

Notation ckpt := (checkpoint c valid dshow dparse raw compress name fields gs dx B gh).
Notation aft := (after rule gs B).

Lemma Lb : length B = length gs. Proof using All. symmetry. eapply Forall2_length, Hbs. Qed.
Lemma Sa : Forall serial_axis (whole_lims gs B). Proof using All. apply whole_serial, Hbs. Qed.

Section Ranks.
Context (np : Z) (Hu : usable c valid gs gh np).
Lemma Hnp : 0 < np. Proof using All. apply Hu. Qed.
Definition geo r := match setup_mpi np gs gh r with Some ge => ge | None => dgeom end.
Lemma geo_some r : 0 <= r < np -> setup_mpi np gs gh r = Some (geo r).
Proof using All.
  intros Hr. assert (gok gs) as Hok by (unfold gok; eapply Forall_impl; [|exact Hbox]; simpl; lia).
  destruct (setup_eq np gs gh r Hnp Hne Hok Hr) as (p & _ & _ & _ & _ & E). unfold geo. now rewrite E.
Qed.
Lemma geo_len r : 0 <= r < np -> length (ge_axes (geo r)) = length gs.
Proof using All.
  intros Hr. assert (gok gs) as Hok by (unfold gok; eapply Forall_impl; [|exact Hbox]; simpl; lia).
  pose proof (deco_setup np gs gh Hnp Hne Hok ltac:(lia)) as DC. destruct (dc_len _ _ _ _ DC r Hr) as (L & _). rewrite (geo_some r Hr) in L. auto.
Qed.

(* the ranks' grids contain the field of the serial grid D *)
Definition same (data : Z -> list T) (D : list T) : Prop := forall r, 0 <= r < np -> zlen (data r) = cells (ge_axes (geo r)) /\ Forall valid (data r) /\
  forall y, owns (geo r) y -> grid_read true (ge_axes (geo r)) (data r) y = grid_read false (whole gs B) D y.

Lemma own_read r (d : list T) y : 0 <= r < np -> owns (geo r) y -> grid_read true (with_bcs B (ge_axes (geo r))) d y = grid_read true (ge_axes (geo r)) d y.
Proof using All.
  intros Hr O. pose proof (geo_len r Hr) as L. rewrite <- zip_bcs by (rewrite L; apply Lb).
  assert (length y = length (ge_axes (geo r))) as Ly by (unfold owns in O; apply in_box_length in O as [H _]; now rewrite map_length in H).
  rewrite (grid_read_eq true (ge_axes (geo r))) by auto.
  rewrite grid_read_eq by (rewrite length_zip_with; [auto|rewrite L; apply Lb]).
  rewrite encode_zip by (rewrite L; apply Lb). f_equal. f_equal. rewrite (adjust_in true (ge_axes (geo r))) by exact O. apply adjust_in.
  unfold owns in O. rewrite !map_zip_axes by (auto; rewrite L; apply Lb). exact O.
Qed.

Lemma writable_same data D : vf valid gs B D -> same data D -> can_write c valid raw compress gs B gh np D ->
  exists V, has_field gs B D V /\ writable_run c valid raw compress dshow dparse name fields gs dx B np gh data V.
Proof using All.
  intros VD Sm Wr. destruct (vf_field valid gs B Lb Sa D VD) as (F & VF & A).
  destruct (whole_box gs B Lb) as [Bx0 Bx1].
  assert (has_field gs B D F) as Fd.
  { intros x Bx. rewrite <- Bx0, <- Bx1 in Bx. rewrite whole_lay by apply Lb. rewrite read_idx by now apply local_len. rewrite cbs_in by auto. now apply A. }
  assert (hold np gs gh B data F) as Hh.
  { intros r ge Hr E. rewrite (geo_some r Hr) in E. inversion E; subst ge. destruct (Sm r Hr) as (L & _ & H). split; [exact L|]. intros x O.
    rewrite own_read by auto. rewrite H by auto. apply Fd. eapply (owned_inside np gs gh r (geo r)); auto; [apply Hnp|unfold gok; eapply Forall_impl; [|exact Hbox]; simpl; lia|now apply geo_some]. }
  exists F. split; [exact Fd|]. destruct Hu as (U1 & U2 & _). split; auto; try lia.
  - apply Lb.
  - intros x Bx. apply VF. now rewrite Bx0, Bx1.
  - intros r ge Hr E. apply (Wr data F Fd Hh r ge Hr E). rewrite (geo_some r Hr) in E. inversion E; subst ge. apply (Sm r Hr).
  - intros r ge blk Hr E. apply (Wr data F Fd Hh r ge Hr E). rewrite (geo_some r Hr) in E. inversion E; subst ge. apply (Sm r Hr).
Qed.

(* builds without compression can write everything that is small enough *)
Lemma raw_can_write bound D : raw = true -> 0 <= bound -> (forall v, valid v -> c_size c v <= bound) ->
  (forall r ge, 0 <= r < np -> setup_mpi np gs gh r = Some ge -> cells (ge_axes ge) * bound + 16 * zlen gs + 16 < int_max) ->
  can_write c valid raw compress gs B gh np D.
Proof using All.
  intros Er B0 HB Hs data V _ Hh r ge Hr E Vd. destruct (Hh r ge Hr E) as [Ld _]. pose proof (Hs r ge Hr E) as Sm. rewrite (geo_some r Hr) in E. inversion E; subst ge. clear E.
  assert (gok gs) as Hok by (unfold gok; eapply Forall_impl; [|exact Hbox]; simpl; lia).
  pose proof (dc_wf _ _ _ _ (deco_setup np gs gh Hnp Hne Hok ltac:(lia)) r Hr) as Wf. change (wf_axes gh (ge_axes (geo r))) in Wf.
  pose proof (geo_len r Hr) as L. pose proof (with_bcs_same B (ge_axes (geo r))) as Sl. set (axs := with_bcs B (ge_axes (geo r))) in *.
  assert (wf_axes gh axs) as W by (eapply same_wf; [apply same_sym; eauto|auto]).
  assert (length axs = length gs) as La by (rewrite (same_len _ _ Sl); auto).
  assert (axs <> []) as Na by (destruct axs, gs; try discriminate; congruence).
  assert (zlen (data r) = cells axs) as Lc by (rewrite Ld; symmetry; apply same_cells; auto).
  assert (cells axs = cells (ge_axes (geo r))) as Ec by (apply same_cells; auto).
  destruct (region_copy c valid zrange gh gh axs axs (map a_x0 axs) (map a_x1 axs) (map a_x0 axs) (map a_x1 axs) (data r) Sc rng_ok1 W W Na eq_refl)
    as (n & bs & Hn & Lbs & Sz & To & _); rewrite ?map_length; auto.
  - generalize (combine (map a_x1 axs) (map a_x0 axs)). intros l. induction l; constructor; auto.
  - intros y Hy. apply in_rng1 in Hy. apply (local_in_storage gh); [lia|auto|exact Hy].
  - intros y Hy. apply in_rng1 in Hy. apply (local_in_storage gh); [lia|auto|exact Hy].
  - intros y v _ Hy. rewrite Forall_forall in Vd. apply Vd. unfold get in Hy. destruct (_ <? 0); [discriminate|]. eapply nth_error_In; eauto.
  - specialize (To [] (repeat 0 (Z.to_nat n)) []). rewrite !app_nil_r in To. cbn [app] in To. change (zlen (@nil byte)) with 0 in To.
    assert (n <= cells axs * bound) as Hb.
    { eapply (buffer_bound c valid zrange gh axs (data r) (map a_x0 axs) (map a_x1 axs) n bound); eauto using rng_ok1. apply (inside_storage gh); auto; [lia|]. eapply inside_self, wf_le; eauto. }
    split.
    + intros m bs' Sz' _. rewrite Sz in Sz'. inversion Sz'; subst m. split; [|rewrite Er; discriminate].
      unfold int_max in *. pose proof (zlen_nonneg gs). Z.to_euclidean_division_equations; lia.
    + intros blk. unfold write_buffer. rewrite Sz. cbn [bind]. rewrite To by (unfold zlen; rewrite repeat_length; lia). rewrite Er. simpl. intros E. inversion E; subst blk.
      rewrite !zlen_app, !flat16 by (intros a; reflexivity). assert (zlen axs = zlen gs) as -> by (unfold zlen; lia).
      rewrite !zlen_cons. clear - Hb Sm Ec Lbs. rewrite Ec in Hb. lia.
Qed.

(* the geometry of rank r after reading *)
Definition geo' r := let ge := geo r in mkGeom (with_bcs B (ge_axes ge)) (ge_ghosts ge) (ge_p1 ge) (ge_sp ge) (ge_pos ge) (ge_n0 ge) (ge_n1 ge).
Lemma geo_bounds r : 0 <= r < np -> with_bounds set_bounds_axis B (geo r) = geo' r.
Proof using All. intros Hr. unfold with_bounds, geo'. cbv zeta. rewrite zip_bcs; [reflexivity|]. rewrite geo_len by auto. apply Lb. Qed.

Context (inc : nat) (junk : Z -> nat -> list T) (Hj : some_memory valid gs gh np junk).

Lemma update_ok i data D : vf valid gs B D -> same data D -> exists D' data' f, vf valid gs B D' /\ aft inc D D' /\ same data' D' /\
  finished np data' f /\ inevitable (ranks np (fun r => update_mpi rule c (geo' r) inc (junk r i) (data r)), no_chans) f.
Proof using All.
  intros VD Sm. destruct (after_ex valid gs B rule Lb Sa Hrule inc D VD) as (D' & V' & A'). destruct Hu as (U1 & U2 & bound & U3 & U4 & U5).
  destruct (simulation_mid c valid np gs B gh bound rule inc data (fun r => junk r i) D D barrier 1 Sc U1 Hne Hgh U3 U4 Hbs) as (D0 & data' & f & E & _ & F & I & R); auto.
  - intros r ge Hr Eg. destruct (U5 r ge Hr Eg) as [H1 H2]. destruct (Hj r ge i Hr Eg) as [H3 H4]. rewrite (geo_some r Hr) in Eg. inversion Eg; subst ge.
    destruct (Sm r Hr) as (H5 & H6 & H7). auto 10.
  - apply VD.
  - apply VD.
  - intros P ch. apply gsteps_1. unfold barrier. apply (all_coll np 0 (fun _ => []) (fun r _ => P r) ch). lia.
  - rewrite (A' D (proj1 VD)) in E. inversion E; subst D0. exists D', data', f. split; [auto|]. split; [auto|]. split; [|split; [auto|]].
    + intros r Hr. destruct (R r (geo r) Hr (geo_some r Hr)) as (H1 & H2 & H3). split; [auto|]. split; [auto|]. intros y Oy. destruct (H3 y Oy) as (v & -> & ->). reflexivity.
    + erewrite ranks_ext; [exact I|]. intros r Hr. simpl. rewrite (geo_some r Hr). simpl. now rewrite geo_bounds.
Qed.

Lemma driver_ok turns : forall i data D ch, vf valid gs B D -> same data D -> quiet ch ->
  (forall k D', (k < turns)%nat -> aft (Datatypes.S k * inc) D D' -> can_write c valid raw compress gs B gh np D') ->
  exists W n ch', quiet ch' /\ (forall r, length (W r) = turns) /\
    gsteps n (ranks np (fun r => driver rule c dshow raw compress np name fields dx (geo' r) inc (junk r) r turns i (data r)), ch) (ranks np (fun r => Ret (W r)), ch') /\
    forall k, (k < turns)%nat -> exists D', aft (Datatypes.S k * inc) D D' /\ forall file, produces np W k file -> ckpt np D' file.
Proof using All.
  induction turns as [|t IH]; intros i data D ch VD Sm Q Hw.
  - exists (fun _ => []), O, ch. split; [auto|]. split; [auto|]. split; [constructor|]. intros k Hk. lia.
  - destruct (update_ok i data D VD Sm) as (D1 & data1 & f1 & V1 & A1 & S1 & F1 & I1).
    destruct (writable_same data1 D1 V1 S1) as (V & Fd & Wr).
    { apply (Hw O); [lia|]. rewrite Nat.mul_1_l. exact A1. }
    pose proof (writes_portable T c raw compress S dshow dparse valid fresh uncompress name fields gs dx B np gh data1 V Sc Ll Wr) as (W1 & f2 & F2 & I2 & H2).
    match type of (writes_portable T c raw compress S dshow dparse valid fresh uncompress name fields gs dx B np gh data1 V Sc Ll Wr) with writes_file _ _ _ _ _ _ _ _ _ _ ?fl => set (file1 := fl) in * end.
    destruct (phase np _ data1 f1 (fun r d => pbind (output_mpi c dshow raw compress np name fields (ge_axes (geo' r)) dx d r) (fun w =>
           pbind (driver rule c dshow raw compress np name fields dx (geo' r) inc (junk r) r t (Datatypes.S i) d) (fun ws => Ret (w :: ws)))) ch I1 F1 Q) as (n1 & ch1 & Q1 & G1).
    assert (inevitable (ranks np (fun r => output_mpi c dshow raw compress np name fields (ge_axes (geo' r)) dx (data1 r) r), no_chans) f2) as I2'.
    { erewrite ranks_ext; [exact I2|]. intros r Hr. simpl. unfold rank_axes. now rewrite (geo_some r Hr). }
    destruct (phase np _ W1 f2 (fun r w => pbind (driver rule c dshow raw compress np name fields dx (geo' r) inc (junk r) r t (Datatypes.S i) (data1 r)) (fun ws => Ret (w :: ws))) ch1 I2' F2 Q1) as (n2 & ch2 & Q2 & G2).
    destruct (IH (Datatypes.S i) data1 D1 ch2 V1 S1 Q2) as (W & n3 & ch3 & Q3 & L3 & G3 & H3).
    { intros k D' Hk A'. apply (Hw (Datatypes.S k)); [lia|]. change (Datatypes.S (Datatypes.S k) * inc)%nat with (inc + Datatypes.S k * inc)%nat.
      eapply (after_app valid gs B rule Lb Sa Hrule); eauto. }
    exists (fun r => W1 r :: W r), (n1 + (n2 + n3))%nat, ch3. split; [auto|]. split; [intros r; simpl; now rewrite L3|]. split.
    + eapply gsteps_app; [exact G1|]. eapply gsteps_app; [exact G2|]. exact (gsteps_bind np n3 _ (fun r => Ret (W r)) (fun r ws => Ret (W1 r :: ws)) ch2 ch3 G3).
    + intros [|k] Hk.
      * exists D1. split; [rewrite Nat.mul_1_l; exact A1|]. intros file (ps1 & ps2 & C1 & C2 & ->). simpl in C1, C2. rewrite (H2 ps1 ps2 C1 C2).
        exists data1, V. split; [auto|]. split; [auto|]. exists W1, f2. auto.
      * destruct (H3 k ltac:(lia)) as (D' & A' & H'). exists D'. split.
        { change (Datatypes.S (Datatypes.S k) * inc)%nat with (inc + Datatypes.S k * inc)%nat. eapply (after_app valid gs B rule Lb Sa Hrule); eauto. }
        intros file (ps1 & ps2 & C1 & C2 & E). apply H'. exists ps1, ps2. auto.
Qed.
End Ranks.

(* a file of np0 ranks read by np ranks *)
Lemma job_ok np0 D file np inc turns junk : zlen D = cells (whole gs B) -> ckpt np0 D file -> usable c valid gs gh np -> evenly np0 gs gh np gh ->
  some_memory valid gs gh np junk ->
  (forall k D', (k < turns)%nat -> aft (Datatypes.S k * inc) D D' -> can_write c valid raw compress gs B gh np D') ->
  vf valid gs B D /\
  exists W f, finished np W f /\ inevitable (started rule c fresh dshow dparse raw compress uncompress name gs gh np file inc turns junk) f /\
    (forall r, length (W r) = turns) /\
    forall k, (k < turns)%nat -> exists D', aft (Datatypes.S k * inc) D D' /\ forall file, produces np W k file -> ckpt np D' file.
Proof using All.
  intros LD (data0 & V & Wr & Fd & Wf) Hu Ev Hj Hw.
  assert (vf valid gs B D) as VD.
  { split; [auto|]. apply Forall_forall. intros v Hv. apply In_nth_error in Hv as [p Hp].
    assert (0 <= Z.of_nat p < cells (lay 0 (whole_lims gs B))) as Rp.
    { rewrite <- whole_lay by apply Lb. rewrite <- LD. assert (p < length D)%nat by (apply nth_error_Some; congruence). unfold zlen. lia. }
    destruct (cell_node gs B Lb Sa _ Rp) as (y & By & Ey). destruct (whole_box gs B Lb) as [Bx0 Bx1].
    assert (in_box (map gx_0 gs) (map gx_1 gs) y) as By' by (rewrite <- Bx0, <- Bx1; exact By).
    pose proof (Fd y By') as E. rewrite whole_lay in E by apply Lb. rewrite read_idx in E by now apply local_len. rewrite cbs_in in E by auto.
    unfold idx in E. rewrite Ey in E. unfold get in E. destruct (Z.ltb_spec (Z.of_nat p) 0); [lia|]. rewrite Nat2Z.id, Hp in E. inversion E; subst v. apply (w_valid _ _ _ _ _ _ _ _ _ _ _ _ _ _ _ Wr y By'). }
  split; [exact VD|].
  destruct (C25_read_ends_iff T c valid fresh raw compress uncompress S dshow dparse name fields gs dx B np0 gh data0 V Sc Ll Wr) as (file' & Wf' & Rd).
  assert (file' = file) as -> by (eapply writes_unique; eauto).
  pose proof Hu as (U1 & U2 & bound & U3 & U4 & U5).
  destruct (Rd np gh U1 ltac:(lia)) as [Re _].
  { split; [exact Hfr|]. exists bound. split; [auto|]. split; [auto|]. intros r ge Hr E. apply (U5 r ge Hr E). }
  destruct (Re Ev) as (L & f1 & F1 & I1 & H1).
  assert (forall r, 0 <= r < np -> ld_fields (L r) = fields /\ ld_dx (L r) = dx /\ ld_geom (L r) = geo np r /\ lo_axes (ld_local (L r)) = with_bcs B (ge_axes (geo np r))) as HL.
  { intros r Hr. destruct (H1 r (geo np r) Hr (geo_some np Hu r Hr)) as (E1 & E2 & E3 & _ & _ & E6). destruct E6 as [E6 _]; [intros q geq Hq Eq; apply (U5 q geq Hq Eq)|auto]. }
  assert (same np (fun r => lo_data (ld_local (L r))) D) as Sm.
  { intros r Hr. destruct (H1 r (geo np r) Hr (geo_some np Hu r Hr)) as (E1 & E2 & E3 & E4 & E5 & E6). split; [auto|]. split; [auto|]. intros y Oy.
    destruct E6 as [E6 E7]; [intros q geq Hq Eq; apply (U5 q geq Hq Eq)|].
    assert (gok gs) as Hok by (unfold gok; eapply Forall_impl; [|exact Hbox]; simpl; lia).
    pose proof (deco_setup np gs gh U1 Hne Hok ltac:(lia)) as DC. pose proof (dc_wf _ _ _ _ DC r Hr) as Wf0. change (wf_axes gh (ge_axes (geo np r))) in Wf0.
    assert (in_box (map gx_0 gs) (map gx_1 gs) y) as By by (eapply (owned_inside np gs gh r (geo np r)); auto; now apply geo_some).
    rewrite <- (own_read np Hu r _ y Hr Oy), <- E6. rewrite E7.
    - rewrite Fd by auto. f_equal. f_equal. rewrite <- (whole_gaxes gs B Lb). apply wrap_in. destruct (whole_box gs B Lb) as [-> ->]. exact By.
    - apply (local_in_storage gh); [lia|auto|]. exact Oy.
    - intros j g b Hg Hb. assert (gx_0 g <= nth j y 0 < gx_1 g) as N by (eapply in_box_at; eauto). split; intros; lia. }
  destruct (phase np _ L f1 (fun r ld => let ge0 := ld_geom ld in
     let ge := mkGeom (lo_axes (ld_local ld)) (ge_ghosts ge0) (ge_p1 ge0) (ge_sp ge0) (ge_pos ge0) (ge_n0 ge0) (ge_n1 ge0) in
     driver rule c dshow raw compress np name (ld_fields ld) (ld_dx ld) ge inc (junk r) r turns 0 (lo_data (ld_local ld))) no_chans I1 F1 quiet_empty) as (n1 & ch1 & Q1 & G1).
  destruct (driver_ok np Hu inc junk Hj turns 0 _ D ch1 VD Sm Q1 Hw) as (W' & n' & ch2 & Q' & LW' & G' & H').
  destruct (conclude np (job rule c fresh dshow dparse raw compress uncompress np gh name (length gs) file inc turns junk) W' (n1 + n') no_chans ch2 U1 Q') as (f & Ff & If).
  { eapply gsteps_app; [exact G1|]. erewrite ranks_ext; [exact G'|]. intros r Hr. cbv zeta. destruct (HL r Hr) as (-> & -> & -> & ->). reflexivity. }
  exists W', f. auto.
Qed.
End Job.
