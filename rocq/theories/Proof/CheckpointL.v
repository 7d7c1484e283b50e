From Coq Require Import String Permutation.
From Verif Require Import Model.Base Model.Text Model.Boundary Model.Layout Model.Access Model.Setup Model.Codec Model.Region
  Model.MPI Model.Ghostswap Model.File Spec.Box Spec.Access Spec.Bytes Spec.Decomp Spec.File Spec.Schedule
  Proof.BaseL Proof.LayoutL Proof.AccessL Proof.CodecL Proof.RegionL Proof.SerialL Proof.TextL Proof.FileL Proof.SetupL Proof.GhostL Proof.HaloL.
Local Open Scope list_scope.

Definition with_b (a : axis) (lo hi : Z) : axis :=
  mkAxis (a_g0 a) (a_g1 a) (a_x0 a) (a_x1 a) (a_s0 a) (a_s1 a) (a_sx a) (a_xx a) lo hi.

Lemma set_bcs_nth axs baxs j a b : nth_error axs j = Some a -> nth_error baxs j = Some b ->
  nth_error (set_bcs axs (lims_of baxs) (bcs_of baxs)) j =
    Some (with_b a (if a_x0 a =? a_x0 b then a_b0 b else a_b0 a) (if a_x1 a =? a_x1 b then a_b1 b else a_b1 a)).
Proof.
  revert axs baxs; induction j as [|j IH]; intros [|y axs] [|z baxs]; simpl; try discriminate.
  - intros [= ->] [= ->]. reflexivity.
  - intros Ha Hb. apply IH; auto.
Qed.

Lemma with_bcs_nth B axs j a lo hi : nth_error axs j = Some a -> nth_error B j = Some (lo, hi) ->
  nth_error (with_bcs B axs) j =
    Some (with_b a (if a_x0 a =? a_g0 a then lo else a_b0 a) (if a_x1 a =? a_g1 a then hi else a_b1 a)).
Proof.
  revert axs B; induction j as [|j IH]; intros [|y axs] [|[l h] B]; simpl; try discriminate.
  - intros [= ->] [= -> ->]. reflexivity.
  - intros Ha Hb. apply IH; auto.
Qed.

Lemma with_bcs_same B axs : same_layout (with_bcs B axs) axs.
Proof.
  revert axs; induction B as [|[lo hi] B IH]; intros [|a axs]; simpl; try apply same_refl.
  destruct (IH axs) as (H1 & H2 & H3 & H4 & H5 & H6 & H7 & H8). unfold same_layout. simpl.
  rewrite H1, H2, H3, H4, H5, H6, H7, H8. repeat split.
Qed.

Lemma with_b_b a l h l' h' : with_b (with_b a l h) l' h' = with_b a l' h'. Proof. reflexivity. Qed.
Lemma with_b_self a : with_b a (a_b0 a) (a_b1 a) = a. Proof. destruct a; reflexivity. Qed.

Lemma fold_upd_nth bl j a lo hi axs : Forall (fun b => length b = length axs) bl -> nth_error axs j = Some a ->
  (forall b bj, In b bl -> touches axs b = true -> nth_error b j = Some bj ->
     (a_x0 a = a_x0 bj -> a_b0 bj = lo) /\ (a_x1 a = a_x1 bj -> a_b1 bj = hi)) ->
  (a_b0 a = lo \/ exists b bj, In b bl /\ touches axs b = true /\ nth_error b j = Some bj /\ a_x0 a = a_x0 bj) ->
  (a_b1 a = hi \/ exists b bj, In b bl /\ touches axs b = true /\ nth_error b j = Some bj /\ a_x1 a = a_x1 bj) ->
  nth_error (fold_left upd bl axs) j = Some (with_b a lo hi).
Proof.
  revert axs a. induction bl as [|b bl IH]; intros axs a F Ha C Lo Hi; simpl.
  - destruct Lo as [<-|(b & _ & [] & _)]. destruct Hi as [<-|(b & _ & [] & _)]. now rewrite with_b_self.
  - inversion F as [|? ? Lb F']; subst. pose proof (upd_same axs b) as Sm.
    assert (j < length b)%nat as Hj by (rewrite Lb; apply nth_error_Some; congruence).
    destruct (nth_error b j) as [bj|] eqn:Hb; [|apply nth_error_None in Hb; lia].
    assert (exists l h, nth_error (upd axs b) j = Some (with_b a l h) /\
      (l = a_b0 a \/ l = lo) /\ (h = a_b1 a \/ h = hi) /\
      (touches axs b = true -> a_x0 a = a_x0 bj -> l = lo) /\ (touches axs b = true -> a_x1 a = a_x1 bj -> h = hi)) as (l & h & N & L & H & TL & TH).
    { unfold upd. destruct (touches axs b) eqn:T.
      - rewrite (set_bcs_nth _ _ _ _ _ Ha Hb). destruct (C b bj (or_introl eq_refl) T Hb) as [C1 C2].
        eexists _, _. split; [reflexivity|].
        destruct (Z.eqb_spec (a_x0 a) (a_x0 bj)) as [e0|e0]; destruct (Z.eqb_spec (a_x1 a) (a_x1 bj)) as [e1|e1]; auto;
          repeat split; intros; auto; try contradiction.
      - exists (a_b0 a), (a_b1 a). rewrite with_b_self. repeat split; auto; discriminate. }
    rewrite (IH (upd axs b) (with_b a l h)); auto.
    + rewrite (same_len _ _ Sm). auto.
    + intros b' bj' I' T' N'. rewrite (touches_same _ _ _ Sm) in T'. apply (C b' bj'); auto. simpl. auto.
    + simpl. destruct Lo as [E|(b' & bj' & I' & T' & N' & E')].
      * left. destruct L; congruence.
      * destruct I' as [<-|I']; [rewrite Hb in N'; inversion N'; subst; auto|].
        right. exists b', bj'. rewrite (touches_same _ _ _ Sm). auto.
    + simpl. destruct Hi as [E|(b' & bj' & I' & T' & N' & E')].
      * left. destruct H; congruence.
      * destruct I' as [<-|I']; [rewrite Hb in N'; inversion N'; subst; auto|].
        right. exists b', bj'. rewrite (touches_same _ _ _ Sm). auto.
Qed.

Lemma touches_of axs b x : length b = length axs -> in_box (map a_x0 axs) (map a_x1 axs) x ->
  in_box (map a_x0 b) (map a_x1 b) x -> touches axs b = true.
Proof.
  intros L H1 H2. unfold touches. apply forallb_overlap.
  assert (in_box (map fst (overlap_box axs (lims_of b))) (map snd (overlap_box axs (lims_of b))) x) as Hi.
  { apply in_overlap; [unfold lims_of; rewrite map_length; auto|]. unfold lims_of. rewrite !map_map. auto. }
  clear -Hi. revert x Hi. induction (overlap_box axs (lims_of b)) as [|r l IH]; intros [|e x]; simpl; try tauto; [constructor|].
  intros [H1 H2]. constructor; [lia|eauto].
Qed.

Lemma axes_ext (a b : list axis) : length a = length b ->
  (forall j x, nth_error a j = Some x -> nth_error b j = Some x) -> a = b.
Proof.
  revert b; induction a as [|x a IH]; intros [|y b] L H; try discriminate; [auto|].
  assert (Some y = Some x) as [= ->] by (rewrite <- (H O x eq_refl); reflexivity).
  f_equal. apply IH; [simpl in L; lia|]. intros j z Hj. apply (H (S j) z Hj).
Qed.

(* well-formed serial axes are determined by bounds and boundary conditions *)
Lemma wf_serial_eq axs : wf_axes 0 axs -> Forall (fun a => a_x0 a = a_g0 a /\ a_x1 a = a_g1 a) axs ->
  set_bcs (ge_axes (setup_single (map (fun a => mkG (a_g0 a) (a_g1 a)) axs) 0)) (lims_of axs) (bcs_of axs) = axs.
Proof.
  simpl. intros W F. induction axs as [|a axs IH]; [reflexivity|].
  inversion F as [|? ? [E0 E1] F']; subst. simpl in W. destruct W as (W1 & W2 & W3 & W4 & W5 & W6).
  simpl. rewrite IH by auto. f_equal.
  rewrite !map_map. simpl.
  assert (prodZ (map (fun x => a_g1 x + 0 - (a_g0 x - 0)) axs) = cells axs /\
          prodZ (map (fun x => a_g1 x - a_g0 x) axs) = nodes axs) as [P1 P2].
  { clear -W6 F'. induction axs as [|b axs IH]; [auto|]. inversion F' as [|? ? [E0 E1] F'']; subst.
    simpl in W6. destruct W6 as (W1 & W2 & W3 & W4 & W5 & W6). destruct IH as [I1 I2]; auto.
    simpl. rewrite !prodZ_cons, I1, I2, W1, W2, W4, W5, E0, E1. split; ring. }
  rewrite P1, P2, E0, E1. rewrite !Z.eqb_refl. destruct a; simpl in *. f_equal; lia.
Qed.

Section Serial.
Context {T : Type} (c : codec T) (valid : T -> Prop) (fresh : Z -> T) (raw : bool).
Context (compress : list byte -> list byte) (uncompress : list byte -> Z -> option (list byte)).
Context {D : Type} (dshow : D -> list byte) (dparse : list byte -> option D).
Context (S : serialises c valid) (Z1 : lossless compress uncompress).

Theorem serial_round_trip name fields axs dx data :
  good_name name -> int_range fields -> int_range (zlen axs) -> axs <> [] ->
  wf_axes 0 axs -> Forall (fun a => a_x0 a = a_g0 a /\ a_x1 a = a_g1 a /\ a_g0 a < a_g1 a) axs ->
  Forall (fun a => int_range (a_g0 a) /\ int_range (a_g1 a) /\ int_range (a_b0 a) /\ int_range (a_b1 a)) axs ->
  length dx = length axs -> Forall (exact_text dshow dparse) dx ->
  zlen data = cells axs -> Forall valid data -> recognisable c raw compress axs data ->
  exists file ld,
    output_serial c dshow raw compress name fields axs dx data = Some file /\
    input_serial c fresh dparse raw uncompress name (length axs) file = Done ld /\
    ld_fields ld = fields /\ ld_dx ld = dx /\ lo_axes (ld_local ld) = axs /\ lo_data (ld_local ld) = data.
Proof using S Z1.
  intros Gn Hf Hd Ne W F Fi Lx Fx Ld Fv Rec.
  assert (forall y v, get data (encode axs y) = Some v -> valid v) as V.
  { intros y v Hv. rewrite Forall_forall in Fv. apply Fv. unfold get in Hv. destruct (_ <? _); [discriminate|]. eapply nth_error_In; eauto. }
  assert (writable valid 0 axs data) as Wr.
  { split; [auto|]. split; [lia|]. split; [auto|]. split; [|split; [auto|intros; eapply V; eauto]].
    rewrite Forall_forall in *. intros a Ha. specialize (F a Ha). specialize (Fi a Ha).
    unfold int_axis. destruct F as (-> & -> & _). tauto. }
  destruct (block_bytes c valid fresh raw compress uncompress S Z1 0 axs data Wr) as (n & bs & Lbs & Sz & To & Wb & _).
  set (blk := block_head axs n (zlen (if raw then bs else compress bs)) ++ (if raw then bs else compress bs)) in *.
  set (gs := map (fun a => mkG (a_g0 a) (a_g1 a)) axs).
  assert (length gs = length axs) as Lg by (unfold gs; apply map_length).
  set (sax := ge_axes (setup_single gs 0)).
  assert (set_bcs sax (lims_of axs) (bcs_of axs) = axs) as Eset.
  { apply wf_serial_eq; auto. eapply Forall_impl; [|exact F]. simpl. tauto. }
  assert (same_layout axs sax) as Sm by (rewrite <- Eset at 1; apply set_bcs_layout).
  assert (wf_axes 0 sax) as Ws by (eapply same_wf; eauto).
  assert (cells sax = cells axs) as Ec by (symmetry; apply same_cells; auto).
  pose proof Sm as (M1 & M2 & M3 & M4 & _).
  set (dat0 := repeat (fresh fields) (Z.to_nat (cells sax))).
  assert (zlen dat0 = cells sax) as L0.
  { unfold dat0, zlen. rewrite repeat_length. pose proof (cells_nonneg 0 sax ltac:(lia) Ws). lia. }
  set (Vf := fun x => nth (Z.to_nat (encode axs x)) data (fresh 0)).
  destruct (read_ok c valid fresh raw compress uncompress S Z1 Vf 0 0 fields [(axs, data)] [blk] sax dat0 []) as (d' & E & Ld' & V1 & _).
  { exact Ws. } { lia. } { exact L0. } { unfold int_range. change (zlen [(axs, data)]) with 1. lia. }
  { constructor; [|constructor]. simpl. split; [apply same_len; auto|]. split; [auto|]. split; [auto|].
    intros x Hx. unfold Vf. apply get_nth. rewrite Ld. eapply encode_bounds; eauto. eapply local_in_storage; eauto. lia. }
  { constructor; [exact Wb|constructor]. }
  rewrite app_nil_r in E. cbn [concat map fold_left] in E. rewrite app_nil_r in E.
  assert (touches sax axs = true) as Tt.
  { apply (touches_of sax axs (map a_x0 axs)); [apply same_len; auto| |].
    - rewrite <- M1, <- M2. clear -F. induction F as [|a l (H1 & H2 & H3) F IH]; simpl; [auto|]. split; [lia|auto].
    - clear -F. induction F as [|a l (H1 & H2 & H3) F IH]; simpl; [auto|]. split; [lia|auto]. }
  eexists _, _. split; [unfold output_serial; rewrite Wb; reflexivity|]. split.
  - unfold input_serial, input. fold gs. rewrite <- Lg.
    rewrite read_header_ok; try (auto; fail).
    + cbn [obind req]. fold sax. fold dat0. 
      change (pd_enc pod_int 1 ++ blk) with (pd_enc pod_int (zlen [(axs, data)]) ++ blk). rewrite E. cbn [obind]. reflexivity.
    + unfold zlen. rewrite Lg. exact Hd.
    + unfold gs. rewrite Forall_map. eapply Forall_impl; [|exact Fi]. unfold int_box. simpl. tauto.
    + congruence.
  - simpl. split; [auto|]. split; [auto|]. split.
    + unfold upd. fold sax. rewrite Tt. exact Eset.
    + apply MPIL.get_ext; [congruence|]. intros p Hp. rewrite Ld', Ec in Hp.
      destruct (encode_onto 0 axs p W ltac:(lia) Hp) as (y & Hy & <-).
      assert (in_box (map a_x0 axs) (map a_x1 axs) y) as Hl.
      { clear -W Hy. revert y Hy. induction axs as [|a axs IH]; intros [|e y]; simpl; auto. simpl in W.
        intros [H1 H2]. split; [lia|]. apply IH; tauto. }
      rewrite (same_encode axs sax) by auto. rewrite (V1 y (axs, data)); simpl; auto; try congruence.
      unfold Vf. rewrite <- (same_encode axs sax) by auto. symmetry. apply get_nth. lia.
Qed.
End Serial.

(* ---- files of several ranks ---- *)
Lemma read_local {T} mpi axs (d : list T) x : in_box (map a_x0 axs) (map a_x1 axs) x ->
  grid_read mpi axs d x = get d (encode axs x).
Proof.
  intros H. rewrite grid_read_eq.
  - now rewrite adjust_in.
  - apply in_box_length in H. rewrite map_length in H. tauto.
Qed.

Section Portable.
Context {T : Type} (c : codec T) (valid : T -> Prop) (fresh : Z -> T) (raw : bool).
Context (compress : list byte -> list byte) (uncompress : list byte -> Z -> option (list byte)).
Context {D : Type} (dshow : D -> list byte) (dparse : list byte -> option D).
Context (S : serialises c valid) (Z1 : lossless compress uncompress).
Context (name : list byte) (fields : Z) (gs : list gaxis) (dx : list D) (B : list (Z * Z)).
Context (Hn : good_name name) (Hf : int_range fields) (Hd : int_range (zlen gs)) (Hne : gs <> []).
Context (Hgs : Forall (fun g => int_box g /\ gx_0 g < gx_1 g) gs).
Context (Hdx : length dx = length gs) (Hex : Forall (exact_text dshow dparse) dx).
Context (HB : length B = length gs) (HBi : Forall (fun b => int_range (fst b) /\ int_range (snd b)) B).
Context (np gh : Z) (Hnp : 0 < np) (Hnpi : int_range np) (Hgh : 0 <= gh) (data : Z -> list T) (V : list Z -> T).
Context (Hhold : hold np gs gh B data V) (HV : forall x, in_box (map gx_0 gs) (map gx_1 gs) x -> valid (V x)).
Context (Hrec : forall r ge, 0 <= r < np -> setup_mpi np gs gh r = Some ge -> recognisable c raw compress (with_bcs B (ge_axes ge)) (data r)).

Lemma Hok : gok gs.
Proof using All. unfold gok. eapply Forall_impl; [|exact Hgs]. simpl. intros a [_ H]. lia. Qed.

Definition geo n h r := match setup_mpi n gs h r with Some ge => ge | None => dgeom end.
Lemma geo_some n h r : 0 < n -> 0 <= r < n -> setup_mpi n gs h r = Some (geo n h r).
Proof using All. intros Hn' Hr. destruct (setup_eq n gs h r Hn' Hne Hok Hr) as (p1 & _ & _ & _ & _ & E). unfold geo. now rewrite E. Qed.

(* axes of a rank *)
Lemma rank_axis n h r j a : 0 < n -> 0 <= h -> 0 <= r < n -> nth_error (ge_axes (geo n h r)) j = Some a ->
  exists g lo hi, nth_error gs j = Some g /\ nth_error B j = Some (lo, hi) /\ int_box g /\ int_range lo /\ int_range hi /\
    a_g0 a = gx_0 g /\ a_g1 a = gx_1 g /\ gx_0 g <= a_x0 a /\ a_x0 a <= a_x1 a /\ a_x1 a <= gx_1 g /\
    (a_x0 a <> gx_0 g -> a_b0 a = parallel) /\ (a_x1 a <> gx_1 g -> a_b1 a = parallel).
Proof using All.
  intros Hn' Hh Hr Ha. pose proof (deco_setup n gs h Hn' Hne Hok Hh) as DC.
  pose proof (geo_some n h r Hn' Hr) as E.
  destruct (dc_len _ _ _ _ DC r Hr) as (L & _). fold (geo n h r) in L.
  assert (j < length gs)%nat as Hj by (rewrite <- L; apply nth_error_Some; congruence).
  destruct (axis_at n gs h r _ j Hn' Hne Hok Hr E Hj) as (g & p & k & a' & N1 & N2 & N3 & N4 & N5 & N6 & N7 & N8 & N9 & N10 & N11 & N12).
  rewrite Ha in N4. inversion N4; subst a'; clear N4.
  destruct (nth_error B j) as [[lo hi]|] eqn:Eb; [|apply nth_error_None in Eb; lia].
  exists g, lo, hi. split; [auto|]. split; [auto|].
  rewrite Forall_forall in Hgs, HBi. split; [apply Hgs; eapply nth_error_In; eauto|].
  pose proof (HBi _ (nth_error_In _ _ Eb)) as [I1 I2]. simpl in I1, I2. split; [auto|]. split; [auto|].
  split; [auto|]. split; [auto|].
  pose proof (dc_in _ _ _ _ DC r j Hr Hj) as X. cbv beta zeta in X. fold (geo n h r) in X.
  rewrite (nth_of_error _ _ _ dax Ha), (nth_of_error _ _ _ (mkG 0 0) N1) in X.
  split; [lia|]. split; [lia|]. split; [lia|]. rewrite N9, N10, N11, N12.
  split; intros Hx; match goal with |- context [?u =? ?v] => destruct (Z.eqb_spec u v) end; congruence.
Qed.

Lemma rank_len n h r : 0 < n -> 0 <= h -> 0 <= r < n -> length (ge_axes (geo n h r)) = length gs.
Proof using All.
  intros Hn' Hh Hr. pose proof (deco_setup n gs h Hn' Hne Hok Hh) as DC. apply (dc_len _ _ _ _ DC r Hr).
Qed.
Lemma rank_wf n h r : 0 < n -> 0 <= h -> 0 <= r < n -> wf_axes h (ge_axes (geo n h r)).
Proof using All.
  intros Hn' Hh Hr. pose proof (deco_setup n gs h Hn' Hne Hok Hh) as DC. apply (dc_wf _ _ _ _ DC r Hr).
Qed.

Definition wax r := with_bcs B (ge_axes (geo np gh r)).
Definition wblocks ws := map (fun r => (wax r, data r)) ws.

Lemma wax_owns r x : in_box (map a_x0 (wax r)) (map a_x1 (wax r)) x <-> owns (geo np gh r) x.
Proof using All. destruct (with_bcs_same B (ge_axes (geo np gh r))) as (E1 & E2 & _). unfold wax, owns. now rewrite E1, E2. Qed.

Lemma rank_writable r : 0 <= r < np -> length (wax r) = length gs /\ writable valid gh (wax r) (data r) /\
  recognisable c raw compress (wax r) (data r) /\
  forall x, in_box (map a_x0 (wax r)) (map a_x1 (wax r)) x -> get (data r) (encode (wax r) x) = Some (V x).
Proof using All.
  intros Hr. pose proof (geo_some np gh r Hnp Hr) as E. pose proof (with_bcs_same B (ge_axes (geo np gh r))) as Sm. fold (wax r) in Sm.
  pose proof (rank_len np gh r Hnp Hgh Hr) as L. pose proof (rank_wf np gh r Hnp Hgh Hr) as W.
  assert (length (wax r) = length gs) as Lw by (rewrite (same_len _ _ Sm); auto).
  destruct (Hhold r _ Hr E) as [Ld Vr]. fold (wax r) in Vr.
  assert (forall x, in_box (map a_x0 (wax r)) (map a_x1 (wax r)) x -> get (data r) (encode (wax r) x) = Some (V x)) as Vg.
  { intros x Hx. rewrite <- (read_local true) by auto. apply Vr. apply wax_owns; auto. }
  split; [auto|]. split; [|split; [apply Hrec; auto|exact Vg]].
  split; [eapply same_wf; [apply same_sym; eauto|auto]|]. split; [auto|]. split; [destruct (wax r), gs; try discriminate; congruence|].
  split; [|split; [rewrite Ld; symmetry; apply same_cells; auto|]].
  - apply Forall_forall. intros a Ha. apply In_nth_error in Ha as [j Hj].
    assert (j < length gs)%nat as Hjl by (rewrite <- Lw; apply nth_error_Some; congruence).
    destruct (nth_error (ge_axes (geo np gh r)) j) as [a0|] eqn:E0; [|apply nth_error_None in E0; lia].
    destruct (rank_axis np gh r j a0 Hnp Hgh Hr E0) as (g & lo & hi & G1 & G2 & [I1 I2] & I3 & I4 & G3 & G4 & G5 & G6 & G7 & G8 & G9).
    unfold wax in Hj. rewrite (with_bcs_nth _ _ _ _ _ _ E0 G2) in Hj. inversion Hj; subst a; clear Hj.
    unfold int_axis, int_range in *. simpl.
    split; [lia|]. split; [lia|]. unfold parallel in *.
    destruct (Z.eqb_spec (a_x0 a0) (a_g0 a0)), (Z.eqb_spec (a_x1 a0) (a_g1 a0)); split; try lia;
      try (rewrite G8 by congruence; lia); try (rewrite G9 by congruence; lia).
  - intros y v Hy Hv. rewrite Vg in Hv by auto. inversion Hv; subst v. apply HV.
    apply wax_owns in Hy. eapply owned_inside; eauto using Hok.
Qed.

Definition wblk r := match write_buffer c raw compress (wax r) (data r) with Some b => b | None => [] end.
Lemma wblk_ok r : 0 <= r < np -> write_buffer c raw compress (wax r) (data r) = Some (wblk r).
Proof using All.
  intros Hr. destruct (rank_writable r Hr) as (_ & Wr & _).
  destruct (block_bytes c valid fresh raw compress uncompress S Z1 gh _ _ Wr) as (n & bs & _ & _ & _ & E & _).
  unfold wblk. now rewrite E.
Qed.

Definition file : list byte := header dshow name fields gs dx ++ pd_enc pod_int np ++ concat (map wblk (zrange 0 np)).

(* the blocks of the file may be in any order *)
Definition file_in (ws : list Z) : list byte := header dshow name fields gs dx ++ pd_enc pod_int np ++ concat (map wblk ws).

Theorem portable_in ws np' gh' r ge : Permutation (zrange 0 np) ws -> 0 < np' -> 0 <= gh' -> 0 <= r < np' -> setup_mpi np' gs gh' r = Some ge ->
  exists ld, input c fresh dparse raw uncompress (fun gs => setup_mpi np' gs gh' r) name (length gs) (file_in ws) = Done ld /\
    ld_fields ld = fields /\ ld_dx ld = dx /\ ld_geom ld = ge /\ zlen (lo_data (ld_local ld)) = cells (ge_axes ge) /\
    same_layout (lo_axes (ld_local ld)) (ge_axes ge) /\
    (forall x, owns ge x -> grid_read true (lo_axes (ld_local ld)) (lo_data (ld_local ld)) x = Some (V x)) /\
    (Forall (fun a => a_x0 a < a_x1 a) (ge_axes ge) -> lo_axes (ld_local ld) = with_bcs B (ge_axes ge)) /\
    (forall x, in_box (map a_s0 (ge_axes ge)) (map a_s1 (ge_axes ge)) x -> ~ owns ge x ->
       get (lo_data (ld_local ld)) (encode (ge_axes ge) x) = Some (fresh fields)) /\
    ld_built ld = map (fun w => touches (ge_axes ge) (wax w)) ws.
Proof using All.
  intros Pw Hnp' Hgh' Hr E.
  assert (forall w, In w ws <-> 0 <= w < np) as in_ws by (intros w; rewrite <- in_zrange; split; apply Permutation_in; [now apply Permutation_sym|exact Pw]).
  assert (ge = geo np' gh' r) as Eg by (unfold geo; now rewrite E).
  pose proof (rank_len np' gh' r Hnp' Hgh' Hr) as L. rewrite <- Eg in L.
  pose proof (rank_wf np' gh' r Hnp' Hgh' Hr) as W. rewrite <- Eg in W.
  set (dat0 := repeat (fresh fields) (Z.to_nat (cells (ge_axes ge)))).
  assert (zlen dat0 = cells (ge_axes ge)) as L0.
  { unfold dat0, zlen. rewrite repeat_length. pose proof (cells_nonneg gh' _ Hgh' W). lia. }
  assert (zlen (wblocks ws) = np) as Lw by (unfold wblocks; rewrite zlen_map; unfold zlen; rewrite <- (Permutation_length Pw); fold (zlen (zrange 0 np)); rewrite zlen_zrange; lia).
  assert (forall b, In b (wblocks ws) -> exists w, 0 <= w < np /\ b = (wax w, data w)) as Inb.
  { intros b Hb. apply in_map_iff in Hb as (w & <- & Hw). apply in_ws in Hw. eauto. }
  destruct (read_ok c valid fresh raw compress uncompress S Z1 V gh' gh fields (wblocks ws) (map wblk ws) (ge_axes ge) dat0 [])
    as (d' & R & Ld' & V1 & U1); auto.
  { rewrite Lw. auto. }
  { apply Forall_forall. intros b Hb. destruct (Inb b Hb) as (w & Hw & ->). simpl.
    destruct (rank_writable w Hw) as (X1 & X2 & X3 & X4). rewrite L. auto. }
  { unfold wblocks. assert (Forall (fun r => 0 <= r < np) ws) as F by (apply Forall_forall; intros; now apply in_ws).
    revert F; generalize ws; intros l F; induction F; simpl; constructor; auto. simpl. apply wblk_ok. auto. }
  rewrite app_nil_r in R. rewrite Lw in R.
  set (fax := fold_left upd (map fst (wblocks ws)) (ge_axes ge)) in *.
  assert (same_layout fax (ge_axes ge)) as Sf by apply fold_upd_same.
  assert (map fst (wblocks ws) = map wax ws) as Ef by (unfold wblocks; rewrite map_map; reflexivity).
  assert (forall x, owns ge x -> exists w, 0 <= w < np /\ owns (geo np gh w) x) as Own.
  { intros x Hx. assert (in_box (map gx_0 gs) (map gx_1 gs) x) as Hb by (eapply (owned_inside np' gs gh'); eauto using Hok).
    destruct (partition np gs gh x Hnp Hne Hok Hb) as (w & gw & Hw & Ew & Ow & _).
    exists w. split; [auto|]. rewrite geo_some in Ew by auto. now inversion Ew; subst. }
  eexists. split; [|split; [|split; [|split; [|split; [|split; [|split; [|split; [|split]]]]]]]].
  - unfold input, file_in. rewrite read_header_ok; try (auto; fail).
    + cbn [obind]. rewrite E. cbn [req obind]. fold dat0. rewrite R. cbn [obind]. reflexivity.
    + eapply Forall_impl; [|exact Hgs]. simpl. tauto.
  - reflexivity. - reflexivity. - reflexivity.
  - exact Ld'.
  - exact Sf.
  - simpl. intros x Hx. pose proof Sf as (F1 & F2 & _). rewrite read_local by (rewrite F1, F2; exact Hx).
    rewrite (same_encode _ _ x Sf). destruct (Own x Hx) as (w & Hw & Ow).
    apply (V1 x (wax w, data w) Hx). { apply in_map_iff. exists w. split; [auto|]. now apply in_ws. }
    apply wax_owns. exact Ow.
  - simpl. intros Fne.
    assert (length (with_bcs B (ge_axes ge)) = length gs) as Lwb by (rewrite (same_len _ _ (with_bcs_same _ _)); auto).
    assert (length fax = length gs) as Lf by (rewrite (same_len _ _ Sf); auto).
    symmetry. apply axes_ext; [congruence|]. intros j a Hj.
    assert (j < length gs)%nat as Hjl by (rewrite <- Lwb; apply nth_error_Some; congruence).
    destruct (nth_error (ge_axes ge) j) as [a0|] eqn:E0; [|apply nth_error_None in E0; lia].
    assert (exists w1, 0 <= w1 < np /\ owns (geo np gh w1) (map a_x0 (ge_axes ge))) as (w1 & Hw1 & Ow1).
    { apply Own. unfold owns. clear -Fne. induction Fne; simpl; [auto|]. split; [lia|auto]. }
    assert (exists w2, 0 <= w2 < np /\ owns (geo np gh w2) (map (fun a => a_x1 a - 1) (ge_axes ge))) as (w2 & Hw2 & Ow2).
    { apply Own. unfold owns. clear -Fne. induction Fne; simpl; [auto|]. split; [lia|auto]. }
    rewrite Eg in E0. destruct (rank_axis np' gh' r j a0 Hnp' Hgh' Hr E0) as (g & lo & hi & G1 & G2 & _ & _ & _ & G3 & G4 & G5 & G6 & G7 & G8 & G9).
    rewrite <- Eg in E0. rewrite (with_bcs_nth _ _ _ _ _ _ E0 G2) in Hj. inversion Hj; subst a; clear Hj.
    assert (forall w bj, 0 <= w < np -> nth_error (wax w) j = Some bj -> exists b0,
      nth_error (ge_axes (geo np gh w)) j = Some b0 /\ a_x0 bj = a_x0 b0 /\ a_x1 bj = a_x1 b0 /\
      gx_0 g <= a_x0 b0 /\ a_x1 b0 <= gx_1 g /\
      a_b0 bj = (if a_x0 b0 =? gx_0 g then lo else parallel) /\ a_b1 bj = (if a_x1 b0 =? gx_1 g then hi else parallel)) as Wj.
    { intros w bj Hw Nw. assert (j < length (ge_axes (geo np gh w)))%nat as Hl by (rewrite rank_len; auto).
      destruct (nth_error (ge_axes (geo np gh w)) j) as [b0|] eqn:Eb; [|apply nth_error_None in Eb; lia].
      destruct (rank_axis np gh w j b0 Hnp Hgh Hw Eb) as (g' & lo' & hi' & K1 & K2 & _ & _ & _ & K3 & K4 & K5 & K6 & K7 & K8 & K9).
      rewrite G1 in K1; inversion K1; subst g'. rewrite G2 in K2; inversion K2; subst lo' hi'.
      unfold wax in Nw. rewrite (with_bcs_nth _ _ _ _ _ _ Eb G2) in Nw. inversion Nw; subst bj. simpl. rewrite K3, K4.
      exists b0. repeat (split; [auto; fail|]). split.
      - destruct (Z.eqb_spec (a_x0 b0) (gx_0 g)); auto.
      - destruct (Z.eqb_spec (a_x1 b0) (gx_1 g)); auto. }
    assert (forall w x, 0 <= w < np -> owns ge x -> owns (geo np gh w) x -> touches (ge_axes ge) (wax w) = true) as Tch.
    { intros w x Hw O1 O2. apply (touches_of _ _ x); [|exact O1|apply wax_owns; auto].
      destruct (rank_writable w Hw) as (X & _). congruence. }
    assert (forall w, 0 <= w < np -> exists bj, nth_error (wax w) j = Some bj) as Ex.
    { intros w Hw. destruct (rank_writable w Hw) as (X & _). destruct (nth_error (wax w) j) eqn:Eb; [eauto|]. apply nth_error_None in Eb. lia. }
    apply fold_upd_nth.
    + apply Forall_forall. intros b Hb. rewrite Ef in Hb. apply in_map_iff in Hb as (w & <- & Hw). apply in_ws in Hw.
      destruct (rank_writable w Hw) as (X & _). congruence.
    + exact E0.
    + intros b bj Hb _ Nb. rewrite Ef in Hb. apply in_map_iff in Hb as (w & <- & Hw). apply in_ws in Hw.
      destruct (Wj w bj Hw Nb) as (b0 & _ & Q1 & Q2 & _ & _ & Q3 & Q4). rewrite Q1, Q2, Q3, Q4, G3, G4. split.
      * intros <-. destruct (Z.eqb_spec (a_x0 a0) (gx_0 g)); auto. symmetry. auto.
      * intros <-. destruct (Z.eqb_spec (a_x1 a0) (gx_1 g)); auto. symmetry. auto.
    + rewrite G3. destruct (Z.eqb_spec (a_x0 a0) (gx_0 g)) as [e|e]; [|left; auto]. right.
      destruct (Ex w1 Hw1) as [bj Nb]. exists (wax w1), bj. split; [rewrite Ef; apply in_map, in_ws; auto|].
      split; [apply (Tch w1 (map a_x0 (ge_axes ge))); auto|].
      { unfold owns. clear -Fne. induction Fne; simpl; [auto|]. split; [lia|auto]. }
      split; [auto|]. destruct (Wj w1 bj Hw1 Nb) as (b0 & Q0 & Q1 & Q2 & Q5 & _ & _). rewrite Q1.
      unfold owns in Ow1. apply (in_box_nth _ _ _ j (a_x0 b0) (a_x1 b0) (a_x0 a0)) in Ow1; [lia| | |];
        rewrite nth_error_map, ?Q0, ?E0; reflexivity.
    + rewrite G4. destruct (Z.eqb_spec (a_x1 a0) (gx_1 g)) as [e|e]; [|left; auto]. right.
      destruct (Ex w2 Hw2) as [bj Nb]. exists (wax w2), bj. split; [rewrite Ef; apply in_map, in_ws; auto|].
      split; [apply (Tch w2 (map (fun a => a_x1 a - 1) (ge_axes ge))); auto|].
      { unfold owns. clear -Fne. induction Fne; simpl; [auto|]. split; [lia|auto]. }
      split; [auto|]. destruct (Wj w2 bj Hw2 Nb) as (b0 & Q0 & Q1 & Q2 & _ & Q5 & _). rewrite Q2.
      unfold owns in Ow2. apply (in_box_nth _ _ _ j (a_x0 b0) (a_x1 b0) (a_x1 a0 - 1)) in Ow2; [lia| | |];
        rewrite nth_error_map, ?Q0, ?E0; reflexivity.
  - simpl. intros x Hx No. rewrite U1; [|auto|intros b _ [H _]; apply No; exact H].
    rewrite get_nth with (d := fresh fields) by (rewrite L0; eapply encode_bounds; eauto).
    unfold dat0. f_equal. apply nth_repeat.
  - simpl. rewrite Ef, map_map. reflexivity.
Qed.

Theorem portable np' gh' r ge : 0 < np' -> 0 <= gh' -> 0 <= r < np' -> setup_mpi np' gs gh' r = Some ge ->
  exists ld, input c fresh dparse raw uncompress (fun gs => setup_mpi np' gs gh' r) name (length gs) file = Done ld /\
    ld_fields ld = fields /\ ld_dx ld = dx /\ ld_geom ld = ge /\ zlen (lo_data (ld_local ld)) = cells (ge_axes ge) /\
    same_layout (lo_axes (ld_local ld)) (ge_axes ge) /\
    (forall x, owns ge x -> grid_read true (lo_axes (ld_local ld)) (lo_data (ld_local ld)) x = Some (V x)) /\
    (Forall (fun a => a_x0 a < a_x1 a) (ge_axes ge) -> lo_axes (ld_local ld) = with_bcs B (ge_axes ge)) /\
    (forall x, in_box (map a_s0 (ge_axes ge)) (map a_s1 (ge_axes ge)) x -> ~ owns ge x ->
       get (lo_data (ld_local ld)) (encode (ge_axes ge) x) = Some (fresh fields)) /\
    ld_built ld = map (fun w => touches (ge_axes ge) (wax w)) (zrange 0 np).
Proof using All. intros. now apply (portable_in (zrange 0 np) np' gh' r ge). Qed.
End Portable.
