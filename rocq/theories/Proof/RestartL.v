From Verif Require Import Model.Base Model.Text Model.Boundary Model.Layout Model.Access Model.Setup Model.Codec Model.Region
  Model.MPI Model.Ghostswap Model.File Spec.Box Spec.Access Spec.Bytes Spec.Decomp Spec.File Spec.Schedule
  Proof.BaseL Proof.LayoutL Proof.AccessL Proof.CodecL Proof.RegionL Proof.SerialL Proof.MPIL Proof.FileL Proof.SetupL Proof.GhostL Proof.HaloL
  Proof.CheckpointL.
Local Open Scope list_scope.

(* ---- counting collective operations ---- *)
(* the program runs exactly n collective operations if it gets to its end *)
Inductive colls {A} : proc A -> nat -> Prop :=
| co_ret a : colls (Ret a) 0
| co_fail n : colls Fail n
| co_isend d t m k n : colls k n -> colls (Isend d t m k) n
| co_recv s t k n : (forall m, colls (k m) n) -> colls (Recv s t k) n
| co_wait d t k n : colls k n -> colls (WaitSend d t k) n
| co_coll kd m k n : (forall ms, colls (k ms) n) -> colls (Coll kd m k) (Datatypes.S n).

Lemma co_lift {A B} (o : option B) (k : B -> proc A) n : (forall b, colls (k b) n) -> colls (lift o k) n.
Proof. intros H. destruct o; simpl; auto. constructor. Qed.
Lemma co_barrier {A} (k : proc A) n : colls k n -> colls (barrier k) (Datatypes.S n).
Proof. intros H. constructor. auto. Qed.
Lemma co_barriers {A} l (k : proc A) n : colls k n -> colls (barriers l k) (length (filter (fun b => b) l) + n).
Proof. intros H. induction l as [|[] l IH]; simpl; auto. now apply co_barrier. Qed.

Lemma co_transfer {T A} c rng axs (data : list T) sp rp t1 t2 a b a' b' (k : list T -> proc A) n :
  (forall d, colls (k d) n) -> colls (transfer c rng axs data sp rp t1 t2 a b a' b' k) (2 + n).
Proof.
  intros H. unfold transfer. apply co_lift. intros sz. constructor. constructor. intros m. constructor.
  destruct (negb _); [constructor|]. apply co_barrier. destruct (_ || _); [constructor|]. apply co_lift. intros [sb q].
  constructor. constructor. intros m'. constructor. destruct (_ <? _); [constructor|]. apply co_barrier. apply co_lift. intros [d' ?]. apply H.
Qed.

Lemma co_axes {T A} (c : codec T) rng ge is (data : list T) (k : list T -> proc A) n : (forall d, colls (k d) n) ->
  colls (swap_axes c rng ge is data k) (4 * length is + n).
Proof.
  intros H. revert data; induction is as [|i is IH]; intros data; [apply H|].
  replace (4 * length (i :: is) + n)%nat with (2 + (2 + (4 * length is + n)))%nat by (simpl; lia).
  cbn [swap_axes]. unfold swap_up. do 3 (apply co_lift; intros ?). apply co_transfer. intros d1.
  unfold swap_down. do 3 (apply co_lift; intros ?). apply co_transfer. intros d2. apply IH.
Qed.

Lemma co_ghostswap {T A} (c : codec T) ge (data : list T) (k : list T -> proc A) n : (forall d, colls (k d) n) ->
  colls (ghostswap c ge data k) (2 + 4 * length (ge_axes ge) + n).
Proof.
  intros H. unfold ghostswap. replace (2 + 4 * length (ge_axes ge) + n)%nat with (1 + (4 * length (seq 0 (length (ge_axes ge))) + (1 + n)))%nat
    by (rewrite seq_length; lia).
  apply co_barrier. apply co_axes. intros d. apply co_barrier. apply H.
Qed.

Lemma co_step {A} g (s s' : state A) ns : step g s s' -> Forall2 colls (fst s) ns ->
  exists m, Forall (fun n => m <= n)%nat ns /\ Forall2 colls (fst s') (map (fun n => n - m)%nat ns).
Proof.
  intros H F. destruct H as [g r p p' ps ps' ch ch' G L P|kd ps ms ks ch Ne C]; simpl in *.
  - exists O. split; [apply Forall_forall; intros; lia|].
    assert (map (fun n => n - 0)%nat ns = ns) as -> by (rewrite <- (map_id ns) at 2; apply map_ext; lia).
    unfold get, put in *. destruct (r <? 0); [discriminate|]. simpl in P.
    assert (forall n, colls p n -> colls p' n) as HP.
    { intros n Hn. destruct L; inversion Hn; subst; auto. }
    destruct (_ <=? r); [discriminate|]. inversion P; subst ps'. clear P L.
    revert ns F G. generalize (Z.to_nat r) as i. induction ps as [|q ps IH]; intros [|i] ns F G; try discriminate; inversion F; subst; simpl in *.
    + inversion G; subst q. constructor; auto.
    + constructor; auto.
  - exists 1%nat. clear Ne. revert ns F. induction C as [|m k ps ms' ks C IH]; intros ns F; inversion F; subst; [repeat constructor|].
    assert (forall ms, Forall2 colls (map (fun k => k ms) ks) (map (fun n => n - 1)%nat l') /\ Forall (fun n => 1 <= n)%nat l') as X.
    { intros ms. clear - C H3. revert l' H3. induction C; intros l' H3; inversion H3; subst; simpl; [repeat constructor|].
      inversion H1; subst. destruct (IHC _ H4) as [I1 I2]. split; constructor; auto; [|lia]. simpl. rewrite Nat.sub_0_r. auto. }
    inversion H1; subst. destruct (X (m :: ms')) as [X1 X2]. split; constructor; auto; [lia|]. simpl. rewrite Nat.sub_0_r. auto.
Qed.

Lemma co_steps {A} k (s s' : state A) ns : steps k s s' -> Forall2 colls (fst s) ns ->
  exists m, Forall (fun n => m <= n)%nat ns /\ Forall2 colls (fst s') (map (fun n => n - m)%nat ns).
Proof.
  intros H. revert ns. induction H as [s|k g s1 s2 s3 H _ IH]; intros ns F.
  - exists O. split; [apply Forall_forall; intros; lia|].
    assert (map (fun n => n - 0)%nat ns = ns) as -> by (rewrite <- (map_id ns) at 2; apply map_ext; lia). exact F.
  - destruct (co_step _ _ _ _ H F) as (m & M1 & M2). destruct (IH _ M2) as (m' & M3 & M4).
    exists (m + m')%nat. split.
    + rewrite Forall_map in M3. rewrite Forall_forall in *. intros n Hn. specialize (M1 n Hn). specialize (M3 n Hn). simpl in M3. lia.
    + rewrite map_map in M4. erewrite map_ext; [exact M4|]. intros; simpl; lia.
Qed.

(* ranks that run different numbers of collective operations do not all get to the end *)
Lemma uneven {A} np (P : Z -> proc A) ch n : (forall r, 0 <= r < np -> colls (P r) (n r)) ->
  forall k s, steps k (ranks np P, ch) s -> forall a, fst s = ranks np (fun r => Ret (a r)) ->
  forall r q, 0 <= r < np -> 0 <= q < np -> n r = n q.
Proof.
  intros H k s St a E r q Hr Hq.
  destruct (co_steps _ _ _ (map n (zrange 0 np)) St) as (m & M1 & M2).
  - simpl. unfold ranks. assert (Forall (fun r => 0 <= r < np) (zrange 0 np)) as F by (apply Forall_forall; intros; now apply in_zrange).
    induction F; simpl; constructor; auto.
  - rewrite E in M2. unfold ranks in M2. rewrite map_map in M2.
    assert (forall x, 0 <= x < np -> n x = m) as X; [|rewrite !X; auto].
    intros x Hx. rewrite Forall_map, Forall_forall in M1. specialize (M1 x). rewrite in_zrange in M1. specialize (M1 Hx). simpl in M1.
    assert (n x - m = 0)%nat; [|lia].
    assert (In x (zrange 0 np)) as I by now apply in_zrange. clear - M2 I.
    induction (zrange 0 np) as [|y l IH]; [destruct I|]. simpl in M2. inversion M2; subst.
    destruct I as [->|I]; [|apply IH; auto]. inversion H2; subst. auto.
Qed.

(* ---- the same layout with other boundary conditions ---- *)
Lemma same_nth a b j : same_layout a b -> a_x0 (nth j a dax) = a_x0 (nth j b dax) /\ a_x1 (nth j a dax) = a_x1 (nth j b dax).
Proof.
  revert b j; induction a as [|x a IH]; intros [|y b] [|j] H; try (apply same_len in H; discriminate); auto;
    apply same_cons in H as (E1 & E2 & _ & _ & _ & _ & _ & _ & H); simpl; auto.
Qed.

Lemma deco_same np gh gs G G' : deco np gh gs G ->
  (forall r, 0 <= r < np -> same_layout (ge_axes (G' r)) (ge_axes (G r)) /\ ge_n0 (G' r) = ge_n0 (G r) /\ ge_n1 (G' r) = ge_n1 (G r) /\
     ge_ghosts (G' r) = ge_ghosts (G r)) ->
  deco np gh gs G'.
Proof.
  intros [D1 D2 D3 D4 D5 D6 D7 D8 D9] H. split; auto.
  - intros r Hr. destruct (H r Hr) as (S & -> & -> & ->). rewrite (same_len _ _ S). auto.
  - intros r Hr. destruct (H r Hr) as (S & _). eapply same_wf; [apply same_sym; eauto|auto].
  - intros r j Hr Hj. cbv zeta. destruct (H r Hr) as (S & _). destruct (same_nth _ _ j S) as [-> ->]. apply D6; auto.
  - intros r i Hr Hi. cbv zeta. destruct (H r Hr) as (S & -> & -> & _). specialize (D7 r i Hr Hi). cbv zeta in *.
    destruct D7 as (U & D & E1 & E2). destruct (H _ U) as (_ & -> & _). destruct (H _ D) as (_ & _ & -> & _). auto.
  - intros r i j Hr Hi Hj. cbv zeta. destruct (H r Hr) as (S & _ & -> & _). specialize (D7 r i Hr Hi). specialize (D8 r i j Hr Hi Hj). cbv zeta in *.
    destruct D7 as (U & _). destruct (H _ U) as (S' & _). destruct (same_nth _ _ j S) as [-> ->]. destruct (same_nth _ _ j S') as [-> ->]. auto.
  - intros x r r' Hr Hr' O O'. apply (D9 x); auto; unfold owns in *.
    + destruct (H r Hr) as ((<- & <- & _) & _). auto.
    + destruct (H r' Hr') as ((<- & <- & _) & _). auto.
Qed.

(* access to a stored cell that no boundary condition redirects *)
Lemma read_stored {T} gh axs (d : list T) y : wf_axes gh axs -> length y = length axs ->
  (forall j a, nth_error axs j = Some a ->
     (nth j y 0 < a_x0 a -> a_b0 a = parallel \/ a_b0 a = periodic) /\ (a_x1 a <= nth j y 0 -> a_b1 a = parallel \/ a_b1 a = periodic)) ->
  grid_read true axs d y = get d (encode axs y).
Proof.
  intros W L H. rewrite grid_read_eq by auto. f_equal. f_equal. clear W.
  revert axs L H; induction y as [|v y IH]; intros [|a axs]; simpl; intros L H; try discriminate; [reflexivity|].
  rewrite IH; [|lia|intros j b Hb; apply (H (Datatypes.S j) b Hb)]. f_equal.
  destruct (H O a eq_refl) as [H0 H1]. simpl in H0, H1. unfold check_boundary.
  destruct (Z.ltb_spec v (a_x0 a)) as [h|h]; [destruct (H0 h) as [->| ->]; reflexivity|].
  destruct (Z.leb_spec (a_x1 a) v) as [h'|h']; [destruct (H1 h') as [->| ->]; reflexivity|reflexivity].
Qed.

(* ---- reading in parallel ---- *)
Section Restart.
Context {T : Type} (c : codec T) (valid : T -> Prop) (fresh : Z -> T) (raw : bool) (uncompress : list byte -> Z -> option (list byte)).
Context {D : Type} (dparse : list byte -> option D).
Context (S : serialises c valid) (name file : list byte) (fields : Z) (dx : list D) (gs : list gaxis) (np gh : Z).
Context (Hnp : 0 < np) (Hgh : 0 <= gh) (Hne : gs <> []) (Hgs : Forall (fun g => gx_0 g < gx_1 g) gs).
Context (V : list Z -> T) (B : list (Z * Z)) (HB : length B = length gs).
Context (HV : forall x, in_box (map gx_0 gs) (map gx_1 gs) x -> valid (V x)) (Hfr : valid (fresh fields)).
Context (bound : Z) (Hb0 : 0 <= bound) (Hb : forall v, valid v -> c_size c v <= bound).
Context (ge : Z -> geom) (Hge : forall r, 0 <= r < np -> setup_mpi np gs gh r = Some (ge r)).
Context (Hcells : forall r, 0 <= r < np -> cells (ge_axes (ge r)) * bound <= int_max).
Context (ld : Z -> loaded (T := T) (D := D)).
Context (Hin : forall r, 0 <= r < np ->
   input c fresh dparse raw uncompress (fun gs => setup_mpi np gs gh r) name (length gs) file = Done (ld r) /\
   ld_fields (ld r) = fields /\ ld_dx (ld r) = dx /\ ld_geom (ld r) = ge r /\ zlen (lo_data (ld_local (ld r))) = cells (ge_axes (ge r)) /\
   same_layout (lo_axes (ld_local (ld r))) (ge_axes (ge r)) /\
   (forall x, owns (ge r) x -> grid_read true (lo_axes (ld_local (ld r))) (lo_data (ld_local (ld r))) x = Some (V x)) /\
   (Forall (fun a => a_x0 a < a_x1 a) (ge_axes (ge r)) -> lo_axes (ld_local (ld r)) = with_bcs B (ge_axes (ge r))) /\
   (forall x, in_box (map a_s0 (ge_axes (ge r))) (map a_s1 (ge_axes (ge r))) x -> ~ owns (ge r) x ->
       get (lo_data (ld_local (ld r))) (encode (ge_axes (ge r)) x) = Some (fresh fields))).

Definition count r := length (filter (fun b => b) (ld_built (ld r))).

Lemma input_colls r : 0 <= r < np ->
  colls (input_mpi c fresh dparse raw uncompress np gh name (length gs) file r) (count r + (4 + 4 * length gs)).
Proof using Hin Hge Hnp Hgh Hne Hgs.
  clear Hcells Hb Hb0 Hfr HV HB S.
  intros Hr. unfold input_mpi. destruct (Hin r Hr) as (-> & _ & _ & _ & _ & Sm & _).
  assert (gok gs) as Hok by (unfold gok; eapply Forall_impl; [|exact Hgs]; simpl; lia).
  pose proof (deco_setup np gs gh Hnp Hne Hok Hgh) as DC. destruct (dc_len _ _ _ _ DC r Hr) as (L & _). rewrite (Hge r Hr) in L.
  replace (count r + (4 + 4 * length gs))%nat with (1 + (count r + (1 + (2 + 4 * length gs + 0))))%nat by lia.
  apply co_barrier. apply co_barriers. apply co_barrier.
  rewrite <- L, <- (same_len _ _ Sm).
  eapply (co_ghostswap c (mkGeom (lo_axes (ld_local (ld r))) _ _ _ _ _ _)). intros d. constructor.
Qed.

Theorem uneven_hangs r q : 0 <= r < np -> 0 <= q < np -> count r <> count q ->
  forall k s, steps k (ranks np (input_mpi c fresh dparse raw uncompress np gh name (length gs) file), no_chans) s ->
  forall a, ~ fst s = ranks np (fun r => Ret (a r)).
Proof using Hin Hge Hnp Hgh Hne Hgs.
  clear Hcells Hb Hb0 Hfr HV HB S.
  intros Hr Hq N k s St a E. apply N.
  pose proof (uneven np _ no_chans (fun r => (count r + (4 + 4 * length gs))%nat) input_colls k s St a E r q Hr Hq) as X. simpl in X. revert X. clear. lia.
Qed.

Let G r := mkGeom (lo_axes (ld_local (ld r))) (ge_ghosts (ge r)) (ge_p1 (ge r)) (ge_sp (ge r)) (ge_pos (ge r)) (ge_n0 (ge r)) (ge_n1 (ge r)).

Theorem even_reads m : (forall r, 0 <= r < np -> count r = m) ->
  exists f D', finished np (fun r => mkLoaded fields dx (mkLocal (lo_axes (ld_local (ld r))) (D' r)) (ge r) (ld_built (ld r))) f /\
    inevitable (ranks np (input_mpi c fresh dparse raw uncompress np gh name (length gs) file), no_chans) f /\
    forall r, 0 <= r < np -> Forall valid (D' r) /\ zlen (D' r) = cells (ge_axes (ge r)) /\
    ((forall q, 0 <= q < np -> Forall (fun a => a_x0 a < a_x1 a /\ gh <= a_x1 a - a_x0 a) (ge_axes (ge q))) ->
     lo_axes (ld_local (ld r)) = with_bcs B (ge_axes (ge r)) /\
     forall y, in_box (map a_s0 (ge_axes (ge r))) (map a_s1 (ge_axes (ge r))) y ->
       (forall j g b, nth_error gs j = Some g -> nth_error B j = Some b ->
          (nth j y 0 < gx_0 g -> fst b = periodic) /\ (gx_1 g <= nth j y 0 -> snd b = periodic)) ->
       grid_read true (lo_axes (ld_local (ld r))) (D' r) y = Some (V (wrap gs y))).
Proof using All.
  intros Hc. assert (gok gs) as Hok by (unfold gok; eapply Forall_impl; [|exact Hgs]; simpl; lia).
  pose proof (deco_setup np gs gh Hnp Hne Hok Hgh) as DC0.
  assert (deco np gh gs ge) as DCg.
  { eapply deco_same; [exact DC0|]. intros r Hr. cbv beta. rewrite (Hge r Hr). split; [apply same_refl|auto]. }
  assert (deco np gh gs G) as DC.
  { eapply deco_same; [exact DCg|]. intros r Hr. unfold G. simpl. destruct (Hin r Hr) as (_ & _ & _ & _ & _ & Sm & _). auto. }
  set (D0 := fun r => lo_data (ld_local (ld r))).
  assert (forall r x, 0 <= r < np -> owns (ge r) x -> get (D0 r) (encode (ge_axes (ge r)) x) = Some (V x)) as Ow.
  { intros r x Hr O. destruct (Hin r Hr) as (_ & _ & _ & _ & _ & Sm & Rd & _). specialize (Rd x O).
    rewrite read_local in Rd. - rewrite <- (same_encode _ _ x Sm). exact Rd.
    - destruct Sm as (-> & -> & _). exact O. }
  assert (held valid np G D0) as H0.
  { intros r Hr. destruct (Hin r Hr) as (_ & _ & _ & _ & L & Sm & Rd & _ & Fr). split.
    - simpl. destruct (same_cells _ _ Sm) as [-> _]. exact L.
    - apply Forall_forall. intros v Hv. apply In_nth_error in Hv as [k Hk].
      pose proof (dc_wf _ _ _ _ DCg r Hr) as W.
      assert (0 <= Z.of_nat k < cells (ge_axes (ge r))) as Hk'.
      { rewrite <- L. assert (k < length (D0 r))%nat by (apply nth_error_Some; congruence). unfold zlen. fold (D0 r). lia. }
      destruct (encode_onto gh _ _ W Hgh Hk') as (y & Y1 & Y2).
      assert (get (D0 r) (encode (ge_axes (ge r)) y) = Some v) as E.
      { rewrite Y2. unfold get. destruct (Z.ltb_spec (Z.of_nat k) 0); [lia|]. now rewrite Nat2Z.id. }
      destruct (in_box_dec (map a_x0 (ge_axes (ge r))) (map a_x1 (ge_axes (ge r))) y) as [I|I].
      + rewrite (Ow r y Hr I) in E. inversion E; subst v. apply HV. eapply owned_inside; eauto.
      + rewrite Fr in E by auto. inversion E; subst v. exact Hfr. }
  assert (forall r, 0 <= r < np -> cells (ge_axes (G r)) * bound <= int_max) as HI.
  { intros r Hr. destruct (Hin r Hr) as (_ & _ & _ & _ & _ & Sm & _). simpl. destruct (same_cells _ _ Sm) as [-> _]. auto. }
  set (K := fun (r : Z) (d : list T) => Ret (mkLoaded fields dx (mkLocal (lo_axes (ld_local (ld r))) d) (ge r) (ld_built (ld r)))).
  destruct (ghost_round c valid np gh gs G bound DC S Hb Hb0 HI D0 K no_chans H0 quiet_empty) as (d' & k & c' & Q & Hd & I & Gs).
  assert (forall n (P : Z -> proc (loaded (T := T) (D := D))) ch, (forall r, 0 <= r < np -> True) ->
    gsteps n (ranks np (fun r => Nat.iter n barrier (P r)), ch) (ranks np P, ch)) as Bar.
  { induction n as [|n IH]; intros P ch _; [constructor|]. eapply gsteps_S; [|apply IH; auto].
    apply (all_coll np 0 (fun _ => []) (fun r _ => Nat.iter n barrier (P r))). lia. }
  assert (forall l (p : proc (loaded (T := T) (D := D))), barriers l p = Nat.iter (length (filter (fun b => b) l)) barrier p) as Bl.
  { induction l as [|[] l IH]; intros p; simpl; auto. now rewrite IH. }
  destruct (conclude np (input_mpi c fresh dparse raw uncompress np gh name (length gs) file)
    (fun r => mkLoaded fields dx (mkLocal (lo_axes (ld_local (ld r))) (d' r)) (ge r) (ld_built (ld r))) (1 + (m + (1 + k))) no_chans c' Hnp Q) as (f & F1 & F2).
  { rewrite (ranks_ext np _ (fun r => Nat.iter (1 + (m + 1)) barrier (ghostswap c (G r) (D0 r) (K r)))).
    - replace (1 + (m + (1 + k)))%nat with ((1 + (m + 1)) + k)%nat by lia.
      eapply gsteps_app; [apply Bar; auto|]. exact Gs.
    - intros r Hr. unfold input_mpi. destruct (Hin r Hr) as (-> & -> & -> & -> & _). rewrite Bl. fold (count r). rewrite (Hc r Hr).
      fold (G r). fold (D0 r). fold (K r). 
      change (Nat.iter (1 + (m + 1)) barrier (ghostswap c (G r) (D0 r) (K r))) with (barrier (Nat.iter (m + 1) barrier (ghostswap c (G r) (D0 r) (K r)))).
      f_equal. clear. induction m as [|n IH]; simpl; [reflexivity|]. now rewrite IH. }
  exists f, d'. split; [auto|]. split; [auto|]. intros r Hr. destruct (Hd r Hr) as [Hd1 Hd2]. simpl in Hd1.
  destruct (Hin r Hr) as (_ & _ & _ & _ & _ & Sm & _ & Bc & _). destruct (same_cells _ _ Sm) as [Ec _]. rewrite Ec in Hd1.
  split; [auto|]. split; [auto|]. intros Wd.
  assert (lo_axes (ld_local (ld r)) = with_bcs B (ge_axes (ge r))) as Ea.
  { apply Bc. eapply Forall_impl; [|exact (Wd r Hr)]. simpl. tauto. }
  split; [exact Ea|]. intros y Hy Hper.
  assert (wide np gh gs G) as W.
  { intros q j Hq Hj. destruct (Hin q Hq) as (_ & _ & _ & _ & _ & Smq & _). simpl. destruct (same_nth _ _ j Smq) as [-> ->].
    specialize (Wd q Hq). rewrite Forall_forall in Wd. apply Wd. apply nth_In. destruct (dc_len _ _ _ _ DCg q Hq) as (-> & _). auto. }
  specialize (I W).
  destruct (dc_len _ _ _ _ DCg r Hr) as (Lr & _).
  assert (length y = length gs) as Ly by (apply in_box_length in Hy as [Hy _]; rewrite map_length in Hy; lia).
  assert (in_box (map gx_0 gs) (map gx_1 gs) (wrap gs y)) as Bw.
  { apply in_box_iff. rewrite length_wrap, !map_length by auto. split; [auto|]. split; [auto|]. intros j Hj.
    rewrite (nth_map_eq gx_0 _ j 0 (mkG 0 0)), (nth_map_eq gx_1 _ j 0 (mkG 0 0)), (nth_wrap gs y j (mkG 0 0)) by auto.
    assert (gx_0 (nth j gs (mkG 0 0)) < gx_1 (nth j gs (mkG 0 0))) by (rewrite Forall_forall in Hgs; apply Hgs, nth_In; auto).
    unfold glen. pose proof (Z.mod_pos_bound (nth j y 0 - gx_0 (nth j gs (mkG 0 0))) (gx_1 (nth j gs (mkG 0 0)) - gx_0 (nth j gs (mkG 0 0)))). lia. }
  destruct (partition np gs gh _ Hnp Hne Hok Bw) as (q & geq & Hq & Eq & O & _).
  rewrite (Hge q Hq) in Eq. inversion Eq; subst geq. clear Eq.
  rewrite (read_stored gh).
  - specialize (I r y Hr). assert (in_box (map a_s0 (ge_axes (G r))) (map a_s1 (ge_axes (G r))) y) as Hy'.
    { simpl. destruct Sm as (_ & _ & -> & -> & _). exact Hy. }
    specialize (I Hy' ltac:(intros; lia) q Hq). simpl in I. rewrite I.
    + destruct (Hin q Hq) as (_ & _ & _ & _ & _ & Smq & _). rewrite (same_encode _ _ _ Smq). apply (Ow q); auto.
    + unfold owns. simpl. destruct (Hin q Hq) as (_ & _ & _ & _ & _ & Smq & _). destruct Smq as (-> & -> & _). exact O.
  - rewrite Ea. eapply same_wf; [apply same_sym, with_bcs_same|]. apply (dc_wf _ _ _ _ DCg r Hr).
  - rewrite Ea, (same_len _ _ (with_bcs_same B _)). congruence.
  - intros j a Ha. rewrite Ea in Ha.
    assert (j < length gs)%nat as Hj.
    { rewrite <- Lr, <- (same_len _ _ (with_bcs_same B (ge_axes (ge r)))). apply nth_error_Some. congruence. }
    destruct (axis_at np gs gh r _ j Hnp Hne Hok Hr (Hge r Hr) Hj) as (g & p & kk & a' & N1 & N2 & N3 & N4 & N5 & N6 & N7 & N8 & N9 & N10 & N11 & N12).
    destruct (nth_error B j) as [[lo hi]|] eqn:Eb; [|apply nth_error_None in Eb; lia].
    rewrite (with_bcs_nth _ _ _ _ _ _ N4 Eb) in Ha. inversion Ha; subst a. clear Ha. simpl.
    specialize (Hper j g (lo, hi) N1 Eb). simpl in Hper. rewrite N7, N8.
    split; intros Hx.
    + destruct (Z.eqb_spec (a_x0 a') (gx_0 g)) as [e|e]; [right; apply Hper; lia|]. left. rewrite N11.
      match goal with |- context [?u =? ?v] => destruct (Z.eqb_spec u v) end; congruence.
    + destruct (Z.eqb_spec (a_x1 a') (gx_1 g)) as [e|e]; [right; apply Hper; lia|]. left. rewrite N12.
      match goal with |- context [?u =? ?v] => destruct (Z.eqb_spec u v) end; congruence.
Qed.
End Restart.
