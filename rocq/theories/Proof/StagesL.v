From Coq Require Import QArith.QArith QArith.Qcanon Permutation.
From Verif Require Import Model.Base Model.Boundary Model.Layout Model.Access Model.Setup Model.Codec Model.MPI Model.Ghostswap Model.Stencil Model.Simulate Model.Dynamics Model.Stages
  Spec.Box Spec.Access Spec.Bytes Spec.Decomp Spec.Schedule Spec.Stencil
  Proof.BaseL Proof.LayoutL Proof.AccessL Proof.CodecL Proof.SetupL Proof.MPIL Proof.HaloL Proof.StencilL Proof.StencilS Proof.StencilQ Proof.SimulateL.
From Verif Require Proof.SparseL.
Local Open Scope Z_scope.

(* ---- a loop that sets every node ---- *)
Lemma cells_spec {T} mpi g ls (f : Z -> option T) (V : list Z -> T) dst : 0 <= g -> (mpi = false -> g = 0) -> lims_ok ls ->
  (forall i, 0 <= i < nodes (lay g ls) -> box ls (position (lay g ls) i) -> f i = Some (V (position (lay g ls) i))) -> zlen dst = cells (lay g ls) ->
  exists dst', fold_opt (fun d i => do v <- f i; grid_write_int mpi (lay g ls) d i v) (zrange 0 (nodes (lay g ls))) dst = Some dst' /\ zlen dst' = cells (lay g ls) /\
    (forall y, box ls y -> get dst' (encode (lay g ls) y) = Some (V y)) /\ forall v, In v dst' -> In v dst \/ exists y, box ls y /\ v = V y.
Proof.
  intros Hg Hm Lo H L. pose proof (wf_lay g ls Lo) as W. set (axs := lay g ls) in *.
  assert (forall i, 0 <= i < nodes axs -> box ls (position axs i) /\ in_box (map a_s0 axs) (map a_s1 axs) (position axs i)) as P.
  { intros i Hi. destruct (position_into g axs i W Hi) as [B _]. split; [unfold axs in B; now rewrite map_x0_lay, map_x1_lay in B|]. now apply (local_in_storage g). }
  destruct (sweep_fold f (fun i => V (position axs i)) (addr_int mpi axs) (nodes axs) dst) as (dst' & E & L' & G & Vv).
  - apply (nodes_nonneg g); auto.
  - intros i Hi. apply H; [auto|now apply P].
  - intros i Hi. unfold axs. rewrite addr_int_encode by auto. rewrite L. apply (encode_bounds g); auto. now apply P.
  - intros i j Hi Hj Ea. unfold axs in Ea. rewrite !addr_int_encode in Ea by auto. apply (encode_inj g) in Ea; [|auto|now apply P|now apply P].
    destruct (position_into g axs j W Hj) as [_ I]. now apply I.
  - exists dst'. split; [exact E|]. split; [congruence|]. split.
    + intros y By. destruct (position_onto g axs y W) as (i & Hi & <-); [unfold axs; now rewrite map_x0_lay, map_x1_lay|].
      unfold axs. rewrite <- (addr_int_encode mpi) by auto. now apply G.
    + intros v Hv. destruct (Vv v Hv) as [I|(i & Hi & ->)]; [auto|]. right. exists (position axs i). split; [now apply P|auto].
Qed.

Lemma gather_vals {T} mpi g ls w F (data : list T) i : 0 <= g -> (mpi = false -> g = 0) -> lims_ok ls -> length w = length ls -> 0 <= i < nodes (lay g ls) ->
  box ls (position (lay g ls) i) -> box w (position (lay g ls) i) -> star mpi (lay g ls) data (position (lay g ls) i) (fun z => F (cbs w z)) ->
  gather mpi (lay g ls) data i = Some (vals w F (position (lay g ls) i)).
Proof.
  intros Hg Hm Lo Lw Hi B Bw St. rewrite (gather_star mpi (lay g ls) data i (fun z => F (cbs w z))); auto.
  - unfold vals. replace (zlen (lay g ls)) with (zlen w) by (unfold zlen; rewrite length_lay; lia). now rewrite (cbs_in w (position (lay g ls) i)) by auto.
  - rewrite length_lay. now apply local_len.
  - destruct (read_int_position mpi g ls data i Hg Hm Lo Hi) as [-> _]. apply St.
Qed.

Lemma fold_opt_same {A S} (f g : S -> A -> option S) l s : (forall a s, In a l -> f s a = g s a) -> fold_opt f l s = fold_opt g l s.
Proof.
  revert s; induction l as [|a l IH]; intros s H; cbn [fold_opt]; [auto|]. rewrite (H a s) by now left. destruct (g s a) as [s'|]; cbn [bind]; [|auto]. apply IH. intros; apply H; now right.
Qed.

(* a rule for the lemmas of SimulateL that need some rule *)
Definition keep {T} (_ : list Z) (vs : list T) : option T := hd_error vs.
Lemma keep_ok {T} (valid : T -> Prop) (gs : list gaxis) : forall x vs, Forall valid vs -> zlen vs = 1 + 2 * zlen gs -> exists v, @keep T x vs = Some v /\ valid v.
Proof. intros x [|v vs] F L; [rewrite zlen_nil in L; pose proof (zlen_nonneg gs); lia|]. inversion F; subst. exists v. auto. Qed.

Section Main.
Context {T U : Type} (c : codec T) (cu : codec U) (valid : T -> Prop) (uvalid : U -> Prop) (np : Z) (gs : list gaxis) (bs : list (Z * Z)) (gh B : Z).
Context (first : Z -> list Z -> list T -> option U) (second : Z -> list Z -> list T -> list U -> option T).
Context (S : serialises c valid) (Su : serialises cu uvalid) (Hnp : 0 < np) (Hne : gs <> []) (Hgh : 1 <= gh) (B0 : 0 <= B).
Context (HB : forall v, valid v -> c_size c v <= B) (HBu : forall v, uvalid v -> c_size cu v <= B).
Context (Lb : length bs = length gs) (Sa : Forall serial_axis (whole_lims gs bs)).
Context (HI : forall r ge, 0 <= r < np -> setup_mpi np gs gh r = Some ge -> cells (ge_axes ge) * B <= int_max).
Context (Hw : forall r ge, 0 <= r < np -> setup_mpi np gs gh r = Some ge ->
     Forall (fun a => a_x0 a < a_x1 a /\ gh <= a_x1 a - a_x0 a) (ge_axes ge)).
Context (Hfirst : forall t x vs, Forall valid vs -> zlen vs = 1 + 2 * zlen gs -> exists v, first t x vs = Some v /\ uvalid v).
Context (one : bool -> list axis -> Z -> list T -> list U -> option (list U)) (two : bool -> list axis -> Z -> list T -> list U -> list T -> option (list T)).
Context (Hone : forall mpi g ls t old temp, 0 <= g -> (mpi = false -> g = 0) -> lims_ok ls -> length ls = length gs -> one mpi (lay g ls) t old temp = stage_one first mpi (lay g ls) t old temp).
Context (Htwo : forall mpi g ls t old temp new, 0 <= g -> (mpi = false -> g = 0) -> lims_ok ls -> length ls = length gs -> (forall i, 0 <= i < nodes (lay g ls) -> gather mpi (lay g ls) old i <> None) ->
  two mpi (lay g ls) t old temp new = stage_two second mpi (lay g ls) t old temp new).
Context (Hsecond : forall t x vs us, Forall valid vs -> zlen vs = 1 + 2 * zlen gs -> Forall uvalid us -> zlen us = 1 + 2 * zlen gs -> exists v, second t x vs us = Some v /\ valid v).

Notation w := (whole_lims gs bs).
Notation G0 := (fun r => match setup_mpi np gs gh r with Some ge => ge | None => dgeom end).
Notation G := (fun r => with_bounds set_bounds_axis bs (match setup_mpi np gs gh r with Some ge => ge | None => dgeom end)).
Notation keeps := (@keep_ok T valid gs).
Notation ukeeps := (@keep_ok U uvalid gs).

(* the fields after the two stages *)
Definition mid_field (u0 : U) (t : Z) (F : list Z -> T) (x : list Z) : U := match first t x (vals w F x) with Some v => v | None => u0 end.
Definition new_field (t : Z) (F : list Z -> T) (H : list Z -> U) (x : list Z) : T := match second t x (vals w F x) (vals w H x) with Some v => v | None => F x end.

Lemma good_vals {X} (vd : X -> Prop) F x : (forall y, box w y -> vd (F y)) -> box w x -> Forall vd (vals w F x) /\ zlen (vals w F x) = 1 + 2 * zlen gs.
Proof using Sa Lb.
  intros V Bx. split.
  - unfold vals. constructor; [auto|]. apply Forall_flat_map. apply Forall_forall. intros i Hi. apply in_zrange in Hi. repeat constructor; apply V; apply nb_box; auto.
  - rewrite length_vals. unfold zlen. now rewrite length_whole.
Qed.
Lemma mid_ok u0 t F x : (forall y, box w y -> valid (F y)) -> box w x -> first t x (vals w F x) = Some (mid_field u0 t F x) /\ uvalid (mid_field u0 t F x).
Proof using All. intros V Bx. destruct (good_vals valid F x V Bx) as [A L]. destruct (Hfirst t x _ A L) as (v & E & Hv). unfold mid_field. rewrite E. auto. Qed.
Lemma new_ok t F H x : (forall y, box w y -> valid (F y)) -> (forall y, box w y -> uvalid (H y)) -> box w x ->
  second t x (vals w F x) (vals w H x) = Some (new_field t F H x) /\ valid (new_field t F H x).
Proof using All.
  intros V Vu Bx. destruct (good_vals valid F x V Bx) as [A L]. destruct (good_vals uvalid H x Vu Bx) as [A' L']. destruct (Hsecond t x _ _ A L A' L') as (v & E & Hv). unfold new_field. rewrite E. auto.
Qed.

Lemma rank_lims' r : 0 <= r < np -> exists ls, ge_axes (G r) = lay gh ls /\ Forall2 fits ls w /\ length ls = length gs.
Proof using All. apply (rank_lims valid np gs bs gh B keep Hnp Hne Hgh Lb Sa HI Hw keeps). Qed.

(* a stage on all ranks *)
Lemma stage_ranks {X} (vd : X -> Prop) (f : Z -> Z -> option X) (V : list Z -> X) (u : Z -> list X) : (forall y, box w y -> vd (V y)) -> held vd np G u ->
  (forall r ls i, 0 <= r < np -> ge_axes (G r) = lay gh ls -> Forall2 fits ls w -> lims_ok ls -> length w = length ls -> 0 <= i < nodes (lay gh ls) -> box ls (position (lay gh ls) i) ->
    box w (position (lay gh ls) i) -> f r i = Some (V (position (lay gh ls) i))) ->
  exists u', (forall r, 0 <= r < np -> fold_opt (fun d i => do v <- f r i; grid_write_int true (ge_axes (G r)) d i v) (zrange 0 (nodes (ge_axes (G r)))) (u r) = Some (u' r)) /\
    held vd np G u' /\ owned np gs bs gh V u'.
Proof using All.
  intros Vd Hu Hf.
  assert (forall r, 0 <= r < np -> exists u', fold_opt (fun d i => do v <- f r i; grid_write_int true (ge_axes (G r)) d i v) (zrange 0 (nodes (ge_axes (G r)))) (u r) = Some u' /\
     zlen u' = cells (ge_axes (G r)) /\ Forall vd u' /\ forall y, owns (G r) y -> get u' (encode (ge_axes (G r)) y) = Some (V y)) as X0.
  { intros r Hr. destruct (rank_lims' r Hr) as (ls & E & Ff & Ll). destruct (Hu r Hr) as [Lu Vu]. pose proof (fits_lims _ _ Ff) as Lo.
    assert (length w = length ls) as Lw by (rewrite length_whole; auto).
    destruct (cells_spec true gh ls (f r) V (u r)) as (u' & E' & L' & O & In_); auto.
    - lia. - discriminate. - intros i Hi Bi. apply (Hf r ls i); auto. eapply fits_box; eauto. - now rewrite <- E.
    - exists u'. rewrite E. split; [auto|]. split; [auto|]. split.
      + apply Forall_forall. intros v Hv. destruct (In_ v Hv) as [I|(y & By & ->)]; [rewrite Forall_forall in Vu; auto|]. apply Vd. eapply fits_box; eauto.
      + intros y Oy. apply O. unfold owns in Oy. rewrite E, map_x0_lay, map_x1_lay in Oy. exact Oy. }
  exists (fun r => match fold_opt (fun d i => do v <- f r i; grid_write_int true (ge_axes (G r)) d i v) (zrange 0 (nodes (ge_axes (G r)))) (u r) with Some u' => u' | None => [] end).
  split; [|split].
  - intros r Hr. destruct (X0 r Hr) as (u' & -> & _). reflexivity.
  - intros r Hr. destruct (X0 r Hr) as (u' & -> & ? & ? & _). auto.
  - intros r y Hr Oy. destruct (X0 r Hr) as (u' & E' & _ & _ & H). cbv beta. rewrite E'. auto.
Qed.

Lemma gather_rank {X} (F : list Z -> X) (d : Z -> list X) r ls i : stored np gs bs gh F d -> 0 <= r < np -> ge_axes (G r) = lay gh ls -> Forall2 fits ls w -> lims_ok ls -> length w = length ls ->
  0 <= i < nodes (lay gh ls) -> box ls (position (lay gh ls) i) -> box w (position (lay gh ls) i) ->
  gather true (lay gh ls) (d r) i = Some (vals w F (position (lay gh ls) i)).
Proof using All.
  intros St Hr E Ff Lo Lw Hi Bi Bw. apply gather_vals; auto; [lia|discriminate|]. apply star_rank; auto.
  intros y By. rewrite <- E. rewrite whole_gaxes by auto. apply St; auto. change (in_box (map a_s0 (ge_axes (G r))) (map a_s1 (ge_axes (G r))) y). cbv beta in E |- *. rewrite E.
  destruct (lay_nth_x0 gh ls) as (_ & _ & -> & ->). exact By.
Qed.
Lemma gather_whole {X} (F : list Z -> X) (D : list X) i : (forall y, box w y -> get D (encode (lay 0 w) y) = Some (F y)) ->
  0 <= i < nodes (lay 0 w) -> box w (position (lay 0 w) i) -> gather false (lay 0 w) D i = Some (vals w F (position (lay 0 w) i)).
Proof using All. intros A Hi Bi. apply gather_vals; auto; [lia|apply lims_le, Sa|]. now apply star_whole. Qed.

Lemma stage_loops (u0 : U) n : forall t F d u e D N E ch, (forall y, box w y -> valid (F y)) ->
  held valid np G d -> stored np gs bs gh F d -> held valid np G u -> held uvalid np G e -> quiet ch ->
  (forall y, box w y -> get D (encode (lay 0 w) y) = Some (F y)) -> zlen D = cells (lay 0 w) -> zlen N = cells (lay 0 w) -> zlen E = cells (lay 0 w) ->
  exists D' F' d' k ch', serial_stages one two (lay 0 w) t n D N E = Some D' /\ zlen D' = cells (lay 0 w) /\ (forall y, box w y -> get D' (encode (lay 0 w) y) = Some (F' y)) /\
    held valid np G d' /\ stored np gs bs gh F' d' /\ quiet ch' /\
    gsteps k (ranks np (fun r => rank_stages one two c cu (G r) t n (d r) (u r) (e r)), ch) (ranks np (fun r => Ret (d' r)), ch').
Proof using All.
  induction n as [|n IH]; intros t F d u e D N E ch V Hd St Hu He Q A L1 L2 L3.
  - exists D, F, d, O, ch. cbn [serial_stages rank_stages]. repeat (split; [auto; fail|]). constructor.
  - pose proof (lims_le w Sa) as Lo.
    set (H := mid_field u0 t F). assert (forall y, box w y -> uvalid (H y)) as VH by (intros y By; apply (mid_ok u0 t F y V By)).
    set (F1 := new_field t F H). assert (forall y, box w y -> valid (F1 y)) as V1 by (intros y By; apply (new_ok t F H y V VH By)).
    (* serial *)
    destruct (cells_spec false 0 w (fun i => do vs <- gather false (lay 0 w) D i; first t (position (lay 0 w) i) vs) H E) as (E' & Es & Ls & As & _); auto; [lia| |].
    { intros i Hi Bi. rewrite (gather_whole F D i A Hi Bi). cbn [bind]. apply (mid_ok u0 t F _ V Bi). }
    destruct (cells_spec false 0 w (fun i => do vs <- gather false (lay 0 w) D i; do us <- gather false (lay 0 w) E' i; second t (position (lay 0 w) i) vs us) F1 N) as (N' & En & Ln & An & _); auto; [lia| |].
    { intros i Hi Bi. rewrite (gather_whole F D i A Hi Bi), (gather_whole H E' i As Hi Bi). cbn [bind]. apply (new_ok t F H _ V VH Bi). }
    assert (one false (lay 0 w) t D E = Some E') as S1.
    { rewrite Hone by (auto; try lia; now rewrite length_whole). rewrite <- Es. apply fold_opt_same. intros i s _. destruct (gather false (lay 0 w) D i); cbn [bind]; auto. }
    assert (two false (lay 0 w) t D E' N = Some N') as S2.
    { rewrite Htwo; [|lia|auto|auto|now rewrite length_whole|intros i Hi; destruct (position_into 0 (lay 0 w) i (wf_lay 0 w Lo) Hi) as [Bi _]; rewrite map_x0_lay, map_x1_lay in Bi; rewrite (gather_whole F D i A Hi Bi); discriminate]. rewrite <- En. apply fold_opt_same. intros i s _. destruct (gather false (lay 0 w) D i); cbn [bind]; auto. destruct (gather false (lay 0 w) E' i); cbn [bind]; auto. }
    (* ranks, first stage *)
    destruct (stage_ranks uvalid (fun r i => do vs <- gather true (ge_axes (G r)) (d r) i; first t (position (ge_axes (G r)) i) vs) H e VH He) as (e1 & R1 & He1 & O1).
    { intros r ls i Hr Ea Ff Lo' Lw Hi Bi Bw. rewrite Ea. rewrite (gather_rank F d r ls i) by auto. cbn [bind]. apply (mid_ok u0 t F _ V Bw). }
    destruct (ghost_round cu uvalid np gh gs G B (DCG np gs bs gh B Hnp Hne Hgh Lb Sa HI Hw) Su HBu B0 (HIG np gs bs gh B Hnp Hne Hgh Lb Sa HI Hw) e1
      (fun r temp => lift (two true (ge_axes (G r)) t (d r) temp (u r)) (fun new => ghostswap c (G r) new (fun g => rank_stages one two c cu (G r) (t + 1) n g (d r) temp))) ch He1 Q)
      as (e2 & k1 & ch1 & Q1 & He2 & I1 & G1).
    pose proof (exchanged uvalid np gs bs gh B keep Hnp Hne Hgh Lb Sa HI Hw ukeeps H e1 e2 O1 (I1 (wide_G np gs bs gh B Hnp Hne Hgh Lb Sa HI Hw))) as St2.
    (* second stage *)
    destruct (stage_ranks valid (fun r i => do vs <- gather true (ge_axes (G r)) (d r) i; do us <- gather true (ge_axes (G r)) (e2 r) i; second t (position (ge_axes (G r)) i) vs us) F1 u V1 Hu) as (u1 & R2 & Hu1 & O2).
    { intros r ls i Hr Ea Ff Lo' Lw Hi Bi Bw. rewrite Ea. rewrite (gather_rank F d r ls i), (gather_rank H e2 r ls i) by auto. cbn [bind]. apply (new_ok t F H _ V VH Bw). }
    destruct (ghost_round c valid np gh gs G B (DCG np gs bs gh B Hnp Hne Hgh Lb Sa HI Hw) S HB B0 (HIG np gs bs gh B Hnp Hne Hgh Lb Sa HI Hw) u1
      (fun r g => rank_stages one two c cu (G r) (t + 1) n g (d r) (e2 r)) ch1 Hu1 Q1) as (d1 & k2 & ch2 & Q2 & Hd1 & I2 & G2).
    pose proof (exchanged valid np gs bs gh B keep Hnp Hne Hgh Lb Sa HI Hw keeps F1 u1 d1 O2 (I2 (wide_G np gs bs gh B Hnp Hne Hgh Lb Sa HI Hw))) as St1.
    destruct (IH (t + 1) F1 d1 d e2 N' D E' ch2 V1 Hd1 St1 Hd He2 Q2 An Ln L1 Ls) as (D' & F' & d' & k' & ch' & T1 & T2 & T3 & T4 & T5 & T6 & T7).
    exists D', F', d', (k1 + (k2 + k'))%nat, ch'. cbn [serial_stages]. rewrite S1. cbn [bind]. rewrite S2. cbn [bind]. repeat (split; [auto; fail|]).
    eapply gsteps_app; [erewrite ranks_ext; [exact G1|]|eapply gsteps_app; [erewrite ranks_ext; [exact G2|]|exact T7]].
    + intros r Hr. cbn [rank_stages]. replace (one true (ge_axes (G r)) t (d r) (e r)) with (Some (e1 r)); [reflexivity|].
      destruct (rank_lims' r Hr) as (ls & Ea & Ff & Ll). cbv beta in Ea, R1 |- *. rewrite <- (R1 r Hr), Ea, Hone by (auto; try lia; try discriminate; eapply fits_lims; eauto). symmetry. apply fold_opt_same. intros i s _. destruct (gather true _ (d r) i); cbn [bind]; auto.
    + intros r Hr. cbv beta. replace (two true (ge_axes (G r)) t (d r) (e2 r) (u r)) with (Some (u1 r)); [reflexivity|].
      destruct (rank_lims' r Hr) as (ls & Ea & Ff & Ll). cbv beta in Ea, R2 |- *. pose proof (fits_lims _ _ Ff) as Lo'.
      rewrite <- (R2 r Hr), Ea, Htwo; [|lia|discriminate|auto|auto|].
      2:{ intros i Hi. destruct (position_into gh (lay gh ls) i (wf_lay gh ls Lo') Hi) as [Bi _]. rewrite map_x0_lay, map_x1_lay in Bi.
          rewrite (gather_rank F d r ls i St Hr Ea Ff Lo'); [discriminate|rewrite length_whole; auto|auto|auto|eapply fits_box; eauto]. }
      symmetry. apply fold_opt_same. intros i s _.
      destruct (gather true _ (d r) i); cbn [bind]; auto. destruct (gather true _ (e2 r) i); cbn [bind]; auto.
Qed.
End Main.

Lemma two_barriers {A} np (P : Z -> proc A) ch : 0 < np -> gsteps 2 (ranks np (fun r => barrier (barrier (P r))), ch) (ranks np P, ch).
Proof.
  intros H. change 2%nat with (1 + 1)%nat. eapply gsteps_app; apply gsteps_1; unfold barrier; [apply (all_coll np 0 (fun _ => []) (fun r _ => barrier (P r)) ch H)|apply (all_coll np 0 (fun _ => []) (fun r _ => P r) ch H)].
Qed.

Theorem staged {T U} (c : codec T) (cu : codec U) valid uvalid np gs bs gh B first second one two n (D N : Z -> list T) (E : Z -> list U) (D0 N0 : list T) (E0 : list U) :
  serialises c valid -> serialises cu uvalid -> 0 < np -> gs <> [] -> 1 <= gh -> 0 <= B -> (forall v, valid v -> c_size c v <= B) -> (forall v, uvalid v -> c_size cu v <= B) ->
  Forall2 (fun g b => gx_0 g < gx_1 g /\ serial_side (fst b) (glen g) /\ serial_side (snd b) (glen g)) gs bs ->
  (forall r ge, 0 <= r < np -> setup_mpi np gs gh r = Some ge ->
     Forall (fun a => a_x0 a < a_x1 a /\ gh <= a_x1 a - a_x0 a) (ge_axes ge) /\ cells (ge_axes ge) * B <= int_max /\
     zlen (D r) = cells (ge_axes ge) /\ Forall valid (D r) /\ zlen (N r) = cells (ge_axes ge) /\ Forall valid (N r) /\ zlen (E r) = cells (ge_axes ge) /\ Forall uvalid (E r) /\
     forall y, owns ge y -> grid_read true (ge_axes ge) (D r) y = grid_read false (whole gs bs) D0 y) ->
  (forall t x vs, Forall valid vs -> zlen vs = 1 + 2 * zlen gs -> exists v, first t x vs = Some v /\ uvalid v) ->
  (forall t x vs us, Forall valid vs -> zlen vs = 1 + 2 * zlen gs -> Forall uvalid us -> zlen us = 1 + 2 * zlen gs -> exists v, second t x vs us = Some v /\ valid v) ->
  (forall mpi g ls t old temp, 0 <= g -> (mpi = false -> g = 0) -> lims_ok ls -> length ls = length gs -> one mpi (lay g ls) t old temp = stage_one first mpi (lay g ls) t old temp) ->
  (forall mpi g ls t old temp new, 0 <= g -> (mpi = false -> g = 0) -> lims_ok ls -> length ls = length gs -> (forall i, 0 <= i < nodes (lay g ls) -> gather mpi (lay g ls) old i <> None) ->
  two mpi (lay g ls) t old temp new = stage_two second mpi (lay g ls) t old temp new) ->
  zlen D0 = cells (whole gs bs) -> zlen N0 = cells (whole gs bs) -> zlen E0 = cells (whole gs bs) ->
  exists D0' D' f, serial_stages one two (whole gs bs) 0 n D0 N0 E0 = Some D0' /\ finished np D' f /\
    inevitable (ranks np (rank_staged one two c cu np gs bs gh D N E n), no_chans) f /\
    forall r ge, 0 <= r < np -> setup_mpi np gs gh r = Some ge -> zlen (D' r) = cells (ge_axes ge) /\ Forall valid (D' r) /\ forall y, owns ge y ->
      exists v, grid_read true (ge_axes ge) (D' r) y = Some v /\ grid_read false (whole gs bs) D0' y = Some v.
Proof.
  intros S Su Hnp Hne Hgh B0 HB HBu Hbs HD Hf Hs Hone Htwo L0 L1 L2. destruct (whole_serial gs bs Hbs) as [Lb Sa]. rewrite whole_lay in * by auto. set (w := whole_lims gs bs) in *.
  destruct (whole_box gs bs Lb) as [Bx0 Bx1]. fold w in Bx0, Bx1.
  assert (forall r ge, 0 <= r < np -> setup_mpi np gs gh r = Some ge -> cells (ge_axes ge) * B <= int_max) as HI by (intros r ge Hr Eg; apply (HD r ge Hr Eg)).
  assert (forall r ge, 0 <= r < np -> setup_mpi np gs gh r = Some ge -> Forall (fun a => a_x0 a < a_x1 a /\ gh <= a_x1 a - a_x0 a) (ge_axes ge)) as Hw by (intros r ge Hr Eg; apply (HD r ge Hr Eg)).
  set (G0 := fun r => match setup_mpi np gs gh r with Some ge => ge | None => dgeom end).
  set (G := fun r => with_bounds set_bounds_axis bs (G0 r)).
  pose proof (setup_G0 np gs bs gh B Hnp Hne Lb Sa HI Hw) as SG. fold G0 in SG.
  pose proof (DC0 np gs bs gh B Hnp Hne Hgh Lb Sa HI Hw) as DC. fold G0 in DC.
  pose proof (DCG np gs bs gh B Hnp Hne Hgh Lb Sa HI Hw) as DG. change (deco np gh gs G) in DG.
  assert (forall r, 0 <= r < np -> cells (ge_axes (G r)) = cells (ge_axes (G0 r)) /\ (forall y, owns (G r) y <-> owns (G0 r) y) /\ forall y, encode (ge_axes (G r)) y = encode (ge_axes (G0 r)) y) as GG.
  { intros r Hr. destruct (dc_len _ _ _ _ DC r Hr) as (L & _). unfold G, with_bounds, owns. cbn [ge_axes]. split; [apply cells_zip; lia|]. split.
    - intros y. rewrite !map_zip_axes by (auto; lia). reflexivity. - intros y. apply encode_zip. lia. }
  destruct (zlen D0 =? 0) eqn:Z0.
  { exfalso. assert (exists y, box w y) as [y By].
    { clear - Sa. induction Sa as [|l w' (H & _) F [y IH]]; [exists []; exact I|]. exists (l_x0 l :: y). simpl. split; [lia|auto]. }
    pose proof (idx_bounds w y Sa By). lia. }
  assert (exists v0 : T, True) as [v0 _] by (destruct D0 as [|v0 D0]; [rewrite zlen_nil in Z0; discriminate|eauto]).
  assert (exists u0 : U, True) as [u0 _] by (destruct E0 as [|u0 E0]; [rewrite <- L0, zlen_nil in L2; rewrite <- L2 in Z0; discriminate|eauto]).
  set (F := at_or v0 (lay 0 w) D0).
  assert (forall y, box w y -> get D0 (encode (lay 0 w) y) = Some (F y)) as A0.
  { intros y By. pose proof (read_defined v0 w D0 y Sa L0 (local_len w y By)) as R. rewrite cbs_in in R by auto. specialize (R By). rewrite read_idx in R by now apply local_len.
    rewrite cbs_in in R by auto. exact R. }
  assert (forall r y, 0 <= r < np -> owns (G0 r) y -> grid_read true (ge_axes (G0 r)) (D r) y = get (D r) (encode (ge_axes (G0 r)) y) /\ box w y) as RO.
  { intros r y Hr Oy. destruct (dc_len _ _ _ _ DC r Hr) as (L & _). split.
    - rewrite grid_read_eq; [now rewrite adjust_in|]. unfold owns in Oy. apply in_box_length in Oy as [H _]. rewrite map_length in H. congruence.
    - destruct (rank_lims valid np gs bs gh B keep Hnp Hne Hgh Lb Sa HI Hw (keep_ok valid gs) r Hr) as (ls & Eg & Ff & _). apply (fits_box ls w y Ff).
      apply (GG r Hr) in Oy. change (ge_axes (G r) = lay gh ls) in Eg. unfold owns in Oy. rewrite Eg, map_x0_lay, map_x1_lay in Oy. exact Oy. }
  assert (owned np gs bs gh F D) as OD.
  { intros r y Hr Oy. change (owns (G r) y) in Oy. change (get (D r) (encode (ge_axes (G r)) y) = Some (F y)). destruct (GG r Hr) as (_ & Go & ->). apply Go in Oy. destruct (RO r y Hr Oy) as [<- By].
    destruct (HD r _ Hr (SG r Hr)) as (_ & _ & _ & _ & _ & _ & _ & _ & Hy). rewrite (Hy y Oy). rewrite read_idx by now apply local_len. rewrite cbs_in by auto. now apply A0. }
  assert (forall y, box w y -> valid (F y)) as VF.
  { intros y By. destruct (owner valid np gs bs gh B keep Hnp Hne Hgh Lb Sa HI Hw (keep_ok valid gs) y) as (q & Hq & Oq).
    { apply local_len in By. unfold w in By. rewrite length_whole in By; auto. }
    pose proof (wrap_in w y By) as Ew. unfold w in Ew at 1. rewrite (whole_gaxes gs bs Lb) in Ew. rewrite Ew in Oq. pose proof (OD q y Hq Oq) as Eg.
    destruct (HD q _ Hq (SG q Hq)) as (_ & _ & _ & Vq & _). rewrite Forall_forall in Vq. apply Vq. unfold get in Eg. destruct (_ <? 0); [discriminate|]. eapply nth_error_In; eauto. }
  assert (held valid np G D /\ held valid np G N /\ held uvalid np G E) as (HdD & HdN & HdE).
  { repeat split; destruct (GG r H) as (GGc & _); rewrite ?GGc; destruct (HD r _ H (SG r H)) as (_ & _ & ? & ? & ? & ? & ? & ? & _); auto. }
  destruct (ghost_round c valid np gh gs G B DG S HB B0 (HIG np gs bs gh B Hnp Hne Hgh Lb Sa HI Hw) D (fun r old => barrier (barrier (rank_stages one two c cu (G r) 0 n old (N r) (E r)))) no_chans HdD quiet_empty)
    as (e & k & ch1 & Q1 & He & I & Gs).
  specialize (I (wide_G np gs bs gh B Hnp Hne Hgh Lb Sa HI Hw)).
  pose proof (exchanged valid np gs bs gh B keep Hnp Hne Hgh Lb Sa HI Hw (keep_ok valid gs) F D e OD I) as St.
  destruct (stage_loops c cu valid uvalid np gs bs gh B first second S Su Hnp Hne Hgh B0 HB HBu Lb Sa HI Hw Hf one two Hone Htwo Hs u0 n 0 F e N E D0 N0 E0 ch1 VF He St HdN HdE Q1 A0 L0 L1 L2) as (D0' & F' & D' & k' & ch' & R1 & R2 & R3 & R4 & R5 & R6 & R7).
  match goal with |- context [inevitable (ranks np ?P, _) _] => destruct (conclude np P D' (k + (2 + k')) no_chans ch' Hnp R6) as (f & F1 & F2) end.
  { eapply gsteps_app; [|eapply gsteps_app; [apply (two_barriers np (fun r => rank_stages one two c cu (G r) 0 n (e r) (N r) (E r))); lia|exact R7]].
    erewrite ranks_ext; [exact Gs|]. intros r Hr. unfold rank_staged. rewrite (SG r Hr). reflexivity. }
  exists D0', D', f. split; [auto|]. split; [auto|]. split; [auto|].
  intros r ge Hr Eg. rewrite (SG r Hr) in Eg. inversion Eg; subst ge. destruct (R4 r Hr) as [Rl Rv]. split; [rewrite Rl; apply (GG r Hr)|]. split; [auto|]. intros y Oy. destruct (RO r y Hr Oy) as [_ By].
  exists (F' y). split.
  - destruct (dc_len _ _ _ _ DC r Hr) as (L & _). rewrite grid_read_eq; [|unfold owns in Oy; apply in_box_length in Oy as [H _]; rewrite map_length in H; congruence].
    rewrite adjust_in by auto. destruct (GG r Hr) as (_ & Go & Ge). rewrite <- Ge.
    pose proof (wrap_in w y By) as Ew. unfold w in Ew at 1. rewrite (whole_gaxes gs bs Lb) in Ew. rewrite <- Ew at 2. apply R5; auto.
    apply (local_in_storage gh); [lia|apply (dc_wf _ _ _ _ DG r Hr)|]. now apply Go.
  - rewrite read_idx by now apply local_len. rewrite cbs_in by auto. now apply R3.
Qed.

(* ---- the Laplacian as a function of the values read ---- *)
Local Open Scope Qc_scope.
Fixpoint lap_pairs (dx : list Qc) (y : Qc) (ps : list Qc) : Qc :=
  match dx, ps with h :: dx', a :: b :: ps' => / (h * h) * (a - Stencil.c2 * y + b) + lap_pairs dx' y ps' | _, _ => 0 end.
Definition lap_of (dx : list Qc) (vs : list Qc) : Qc := match vs with y :: ps => lap_pairs dx y ps | [] => 0 end.
Lemma lap_pairs_snoc dx h y ps a b : length ps = (2 * length dx)%nat -> lap_pairs (dx ++ [h]) y (ps ++ [a; b]) = lap_pairs dx y ps + / (h * h) * (a - Stencil.c2 * y + b).
Proof.
  revert ps; induction dx as [|g dx IH]; intros ps L.
  - destruct ps; [|simpl in L; lia]. simpl. ring.
  - destruct ps as [|p [|q ps]]; simpl in L; try lia. cbn [app lap_pairs]. rewrite IH by lia. ring.
Qed.
Lemma lap_pairs_more dx dx' y ps : length ps = (2 * length dx)%nat -> lap_pairs (dx ++ dx') y ps = lap_pairs dx y ps.
Proof.
  revert ps; induction dx as [|g dx IH]; intros ps L; [destruct ps; [|simpl in L; lia]; destruct dx'; reflexivity|].
  destruct ps as [|p [|q ps]]; simpl in L; try lia. cbn [app lap_pairs]. rewrite IH by lia. reflexivity.
Qed.
Local Open Scope Z_scope.

Lemma laplacian_gather mpi g ls dx (data : list Qc) i : 0 <= g -> (mpi = false -> g = 0) -> lims_ok ls -> 0 <= i < nodes (lay g ls) ->
  length dx = length ls -> Forall (fun h => h <> 0%Qc) dx ->
  (do y <- grid_read_int mpi (lay g ls) data i; do l <- laplacian_at mpi (lay g ls) dx data i; Some (y, l)) =
  do vs <- gather mpi (lay g ls) data i; Some (hd 0%Qc vs, lap_of dx vs).
Proof.
  intros Hg Hm Lo Hi Ld Fd. unfold laplacian_at, laplacian, gather.
  destruct (read_int_position mpi g ls data i Hg Hm Lo Hi) as [<- _]. set (axs := lay g ls). destruct (grid_read_int mpi axs data i) as [y|]; cbn [bind]; [|reflexivity].
  assert (forall k, (k <= length ls)%nat -> forall x,
    match fold_opt (fun '(s, acc) j => do p <- probe mpi axs data s j; let '(s, yh, yl) := p in Some (s, acc ++ [yh; yl])) (zrange 0 (Z.of_nat k)) (x, [y]) with
    | Some (s, acc) => exists ps, acc = y :: ps /\ length ps = (2 * k)%nat /\
       fold_opt (fun '(s, lap) i => do p <- probe mpi axs data s i; let '(s, yh, yl) := p in do h <- get dx i; do weight <- recip (h * h)%Qc;
         Some (s, lap + weight * (yh - Stencil.c2 * y + yl))%Qc) (zrange 0 (Z.of_nat k)) (x, 0%Qc) = Some (s, lap_pairs (firstn k dx) y ps)
    | None => fold_opt (fun '(s, lap) i => do p <- probe mpi axs data s i; let '(s, yh, yl) := p in do h <- get dx i; do weight <- recip (h * h)%Qc;
         Some (s, lap + weight * (yh - Stencil.c2 * y + yl))%Qc) (zrange 0 (Z.of_nat k)) (x, 0%Qc) = None
    end) as X.
  { induction k as [|k IH]; intros Hk x.
    - change (Z.of_nat 0) with 0. rewrite zrange_nil by lia. cbn [fold_opt]. exists []. simpl. auto.
    - rewrite Nat2Z.inj_succ, <- Z.add_1_r, zrange_snoc by lia. rewrite !fold_opt_app. specialize (IH ltac:(lia) x).
      destruct (fold_opt _ _ (x, [y])) as [[s acc]|].
      + destruct IH as (ps & -> & Lp & E). rewrite E. cbn [bind fold_opt]. destruct (probe mpi axs data s (Z.of_nat k)) as [[[s' yh] yl]|]; cbn [bind]; [|reflexivity].
        assert (get dx (Z.of_nat k) = Some (nth k dx 0%Qc)) as Eg.
        { unfold get. destruct (Z.ltb_spec (Z.of_nat k) 0); [lia|]. rewrite Nat2Z.id. apply nth_error_nth'. lia. }
        rewrite Eg. cbn [bind]. assert (nth k dx 0%Qc <> 0%Qc) as Nz by (rewrite Forall_forall in Fd; apply Fd, nth_In; lia).
        unfold recip. destruct (Qc_eq_dec _ _) as [e|_]; [exfalso; apply Qcmult_integral in e; tauto|]. cbn [bind].
        exists (ps ++ [yh; yl]). split; [reflexivity|]. split; [rewrite app_length; simpl; lia|].
        rewrite (SparseL.firstn_snoc dx k (nth k dx 0%Qc)) by (apply nth_error_nth'; lia). rewrite lap_pairs_snoc; [reflexivity|]. rewrite firstn_length. lia.
      + rewrite IH. reflexivity. }
  specialize (X (length ls) (le_n _) (position axs i)). replace (zlen axs) with (Z.of_nat (length ls)) by (unfold axs, zlen; now rewrite length_lay).
  destruct (fold_opt _ _ (position axs i, [y])) as [[s acc]|]; [|rewrite X; reflexivity].
  destruct X as (ps & -> & Lp & E). rewrite E. cbn [bind snd]. unfold lap_of. cbn [hd]. rewrite firstn_all2 by lia. reflexivity.
Qed.

(* ---- model B ---- *)
Section Model_B.
Context (dx : list Qc) (r u K k : Qc) (noise : Z -> list Z -> Qc).
Definition B_first (t : Z) (x : list Z) (vs : list Qc) : option Qc := Some (- r * hd 0 vs + u * cube (hd 0 vs) - K * lap_of dx vs + noise t x)%Qc.
Definition B_second (t : Z) (x : list Z) (vs us : list Qc) : option Qc := Some (hd 0 vs + k * lap_of dx us)%Qc.

Lemma B_one mpi g ls t old temp : length dx = length ls -> Forall (fun h => h <> 0%Qc) dx -> 0 <= g -> (mpi = false -> g = 0) -> lims_ok ls ->
  B_potential dx r u K noise mpi (lay g ls) t old temp = stage_one B_first mpi (lay g ls) t old temp.
Proof.
  intros Ld Fd Hg Hm Lo. unfold B_potential, for_nodes, stage_one. apply fold_opt_same. intros i s Hi. apply in_zrange in Hi.
  pose proof (laplacian_gather mpi g ls dx old i Hg Hm Lo Hi Ld Fd) as X. unfold B_first.
  destruct (gather mpi (lay g ls) old i) as [vs|]; cbn [bind] in *.
  - destruct (grid_read_int mpi (lay g ls) old i) as [y|]; cbn [bind] in *; [|discriminate]. destruct (laplacian_at mpi (lay g ls) dx old i) as [l|]; cbn [bind] in *; [|discriminate].
    injection X as -> ->. reflexivity.
  - destruct (grid_read_int mpi (lay g ls) old i) as [y|]; cbn [bind] in *; [|auto]. destruct (laplacian_at mpi (lay g ls) dx old i) as [l|]; cbn [bind] in *; [discriminate|auto].
Qed.
Lemma B_two mpi g ls t old temp new : length dx = length ls -> Forall (fun h => h <> 0%Qc) dx -> 0 <= g -> (mpi = false -> g = 0) -> lims_ok ls ->
  (forall i, 0 <= i < nodes (lay g ls) -> gather mpi (lay g ls) old i <> None) ->
  B_flow dx k mpi (lay g ls) t old temp new = stage_two B_second mpi (lay g ls) t old temp new.
Proof.
  intros Ld Fd Hg Hm Lo Hold. unfold B_flow, for_nodes, stage_two. apply fold_opt_same. intros i s Hi. apply in_zrange in Hi.
  pose proof (laplacian_gather mpi g ls dx old i Hg Hm Lo Hi Ld Fd) as X. pose proof (laplacian_gather mpi g ls dx temp i Hg Hm Lo Hi Ld Fd) as Y. unfold B_second. specialize (Hold i Hi).
  destruct (gather mpi (lay g ls) old i) as [vs|]; [|congruence]. cbn [bind] in *.
  destruct (grid_read_int mpi (lay g ls) old i) as [y|]; cbn [bind] in *; [|discriminate]. destruct (laplacian_at mpi (lay g ls) dx old i) as [l|]; cbn [bind] in *; [|discriminate].
  injection X as -> _.
  assert (grid_read_int mpi (lay g ls) temp i = None -> laplacian_at mpi (lay g ls) dx temp i = None) as Z0.
  { intros E. unfold laplacian_at, laplacian. destruct (read_int_position mpi g ls temp i Hg Hm Lo Hi) as [<- _]. now rewrite E. }
  destruct (gather mpi (lay g ls) temp i) as [us|]; cbn [bind] in *.
  - destruct (grid_read_int mpi (lay g ls) temp i) as [z|]; cbn [bind] in *; [|discriminate]. destruct (laplacian_at mpi (lay g ls) dx temp i) as [l'|]; cbn [bind] in *; [|discriminate].
    injection Y as _ ->. reflexivity.
  - destruct (grid_read_int mpi (lay g ls) temp i) as [z|]; cbn [bind] in *; [|now rewrite Z0]. destruct (laplacian_at mpi (lay g ls) dx temp i) as [l'|]; cbn [bind] in *; [discriminate|auto].
Qed.

(* the serial program of the two loops is that of Model/Dynamics.v *)
Lemma serial_B axs t n old new temp : serial_stages (B_potential dx r u K noise) (B_flow dx k) axs t n old new temp =
  do st <- steps_from t n (fun t => model_B_step false axs dx r u K k (fun i => noise t (position axs i))) (old, new, temp); Some (fst (fst st)).
Proof.
  revert t old new temp; induction n as [|n IH]; intros t old new temp; [reflexivity|]. cbn [serial_stages steps_from]. unfold model_B_step at 1. fold (B_potential dx r u K noise false axs t old temp).
  destruct (B_potential dx r u K noise false axs t old temp) as [temp'|]; cbn [bind]; [|reflexivity]. fold (B_flow dx k false axs t old temp' new).
  destruct (B_flow dx k false axs t old temp' new) as [new'|]; cbn [bind]; [|reflexivity]. apply IH.
Qed.
End Model_B.
