(* Particles stamped by the ranks of a program. *)
From Coq Require Import QArith.QArith QArith.Qcanon.
From Verif Require Import Model.Base Model.Boundary Model.Layout Model.Access Model.Setup Model.Codec Model.MPI Model.Ghostswap Model.File Model.Jobs Model.Stencil Model.Simulate Model.Spin Model.Zener Model.Dynamics Model.Generate Model.Starts
  Spec.Box Spec.Access Spec.Bytes Spec.Decomp Spec.Schedule Spec.Stencil Spec.Program Spec.Spin Spec.Generate Spec.Starts
  Proof.BaseL Proof.LayoutL Proof.AccessL Proof.CodecL Proof.SetupL Proof.MPIL Proof.HaloL Proof.StencilL Proof.StencilS Proof.StencilQ Proof.SimulateL Proof.StagesL Proof.ProgramL Proof.ProgramF Proof.SpinL Proof.SpinF Proof.GenerateL Proof.McRanksF Proof.StartsL.
Import Model.Layout.
Local Open Scope Z_scope.

Definition loose (l : limits) : Prop := (l_b0 l = periodic \/ l_b0 l = parallel) /\ (l_b1 l = periodic \/ l_b1 l = parallel).
Lemma loose_adjust g ls x : Forall loose ls -> length x = length ls -> adjust true (lay g ls) x = x.
Proof.
  intros F. revert x. induction F as [|l ls [A B] _ IH]; intros [|c x] L; cbn in L; try discriminate; [reflexivity|]. cbn [lay adjust a_x0 a_x1 a_b0 a_b1]. rewrite IH by lia. f_equal.
  unfold check_boundary. destruct A as [-> | ->], B as [-> | ->]; destruct (c <? l_x0 l), (l_x1 l <=? c); reflexivity.
Qed.

Section Rank.
Context {T : Type} (gh : Z) (ls : list limits) (Hgh : 1 <= gh) (Lo : lims_ok ls) (Fl : Forall loose ls).
Notation axs := (lay gh ls).
Notation storage := (in_box (map a_s0 axs) (map a_s1 axs)).
Notation at_ u x := (get u (encode axs x)).
Lemma storage_len x : storage x -> length x = length ls.
Proof using All. intros H. apply in_box_length in H as [H _]. rewrite map_length, length_lay in H. auto. Qed.
Lemma box_storage x : box ls x -> storage x.
Proof using All. intros B. apply (local_in_storage gh); [lia|now apply wf_lay|now rewrite map_x0_lay, map_x1_lay]. Qed.

Context (f : T -> option T) (g : T -> T) (ok : T -> Prop).
Hypothesis Hf : forall c, ok c -> f c = Some (g c) /\ ok (g c) /\ g (g c) = g c.
Lemma touched_mpi ps u : Forall storage ps -> zlen u = cells axs -> Forall ok u ->
  exists u', fold_opt (fun u p => do c <- grid_read true axs u p; do c <- f c; grid_write true axs u p c) ps u = Some u' /\ zlen u' = cells axs /\ Forall ok u' /\
    forall y v, storage y -> at_ u y = Some v -> at_ u' y = Some (if in_dec vdec y ps then g v else v).
Proof using All.
  intros Hp. revert u. induction Hp as [|p ps Sp _ IH]; intros u L O; [exists u; split; [reflexivity|]; split; [auto|]; split; [auto|]; intros y v By Gy; exact Gy|]. cbn [fold_opt].
  pose proof (storage_len p Sp) as Lp. rewrite grid_read_eq by (rewrite length_lay; auto). rewrite loose_adjust by auto.
  assert (0 <= encode axs p < zlen u) as Rp by (rewrite L; apply (encode_bounds gh); [now apply wf_lay|auto]). destruct (get_ex u (encode axs p) Rp) as [c Gc]. rewrite Gc. cbn [bind].
  assert (ok c) as Oc by (rewrite Forall_forall in O; apply O; eapply get_In; eauto). destruct (Hf c Oc) as (Ef & Og & Eg). rewrite Ef. cbn [bind].
  rewrite grid_write_eq by (rewrite length_lay; auto). rewrite loose_adjust by auto. destruct (put_ex u (encode axs p) (g c) Rp) as (u1 & E1 & L1). rewrite E1. cbn [bind].
  destruct (IH u1) as (u' & E & L' & O' & V); [congruence| |].
  { apply put_some in E1 as [_ ->]. now apply Forall_set_nth. }
  exists u'. split; [auto|]. split; [auto|]. split; [auto|]. intros y v Sy Gy. destruct (vdec y p) as [->|N].
  - assert (v = c) as -> by congruence. rewrite (V p (g c) Sp (get_put_eq _ _ _ _ E1)). destruct (in_dec vdec p (p :: ps)) as [|C]; [|exfalso; apply C; now left]. destruct (in_dec vdec p ps); congruence.
  - rewrite (V y v Sy). 2: { rewrite <- Gy. eapply get_put_ne; [exact E1|]. intros Ea. apply N. symmetry. apply (encode_inj gh) in Ea; auto. now apply wf_lay. }
    destruct (in_dec vdec y ps) as [I|I], (in_dec vdec y (p :: ps)) as [J|J]; try reflexivity; exfalso; [apply J; now right|destruct J as [J|J]; [now apply N|auto]].
Qed.
Lemma plus_next x y : length x = length y -> (exists o, In o (cube (length x)) /\ vadd x o = y) <-> next_to x y.
Proof using All.
  intros L. split.
  - intros (o & Ho & <-). apply in_cube in Ho as [Lo' Fo]. rewrite vadd_plus by auto. clear L. revert x Lo'. induction Fo as [|a o Ha _ IH]; intros [|b x] L; cbn in L; try discriminate; [constructor|]. constructor; [lia|]. apply IH. lia.
  - intros N. exists (zip_with (fun b a => b - a) y x). split.
    + apply in_cube. clear L. induction N as [|a b x y H N [IH1 IH2]]; cbn; [auto|]. split; [f_equal; auto|]. constructor; [lia|auto].
    + rewrite vadd_plus; clear L; induction N as [|a b x y H N IH]; cbn; auto. f_equal; [lia|auto].
Qed.
Lemma next_storage x y : box ls x -> next_to x y -> storage y.
Proof using Hgh Lo.
  clear Fl Hf. revert x y. induction ls as [|l ls' IH]; intros x y B N; [destruct x; [|contradiction]; inversion N; exact I|]. destruct x as [|a x]; [contradiction|]. inversion N as [|? b ? y' Hab N']; subst. cbn in B |- *. destruct B as [B1 B2]. inversion Lo; subst. split; [lia|]. eapply IH; eauto.
Qed.
Lemma stamps_mpi rnd u : 1 <= zlen ls <= 3 -> Forall (fun l => l_x0 l < l_x1 l) ls -> (forall n, 0 <= rnd n) -> zlen u = cells axs -> Forall ok u ->
  exists u', stamps true axs rnd f u = Some u' /\ zlen u' = cells axs /\ Forall ok u' /\
    forall y v, box ls y -> at_ u y = Some v -> stamped_by axs rnd y /\ at_ u' y = Some (g v) \/ ~ stamped_by axs rnd y /\ at_ u' y = Some v.
Proof using All.
  intros D Ne R L O. destruct (node_facts gh ls true ltac:(lia) ltac:(discriminate) Lo) as (P & _).
  assert (0 < nodes axs) as Np. { clear -Ne. destruct Ne as [|l ls' H Ne]; [cbn; lia|]. assert (0 < prodZ (map (fun m => l_x1 m - l_x0 m) ls')) as Q by (apply prodZ_pos, Forall_map; eapply Forall_impl; [|exact Ne]; cbv beta; intros; lia). cbn [lay nodes a_xx a_x0 a_x1]. nia. }
  set (xs := map (fun j => position axs (Z.rem (rnd (Z.to_nat j)) (nodes axs))) (zrange 0 (n_particles axs))).
  set (ps := flat_map (fun x => map (vadd x) (cube (length ls))) xs).
  assert (cube_offsets axs = cube (length ls)) as Ec. { unfold cube_offsets. assert (zlen axs = zlen ls) as -> by (unfold zlen; now rewrite length_lay). destruct (Z.leb_spec 1 (zlen ls)); [|lia]. destruct (Z.leb_spec (zlen ls) 3); [|lia]. cbn [andb]. now rewrite offsets_cube, length_lay. }
  assert (stamps true axs rnd f u = fold_opt (fun u p => do c <- grid_read true axs u p; do c <- f c; grid_write true axs u p c) ps u) as ->.
  { unfold stamps, ps, xs. rewrite <- fold_flat, <- fold_over. apply fold_same. intros a j. unfold stamp. replace (nodes axs =? 0) with false by (symmetry; apply Z.eqb_neq; lia). cbn [negb guard bind]. rewrite Ec. now rewrite <- fold_over. }
  assert (forall x, In x xs -> box ls x) as Bx. { intros x Hx. apply in_map_iff in Hx as (j & <- & _). apply P. apply Z.rem_bound_pos; auto. }
  assert (forall x, In x xs <-> draws axs rnd x) as Dx.
  { intros x. unfold xs, draws. rewrite in_map_iff. assert (n_particles axs = n_drawn axs) as En by (unfold n_particles, n_drawn; change (50 * 8192) with 409600; now rewrite Z.quot_div_nonneg by lia). rewrite En. split.
    - intros (j & <- & Hj). apply in_zrange in Hj. exists (Z.to_nat j). split; [lia|]. now rewrite Z.rem_mod_nonneg by (auto; lia).
    - intros (j & Hj & ->). exists (Z.of_nat j). rewrite Nat2Z.id. split; [now rewrite Z.rem_mod_nonneg by (auto; lia)|]. apply in_zrange. lia. }
  assert (forall y, length y = length ls -> In y ps <-> stamped_by axs rnd y) as Iy.
  { intros y Ly. unfold ps. rewrite in_flat_map. split.
    - intros (x & Hx & Hy). exists x. split; [now apply Dx|]. pose proof (local_len _ _ (Bx x Hx)) as Lx. apply plus_next; [congruence|]. apply in_map_iff in Hy as (o & Eo & Ho). exists o. rewrite Lx. auto.
    - intros (x & Hx & N). apply Dx in Hx. exists x. split; [auto|]. pose proof (local_len _ _ (Bx x Hx)) as Lx. apply plus_next in N as (o & Ho & Eo); [|congruence]. rewrite Lx in Ho. apply in_map_iff. eauto. }
  destruct (touched_mpi ps u) as (u' & E & L' & O' & V); auto.
  { apply Forall_forall. intros p Hp. apply in_flat_map in Hp as (x & Hx & Hp). pose proof (Bx x Hx) as B. pose proof (local_len _ _ B) as Lx. apply (next_storage x p B). apply in_map_iff in Hp as (o & Eo & Ho). apply plus_next.
    - rewrite <- Eo. apply in_cube in Ho as [Lo' _]. rewrite vadd_plus by congruence. rewrite plus_length; congruence.
    - exists o. rewrite Lx. auto. }
  exists u'. split; [exact E|]. split; [auto|]. split; [auto|]. intros y v By Gy. pose proof (Iy y (local_len _ _ By)) as I. rewrite (V y v (box_storage y By) Gy). destruct (in_dec vdec y ps) as [J|J]; tauto.
Qed.
End Rank.

Section Ranks.
Context (np : Z) (gs : list gaxis) (gh B : Z) (Gr : grids np gs (faces gs) gh B) (D3 : (1 <= length gs <= 3)%nat) (P0 : Forall (fun g => 0 <= gx_0 g) gs).
Notation bs := (faces gs).
Notation w := (whole_lims gs bs).
Notation G0 := (fun r => match setup_mpi np gs gh r with Some ge => ge | None => dgeom end).
Lemma fits_loose ls : Forall2 fits ls w -> Forall loose ls /\ Forall (fun l => l_x0 l < l_x1 l) ls /\ Forall (fun l => 0 <= l_x0 l) ls.
Proof using P0.
  clear Gr D3. revert ls P0. unfold whole_lims, faces. induction gs as [|g gs' IH]; intros ls P F; cbn in F; inversion F as [|l ? ls' ? Hf F']; subst; [repeat split; constructor|].
  inversion P; subst. destruct (IH ls') as (A & C & D); auto. unfold fits in Hf. cbn in Hf. destruct Hf as (f1 & f2 & f3 & f4 & f5). split; [|split; constructor; auto; lia]. constructor; [|auto]. unfold loose. rewrite f4, f5. clear. split; repeat (destruct (_ =? _)); auto.
Qed.
Lemma pinned_ok {T} (blank ok : T -> Prop) (value : T -> Z -> Prop) (f1 : bool -> T -> option T) (f : T -> option T) (g : T -> T) rnd memory :
  (forall c, ok c -> f c = Some (g c) /\ ok (g c) /\ g (g c) = g c) -> (forall c, blank c -> ok c) ->
  (forall b c, blank c -> exists v, f1 b c = Some v /\ ok v /\ value v (if b then 2 else 1) /\ value (g v) 0) ->
  (forall r n, 0 <= rnd r n) -> filled blank np gs gh memory ->
  pinned value np gs gh rnd (filling np gs gh (fun r axs u => do u <- for_cells true axs (fun n c => f1 (disc (position axs n)) c) u; stamps true axs (rnd r) f u) memory).
Proof using All.
  intros Hf Hb H1 R Fm. pose proof (Hgh np gs gh B Gr) as Gh.
  assert (forall r, 0 <= r < np -> exists e, (do u <- for_cells true (ge_axes (G0 r)) (fun n c => f1 (disc (position (ge_axes (G0 r)) n)) c) (memory r); stamps true (ge_axes (G0 r)) (rnd r) f u) = Some e /\
    forall y, owns (G0 r) y -> exists c, grid_read true (ge_axes (G0 r)) e y = Some c /\ (stamped_by (ge_axes (G0 r)) (rnd r) y -> value c 0) /\
      (~ stamped_by (ge_axes (G0 r)) (rnd r) y -> in_disc y -> value c 2) /\ (~ stamped_by (ge_axes (G0 r)) (rnd r) y -> ~ in_disc y -> value c 1)) as A.
  { intros r Hr. destruct (lims_r np gs gh B Gr r Hr) as (ls & Ea & Ff & Lo & Ll). destruct (Fm r _ Hr (made np gs gh B Gr r Hr)) as [Lm Vm]. destruct (fits_loose ls Ff) as (Fl & Fn & Fp). unfold owns. cbv beta in *. rewrite Ea in *. clear Ea. rewrite map_x0_lay, map_x1_lay.
    destruct (node_facts gh ls true ltac:(lia) ltac:(discriminate) Lo) as (P & I & On). rewrite Forall_forall in Vm.
    destruct (fold_pass_make (fun n c => f1 (disc (position (lay gh ls) n)) c) (addr_int true (lay gh ls)) (zrange 0 (nodes (lay gh ls))) (memory r) (NoDup_zrange _ _)) as (u1 & E1 & M1); [intros i j Hi Hj; apply in_zrange in Hi, Hj; auto| |].
    { intros i Hi. apply in_zrange in Hi. destruct (P i Hi) as (_ & _ & Ri). destruct (get_ex (memory r) (addr_int true (lay gh ls) i)) as [c Gc]; [lia|]. destruct (H1 (disc (position (lay gh ls) i)) c) as (v & Ev & _); [apply Vm; eapply get_In; eauto|]. eauto. }
    destruct (fold_pass_inv (fun n c => f1 (disc (position (lay gh ls) n)) c) (addr_int true (lay gh ls)) (zrange 0 (nodes (lay gh ls))) (memory r) u1 (NoDup_zrange _ _)) as [L1 C1]; [intros i j Hi Hj; apply in_zrange in Hi, Hj; auto|exact E1|].
    change (for_cells true (lay gh ls) (fun n c => f1 (disc (position (lay gh ls) n)) c) (memory r) = Some u1) in E1. rewrite E1. cbn [bind].
    destruct (stamps_mpi gh ls Gh Lo Fl f g ok Hf (rnd r) u1) as (u' & E & L' & O' & V); auto; [unfold zlen; lia|congruence| |].
    { apply Forall_forall. intros v Hv. destruct (M1 v Hv) as [Hd|(i & c & Hi & Gc & Fc)]; [apply Hb; auto|]. destruct (H1 (disc (position (lay gh ls) i)) c) as (v' & Ev & Ov & _); [apply Vm; eapply get_In; eauto|]. congruence. }
    exists u'. split; [exact E|]. intros y By. destruct (On y By) as (i & Hi & Ei). destruct (C1 i) as (c & v & Gc & Fc & Gv); [now apply in_zrange|]. destruct (P i Hi) as (_ & Ai & _). rewrite Ai, Ei in Gv. rewrite Ei in Fc.
    destruct (H1 (disc y) c) as (v' & Ev & _ & Val & Val0); [apply Vm; eapply get_In; eauto|]. rewrite Ev in Fc. injection Fc as ->.     rewrite grid_read_eq by (rewrite length_lay; now apply local_len). rewrite loose_adjust by (auto; now apply local_len). pose proof (disc_ok ls y Fp By) as Dy.
    destruct (V y v By Gv) as [[Y Ey]|[Y Ey]].
    - exists (g v). split; [auto|]. tauto.
    - exists v. split; [auto|]. split; [tauto|]. split; intros _ Hd; destruct (disc y); auto; exfalso; [apply Dy in Hd; discriminate|apply Hd, Dy; reflexivity]. }
  apply (choose_ranks _ np (Hnp np gs gh B Gr)) in A as [e He].
  destruct (conclude np _ e 1 no_chans no_chans (Hnp np gs gh B Gr) (fun _ _ _ => eq_refl) (filling_steps np gs gh B Gr (fun r axs u => do u <- for_cells true axs (fun n c => f1 (disc (position axs n)) c) u; stamps true axs (rnd r) f u) memory e (fun r Hr => proj1 (He r Hr)))) as (fin & Ff & If).
  exists e. split; [exists fin; auto|]. intros r ge y Hr E Oy. rewrite (made np gs gh B Gr r Hr) in E. injection E as <-. now apply He.
Qed.
End Ranks.
