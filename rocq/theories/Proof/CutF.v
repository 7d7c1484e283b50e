(* Files of several ranks that end too early. *)
From Coq Require Import String Permutation.
From Verif Require Import Model.Base Model.Text Model.Boundary Model.Layout Model.Access Model.Setup Model.Codec Model.Region Model.MPI Model.Ghostswap Model.File Model.Simulate Model.Types
  Spec.Box Spec.Bytes Spec.Access Spec.Decomp Spec.File Spec.Schedule Spec.Jobs Spec.Runs Spec.Mixed Spec.Cut
  Proof.BaseL Proof.TextL Proof.LayoutL Proof.AccessL Proof.MPIL Proof.ExecL Proof.CodecL Proof.RegionL Proof.FileL Proof.SetupL Proof.GhostL Proof.HaloL Proof.CheckpointL Proof.JobsL Proof.MixedL Proof.TypesL Proof.OpensL Proof.CutL
  Props.File.
From Verif Require Import Spec.Types.
Local Open Scope list_scope.
Local Open Scope Z_scope.

Lemma first_inside axs : Forall (fun a => a_x0 a < a_x1 a) axs -> in_box (map a_x0 axs) (map a_x1 axs) (map a_x0 axs).
Proof. induction 1 as [|a l Ha F IH]; cbn [map in_box]; [exact I|]. split; [lia|exact IH]. Qed.

Section Cut.
Context {T : Type} (c : codec T) (valid : T -> Prop) (fresh : Z -> T).
Context {S : Type} (dshow : S -> list byte) (dparse : list byte -> option S).
Context (raw : bool) (compress : list byte -> list byte) (uncompress : list byte -> Z -> option (list byte)).
Context (name : list byte) (fields : Z) (gs : list gaxis) (dx : list S) (B : list (Z * Z)) (gh : Z).
Context (Hs : storable c valid fresh dshow dparse compress uncompress name fields gs dx B gh) (Hd : zlen gs <= 3).
Context (np : Z) (D : list T) (file : list byte) (Hp : peopled np gs gh) (Ck : checkpoint c valid dshow dparse raw compress name fields gs dx B gh np D file).

(* some node is missed by every program that looks at the part it lies in *)
Lemma missed p : cut_short p file -> exists x, in_box (map gx_0 gs) (map gx_1 gs) x /\
  forall setup ge g, setup gs = Some ge -> wf_axes g (ge_axes ge) -> 0 <= g -> length (ge_axes ge) = length gs -> owns ge x ->
    input c fresh dparse raw uncompress setup name (length gs) p = Undef \/
    (length p < length name)%nat /\ exists code, input c fresh dparse raw uncompress setup name (length gs) p = Exit code.
Proof using Hs Hd Hp Ck.
  intros (q & Nq & Ef). destruct Ck as (data & V & Wr & Fd & Wf). pose proof Hs as [Sc Ll Hgh Hfr _ _ _ _ _ _ _ _ _ _].
  assert (file = CheckpointL.file c raw compress dshow name fields gs dx B np gh data) as E by (eapply writes_unique; [exact Wf|]; eapply writes_portable; eauto).
  rewrite Ef in E. destruct Wr.
  assert (gok gs) as Hok by (unfold gok; eapply Forall_impl; [|exact w_box]; simpl; lia).
  assert (1 <= zlen gs) as Hd1 by (destruct gs; [congruence|rewrite zlen_cons; pose proof (zlen_nonneg l); lia]).
  set (ws := zrange 0 np) in *.
  assert (zlen (wblocks gs B np gh data ws) = np) as Lw by (unfold wblocks, ws; rewrite zlen_map, zlen_zrange; lia).
  assert (forall w, 0 <= w < np -> block_ok c valid raw compress gh (length gs) (wax gs B np gh w, data w)) as Bok.
  { intros w Hw. edestruct (rank_writable c valid fresh raw compress uncompress dshow dparse Sc Ll name fields gs dx B w_name w_fields w_dim w_ne w_box w_dx w_exact w_bc w_bcs np gh w_np w_npi w_gh data V w_hold w_valid w_rec w Hw) as (X1 & X2 & X3 & _).
    split; [exact X1|split; [exact X2|exact X3]]. }
  assert (Forall2 (fun b blk => write_buffer c raw compress (fst b) (snd b) = Some blk) (wblocks gs B np gh data ws) (map (wblk c raw compress gs B np gh data) ws)) as F2.
  { unfold wblocks. assert (Forall (fun r => 0 <= r < np) ws) as F by (apply Forall_forall; intros r Hr; now apply in_zrange in Hr).
    revert F. generalize ws. intros l F. induction F as [|r l Hr F IH]; simpl; constructor; [|exact IH]. cbn [fst snd].
    exact (wblk_ok c valid fresh raw compress uncompress dshow dparse Sc Ll name fields gs dx B w_name w_fields w_dim w_ne w_box w_dx w_exact w_bc w_bcs np gh w_np w_npi w_gh data V w_hold w_valid w_rec r Hr). }
  destruct (input_cut c valid fresh raw compress uncompress dshow dparse Sc Ll name fields gs dx gh (wblocks gs B np gh data ws) (map (wblk c raw compress gs B np gh data) ws) p q) as (b & Ib & H); auto.
  { eapply Forall_impl; [|exact w_box]. simpl. tauto. }
  { lia. } { now rewrite Lw. }
  { apply Forall_forall. intros b Hb. apply in_map_iff in Hb as (w & <- & Hw). apply Bok. now apply in_zrange in Hw. }
  { rewrite E, Lw. reflexivity. }
  apply in_map_iff in Ib as (w & <- & Hw). apply in_zrange in Hw. cbn [fst] in H.
  destruct (setup_eq np gs gh w w_np w_ne Hok Hw) as (p1 & _ & _ & _ & _ & Ew). cbv zeta in Ew.
  match type of Ew with _ = Some ?g => set (gw := g) in * end.
  assert (CheckpointL.geo gs np gh w = gw) as Eg by (unfold CheckpointL.geo; now rewrite Ew).
  pose proof (Hp w gw Hw Ew) as Ne. exists (map a_x0 (ge_axes gw)). assert (owns gw (map a_x0 (ge_axes gw))) as O by now apply first_inside.
  split; [eapply owned_inside; eauto|]. intros setup ge g Sg W G Lg Og. apply (H setup ge g Sg W G Lg).
  pose proof (rank_len c valid fresh raw compress uncompress dshow dparse Sc Ll name fields gs dx B w_name w_fields w_dim w_ne w_box w_dx w_exact w_bc w_bcs np gh w_np w_npi w_gh data V w_hold w_valid w_rec np gh w w_np w_gh Hw) as Lr.
  destruct (with_bcs_same B (ge_axes (CheckpointL.geo gs np gh w))) as (Sm1 & Sm2 & _).
  eapply touches_of; [|exact Og|].
  - unfold wax. rewrite (same_len _ _ (with_bcs_same _ _)). congruence.
  - unfold wax. rewrite Sm1, Sm2, Eg. exact O.
Qed.

Lemma missed_serial p : cut_short p file ->
  input_serial c fresh dparse raw uncompress name (length gs) p = Undef \/ (length p < length name)%nat /\ exists code, input_serial c fresh dparse raw uncompress name (length gs) p = Exit code.
Proof using Hs Hd Hp Ck.
  intros C. destruct (missed p C) as (x & Bx & H).
  pose proof (t_box _ _ _ _ _ _ _ _ _ _ _ _ _ Hs) as Hb.
  destruct (wf_single (map (fun g => (gx_0 g, gx_1 g)) gs)) as (W & X0 & X1 & _); [rewrite Forall_map; eapply Forall_impl; [|exact Hb]; simpl; lia|].
  rewrite !map_map in *. cbn [fst snd] in *. rewrite (map_ext (fun g => mkG (gx_0 g) (gx_1 g)) (fun g => g)), map_id in * by (now intros []).
  apply (H (fun gs => Some (setup_single gs 0)) (setup_single gs 0) 0); [reflexivity|exact W|lia| |].
  - pose proof (f_equal (@length _) X0) as L. now rewrite !map_length in L.
  - unfold owns. now rewrite X0, X1.
Qed.

Lemma missed_rank p np' gh' : cut_short p file -> 0 < np' -> 0 <= gh' -> exists r, 0 <= r < np' /\
  (input c fresh dparse raw uncompress (fun gs => setup_mpi np' gs gh' r) name (length gs) p = Undef \/
   (length p < length name)%nat /\ exists code, input c fresh dparse raw uncompress (fun gs => setup_mpi np' gs gh' r) name (length gs) p = Exit code).
Proof using Hs Hd Hp Ck.
  intros C Hn Hg. destruct (missed p C) as (x & Bx & H). destruct Hs.
  assert (gok gs) as Hok by (unfold gok; eapply Forall_impl; [|exact t_box]; simpl; lia).
  destruct (partition np' gs gh' x Hn t_ne Hok Bx) as (r & ge & Hr & Er & Or & _). exists r. split; [exact Hr|].
  pose proof (deco_setup np' gs gh' Hn t_ne Hok Hg) as DC. destruct (dc_len _ _ _ _ DC r Hr) as (L & _). pose proof (dc_wf _ _ _ _ DC r Hr) as W. cbv beta zeta in L, W. rewrite Er in L, W.
  apply (H (fun gs => setup_mpi np' gs gh' r) ge gh'); [exact Er|exact W|exact Hg|exact L|exact Or].
Qed.
End Cut.

Lemma getline_all (u : list byte) : Forall (fun b => b <> 10) u -> getline u = (u, []).
Proof.
  intros N. unfold getline. assert (span (fun b => negb (b =? 10)) u = (u, [])) as ->; [|reflexivity].
  induction N as [|b l Hb N IH]; [reflexivity|]. cbn [span]. destruct (Z.eqb_spec b 10); [contradiction|]. cbn [negb]. now rewrite IH.
Qed.

Section Tools.
Context {T : Type} (cod : kind -> elem -> codec T) (fresh : kind -> elem -> Z -> T).
Context {S : Type} (dparse : list byte -> option S) (raw : bool) (uncompress : list byte -> Z -> option (list byte)) (dshow : S -> list byte).

Lemma open_cut p k e fields gs (dx : list S) rest s q k' e' ld : cod KScalar e = cod KPlain e -> supported p k e -> 1 <= zlen gs <= 3 ->
  s ++ q = header dshow (grid_name k e) fields gs dx ++ rest ->
  input_serial (cod k e) (fresh (opened_as p k) e) dparse raw uncompress (grid_name k e) (length gs) s = Undef \/
    (length s < length (grid_name k e))%nat /\ (exists code, input_serial (cod k e) (fresh (opened_as p k) e) dparse raw uncompress (grid_name k e) (length gs) s = Exit code) ->
  open_grid cod fresh dparse raw uncompress p s <> Done (k', e', ld).
Proof.
  intros Cs Su Hd E M. destruct (supported_pick p k e Su) as [P A].
  pose proof (grid_name_line k e) as Ln. set (nm := grid_name k e) in *.
  unfold header in E. rewrite <- !app_assoc in E.
  assert (forall u, Forall (fun b => b <> 10) u -> open_grid cod fresh dparse raw uncompress p u <> Done (k', e', ld)) as Short.
  { intros u Fu. unfold open_grid. rewrite (getline_all u Fu). destruct (pick p u) as [[k1 e1]| |]; cbn [obind]; [|discriminate|discriminate]. discriminate. }
  apply app_eq_app in E as (l & [[E1 E2]|[E1 E2]]).
  - destruct l as [|b l]; [rewrite app_nil_r in E1; subst s; now apply Short|].
    cbn [app] in E2. injection E2 as <- E2. subst s.
    assert (input_serial (cod k e) (fresh (opened_as p k) e) dparse raw uncompress nm (length gs) (nm ++ 10 :: l) = Undef) as M'.
    { destruct M as [M|[M _]]; [exact M|]. rewrite app_length in M. simpl in M. lia. }
    unfold open_grid. unfold nm in *. rewrite (getline_line _ _ Ln), P. cbn [obind].
    destruct (dim_cut (zlen gs) l q _ Hd (eq_sym E2)) as [-> | (r' & R & _)]; [discriminate|]. rewrite R. cbn [obind].
    replace (zlen gs <? 1) with false by (symmetry; apply Z.ltb_ge; lia).
    replace (zlen gs >? 3) with false by (symmetry; rewrite Z.gtb_ltb; apply Z.ltb_ge; lia). cbn [orb].
    replace (Z.to_nat (zlen gs)) with (length gs) by (unfold zlen; lia).
    assert (cod (opened_as p k) e = cod k e) as -> by (destruct p, k; cbn; auto).
    unfold input_serial, input in *.
    match goal with |- context [read_header dparse ?n ?d ?f] => assert (read_header dparse n d f = read_header dparse (grid_name k e) d f) as HA
      by (apply (header_accepts dparse (opened_as p k) e k e k e (length gs) l A); unfold accepts; now rewrite eqb_refl_l); rewrite HA end.
    match goal with |- (got ld <- ?x; _) <> _ => assert (x = Undef) as -> by exact M' end. discriminate.
  - apply Short. rewrite E1 in Ln. now apply Forall_app in Ln.
Qed.
End Tools.
