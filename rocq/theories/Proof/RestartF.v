From Verif Require Import Model.Base Model.Text Model.Boundary Model.Layout Model.Access Model.Setup Model.Codec Model.Region
  Model.MPI Model.Ghostswap Model.File Spec.Box Spec.Access Spec.Bytes Spec.Decomp Spec.File Spec.Schedule
  Proof.BaseL Proof.LayoutL Proof.AccessL Proof.CodecL Proof.RegionL Proof.MPIL Proof.FileL Proof.SetupL Proof.HaloL Proof.CheckpointL.
Local Open Scope list_scope.

Lemma touches_meets B a b : length a = length b -> touches a (with_bcs B b) = meets a b.
Proof.
  revert B b; induction a as [|x a IH]; intros B [|y b] L; try discriminate; [destruct B as [|[]]; reflexivity|].
  unfold touches, meets in *. simpl in L. destruct B as [|[lo hi] B]; simpl.
  - specialize (IH [] b ltac:(lia)). simpl in IH. rewrite IH. f_equal.
    destruct (Z.ltb_spec (a_x0 y) (a_x0 x)), (Z.ltb_spec (a_x1 x) (a_x1 y)); f_equal; lia.
  - rewrite (IH B b) by lia. f_equal.
    destruct (Z.ltb_spec (a_x0 y) (a_x0 x)), (Z.ltb_spec (a_x1 x) (a_x1 y)); f_equal; lia.
Qed.

Lemma count_filter {X} (f : X -> bool) l : length (filter (fun b => b) (map f l)) = length (filter f l).
Proof. induction l as [|x l IH]; [reflexivity|]. simpl. destruct (f x); simpl; auto. Qed.

Lemma meets_cell a b : length a = length b -> meets a b = true ->
  exists x, in_box (map a_x0 a) (map a_x1 a) x /\ in_box (map a_x0 b) (map a_x1 b) x.
Proof.
  revert b; induction a as [|x a IH]; intros [|y b] L; try discriminate; [exists []; simpl; auto|].
  unfold meets. simpl. intros H. apply andb_true_iff in H as [H1 H2]. apply Z.ltb_lt in H1.
  destruct (IH b) as (v & V1 & V2); [simpl in L; lia|exact H2|].
  exists (Z.max (a_x0 x) (a_x0 y) :: v). simpl. repeat split; auto; lia.
Qed.

Lemma setup_ghosts np gs gh gh' r ge ge' : setup_mpi np gs gh r = Some ge -> setup_mpi np gs gh' r = Some ge' ->
  map a_x0 (ge_axes ge) = map a_x0 (ge_axes ge') /\ map a_x1 (ge_axes ge) = map a_x1 (ge_axes ge').
Proof.
  unfold setup_mpi. destruct (choose_p1 np gs) as [p1|]; [|discriminate]. cbn [bind]. intros [= <-] [= <-]. simpl.
  destruct (lay_nth_x0 gh (zip_limits gs p1 (rank_pos (slices p1) r))) as (-> & -> & _).
  destruct (lay_nth_x0 gh' (zip_limits gs p1 (rank_pos (slices p1) r))) as (-> & -> & _). auto.
Qed.

(* with the same number of ranks every rank finds its own block only *)
Lemma met_same np gs gh gh' r ge : 0 < np -> gs <> [] -> gok gs -> 0 <= gh -> 0 <= gh' -> 0 <= r < np -> setup_mpi np gs gh' r = Some ge ->
  Forall (fun a => a_x0 a < a_x1 a) (ge_axes ge) -> met np gs gh (ge_axes ge) = 1%nat.
Proof.
  intros Hnp Hne Hg Hgh Hgh' Hr E F. unfold met.
  pose proof (deco_setup np gs gh Hnp Hne Hg Hgh) as DC. pose proof (deco_setup np gs gh' Hnp Hne Hg Hgh') as DC'.
  destruct (dc_len _ _ _ _ DC' r Hr) as (Lr & _). rewrite E in Lr.
  assert (forall w, 0 <= w < np -> (match setup_mpi np gs gh w with Some g => meets (ge_axes ge) (ge_axes g) | None => false end) = (w =? r)) as X.
  { intros w Hw. destruct (dc_len _ _ _ _ DC w Hw) as (Lw & _).
    destruct (setup_eq np gs gh w Hnp Hne Hg Hw) as (p & _ & _ & _ & _ & Ew). cbv zeta in Ew.
    destruct (setup_mpi np gs gh w) as [gw|] eqn:Ew'; [|discriminate]. clear Ew p.
 
    destruct (Z.eqb_spec w r) as [->|N].
    - destruct (setup_ghosts _ _ _ _ _ _ _ Ew' E) as [E0 E1].
      assert (length (ge_axes ge) = length (ge_axes gw)) as L by congruence. clear - F E0 E1 L.
      unfold meets. revert F E0 E1 L. generalize (ge_axes ge) as a, (ge_axes gw) as b. induction a as [|x a IH]; intros [|y b] F E0 E1 L; try discriminate; [reflexivity|].
      simpl in *. inversion F; subst. inversion E0; inversion E1. rewrite IH; auto. rewrite andb_true_r. apply Z.ltb_lt. lia.
    - destruct (meets (ge_axes ge) (ge_axes gw)) eqn:M; [|reflexivity]. exfalso. apply N.
      destruct (meets_cell (ge_axes ge) (ge_axes gw) (eq_trans Lr (eq_sym Lw)) M) as (x & X1 & X2).
      destruct (setup_eq np gs gh' w Hnp Hne Hg Hw) as (p & _ & _ & _ & _ & Ew). cbv zeta in Ew.
      destruct (setup_mpi np gs gh' w) as [gw'|] eqn:Ew''; [|discriminate]. clear Ew p.
      apply (dc_own _ _ _ _ DC' x w r Hw Hr); [rewrite Ew''|rewrite E; exact X1].
      destruct (setup_ghosts _ _ _ _ _ _ _ Ew' Ew'') as [E0 E1]. unfold owns. now rewrite <- E0, <- E1. }
  assert (forall l, (forall w, In w l -> 0 <= w < np) -> NoDup l ->
     length (filter (fun w => match setup_mpi np gs gh w with Some g => meets (ge_axes ge) (ge_axes g) | None => false end) l) =
     if in_dec Z.eq_dec r l then 1%nat else 0%nat) as Y.
  { induction l as [|w l IH]; intros Hl N; [reflexivity|]. inversion N; subst. cbn [filter]. rewrite X by (apply Hl; simpl; auto).
    specialize (IH ltac:(intros; apply Hl; simpl; auto) ltac:(auto)).
    destruct (Z.eqb_spec w r) as [->|Nw].
    - simpl length. rewrite IH. destruct (in_dec Z.eq_dec r l); [contradiction|]. destruct (in_dec Z.eq_dec r (r :: l)) as [|nn]; [reflexivity|]. exfalso; apply nn; simpl; auto.
    - rewrite IH. destruct (in_dec Z.eq_dec r l) as [i|i], (in_dec Z.eq_dec r (w :: l)) as [k|k]; auto; exfalso; [apply k; simpl; auto|].
      destruct k as [k|k]; congruence. }
  rewrite Y; [|intros w Hw; now apply in_zrange|apply NoDup_zrange].
  destruct (in_dec Z.eq_dec r (zrange 0 np)) as [|n]; [reflexivity|]. exfalso. apply n. now apply in_zrange.
Qed.
