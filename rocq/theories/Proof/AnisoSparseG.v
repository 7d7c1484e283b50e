(* signs and sums of the fields after a step *)
From Coq Require Import QArith.QArith QArith.Qcanon Lqa.
From Verif Require Import Model.Base Model.Num Model.Boundary Model.Layout Model.Access Model.Sparse Model.Stencil Model.Evolve Model.AnisoSparse
  Spec.Box Spec.Access Spec.Sparse Spec.Stencil Spec.Evolve Spec.AnisoSparse Proof.BaseL Proof.LayoutL Proof.AccessL Proof.SparseL Proof.StencilL Proof.StencilM Proof.StencilS Proof.EvolveL Proof.EvolveF Proof.AnisoSparseL Proof.AnisoSparseF.
Local Open Scope Z_scope.
Local Open Scope list_scope.
Notation sum_over l f := (sumQ (map f l)).


Lemma at_nonneg l k : nonneg l -> (0 <= at_index l k)%Qc.
Proof.
  intros H. unfold at_index. destruct (find _ l) as [it|] eqn:E; [|apply Qcle_refl]. apply find_some in E as [I _]. unfold nonneg in H. rewrite Forall_forall in H. auto.
Qed.
Lemma nonneg_at l : nd l -> (forall k, 0 <= at_index l k)%Qc -> nonneg l.
Proof. intros N H. apply Forall_forall. intros [k v] I. cbn [snd]. rewrite <- (at_present l k v N I). apply H. Qed.
(* a list of indices that contains all of the stored ones *)
Lemma total_over l ks : nd l -> NoDup ks -> (forall k, In k (map fst l) -> In k ks) -> sum_over ks (at_index l) = total l.
Proof.
  revert ks; induction l as [|[k v] l IH]; intros ks N Nk H; unfold total; cbn [map sumQ snd].
  - transitivity (sum_over ks (fun _ : Z => 0%Qc)); [now apply sumQ_ext|apply sumQ_zero; auto].
  - inversion N as [|? ? N1 N2]; subst. rewrite <- (sum_others (at_index ((k, v) :: l)) ks k Nk (H k (or_introl eq_refl))).
    assert (at_index ((k, v) :: l) k = v) as -> by (unfold at_index; cbn; now rewrite Z.eqb_refl).
    rewrite (sumQ_ext _ (at_index l)). 2:{ intros j Hj. apply in_others in Hj as [_ D]. unfold at_index. cbn [find fst]. destruct (Z.eqb_spec k j); [congruence|reflexivity]. }
    rewrite IH; auto using nd_others; [unfold total; ring|]. intros j Hj. apply in_others. split; [apply H; simpl; auto|]. intros ->. contradiction.
Qed.
Lemma total_at_least l ks : nd l -> nonneg l -> NoDup ks -> (sum_over ks (at_index l) <= total l)%Qc.
Proof.
  revert ks; induction l as [|[k v] l IH]; intros ks N P Nk; unfold total; cbn [map sumQ snd].
  - rewrite (sumQ_ext _ (fun _ => 0%Qc)) by reflexivity. rewrite sumQ_zero by auto. apply Qcle_refl.
  - inversion N as [|? ? N1 N2]; subst. inversion P as [|? ? P1 P2]; subst. cbn [snd] in P1.
    assert (forall m, (forall j, In j m -> j <> k) -> sum_over m (at_index ((k, v) :: l)) = sum_over m (at_index l)) as X.
    { intros m Hm. apply sumQ_ext. intros j Hj. apply Hm in Hj. unfold at_index. cbn [find fst]. destruct (Z.eqb_spec k j); [congruence|reflexivity]. }
    destruct (in_dec Z.eq_dec k ks) as [I|I].
    + rewrite <- (sum_others _ ks k Nk I). assert (at_index ((k, v) :: l) k = v) as -> by (unfold at_index; cbn; now rewrite Z.eqb_refl).
      rewrite X by (intros j Hj; apply in_others in Hj; tauto). rewrite Qcplus_comm. apply Qcplus_le_compat; [apply Qcle_refl|]. apply IH; auto using nd_others.
    + rewrite X by (intros j Hj ->; contradiction). rewrite <- (Qcplus_0_l (sum_over ks _)). apply Qcplus_le_compat; [auto|]. apply IH; auto.
Qed.

Section Sums.
Context (gradient barrier : Z -> Z -> Qc) (triple : Qc) (mobility : Z -> Z -> Qc) (Sm : symmetric mobility) (phi lap : Z -> Qc) (ks : list Z) (Nk : NoDup ks) (dt : Qc).
Notation force := (force gradient barrier triple phi lap ks).
Notation speed := (speed gradient barrier triple mobility phi lap ks).
Notation target := (target gradient barrier triple mobility phi lap ks dt).
(* what one field gains the others lose *)
Lemma speeds_cancel : sum_over ks speed = 0%Qc.
Proof.
  set (g := fun k j => (mobility k j * (force k - force j))%Qc).
  assert (sum_over ks speed = - sum_over ks (fun k => sum_over ks (g k)))%Qc as E.
  { assert (forall m, (forall k, In k m -> In k ks) -> sum_over m speed = - sum_over m (fun k => sum_over ks (g k)))%Qc as X; [|apply X; auto].
    induction m as [|k m IH]; intros H; cbn [map sumQ]; [ring|]. rewrite IH by (intros; apply H; simpl; auto). rewrite <- (sum_others (g k) ks k Nk) by (apply H; simpl; auto). unfold AnisoSparse.speed. fold (g k). unfold g at 4. ring. }
  assert (sum_over ks (fun k => sum_over ks (g k)) = - sum_over ks (fun k => sum_over ks (g k)))%Qc as A.
  { rewrite sumQ_swap at 1. replace (- sum_over ks (fun k => sum_over ks (g k)))%Qc with (- (1) * sum_over ks (fun k => sum_over ks (g k)))%Qc by ring. rewrite <- sumQ_mul. apply sumQ_ext. intros k _. rewrite <- sumQ_mul. apply sumQ_ext. intros j _. unfold g. rewrite (Sm j k). ring. }
  rewrite E. set (q := sum_over ks (fun k => sum_over ks (g k))) in *. clearbody q. clear E. assert (q = 0)%Qc as Q0; [|rewrite Q0; reflexivity]. apply Qc_is_canon. assert (this q == - this q)%Q as A' by (rewrite <- this_opp; rewrite A at 1; reflexivity). change (this 0%Qc) with 0%Q. lra.
Qed.
Lemma clamp_bounds v : (0 <= clamp v /\ clamp v <= 1)%Qc.
Proof. unfold clamp. destruct (Qclt_le_dec v 0); [split; discriminate|]. destruct (Qclt_le_dec 1 v); split; auto; discriminate. Qed.
Lemma clamp_above v : (v <= 1 -> v <= clamp v)%Qc.
Proof. intros H. unfold clamp. destruct (Qclt_le_dec v 0); [now apply Qclt_le_weak|]. destruct (Qclt_le_dec 1 v) as [C|]; [auto|apply Qcle_refl]. Qed.
Lemma targets_sum : (1 <= sum_over ks phi -> 1 <= sum_over ks target)%Qc.
Proof.
  intros H. set (raw := fun k => (phi k + dt * (Qc_of 2 / Qc_of (zlen ks)) * speed k)%Qc).
  destruct (Exists_dec (fun k => (1 < raw k)%Qc) ks) as [E|E]. { intros k. destruct (Qclt_le_dec 1 (raw k)) as [|C]; [left; auto|right; intros C']. exact (Qclt_not_le _ _ C' C). }
  - apply Exists_exists in E as (k & Hk & C). rewrite <- (sum_others target ks k Nk Hk). assert (target k = 1%Qc) as ->.
    { unfold AnisoSparse.target. fold (raw k). unfold clamp. destruct (Qclt_le_dec (raw k) 0) as [D|_]; [exfalso; apply (Qclt_not_le 0 1); [reflexivity|]; apply Qclt_le_weak; eapply Qclt_trans; eauto|]. destruct (Qclt_le_dec 1 (raw k)) as [|D]; [reflexivity|]. exfalso. exact (Qclt_not_le _ _ C D). }
    rewrite <- (Qcplus_0_l 1) at 1. apply Qcplus_le_compat; [|apply Qcle_refl]. apply sumQ_ge_0. intros j _. apply clamp_bounds.
  - eapply Qcle_trans; [exact H|]. assert (sum_over ks raw = sum_over ks phi) as <-. { unfold raw. rewrite sumQ_add, sumQ_mul, speeds_cancel. ring. }
    apply sumQ_le. intros k Hk. apply clamp_above. destruct (Qclt_le_dec 1 (raw k)) as [C|]; [|auto]. exfalso. apply E. apply Exists_exists. eauto.
Qed.
End Sums.

Lemma Qc_inv_pos q : (0 < q -> 0 < / q)%Qc. Proof. apply inv_pos. Qed.
Lemma few (N : Z) ks : NoDup ks -> (forall k, In k ks -> 0 <= k < N) -> zlen ks <= Z.max 0 N.
Proof.
  intros Nd H. unfold zlen. assert (length ks <= length (zrange 0 N))%nat as L by (apply NoDup_incl_length; [auto|]; intros k Hk; apply in_zrange; auto).
  destruct (Z.le_gt_cases 0 N) as [C|C]; [|rewrite zrange_nil in L by lia; cbn in L; lia]. pose proof (zlen_zrange 0 N C) as E. unfold zlen in E. lia.
Qed.
Lemma sum_const {A} (c : Qc) (l : list A) : sum_over l (fun _ => c) = (Qc_of (zlen l) * c)%Qc.
Proof.
  induction l as [|a l IH]; cbn [map sumQ]; [change (Qc_of (zlen (@nil A))) with 0%Qc; now rewrite Qcmult_0_l|]. rewrite IH, zlen_cons.
  replace (Qc_of (1 + zlen l)) with (1 + Qc_of (zlen l))%Qc; [ring|]. apply Qc_is_canon. unfold Qc_of. rewrite this_add. cbn [this Q2Qc]. rewrite !Qred_correct. now rewrite inject_Z_plus.
Qed.

Section After.
Context (dt : Qc) (gradient barrier : Z -> Z -> Qc) (triple : Qc) (mobility : Z -> Z -> Qc) (Sm : symmetric mobility) (dx : list Qc)
  (F : list Z -> list (Z * Qc)) (x : list Z) (stale l : list (Z * Qc)) (N : Z).
Context (Nb : N < 100000000) (Nd : nd (F x)) (Pf : nonneg (F x)) (If : forall k, near F x k -> 0 <= k < N) (Tf : (1 <= total (F x))%Qc).
Context (Nst : nd stale) (Pst : nonneg stale) (Ist : indices N stale) (Nl : nd l).
Context (H : follows dt gradient barrier triple mobility dx F x stale l).
Lemma follows_after : nonneg l /\ indices N l /\ (1 <= total l)%Qc /\
  exists ks, NoDup ks /\ (forall k, In k ks <-> near F x k) /\ (zlen ks < 2 -> l = F x) /\
    (2 <= zlen ks -> sum_over ks (at_index l) = 1%Qc /\ (forall k, In k ks -> at_index l k <= 1)%Qc /\ (stale = [] -> total l = 1%Qc)).
Proof.
  destruct H as (ks & Nk & Hk & H1 & H2). destruct (Z.lt_ge_cases (zlen ks) 2) as [C|C].
  - specialize (H1 C). rewrite H1 in *. split; [auto|]. split; [|split; [auto|]].
    + apply Forall_forall. intros [k v] I. apply If. left. apply in_map with (f := fst) in I. exact I.
    + exists ks. split; [auto|]. split; [auto|]. split; [auto|lia].
  - destruct (H2 C) as [V K]. clear H1 H2. set (value := target gradient barrier triple mobility (at_index (F x)) (field_laplacian F dx x) ks dt) in *.
    set (kp := kept ks value (at_index stale)) in *.
    assert (forall k, 0 <= kp k)%Qc as Kp. { intros k. unfold kp, kept. destruct (in_dec Z.eq_dec k ks); [|now apply at_nonneg]. destruct (Qclt_le_dec _ (value k)); [apply clamp_bounds|now apply at_nonneg]. }
    assert (1 <= sum_over ks value)%Qc as Sv. { apply targets_sum; auto. rewrite total_over; auto. intros k I. apply Hk. left. exact I. }
    assert (0 < sum_over ks kp)%Qc as Sp.
    { apply Qclt_le_trans with (sum_over ks (fun k => value k - cutoff))%Qc.
      - rewrite sumQ_sub, sum_const. pose proof (few N ks Nk (fun k I => If k (proj1 (Hk k) I))) as Fw. set (S := sum_over ks value) in *. clearbody S. clear - Sv Fw Nb C.
        unfold Qclt. rewrite this_sub, this_mul. change (this 0%Qc) with 0%Q. change (this cutoff) with (1 # 100000000)%Q. unfold Qcle in Sv. change (this 1%Qc) with 1%Q in Sv. unfold Qc_of. cbn [this Q2Qc]. rewrite Qred_correct.
        assert (inject_Z (zlen ks) <= inject_Z 99999999)%Q as L by (rewrite <- Zle_Qle; lia). change (inject_Z 99999999) with (99999999 # 1)%Q in L. lra.
      - apply sumQ_le. intros k Ik. unfold kp, kept. destruct (in_dec Z.eq_dec k ks); [|contradiction]. fold cutoff. destruct (Qclt_le_dec cutoff (value k)) as [G|G].
        + unfold Qcle. rewrite this_sub. change (this cutoff) with (1 # 100000000)%Q. lra.
        + apply Qcle_trans with 0%Qc; [|now apply at_nonneg]. unfold Qcle in *. rewrite this_sub. change (this 0%Qc) with 0%Q. lra. }
    assert (sum_over ks kp <> 0)%Qc as NZ by (intros E; rewrite E in Sp; discriminate Sp).
    assert (forall k, at_index l k = kp k / sum_over ks kp)%Qc as V' by (intros k; rewrite V; unfold projected; destruct (Qc_eq_dec (sum_over ks kp) 0); [contradiction|reflexivity]).
    assert (nonneg l) as Pl. { apply nonneg_at; auto. intros k. rewrite V'. unfold Qcdiv. rewrite <- (Qcmult_0_l (/ sum_over ks kp)). apply Qcmult_le_compat_r; [auto|]. apply Qclt_le_weak. now apply inv_pos. }
    assert (sum_over ks (at_index l) = 1%Qc) as S1. { rewrite (sumQ_ext _ (fun k => / sum_over ks kp * kp k)%Qc) by (intros k _; rewrite V'; unfold Qcdiv; ring). rewrite sumQ_mul, Qcmult_comm. now apply Qcmult_inv_r. }
    split; [auto|]. split; [|split].
    + apply Forall_forall. intros [k v] I. apply in_map with (f := fst) in I. apply K in I as [I|[I _]]; [|apply If; now apply Hk]. unfold indices in Ist. rewrite Forall_forall in Ist. apply in_map_iff in I as (it & E & I). cbn [fst] in *. rewrite <- E. auto.
    + rewrite <- S1. apply total_at_least; auto.
    + exists ks. split; [auto|]. split; [auto|]. split; [lia|]. intros _. split; [auto|]. split.
      * intros k Ik. rewrite <- S1. rewrite <- (sum_others _ ks k Nk Ik). rewrite <- (Qcplus_0_l (at_index l k)) at 1. apply Qcplus_le_compat; [|apply Qcle_refl]. apply sumQ_ge_0. intros j _. now apply at_nonneg.
      * intros ->. rewrite <- (total_over l ks); auto. intros k I. apply K in I as [[]|[I _]]. auto.
Qed.
End After.

(* ---- whole grids ---- *)
From Verif Require Import Spec.Spin Proof.SpinF Proof.SiteL.
Lemma Forall_box ls (P : list (option (Z * Qc)) -> Prop) (u : list (list (option (Z * Qc)))) : Forall serial_axis ls -> zlen u = cells (lay 0 ls) ->
  (forall x, box ls x -> P (at_or [] (lay 0 ls) u x)) -> Forall P u.
Proof.
  intros Fs Lu H. apply Forall_forall. intros o Ho. apply In_nth_error in Ho as [n En]. assert (0 <= Z.of_nat n < nodes (lay 0 ls)) as Hn. { rewrite (nodes_eq ls Fs). assert (n < length u)%nat by (apply nth_error_Some; congruence). unfold zlen in *. lia. }
  pose proof (read_node [] ls Fs u (Z.of_nat n) Lu Hn) as Rn. unfold grid_read_int, addr_int in Rn. cbn [bind] in Rn. unfold get in Rn. destruct (Z.ltb_spec (Z.of_nat n) 0); [lia|]. rewrite Nat2Z.id, En in Rn. injection Rn as ->. apply H. now apply site_ok.
Qed.
Lemma fields_prop ls (P : list (Z * Qc) -> Prop) data y : P [] -> Forall (fun o => P (stored o)) data -> P (fields_of ls data y).
Proof.
  intros P0 H. unfold fields_of. destruct (grid_read false (lay 0 ls) data y) as [o|] eqn:E; [|exact P0]. rewrite Forall_forall in H. apply H.
  unfold grid_read in E. destruct (addr_vec _ _ _ _); [|discriminate]. cbn [bind] in E. apply get_err in E. eapply nth_error_In; eauto.
Qed.
Lemma fields_at ls (P : list (Z * Qc) -> Prop) data x : Forall serial_axis ls -> zlen data = cells (lay 0 ls) -> box ls x -> Forall (fun o => P (stored o)) data -> P (fields_of ls data x).
Proof. intros Fs L B H. rewrite Forall_forall in H. apply (H (at_or [] (lay 0 ls) data x)). now apply val_in. Qed.

Section Whole.
Context (ls : list limits) (Fs : Forall serial_axis ls) (N : Z) (Nb : N < 100000000).
Context (dt : Qc) (gradient barrier : Z -> Z -> Qc) (triple : Qc) (mobility : Z -> Z -> Qc) (Sm : symmetric mobility) (dx : list Qc).
Lemma whole_step former latter latter' : sound N ls former -> full former -> sound N ls latter -> zlen latter' = cells (lay 0 ls) -> Forall tidy latter' ->
  (forall x, box ls x -> follows dt gradient barrier triple mobility dx (fields_of ls former) x (fields_of ls latter x) (fields_of ls latter' x)) ->
  sound N ls latter' /\ full latter' /\ forall x, box ls x ->
  exists ks, NoDup ks /\ (forall k, In k ks <-> near (fields_of ls former) x k) /\ (zlen ks < 2 -> fields_of ls latter' x = fields_of ls former x) /\
    (2 <= zlen ks -> sum_over ks (at_index (fields_of ls latter' x)) = 1%Qc /\ (forall k, In k ks -> at_index (fields_of ls latter' x) k <= 1)%Qc /\ (fields_of ls latter x = [] -> total (fields_of ls latter' x) = 1%Qc)).
Proof.
  intros [Lf Af] Ff [Ll Al] L' T' H.
  assert (forall data, Forall (fun o => tidy o /\ nonneg (stored o) /\ indices N (stored o)) data -> Forall (fun o => nd (stored o)) data /\ Forall (fun o => nonneg (stored o)) data /\ Forall (fun o => indices N (stored o)) data) as X.
  { intros data A. repeat split; (eapply Forall_impl; [|exact A]); intros o (To & ? & ?); auto. now apply tidy_stored. }
  destruct (X _ Af) as (Nf & Pf & If). destruct (X _ Al) as (Nl & Pl & Il). clear X.
  assert (forall x, box ls x -> nonneg (fields_of ls latter' x) /\ indices N (fields_of ls latter' x) /\ (1 <= total (fields_of ls latter' x))%Qc /\
    exists ks, NoDup ks /\ (forall k, In k ks <-> near (fields_of ls former) x k) /\ (zlen ks < 2 -> fields_of ls latter' x = fields_of ls former x) /\
    (2 <= zlen ks -> sum_over ks (at_index (fields_of ls latter' x)) = 1%Qc /\ (forall k, In k ks -> at_index (fields_of ls latter' x) k <= 1)%Qc /\ (fields_of ls latter x = [] -> total (fields_of ls latter' x) = 1%Qc))) as A.
  { intros x B. apply (follows_after dt gradient barrier triple mobility Sm dx (fields_of ls former) x (fields_of ls latter x) (fields_of ls latter' x) N Nb); auto.
    - apply (fields_at ls (fun l => nd l)); auto.
    - apply (fields_at ls nonneg); auto.
    - intros k Hk. assert (forall y, indices N (fields_of ls former y)) as Iy by (intros y; apply (fields_prop ls (indices N)); [constructor|auto]).
      assert (forall y, In k (map fst (fields_of ls former y)) -> 0 <= k < N) as Y. { intros y I. specialize (Iy y). unfold indices in Iy. rewrite Forall_forall in Iy. apply in_map_iff in I as (it & <- & I). auto. }
      destruct Hk as [I|(i & _ & [I|I])]; eauto.
    - apply (fields_at ls (fun l => 1 <= total l)%Qc); auto.
    - apply (fields_at ls (fun l => nd l)); auto.
    - apply (fields_at ls nonneg); auto.
    - apply (fields_at ls (indices N)); auto.
    - apply (fields_at ls (fun l => nd l)); auto. eapply Forall_impl; [|exact T']. intros o To. now apply tidy_stored. }
  split; [split; [auto|]|split].
  - apply (Forall_box ls); auto. intros x B. destruct (A x B) as (A1 & A2 & _). split; [rewrite Forall_forall in T'; apply T'; now apply val_in|]. auto.
  - apply (Forall_box ls); auto. intros x B. apply (A x B).
  - intros x B. apply (A x B).
Qed.
End Whole.
