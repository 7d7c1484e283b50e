(* reading and writing the nodes of a serial grid with cells of any type *)
From Verif Require Import Model.Base Model.Boundary Model.Layout Model.Access Model.Spin
  Spec.Box Spec.Access Spec.Stencil Spec.Spin Proof.BaseL Proof.LayoutL Proof.AccessL Proof.StencilL Proof.StencilS Proof.SpinL Proof.SpinF.
Local Open Scope Z_scope.

Section Site.
Context {T : Type} (d : T) (ls : list limits) (F : Forall serial_axis ls).
Notation axs := (lay 0 ls).
Notation val := (at_or d axs).
Lemma val_cbs data x : length x = length ls -> box ls (cbs ls x) -> val data (cbs ls x) = val data x.
Proof. clear F. intros L B. unfold at_or. rewrite (read_idx ls data x) by auto. rewrite read_idx by (apply (local_len _ _ B)). now rewrite cbs_in. Qed.
Lemma read_val data x : zlen data = cells axs -> box ls x -> grid_read false axs data x = Some (val data x).
Proof. intros L B. apply (read_defined d ls data x F L (local_len _ _ B)). now rewrite cbs_in. Qed.
Lemma read_node data p : zlen data = cells axs -> 0 <= p < nodes axs -> grid_read_int false axs data p = Some (val data (position axs p)).
Proof.
  intros L H. rewrite (proj1 (read_int_position false 0 ls data p ltac:(lia) ltac:(auto) (lims_le _ F) H)). apply read_val; auto. now apply site_ok.
Qed.
Lemma write_val data x v : zlen data = cells axs -> box ls x ->
  exists data', grid_write false axs data x v = Some data' /\ zlen data' = cells axs /\ val data' x = v /\
    (forall y, box ls y -> y <> x -> val data' y = val data y) /\ (forall P : T -> Prop, Forall P data -> P v -> Forall P data').
Proof.
  intros L B. destruct (inrange_access false 0 ls data x v ltac:(lia) (lims_le _ F) L B) as (d' & W & Ld & R & O). exists d'. split; [auto|]. split; [congruence|]. split; [unfold at_or; now rewrite R|]. split.
  - intros y By Ny. unfold at_or. destruct (O y By Ny) as [-> _]. reflexivity.
  - intros P FP Pv. unfold grid_write in W. destruct (addr_vec _ _ _ _); [|discriminate]. cbn [bind] in W. eapply Forall_put; eauto.
Qed.
Lemma write_node data p v : zlen data = cells axs -> 0 <= p < nodes axs ->
  exists data', grid_write_int false axs data p v = Some data' /\ zlen data' = cells axs /\ val data' (position axs p) = v /\
    (forall y, box ls y -> y <> position axs p -> val data' y = val data y) /\ (forall P : T -> Prop, Forall P data -> P v -> Forall P data').
Proof.
  intros L H. rewrite (proj2 (read_int_position false 0 ls data p ltac:(lia) ltac:(auto) (lims_le _ F) H)). apply write_val; auto. now apply site_ok.
Qed.
Lemma val_in data x : zlen data = cells axs -> box ls x -> In (val data x) data.
Proof.
  intros L B. unfold at_or. rewrite read_idx by apply (local_len _ _ B). rewrite cbs_in by auto. pose proof (idx_bounds ls x F B).
  destruct (get_ok data (idx ls x)) as [v E]; [lia|]. rewrite E. apply get_err in E. eapply nth_error_In; eauto.
Qed.
Lemma read_near data x o : zlen data = cells axs -> box ls x -> length o = length ls -> Forall (fun i => -1 <= i <= 1) o ->
  grid_read false axs data (vadd x o) = Some (val data (cbs ls (plus x o))) /\ box ls (cbs ls (plus x o)).
Proof.
  intros L B Lo Bo. pose proof (local_len _ _ B) as Lx. rewrite vadd_plus by congruence.
  pose proof (cbs_plus ls x o F B Lo Bo) as Bc. assert (length (plus x o) = length ls) as Lp by (rewrite plus_length; congruence).
  rewrite (read_defined d ls data (plus x o) F L Lp Bc). split; [|auto]. now rewrite val_cbs.
Qed.
Lemma position_all x : box ls x -> exists p, 0 <= p < nodes axs /\ position axs p = x.
Proof. intros B. apply (position_onto 0); [apply wf_lay, lims_le, F|]. now rewrite map_x0_lay, map_x1_lay. Qed.
(* a loop that writes every node once: nothing is left of what was there before *)
Lemma fill (f : Z -> T) junk : zlen junk = cells axs ->
  fold_opt (fun u n => grid_write_int false axs u n (f n)) (zrange 0 (nodes axs)) junk = Some (map f (zrange 0 (nodes axs))).
Proof.
  intros L. pose proof (nodes_pos ls F) as Hn. rewrite <- (nodes_eq ls F) in L.
  assert (forall k, (k <= Z.to_nat (nodes axs))%nat -> exists rest, fold_opt (fun u n => grid_write_int false axs u n (f n)) (zrange 0 (Z.of_nat k)) junk = Some (map f (zrange 0 (Z.of_nat k)) ++ rest) /\ (length rest + k)%nat = Z.to_nat (nodes axs)) as A.
  { induction k as [|k IH]; intros Hk; [exists junk; split; [reflexivity|unfold zlen in L; lia]|]. destruct IH as (u & E & Lu); [lia|].
    rewrite Nat2Z.inj_succ, <- Z.add_1_r, zrange_snoc, fold_opt_app, E, map_app by lia. cbn [bind fold_opt map]. unfold grid_write_int, addr_int. cbn [bind]. destruct u as [|a u]; [cbn in Lu; lia|]. exists u. split; [|cbn in Lu; lia].
    assert (length (map f (zrange 0 (Z.of_nat k))) = k) as Lm by (rewrite map_length; pose proof (zlen_zrange 0 (Z.of_nat k) ltac:(lia)) as Lz; unfold zlen in Lz; lia).
    rewrite put_ok by (unfold zlen; rewrite app_length; cbn; lia). cbn [bind]. f_equal. rewrite Nat2Z.id, <- app_assoc. cbn [app]. set (m := map f _) in *. set (v := f _). clearbody m v. subst k. clear. induction m; cbn; [reflexivity|]. now rewrite IHm. }
  destruct (A (Z.to_nat (nodes axs)) (le_n _)) as (r & E & Lr). rewrite Z2Nat.id in E by lia. destruct r; [|cbn in Lr; lia]. now rewrite app_nil_r in E.
Qed.
Lemma filled (f : Z -> T) p : 0 <= p < nodes axs -> zlen (map f (zrange 0 (nodes axs))) = cells axs /\ val (map f (zrange 0 (nodes axs))) (position axs p) = f p.
Proof.
  intros Hp. assert (zlen (map f (zrange 0 (nodes axs))) = cells axs) as L by (rewrite BaseL.zlen_map, zlen_zrange, <- (nodes_eq ls F); lia). split; [auto|].
  pose proof (read_node _ p L Hp) as R. unfold grid_read_int, addr_int in R. cbn [bind] in R. assert (get (map f (zrange 0 (nodes axs))) p = Some (f p)) as G; [|congruence].
  unfold get. replace (p <? 0) with false by (symmetry; apply Z.ltb_ge; lia). rewrite nth_error_map. assert (nth_error (zrange 0 (nodes axs)) (Z.to_nat p) = Some p) as ->; [|reflexivity].
  replace p with (0 + Z.of_nat (Z.to_nat p)) at 2 by lia. apply nth_error_zrange. lia.
Qed.
End Site.
