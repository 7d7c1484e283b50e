(* The program MMSPDiffusion2D. *)
From Coq Require Import QArith.QArith QArith.Qcanon Lqa.
From Verif Require Import Model.Base Model.Boundary Model.Layout Model.Access Model.Stencil Model.Couple Spec.Box Spec.Access Spec.Stencil Spec.Couple
  Proof.BaseL Proof.LayoutL Proof.AccessL Proof.StencilL Proof.StencilS Proof.StencilM Proof.GradientL Proof.DynamicsF Proof.SheetL.
Local Open Scope Z_scope.

Definition mix (a F : Z -> Qc) (m k : Z) : Qc := if k <? m then a k else F k.
Lemma mix_put n a F m : 0 <= m < n -> put (tab n (mix a F m)) m (a m) = Some (tab n (mix a F (m + 1))).
Proof.
  intros H. rewrite put_tab by auto. f_equal. apply tab_ext. intros j Hj. unfold mix. destruct (Z.eqb_spec j m) as [->|]; [destruct (Z.ltb_spec m (m + 1)); [auto|lia]|]. destruct (Z.ltb_spec j m), (Z.ltb_spec j (m + 1)); auto; lia.
Qed.
Lemma fill_row (step : list Qc * list Qc -> Z -> option (list Qc * list Qc)) n a b F G o m : 0 <= o -> 0 <= m -> o + m <= n ->
  (forall y g u, 0 <= y < m -> step (g, u) y = (do g <- put g (o + y) (a (o + y)); do u <- put u (o + y) (b (o + y)); Some (g, u))) ->
  fold_opt step (zrange 0 m) (tab n (mix a F o), tab n (mix b G o)) = Some (tab n (mix a F (o + m)), tab n (mix b G (o + m))).
Proof.
  intros Ho Hm. revert m Hm. refine (natlike_ind _ _ _).
  - intros _ _. rewrite zrange_nil by lia. cbn [fold_opt]. now rewrite Z.add_0_r.
  - intros m Hm IH Hn Hst. rewrite <- Z.add_1_r in *. rewrite zrange_snoc, fold_opt_app, IH by (try lia; intros; apply Hst; lia). cbn [bind fold_opt].
    rewrite Hst by lia. rewrite !mix_put by lia. cbn [bind]. now rewrite Z.add_assoc.
Qed.

Section Sheet.
Context (L : Z) (HL : 1 <= L).
Definition ls2 : list limits := [mkLim 0 L 0 L Dirichlet Dirichlet; mkLim 0 L 0 L Dirichlet Dirichlet].
Definition field (F : Z -> Z -> Qc) : list Qc := tab (L * L) (fun i => F (i / L) (i mod L)).
Lemma split_row x y : 0 <= y < L -> (x * L + y) / L = x /\ (x * L + y) mod L = y.
Proof. intros H. split; symmetry; [apply (Z.div_unique _ _ _ y)|apply (Z.mod_unique _ _ x)]; lia. Qed.
Lemma addr2 b x y : addr_chain false (sheet_axes b L) 0 0 [x; y] = Some (check_boundary false x 0 L b b * L + check_boundary false y 0 L b b).
Proof. rewrite addr_chain_vec by reflexivity. cbn. f_equal. unfold prodZ. cbn. lia. Qed.
Lemma inside2 b x : 0 <= x < L -> check_boundary false x 0 L b b = x.
Proof. intros H. unfold check_boundary. destruct (Z.ltb_spec x 0); [lia|]. destruct (Z.leb_spec L x); [lia|]. reflexivity. Qed.
Lemma fill_sheet m1 m2 : zlen m1 = L * L -> zlen m2 = L * L ->
  sheet_fill false (sheet_axes periodic L) L (zrange 0 L) (zrange 0 L) (m1, m2) = Some (field (sheet L 0), field (fun _ _ => 1%Qc)).
Proof.
  intros L1 L2. unfold sheet_fill. rewrite (list_tab m1), (list_tab m2), L1, L2. set (F := fun j => nth (Z.to_nat j) m1 0%Qc). set (G := fun j => nth (Z.to_nat j) m2 0%Qc).
  set (a := fun i => sheet L 0 (i / L) (i mod L)). set (b := fun _ : Z => 1%Qc).
  assert (forall r, 0 <= r -> r <= L -> forall step, (forall x s, 0 <= x < r -> s = (tab (L * L) (mix a F (x * L)), tab (L * L) (mix b G (x * L))) -> step s x = Some (tab (L * L) (mix a F (x * L + L)), tab (L * L) (mix b G (x * L + L)))) ->
    fold_opt step (zrange 0 r) (tab (L * L) F, tab (L * L) G) = Some (tab (L * L) (mix a F (r * L)), tab (L * L) (mix b G (r * L)))) as A.
  { refine (natlike_ind _ _ _).
    - intros _ step _. rewrite zrange_nil by lia. cbn [fold_opt]. f_equal. f_equal; apply tab_ext; intros j Hj; unfold mix; (destruct (Z.ltb_spec j (0 * L)); [lia|auto]).
    - intros r Hr IH Hr' step Hst. rewrite <- Z.add_1_r in *. rewrite zrange_snoc, fold_opt_app, IH by (first [lia | intros; apply Hst; auto; lia]). cbn [bind fold_opt].
      rewrite (Hst r) by (auto; lia). now replace (r * L + L) with ((r + 1) * L) by lia. }
  rewrite A; [|lia|lia|].
  - f_equal. f_equal; apply tab_ext; intros j Hj; unfold mix; (destruct (Z.ltb_spec j (L * L)); [reflexivity|lia]).
  - intros x s Hx ->. apply fill_row; [nia|lia|nia|]. intros y g u Hy. rewrite addr2, !inside2 by auto. cbn [bind]. unfold a. destruct (split_row x y Hy) as [-> ->]. cbn [sheet]. rewrite Z.quot_div_nonneg by lia. reflexivity.
Qed.
Lemma read2 F x y : -1 <= x <= L -> -1 <= y <= L -> at_or 0%Qc (lay 0 ls2) (field F) [x; y] = F (cl L x) (cl L y).
Proof.
  intros Hx Hy. unfold at_or, grid_read. rewrite <- addr_chain_vec by reflexivity. change (lay 0 ls2) with (sheet_axes Dirichlet L). rewrite addr2. cbn [bind].
  assert (forall x, -1 <= x <= L -> check_boundary false x 0 L Dirichlet Dirichlet = cl L x) as Cb.
  { intros z Hz. unfold check_boundary, cl. cbn. destruct (Z.ltb_spec z 0); [lia|]. destruct (Z.leb_spec L z); lia. }
  rewrite !Cb by auto. unfold field. assert (0 <= cl L x < L) as Rx by (unfold cl; lia). assert (0 <= cl L y < L) as Ry by (unfold cl; lia). rewrite get_tab by nia. now destruct (split_row (cl L x) (cl L y) Ry) as [-> ->].
Qed.
Lemma ls2_serial : Forall serial_axis ls2.
Proof. unfold ls2. repeat (apply Forall_cons; [unfold serial_axis, serial_side; cbn; repeat split; auto; lia|]). apply Forall_nil. Qed.
Lemma cells2 : cells (lay 0 ls2) = L * L.
Proof. rewrite cells_lay. cbn. unfold prodZ. cbn. lia. Qed.
Lemma nodes2 : nodes (lay 0 ls2) = L * L. Proof. rewrite <- cells_nodes_0. apply cells2. Qed.
Lemma field_len F : zlen (field F) = cells (lay 0 ls2).
Proof. rewrite cells2. apply tab_len. nia. Qed.
Lemma sheet_step F u : zlen u = L * L ->
  diffusion_step false (sheet_axes Dirichlet L) [1%Qc; 1%Qc] a3 (field F, u) = Some (field (plane (fun x y => F (cl L x) (cl L y))), field F).
Proof.
  intros Lu. change (sheet_axes Dirichlet L) with (lay 0 ls2). rewrite diffusion_eq.
  - f_equal. f_equal. unfold next_D. rewrite nodes2. unfold field at 3. apply tab_ext. intros i Hi.
    assert (position (lay 0 ls2) i = [i / L; i mod L]) as ->.
    { cbn. unfold prodZ. cbn. rewrite Z.quot_1_r. replace ((L - 0) * 1) with L by lia. rewrite Z.quot_div_nonneg by lia. pose proof (Z.div_mod i L ltac:(lia)). f_equal; [lia|]. f_equal. lia. }
    assert (0 <= i / L < L) as Rx by (split; [apply Z.div_pos; lia|apply Z.div_lt_upper_bound; lia]). pose proof (Z.mod_pos_bound i L ltac:(lia)) as Ry.
    assert (nth (Z.to_nat i) (field F) 0%Qc = F (i / L) (i mod L)) as ->.
    { pose proof (get_tab (L * L) (fun i => F (i / L) (i mod L)) i Hi) as G. fold (field F) in G. rewrite (get_nth _ _ 0%Qc) in G by (rewrite field_len, cells2; lia). now injection G. }
    unfold lap. change (zlen ls2) with 2. change (zrange 0 2) with [0; 1]. cbn [map sumQ]. unfold second_difference, spacing, nb. change (Z.to_nat 0) with 0%nat. change (Z.to_nat 1) with 1%nat. cbn [set_nth nth].
    rewrite !read2 by lia. rewrite (cl_in L (i / L)), (cl_in L (i mod L)) by lia. unfold plane, a3, q4. 
    replace (i / L + -1) with (i / L - 1) by lia. replace (i mod L + -1) with (i mod L - 1) by lia. rewrite (cl_in L (i / L)), (cl_in L (i mod L)) by lia.
    change (Q2Qc (4 # 1)) with (Q2Qc 2 + Q2Qc 2)%Qc.
    field. discriminate.
  - apply ls2_serial.
  - reflexivity.
  - repeat (apply Forall_cons; [discriminate|]). apply Forall_nil.
  - apply field_len.
  - now rewrite cells2.
Qed.
Lemma field_ext F G : (forall x y, 0 <= x < L -> 0 <= y < L -> F x y = G x y) -> field F = field G.
Proof.
  intros H. apply tab_ext. intros i Hi. apply H; [split; [apply Z.div_pos; lia|apply Z.div_lt_upper_bound; lia]|apply Z.mod_pos_bound; lia].
Qed.
Lemma sheet_run k j u : zlen u = L * L -> exists v, zlen v = L * L /\
  repeat_step k (diffusion_step false (sheet_axes Dirichlet L) [1%Qc; 1%Qc] a3) (field (sheet L j), u) = Some (field (sheet L (k + j)), v).
Proof.
  revert j u. induction k as [|k IH]; intros j u Hu; [exists u; auto|]. cbn [repeat_step]. rewrite sheet_step by auto. cbn [bind].
  assert (field (plane (fun x y => sheet L j (cl L x) (cl L y))) = field (sheet L (S j))) as ->.
  { apply field_ext. intros x y Hx Hy. pose proof (E_step L j x y Hx Hy) as G. unfold E in G at 1. rewrite !cl_in in G by lia. symmetry. exact G. }
  destruct (IH (S j) (field (sheet L j))) as (v & Lv & E); [rewrite field_len; apply cells2|]. exists v. split; [auto|]. rewrite E. now rewrite Nat.add_succ_r.
Qed.
Lemma print2 F : sheet_print false (sheet_axes Dirichlet L) (zrange 0 L) (zrange 0 L) (field F) = Some (map (fun x => map (F x) (zrange 0 L)) (zrange 0 L)).
Proof.
  unfold sheet_print. assert (forall (A B : Type) (f : A -> option B) g l, (forall x, In x l -> f x = Some (g x)) -> map_opt f l = Some (map g l)) as M.
  { intros A B f g. induction l as [|x l IH]; intros H; [reflexivity|]. cbn [map_opt map]. rewrite H by now left. cbn [bind]. rewrite IH by (intros; apply H; now right). reflexivity. }
  apply M. intros x Hx. apply M. intros y Hy. apply in_zrange in Hx, Hy. unfold grid_read_chain. rewrite addr2, !inside2 by lia. cbn [bind]. unfold field. rewrite get_tab by nia. now destruct (split_row x y Hy) as [-> ->].
Qed.
End Sheet.

(* growth beyond every bound *)
Lemma rho_bernoulli k : (1 + Qc_of (Z.of_nat k) * Q2Qc (1 # 100) <= power rho k)%Qc.
Proof.
  induction k as [|k IH]; [discriminate|]. cbn [power]. rewrite Nat2Z.inj_succ, <- Z.add_1_r, Qc_of_add, Qc_of_1.
  apply Qcle_trans with (rho * (1 + Qc_of (Z.of_nat k) * Q2Qc (1 # 100)))%Qc; [|rewrite !(Qcmult_comm rho); apply Qcmult_le_compat_r; [exact IH|discriminate]].
  assert (0 <= Qc_of (Z.of_nat k))%Qc as P. { destruct k; [discriminate|]. apply Qclt_le_weak, of_pos. lia. }
  unfold Qcle in *. rewrite !this_mul, !this_add, !this_mul, this_add. change (this rho) with (101 # 100)%Q. change (this (Q2Qc (1 # 100))) with (1 # 100)%Q. change (this 1%Qc) with 1%Q. change (this 0%Qc) with 0%Q in P. lra.
Qed.
Lemma archimedes (B : Qc) : exists n : nat, (B <= Qc_of (Z.of_nat n))%Qc.
Proof.
  exists (Z.to_nat (Qnum B)). unfold Qcle, Qc_of. cbn [this Q2Qc]. rewrite Qred_correct. unfold Qle, inject_Z. cbn [Qnum Qden]. destruct (Z.le_gt_cases 0 (Qnum B)); [rewrite Z2Nat.id by auto; nia|].
  assert (Z.of_nat (Z.to_nat (Qnum B)) = 0) as -> by lia. lia.
Qed.
