(* the steps of the phase-field programs as functions of the field *)
From Coq Require Import QArith.QArith QArith.Qcanon.
From Verif Require Import Model.Base Model.Boundary Model.Layout Model.Access Model.Stencil Model.Evolve Model.Dynamics Spec.Box Spec.Access Spec.Stencil Spec.Dynamics
  Proof.BaseL Proof.LayoutL Proof.AccessL Proof.StencilL Proof.StencilS Proof.StencilQ Proof.StencilM Proof.EndianF Proof.RandomL Proof.DynamicsL.
Local Open Scope list_scope.
Local Open Scope Z_scope.

Lemma sum_list (data : list Qc) : sumQ (map (fun i => nth (Z.to_nat i) data 0%Qc) (zrange 0 (zlen data))) = sumQ data.
Proof. transitivity (sumQ (tab (zlen data) (fun i => nth (Z.to_nat i) data 0%Qc))); [reflexivity|now rewrite <- list_tab]. Qed.
Lemma times_repeat {S} n (f : S -> option S) s : times n f s = repeat_step n f s.
Proof. revert s; induction n as [|n IH]; intros s; [reflexivity|]. cbn [times repeat_step]. destruct (f s); [apply IH|reflexivity]. Qed.
Lemma times_add {S} n m (f : S -> option S) s : times (n + m) f s = bind (times n f s) (times m f).
Proof. revert s; induction n as [|n IH]; intros s; [reflexivity|]. cbn [times Nat.add]. destruct (f s); [apply IH|reflexivity]. Qed.
Lemma steps_times {S} n t (f : Z -> S -> option S) s :
  times n (fun '(t, s) => do s' <- f t s; Some (t + 1, s')) (t, s) = option_map (fun s' => (t + Z.of_nat n, s')) (steps_from t n f s).
Proof.
  revert t s; induction n as [|n IH]; intros t s; cbn [times steps_from].
  - cbn [option_map]. do 2 f_equal. lia.
  - destruct (f t s) as [s'|]; [|reflexivity]. cbn [bind]. rewrite IH. destruct (steps_from _ _ _ _); [|reflexivity]. cbn [option_map]. do 2 f_equal. lia.
Qed.

Fixpoint go {F} (n : nat) (f : F -> F) (x : F) : F := match n with O => x | Datatypes.S m => go m f (f x) end.
Lemma go_add {F} n m (f : F -> F) x : go (n + m) f x = go m f (go n f x).
Proof. revert x; induction n as [|n IH]; intros x; [reflexivity|]. cbn [Nat.add go]. apply IH. Qed.
(* a step whose new field depends on the field only *)
Lemma restart_pure {S F} (ok : S -> Prop) (field : S -> F) (step : S -> option S) (next : F -> F) :
  (forall s, ok s -> exists s', step s = Some s' /\ ok s' /\ field s' = next (field s)) -> restartable ok field step.
Proof.
  intros H. assert (forall n s, ok s -> exists s', times n step s = Some s' /\ ok s' /\ field s' = go n next (field s)) as R.
  { induction n as [|n IH]; intros s Hs; [exists s; auto|]. cbn [times]. destruct (H s Hs) as (s' & E & O & F1). rewrite E. cbn [bind].
    destruct (IH s' O) as (s'' & E' & O' & F2). exists s''. split; [auto|]. split; [auto|]. rewrite F2, F1. reflexivity. }
  intros n m s1 s2 H1 H2 E. destruct (R (n + m)%nat s1 H1) as (a & Ea & _ & Fa). destruct (R n s2 H2) as (b & Eb & _ & Fb).
  exists a, b. split; [auto|]. split; [auto|]. intros s3 H3 E3. destruct (R m s3 H3) as (c & Ec & _ & Fc). exists c. split; [auto|].
  rewrite Fc, E3, Fa, Fb, E. symmetry. apply go_add.
Qed.

Section Steps.
Context (ls : list limits) (dx : list Qc) (Hs : Forall serial_axis ls) (Hd : length dx = length ls) (Hz : Forall (fun h => h <> 0%Qc) dx).
Notation N := (nodes (lay 0 ls)).
Notation C := (cells (lay 0 ls)).
Lemma N_nonneg : 0 <= N. Proof. apply (nodes_nonneg 0), wf_lay, lims_le, Hs. Qed.
Notation at_ old i := (nth (Z.to_nat i) old 0%Qc).
Notation lp old i := (lap ls dx old (position (lay 0 ls) i)).

Definition next_A r u K M dt (noise : Z -> Qc) old := tab N (fun i => at_ old i - dt * M * (- r * at_ old i + u * cube (at_ old i) - K * lp old i + noise i))%Qc.
Lemma model_A_eq r u K M dt noise old new : zlen old = C -> zlen new = C ->
  model_A_step false (lay 0 ls) dx r u K M dt noise (old, new) = Some (next_A r u K M dt noise old, old).
Proof.
  intros L Ln. unfold model_A_step. erewrite for_nodes_eq; [reflexivity|auto|].
  intros i Hi. rewrite read_int_0 by auto. cbn [bind]. rewrite laplacian_at_serial by auto. reflexivity.
Qed.
Lemma allen_cahn_eq r u K M dt old new : zlen old = C -> zlen new = C ->
  allen_cahn_step false (lay 0 ls) dx r u K M dt (old, new) = Some (next_A r u K M dt (fun _ => 0%Qc) old, old).
Proof.
  intros L Ln. unfold allen_cahn_step. rewrite (for_nodes_eq ls _ (fun i => at_ old i - dt * M * (- r * at_ old i + u * cube (at_ old i) - K * lp old i + 0))%Qc); [reflexivity|auto|].
  intros i Hi. rewrite read_int_0 by auto. cbn [bind]. rewrite laplacian_at_serial by auto. cbn [bind]. f_equal. unfold cube. ring.
Qed.
Lemma next_A_len r u K M dt noise old : zlen (next_A r u K M dt noise old) = C.
Proof. unfold next_A. rewrite tab_len by apply N_nonneg. symmetry. apply cells_nodes_0. Qed.

Definition mu_B r u K (noise : Z -> Qc) old := tab N (fun i => - r * at_ old i + u * cube (at_ old i) - K * lp old i + noise i)%Qc.
Definition next_B r u K k noise old := tab N (fun i => at_ old i + k * lp (mu_B r u K noise old) i)%Qc.
Lemma tab_C t : zlen (tab N t) = C.
Proof. rewrite tab_len by apply N_nonneg. symmetry. apply cells_nodes_0. Qed.
Lemma model_B_eq r u K k noise old new temp : zlen old = C -> zlen new = C -> zlen temp = C ->
  model_B_step false (lay 0 ls) dx r u K k noise (old, new, temp) = Some (next_B r u K k noise old, old, mu_B r u K noise old).
Proof.
  intros L Ln Lt. unfold model_B_step. erewrite for_nodes_eq; [|auto|].
  2:{ intros i Hi. rewrite read_int_0 by auto. cbn [bind]. rewrite laplacian_at_serial by auto. reflexivity. }
  cbn [bind]. fold (mu_B r u K noise old). erewrite for_nodes_eq; [reflexivity|auto|].
  intros i Hi. rewrite read_int_0 by auto. cbn [bind]. rewrite laplacian_at_serial by (auto; apply tab_C). reflexivity.
Qed.
Lemma next_B_sum r u K k noise old : zlen old = C -> Forall (fun l => periodic_axis l \/ insulated_axis l) ls ->
  sumQ (next_B r u K k noise old) = sumQ old.
Proof.
  intros L P. unfold next_B. rewrite sum_tab, sumQ_add, sumQ_mul, lap_sum by (auto; apply tab_C).
  rewrite <- cells_nodes_0, <- L, sum_list. ring.
Qed.

(* the deterministic scalar programs of Model/Stencil *)
Definition next_D k old := tab N (fun i => k * lp old i + at_ old i)%Qc.
Lemma diffusion_eq k old new : zlen old = C -> zlen new = C -> diffusion_step false (lay 0 ls) dx k (old, new) = Some (next_D k old, old).
Proof.
  intros L Ln. unfold diffusion_step. erewrite for_nodes_eq; [reflexivity|auto|].
  intros i Hi. rewrite laplacian_at_serial by auto. cbn [bind]. rewrite read_int_0 by auto. reflexivity.
Qed.
Lemma cahn_hilliard_eq r u K M dt old new temp : zlen old = C -> zlen new = C -> zlen temp = C ->
  cahn_hilliard_step false (lay 0 ls) dx r u K M dt (old, new, temp) = Some (next_B r u K (dt * M) (fun _ => 0%Qc) old, old, mu_B r u K (fun _ => 0%Qc) old).
Proof.
  intros L Ln Lt. rewrite <- (model_B_eq r u K (dt * M) (fun _ => 0%Qc) old new temp) by auto. unfold cahn_hilliard_step, model_B_step, potential, flow.
  rewrite !(for_nodes_eq ls _ (fun i => - r * at_ old i + u * cube (at_ old i) - K * lp old i + 0)%Qc); auto.
  - intros i Hi. rewrite read_int_0 by auto. cbn [bind]. rewrite laplacian_at_serial by auto. reflexivity.
  - intros i Hi. rewrite read_int_0 by auto. cbn [bind]. rewrite laplacian_at_serial by auto. cbn [bind]. f_equal. unfold cube. ring.
Qed.

(* vector grids *)
Context (n : Z).
Definition vgrid (g : list (list Qc)) : Prop := zlen g = C /\ Forall (fun c => zlen c = n) g.
Notation cell_ old i := (nth (Z.to_nat i) old ([] : list Qc)).
Definition vtab (t : Z -> Z -> Qc) : list (list Qc) := map (fun i => tab n (t i)) (zrange 0 N).
Lemma vtab_grid t : 0 <= n -> vgrid (vtab t).
Proof.
  intros Hn. split.
  - unfold vtab. rewrite zlen_map_range by apply N_nonneg. symmetry. apply cells_nodes_0.
  - unfold vtab. apply Forall_forall. intros c I. apply in_map_iff in I as (i & <- & _). now apply tab_len.
Qed.
Lemma vtab_field t j : 0 <= j < n -> field j (vtab t) = tab N (fun i => t i j).
Proof. intros Hj. unfold field, vtab, tab at 1. rewrite map_map. apply map_ext. intros i. fold (tab n (t i)). now apply comp_tab. Qed.
Lemma total_field j g : total j g = sumQ (field j g).
Proof. reflexivity. Qed.

Definition sum_sq lo (c : list Qc) : Qc := sumQ (map (fun i => sq (comp i c)) (zrange lo n)).
Lemma fold_sumQ (f : Qc -> Z -> option Qc) (t : Z -> Qc) l a : (forall i a, In i l -> f a i = Some (a + t i)%Qc) -> fold_opt f l a = Some (a + sumQ (map t l))%Qc.
Proof.
  revert a; induction l as [|i l IH]; intros a H; cbn [fold_opt map sumQ]; [f_equal; ring|].
  rewrite H by now left. cbn [bind]. rewrite IH by (intros; apply H; now right). f_equal. ring.
Qed.
Lemma squares_eq c : zlen c = n -> squares n c = Some (sum_sq 1 c).
Proof.
  intros L. unfold squares. rewrite (fold_sumQ _ (fun i => sq (comp i c))).
  - f_equal. unfold sum_sq. ring.
  - intros i a I. apply in_zrange in I. rewrite (comp_get' c i n) by lia. reflexivity.
Qed.

(* Ostwald ripening *)
Definition mu_O (P : ripening) old := tab N (fun i => let cell := cell_ old i in let C := comp 0 cell in
  (- o_A P * (C - o_Cmatrix P) + o_B P * cube (C - o_Cmatrix P) + o_Dalpha P * cube (C - o_Calpha P) + o_Dbeta P * cube (C - o_Cbeta P)
          - o_gamma P * (C - o_Calpha P) * sum_sq 1 cell - o_kappa P * lp (field 0 old) i)%Qc).
Definition next_O (P : ripening) old := vtab (fun i j => let cell := cell_ old i in let C := comp 0 cell in
  if j <? 1 then (C + o_dt P * o_D P * lp (mu_O P old) i)%Qc
  else (comp j cell - o_dt P * o_L P * (- o_gamma P * sq (C - o_Calpha P) + o_delta P * cube (comp j cell) + o_epsilon P * comp j cell * (sum_sq 1 cell - sq (comp j cell))
        - o_kappa P * lp (field j old) i))%Qc).
Lemma ostwald_eq P old new w : 1 <= n -> vgrid old -> vgrid new -> zlen w = C ->
  ostwald_step false (lay 0 ls) dx P n (old, new, w) = Some (next_O P old, old, mu_O P old).
Proof.
  intros Hn (L & F) (Ln & Fn) Lw. unfold ostwald_step, ostwald_potential. erewrite for_nodes_eq; [|auto|].
  2:{ intros i Hi. destruct (read_cell ls n old L F i Hi) as (c & E & Lc & Ec & _). rewrite E. cbn [bind]. rewrite squares_eq by auto. cbn [bind].
      rewrite (comp_get' c 0 n) by lia. cbn [bind]. unfold flaplacian_at. rewrite (flaplacian_serial ls dx Hs Hd Hz n) by (auto; try lia; now apply pos_box). cbn [bind]. rewrite Ec. reflexivity. }
  cbn [bind]. fold (mu_O P old). unfold ostwald_move.
  match goal with |- context [next_O P old] => idtac end.
  set (t := fun i j => let cell := cell_ old i in let C := comp 0 cell in
    if j <? 1 then (C + o_dt P * o_D P * lp (mu_O P old) i)%Qc
    else (comp j cell - o_dt P * o_L P * (- o_gamma P * sq (C - o_Calpha P) + o_delta P * cube (comp j cell) + o_epsilon P * comp j cell * (sum_sq 1 cell - sq (comp j cell))
        - o_kappa P * lp (field j old) i))%Qc).
  rewrite (for_cells_eq ls _ (fun i => tab n (t i))); [reflexivity|auto|].
  intros i c' Hi I. rewrite laplacian_at_serial by (auto; apply tab_C). cbn [bind].
  destruct (read_cell ls n old L F i Hi) as (c & E & Lc & Ec & _). rewrite E. cbn [bind]. rewrite (comp_get' c 0 n) by lia. cbn [bind].
  assert (zlen c' = n) as Lc' by (rewrite Forall_forall in Fn; now apply Fn).
  rewrite put_ok by lia. cbn [bind]. rewrite squares_eq by auto. cbn [bind]. rewrite (vlaplacian_at_serial ls dx Hs Hd Hz n) by (auto; lia). cbn [bind].
  erewrite fill_eq; [|lia| |].
  - f_equal. apply tab_ext. intros j Hj. unfold t. rewrite <- Ec. cbv zeta. destruct (Z.ltb_spec j 1) as [J|J]; [|reflexivity].
    replace j with 0 by lia. apply nth_set_nth. unfold zlen in *. lia.
  - unfold zlen. rewrite length_set_nth. exact Lc'.
  - intros j Hj. rewrite (comp_get' c j n) by lia. cbn [bind]. rewrite get_tab by lia. reflexivity.
Qed.
Lemma field_sum j old : zlen old = C -> sumQ (map (fun i => comp j (cell_ old i)) (zrange 0 N)) = total j old.
Proof.
  intros L. rewrite total_field. rewrite <- (sum_list (field j old)), field_len, L, cells_nodes_0. apply sumQ_ext. intros i _. symmetry. apply field_nth.
Qed.
Lemma next_O_total P old : 1 <= n -> zlen old = C -> Forall (fun l => periodic_axis l \/ insulated_axis l) ls -> total 0 (next_O P old) = total 0 old.
Proof.
  intros Hn L Pe. rewrite total_field. unfold next_O. rewrite vtab_field by lia. cbv zeta. rewrite sum_tab. change (0 <? 1) with true. cbv iota.
  rewrite sumQ_add, sumQ_mul, lap_sum, field_sum by (auto; apply tab_C). ring.
Qed.

(* dense multiphase fields *)
Definition next_G dt (pinned : bool) old := vtab (fun i j => let cell := cell_ old i in
  if pinned && (j =? 0) then comp j cell
  else (comp j cell - dt * (- comp j cell - cube (comp j cell) + c2 * (comp j cell * sum_sq 0 cell - lp (field j old) i)))%Qc).
Lemma dense_eq dt pinned old new : 0 <= n -> vgrid old -> vgrid new ->
  dense_step false (lay 0 ls) dx dt pinned n (old, new) = Some (next_G dt pinned old, old).
Proof.
  intros Hn (L & F) (Ln & Fn). unfold dense_step.
  set (t := fun i j => let cell := cell_ old i in
    if pinned && (j =? 0) then comp j cell
    else (comp j cell - dt * (- comp j cell - cube (comp j cell) + c2 * (comp j cell * sum_sq 0 cell - lp (field j old) i)))%Qc).
  rewrite (for_cells_eq ls _ (fun i => tab n (t i))); [reflexivity|auto|].
  intros i c' Hi I. destruct (read_cell ls n old L F i Hi) as (c & E & Lc & Ec & _). rewrite E. cbn [bind].
  assert (zlen c' = n) as Lc' by (rewrite Forall_forall in Fn; now apply Fn).
  rewrite (vlaplacian_at_serial ls dx Hs Hd Hz n) by (auto; lia). cbn [bind].
  rewrite (fold_sumQ _ (fun i => sq (comp i c))).
  2:{ intros j a J. apply in_zrange in J. rewrite (comp_get' c j n) by lia. reflexivity. }
  cbn [bind]. fold (sum_sq 0 c). rewrite Qcplus_0_l. erewrite fill_eq; [|lia|auto|].
  - f_equal. apply tab_ext. intros j Hj. destruct (Z.ltb_spec j 0); [lia|]. unfold t. rewrite <- Ec. reflexivity.
  - intros j Hj. rewrite (comp_get' c j n) by lia. cbn [bind]. rewrite get_tab by lia. reflexivity.
Qed.
End Steps.
