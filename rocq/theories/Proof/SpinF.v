(* the Ising and Potts examples *)
From Verif Require Import Model.Base Model.Boundary Model.Layout Model.Access Model.Spin Spec.Box Spec.Access Spec.Stencil Spec.Spin
  Proof.BaseL Proof.LayoutL Proof.AccessL Proof.StencilS Proof.SpinL.
Local Open Scope list_scope.
Local Open Scope Z_scope.

Lemma fold_keeps {A S} (P : S -> Prop) (f : S -> A -> option S) l s : (forall s i, P s -> exists s', f s i = Some s' /\ P s') -> P s -> exists s', fold_opt f l s = Some s' /\ P s'.
Proof. intros H. revert s. induction l as [|i l IH]; intros s Ps; [exists s; cbn; auto|]. destruct (H s i Ps) as (s1 & E & P1). cbn. rewrite E. cbn. auto. Qed.
Lemma get_err {A} (l : list A) i v : get l i = Some v -> nth_error l (Z.to_nat i) = Some v.
Proof. unfold get. destruct (i <? 0); [discriminate|auto]. Qed.
Lemma Forall_set_nth {A} (P : A -> Prop) n l v : Forall P l -> P v -> Forall P (set_nth n l v).
Proof. intros F Pv. revert n. induction F as [|a l Ha F IH]; intros [|n]; cbn; constructor; auto. Qed.
Lemma Forall_put {A} (P : A -> Prop) l i v l' : put l i v = Some l' -> Forall P l -> P v -> Forall P l'.
Proof. intros E F Pv. assert (0 <= i < zlen l) as H by (eapply put_some; eauto). rewrite put_ok in E by lia. injection E as <-. now apply Forall_set_nth. Qed.
Lemma put_same {A} (l : list A) i v : get l i = Some v -> put l i v = Some l.
Proof.
  intros G. assert (0 <= i < zlen l) as H by (eapply get_some_iff; eauto). rewrite put_ok by lia. f_equal. apply get_err in G.
  revert G. generalize (Z.to_nat i) as n. clear. induction l as [|a l IH]; intros [|n] G; cbn in *; try discriminate; [congruence|]. f_equal. auto.
Qed.

Section Lattice.
Context (ls : list limits).
Notation axs := (lay 0 ls).
Definition spins (data : list Z) : list Z -> Z := at_or 0 axs data.
Lemma spin_cbs data x : length x = length ls -> box ls (cbs ls x) -> spins data (cbs ls x) = spins data x.
Proof. intros L B. unfold spins, at_or. rewrite (read_idx ls data x) by auto. rewrite read_idx by (apply (local_len _ _ B)). now rewrite cbs_in. Qed.
Lemma cbs_plus x o : Forall serial_axis ls -> box ls x -> length o = length ls -> Forall (fun i => -1 <= i <= 1) o -> box ls (cbs ls (plus x o)).
Proof.
  intros F. revert x o. induction F as [|l ls' Sl _ IH]; intros [|c x] [|d o] B L Fo; cbn in B, L; try easy. destruct B as [Hc B]. inversion Fo; subst. cbn [plus cbs map in_box]. split; [apply cb_range; [auto|lia]|]. apply IH; auto.
Qed.
Lemma change_ok data x s1 s2 offs start : Forall serial_axis ls -> zlen data = cells axs -> box ls x -> Forall (fun o => length o = length ls /\ Forall (fun i => -1 <= i <= 1) o) offs ->
  change axs offs data x s1 s2 start = Some (start + sumZ (map (fun o => unlike (spins data (cbs ls (plus x o))) s2 - unlike (spins data (cbs ls (plus x o))) s1) offs)).
Proof.
  intros F L B Fo. unfold change. revert start. induction Fo as [|o offs [Lo Bo] _ IH]; intros start; [cbn [map fold_opt]; now rewrite sumZ_nil, Z.add_0_r|]. cbn [fold_opt map]. pose proof (local_len _ _ B) as Lx.
  rewrite vadd_plus by congruence. pose proof (cbs_plus x o F B Lo Bo) as Bc. assert (length (plus x o) = length ls) as Lp by (rewrite plus_length; congruence).
  rewrite (read_defined 0 ls data (plus x o) F L Lp Bc). cbn [bind]. rewrite IH, sumZ_cons, spin_cbs by auto. f_equal. change differ with unlike. change (at_or 0 axs data) with (spins data). lia.
Qed.
Lemma cube_ok : Forall (fun o => length o = length ls /\ Forall (fun i => -1 <= i <= 1) o) (cube (length ls)).
Proof. apply Forall_forall. intros o Ho. now apply in_cube. Qed.

Lemma site_ok p : Forall serial_axis ls -> 0 <= p < nodes axs -> box ls (position axs p).
Proof. intros F H. pose proof (position_into 0 axs p (wf_lay 0 ls (lims_le _ F)) H) as [B _]. now rewrite map_x0_lay, map_x1_lay in B. Qed.
Lemma nodes_eq : Forall serial_axis ls -> nodes axs = cells axs.
Proof. intros F. rewrite nodes_lay, cells_lay. f_equal. apply map_ext. intros; lia. Qed.
Lemma nodes_pos : Forall serial_axis ls -> 0 < nodes axs.
Proof. intros F. rewrite nodes_lay. induction F as [|l t (H & _) _ IH]; [reflexivity|]. cbn [map]. change (prodZ (l_x1 l - l_x0 l :: map (fun m => l_x1 m - l_x0 m) t)) with ((l_x1 l - l_x0 l) * prodZ (map (fun m => l_x1 m - l_x0 m) t)). nia. Qed.
Lemma gss_ok : Forall serial_axis ls -> gss axs =? 0 = false.
Proof.
  intros F. pose proof (nodes_pos F). apply Z.eqb_neq. unfold gss. destruct (_ =? 1); [lia|]. assert (Z.sqrt 1 <= Z.sqrt (nodes axs)) by (apply Z.sqrt_le_mono; lia). change (Z.sqrt 1) with 1 in *. lia.
Qed.
(* reading and writing node p *)
Lemma read_site data p : Forall serial_axis ls -> zlen data = cells axs -> 0 <= p < nodes axs -> grid_read_int false axs data p = Some (spins data (position axs p)).
Proof.
  intros F L H. rewrite (proj1 (read_int_position false 0 ls data p ltac:(lia) ltac:(auto) (lims_le _ F) H)). pose proof (site_ok p F H) as B. unfold spins.
  rewrite (read_defined 0 ls data _ F L (local_len _ _ B)); [reflexivity|]. now rewrite cbs_in.
Qed.
Lemma write_site data p v : Forall serial_axis ls -> zlen data = cells axs -> 0 <= p < nodes axs ->
  exists data', grid_write_int false axs data p v = Some data' /\ zlen data' = cells axs /\ spins data' (position axs p) = v /\
    (forall y, box ls y -> y <> position axs p -> spins data' y = spins data y) /\ (forall P : Z -> Prop, Forall P data -> P v -> Forall P data').
Proof.
  intros F L H. rewrite (proj2 (read_int_position false 0 ls data p ltac:(lia) ltac:(auto) (lims_le _ F) H)). pose proof (site_ok p F H) as B.
  destruct (inrange_access false 0 ls data (position axs p) v ltac:(lia) (lims_le _ F) L B) as (d' & W & Ld & R & O). exists d'. split; [auto|]. split; [congruence|]. split; [unfold spins, at_or; now rewrite R|]. split.
  - intros y By Ny. unfold spins, at_or. destruct (O y By Ny) as [-> _]. reflexivity.
  - intros P FP Pv. unfold grid_write in W. destruct (addr_vec _ _ _ _); [|discriminate]. cbn [bind] in W. eapply Forall_put; eauto.
Qed.
Lemma spins_in data x : Forall serial_axis ls -> zlen data = cells axs -> box ls x -> In (spins data x) data.
Proof.
  intros F L B. unfold spins, at_or. rewrite read_idx by apply (local_len _ _ B). rewrite cbs_in by auto. pose proof (idx_bounds ls x F B).
  destruct (get_ok data (idx ls x)) as [v E]; [lia|]. rewrite E. apply get_err in E. eapply nth_error_In; eauto.
Qed.
(* the sum over all displacements and the null one *)
Lemma sum_filter {A} (P : A -> bool) (g : A -> Z) l : sumZ (map g (filter P l)) = sumZ (map (fun o => if P o then g o else 0) l).
Proof. induction l as [|a l IH]; cbn [filter map]; [reflexivity|]. rewrite sumZ_cons. destruct (P a); cbn [map]; rewrite ?sumZ_cons; lia. Qed.
Lemma sum_cube d (g : list Z -> Z) : sumZ (map g (cube d)) = sumZ (map g (displacements d)) + g (repeat 0 d).
Proof.
  unfold displacements. rewrite sum_filter. set (P := fun o => existsb (fun i : Z => negb (i =? 0)) o).
  rewrite (sum_ext g (fun o => (if P o then g o else 0) + (if P o then 0 else g o))) by (intros o _; destruct (P o); lia). rewrite sum_add. f_equal.
  assert (P (repeat 0 d) = false) as P0 by (unfold P; induction d; cbn; auto).
  rewrite (sum_one (repeat 0 d)); [now rewrite P0|apply NoDup_cube| |].
  - apply in_cube. split; [apply repeat_length|]. apply Forall_forall. intros i Hi. apply repeat_spec in Hi. lia.
  - intros o Ho N. destruct (P o) eqn:E; [reflexivity|]. exfalso. apply N. apply in_cube in Ho as [L _]. subst d. clear - E. induction o as [|i o IH]; [reflexivity|]. cbn in E. apply orb_false_iff in E as [Ei E].
    destruct (Z.eqb_spec i 0); [|discriminate]. subst. cbn. f_equal. auto.
Qed.
Lemma plus_zero x : length x = length ls -> plus x (repeat 0 (length ls)) = x.
Proof. intros <-. induction x as [|c x IH]; [reflexivity|]. cbn. rewrite IH. f_equal. lia. Qed.
Lemma change_torus data p s2 start : big_torus ls -> zlen data = cells axs -> 0 <= p < nodes axs ->
  let x := position axs p in let s1 := spins data x in
  change axs (cube (length ls)) data x s1 s2 start =
    Some (start + unlike s1 s2 + sumZ (map (fun y => unlike (spins data y) s2 - unlike (spins data y) s1) (torus_neighbours ls x))).
Proof.
  intros T L H x s1. pose proof (torus_serial ls T) as F. pose proof (site_ok p F H) as B. fold x in B. rewrite (change_ok data x s1 s2 _ start F L B cube_ok). f_equal.
  rewrite sum_cube, plus_zero by apply (local_len _ _ B). rewrite cbs_in by auto. fold s1. rewrite unlike_same. unfold torus_neighbours. rewrite map_map.
  rewrite (sum_ext _ (fun o => unlike (spins data (on_torus ls (plus x o))) s2 - unlike (spins data (on_torus ls (plus x o))) s1)); [lia|].
  intros o Ho. apply in_displacements in Ho as (Lo & Fo & _). now rewrite cbs_torus.
Qed.
(* the energy after a flip *)
Lemma pairs_after data p s2 data' : big_torus ls -> 0 <= p < nodes axs -> let x := position axs p in spins data' x = s2 -> (forall y, box ls y -> y <> x -> spins data' y = spins data y) ->
  unlike_pairs (all_nodes ls) (torus_neighbours ls) (spins data') - unlike_pairs (all_nodes ls) (torus_neighbours ls) (spins data) =
    2 * sumZ (map (fun y => unlike (spins data y) s2 - unlike (spins data y) (spins data x)) (torus_neighbours ls x)) /\
  magnetisation (all_nodes ls) (spins data') - magnetisation (all_nodes ls) (spins data) = s2 - spins data x.
Proof.
  intros T H x E O. pose proof (torus_serial ls T) as F. pose proof (site_ok p F H) as B. fold x in B.
  assert (In x (all_nodes ls)) as I by (apply in_all_nodes; exact B). split.
  - apply (pairs_flip vdec (all_nodes ls) (torus_neighbours ls) (NoDup_all_nodes ls)); auto.
    + intros y Hy. now apply torus_closed.
    + intros a b Ha Hb. now apply torus_sym.
    + now apply torus_no_self.
    + intros y Hy. apply O. now apply in_all_nodes.
  - unfold magnetisation. rewrite (sum_flip x); [now rewrite E|apply NoDup_all_nodes|auto|]. intros y Hy. apply O. now apply in_all_nodes.
Qed.
Context (hot : Z -> Z -> bool) (rnd : nat -> Z).
Lemma p_ok k : Forall serial_axis ls -> 0 <= rnd k -> 0 <= Z.rem (rnd k) (nodes axs) < nodes axs.
Proof. intros F H. pose proof (nodes_pos F). apply Z.rem_bound_pos; lia. Qed.
Lemma ising_offs : 1 <= zlen ls <= 3 -> ising_offsets axs = cube (length ls).
Proof.
  intros H. unfold ising_offsets. assert (zlen axs = zlen ls) as E by (unfold zlen; now rewrite length_lay). rewrite E, length_lay.
  replace (1 <=? zlen ls) with true by (symmetry; apply Z.leb_le; lia). replace (zlen ls <=? 3) with true by (symmetry; apply Z.leb_le; lia). apply offsets_cube.
Qed.
Definition spin2 (s : Z) : Prop := s = 1 \/ s = -1.
Lemma ising_attempt_ok data k : big_torus ls -> 1 <= zlen ls <= 3 -> zlen data = cells axs -> Forall spin2 data -> 0 <= rnd k ->
  let p := Z.rem (rnd k) (nodes axs) in let x := position axs p in
  exists data' dE, zlen data' = cells axs /\ Forall spin2 data' /\ spins data' x = - spins data x /\ (forall y, box ls y -> y <> x -> spins data' y = spins data y) /\
    antiferromagnet2 ls (spins data') - antiferromagnet2 ls (spins data) = 2 * dE /\
    ising_attempt axs hot rnd (data, k) = Some (if (dE <=? 0) || hot (rnd (S k)) dE then data' else data, S (S k)).
Proof.
  intros T D L S2 R p x. pose proof (torus_serial ls T) as F. pose proof (p_ok k F R) as Hp. fold p in Hp.
  pose proof (site_ok p F Hp) as B. fold x in B.
  destruct (write_site data p (- spins data x) F L Hp) as (d' & W & L' & E & O & P). fold x in E, O.
  assert (spin2 (spins data x)) as Sx by (rewrite Forall_forall in S2; apply S2, spins_in; auto).
  set (N := sumZ (map (fun y => unlike (spins data y) (- spins data x) - unlike (spins data y) (spins data x)) (torus_neighbours ls x))).
  exists d', (- N - (- spins data x - spins data x)).
  split; [auto|]. split; [apply P; [auto|]; destruct Sx as [->| ->]; unfold spin2; lia|]. split; [auto|]. split; [auto|]. split.
  - destruct (pairs_after data p (- spins data x) d' T Hp E O) as [E1 E2]. fold x in E1, E2. fold N in E1. unfold antiferromagnet2. lia.
  - unfold ising_attempt. fold p. pose proof (nodes_pos F). replace (nodes axs =? 0) with false by (symmetry; apply Z.eqb_neq; lia). cbn [guard negb bind].
    rewrite (read_site data p F L Hp). cbn [bind]. fold x. rewrite ising_offs by auto. pose proof (change_torus data p (- spins data x) (-1) T L Hp) as C. cbv zeta in C. fold x in C. fold N in C. rewrite C. cbn [bind].
    replace (unlike (spins data x) (- spins data x)) with 1 by (destruct Sx as [->| ->]; reflexivity). replace (- (-1 + 1 + N)) with (- N) by lia. unfold accept.
    rewrite gss_ok by auto. destruct ((_ <=? 0) || _); [rewrite W|]; reflexivity.
Qed.
Lemma potts_offs : Forall (fun o => length o = length ls /\ Forall (fun i => -1 <= i <= 1) o) (potts_offsets axs) /\ (zlen ls = 3 -> potts_offsets axs = cube (length ls)).
Proof.
  assert (zlen axs = zlen ls) as E by (unfold zlen; now rewrite length_lay). unfold potts_offsets. rewrite E. destruct (Z.eqb_spec (zlen ls) 2) as [E2|N2].
  - split; [|lia]. assert (length ls = 2%nat) as -> by (unfold zlen in E2; lia). repeat constructor; lia.
  - destruct (Z.eqb_spec (zlen ls) 3) as [E3|N3]; [|split; [constructor|lia]]. assert (length ls = 3%nat) as -> by (unfold zlen in E3; lia). split; [|reflexivity].
    rewrite offsets_cube. apply Forall_forall. intros o Ho. now apply in_cube.
Qed.
Lemma potts_attempt_ok data k : big_torus ls -> zlen ls = 3 -> zlen data = cells axs -> 0 <= rnd k ->
  let p := Z.rem (rnd k) (nodes axs) in let x := position axs p in let s2 := Z.rem (rnd (S k)) 20 in
  exists data' dE, zlen data' = cells axs /\ spins data' x = s2 /\ (forall y, box ls y -> y <> x -> spins data' y = spins data y) /\
    potts_energy2 ls (spins data') - potts_energy2 ls (spins data) = 2 * dE /\
    potts_attempt axs hot rnd (data, k) = Some (if (dE <=? 0) || hot (rnd (S (S k))) dE then data' else data, S (S (S k))).
Proof.
  intros T D L R p x s2. pose proof (torus_serial ls T) as F. pose proof (p_ok k F R) as Hp. fold p in Hp.
  pose proof (site_ok p F Hp) as B. fold x in B.
  destruct (write_site data p s2 F L Hp) as (d' & W & L' & E & O & P). fold x in E, O.
  set (N := sumZ (map (fun y => unlike (spins data y) s2 - unlike (spins data y) (spins data x)) (torus_neighbours ls x))).
  exists d', N. split; [auto|]. split; [auto|]. split; [auto|]. split.
  - destruct (pairs_after data p s2 d' T Hp E O) as [E1 E2]. fold x in E1, E2. fold N in E1. exact E1.
  - unfold potts_attempt. fold p. pose proof (nodes_pos F). replace (nodes axs =? 0) with false by (symmetry; apply Z.eqb_neq; lia). cbn [guard negb bind].
    rewrite (read_site data p F L Hp). cbn [bind]. fold x. fold s2. rewrite (proj2 potts_offs) by auto. pose proof (change_torus data p s2 (-1) T L Hp) as C. cbv zeta in C. fold x in C. fold N in C. rewrite C. cbn [bind]. unfold accept.
    rewrite gss_ok by auto. unfold unlike. destruct (Z.eqb_spec (spins data x) s2) as [Es|Ns].
    + assert (N = 0) as -> by (apply sum_zero; intros y _; rewrite Es; lia). cbn [Z.leb Z.compare orb Z.add]. rewrite W. reflexivity.
    + replace (-1 + 1 + N) with N by lia. destruct ((N <=? 0) || _); [rewrite W|]; reflexivity.
Qed.
(* the spins stay in the allowed set, whatever the boundary conditions *)
Lemma ising_keeps data k : Forall serial_axis ls -> zlen data = cells axs -> Forall spin2 data -> (forall k, 0 <= rnd k) ->
  exists data', ising_attempt axs hot rnd (data, k) = Some (data', S (S k)) /\ zlen data' = cells axs /\ Forall spin2 data'.
Proof.
  intros F L S2 R. pose proof (p_ok k F (R k)) as Hp. set (p := Z.rem _ _) in *. pose proof (site_ok p F Hp) as B. set (x := position axs p) in *.
  destruct (write_site data p (- spins data x) F L Hp) as (d' & W & L' & E & O & P).
  assert (spin2 (spins data x)) as Sx by (rewrite Forall_forall in S2; apply S2, spins_in; auto).
  unfold ising_attempt. fold p. pose proof (nodes_pos F). replace (nodes axs =? 0) with false by (symmetry; apply Z.eqb_neq; lia). cbn [guard negb bind].
  rewrite (read_site data p F L Hp). cbn [bind]. fold x.
  assert (Forall (fun o => length o = length ls /\ Forall (fun i => -1 <= i <= 1) o) (ising_offsets axs)) as Fo.
  { unfold ising_offsets. destruct (_ && _); [|constructor]. rewrite length_lay, offsets_cube. apply cube_ok. }
  rewrite (change_ok data x _ _ _ (-1) F L B Fo). cbn [bind]. rewrite gss_ok by auto. destruct (accept _ _ _).
  - rewrite W. cbn [bind]. exists d'. split; [reflexivity|]. split; [auto|]. apply P; auto. destruct Sx as [->| ->]; unfold spin2; lia.
  - exists data. auto.
Qed.
Lemma potts_keeps data k : Forall serial_axis ls -> zlen data = cells axs -> Forall (fun s => 0 <= s < 20) data -> (forall k, 0 <= rnd k) ->
  exists data', potts_attempt axs hot rnd (data, k) = Some (data', S (S (S k))) /\ zlen data' = cells axs /\ Forall (fun s => 0 <= s < 20) data'.
Proof.
  intros F L S2 R. pose proof (p_ok k F (R k)) as Hp. set (p := Z.rem _ _) in *. pose proof (site_ok p F Hp) as B. set (x := position axs p) in *.
  destruct (write_site data p (Z.rem (rnd (S k)) 20) F L Hp) as (d' & W & L' & E & O & P).
  unfold potts_attempt. fold p. pose proof (nodes_pos F). replace (nodes axs =? 0) with false by (symmetry; apply Z.eqb_neq; lia). cbn [guard negb bind].
  rewrite (read_site data p F L Hp). cbn [bind]. fold x.
  rewrite (change_ok data x _ _ _ (-1) F L B (proj1 potts_offs)). cbn [bind]. rewrite gss_ok by auto. destruct (accept _ _ _).
  - rewrite W. cbn [bind]. exists d'. split; [reflexivity|]. split; [auto|]. apply P; auto. apply Z.rem_bound_pos; [apply R|lia].
  - exists data. auto.
Qed.
Lemma sweeps_keep {S} (P : S -> Prop) (f : S -> option S) n steps s : (forall s, P s -> exists s', f s = Some s' /\ P s') -> P s ->
  exists s', fold_opt (fun st (_ : Z) => fold_opt (fun st (_ : Z) => f st) (zrange 0 n) st) (zrange 0 steps) s = Some s' /\ P s'.
Proof. intros H. apply fold_keeps. intros s0 _ P0. apply fold_keeps; auto. Qed.
End Lattice.
