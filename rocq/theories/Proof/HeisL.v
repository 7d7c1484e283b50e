From Coq Require Import QArith.QArith QArith.Qcanon.
From Verif Require Import Model.Base Model.Boundary Model.Layout Model.Access Model.Stencil Model.Spin Model.Evolve Model.Heisenberg
  Spec.Box Spec.Access Spec.Stencil Spec.Spin Spec.Heisenberg
  Proof.BaseL Proof.LayoutL Proof.AccessL Proof.StencilL Proof.StencilS Proof.SpinL Proof.SpinF Proof.ZenerL Proof.SiteL.
From Verif Require Proof.StencilM.
Local Open Scope list_scope.
Local Open Scope Z_scope.

Lemma len3 (s : list Qc) : length s = 3%nat -> exists a b c, s = [a; b; c].
Proof. destruct s as [|a [|b [|c [|]]]]; try discriminate. eauto. Qed.
Lemma product3_ok s s1 s2 : length s = 3%nat -> length s1 = 3%nat -> length s2 = 3%nat -> product3 s s1 s2 = Some (dot3 s s1 - dot3 s s2)%Qc.
Proof.
  intros L L1 L2. apply len3 in L as (a & b & c & ->), L1 as (a1 & b1 & c1 & ->), L2 as (a2 & b2 & d2 & ->). unfold product3, dot3, get. cbn [nth bind nth_error Z.ltb Z.compare Z.to_nat Pos.to_nat Pos.iter_op Nat.add]. apply (f_equal Some). ring.
Qed.
Lemma dot3_sym s t : dot3 s t = dot3 t s. Proof. unfold dot3. ring. Qed.

Section Heis.
Context (ls : list limits) (F : Forall serial_axis ls) (direction : Z -> Z -> list Qc) (hot : Z -> Qc -> bool) (rnd : nat -> Z).
Notation axs := (lay 0 ls).
Notation val := (at_or [] axs).

Lemma turn_sum_eq data x s1 s2 : zlen data = cells axs -> Forall (fun s => length s = 3%nat) data -> box ls x -> length s1 = 3%nat -> length s2 = 3%nat ->
  turn_sum axs data x s1 s2 = Some (- (1) + sumQ (map (fun o => dot3 (val data (cbs ls (plus x o))) s1 - dot3 (val data (cbs ls (plus x o))) s2) (ising_offsets axs)))%Qc.
Proof.
  clear direction hot rnd. intros L F3 B L1 L2. unfold turn_sum. generalize (- (1))%Qc as start.
  assert (forall o, In o (ising_offsets axs) -> length o = length ls /\ Forall (fun i => -1 <= i <= 1) o) as Io.
  { intros o Ho. unfold ising_offsets in Ho. destruct (_ && _); [|destruct Ho]. rewrite offsets_cube, length_lay in Ho. now apply in_cube. }
  revert Io. generalize (ising_offsets axs) as l. induction l as [|o l IH]; intros Io start; cbn [fold_opt map sumQ]; [f_equal; ring|].
  destruct (Io o (or_introl eq_refl)) as [Lo Bo]. destruct (read_near [] ls F data x o L B Lo Bo) as [E Bc]. rewrite E. cbn [bind].
  assert (length (val data (cbs ls (plus x o))) = 3%nat) as L3 by (rewrite Forall_forall in F3; apply F3, val_in; auto).
  rewrite product3_ok by auto. cbn [bind]. rewrite IH by (intros; apply Io; now right). f_equal. ring.
Qed.
Lemma turn_keeps (P : list Qc -> Prop) data k : (forall s, P s -> length s = 3%nat) -> (forall a b, P (direction a b)) -> zlen data = cells axs -> Forall P data -> (forall n, 0 <= rnd n) ->
  exists data', turn_attempt axs direction hot rnd (data, k) = Some (data', S (S (S (S k)))) /\ zlen data' = cells axs /\ Forall P data'.
Proof.
  intros P3 Pd L FP R. unfold turn_attempt. pose proof (nodes_pos ls F) as NP. replace (nodes axs =? 0) with false by (symmetry; apply Z.eqb_neq; lia). cbn [guard negb bind].
  set (p := Z.rem (rnd k) (nodes axs)). assert (0 <= p < nodes axs) as Hp by (apply p_ok; auto). pose proof (site_ok ls p F Hp) as B.
  rewrite (read_node [] ls F data p L Hp). cbn [bind]. assert (Forall (fun s => length s = 3%nat) data) as F3 by (eapply Forall_impl; [|exact FP]; auto).
  assert (P (val data (position axs p))) as P1 by (rewrite Forall_forall in FP; apply FP, val_in; auto).
  rewrite turn_sum_eq by auto. cbn [bind]. set (dE := (- _)%Qc). rewrite (gss_ok ls F). cbn [negb guard]. destruct (_ || _).
  - destruct (write_node [] ls F data p (direction (rnd (S k)) (rnd (S (S k)))) L Hp) as (d' & W & L' & _ & _ & H). rewrite W. cbn [bind]. exists d'. split; [auto|]. split; [auto|]. apply H; auto.
  - cbn [bind]. exists data. auto.
Qed.

Lemma sum_cubeQ d (g : list Z -> Qc) : sumQ (map g (cube d)) = (sumQ (map g (displacements d)) + g (repeat 0%Z d))%Qc.
Proof.
  clear direction hot rnd F. unfold displacements. set (P := fun o => existsb (fun i : Z => negb (i =? 0)%Z) o).
  assert (forall l, sumQ (map g (filter P l)) = sumQ (map (fun o => if P o then g o else 0%Qc) l)) as -> by (clear; induction l as [|a l IH]; cbn [filter map sumQ]; [reflexivity|]; destruct (P a); cbn [map sumQ]; rewrite IH; ring).
  rewrite (sumQ_ext g (fun o => (if P o then g o else 0) + (if P o then 0 else g o))%Qc) by (intros o _; destruct (P o); ring). rewrite sumQ_add. f_equal.
  assert (P (repeat 0%Z d) = false) as P0 by (unfold P; clear; induction d; cbn; auto).
  rewrite (sumQ_one (repeat 0%Z d)); [now rewrite P0|apply NoDup_cube| |].
  - apply in_cube. split; [apply repeat_length|]. apply Forall_forall. intros i Hi. apply repeat_spec in Hi. lia.
  - intros o Ho N. destruct (P o) eqn:E; [reflexivity|]. exfalso. apply N. apply in_cube in Ho as [Lo _]. rewrite <- Lo. clear - E. induction o as [|i o IH]; [reflexivity|]. cbn in E. apply orb_false_iff in E as [Ei E].
    destruct (Z.eqb_spec i 0); [|discriminate]. subst. cbn. f_equal. auto.
Qed.
Lemma turn_sum_torus data x s2 : big_torus ls -> 1 <= zlen ls <= 3 -> zlen data = cells axs -> Forall unit3 data -> box ls x -> length s2 = 3%nat -> let s1 := val data x in
  turn_sum axs data x s1 s2 = Some (- dot3 s1 s2 + sumQ (map (fun y => dot3 (val data y) s1 - dot3 (val data y) s2) (torus_neighbours ls x)))%Qc.
Proof.
  clear direction hot rnd. intros T D L FU B L2 s1. assert (Forall (fun s => length s = 3%nat) data) as F3 by (eapply Forall_impl; [|exact FU]; intros ? [? _]; auto).
  assert (unit3 s1) as [L1 U1] by (rewrite Forall_forall in FU; apply FU, val_in; auto).
  rewrite turn_sum_eq by auto. rewrite ising_offs by auto. rewrite sum_cubeQ. rewrite plus_zero by apply (local_len _ _ B). rewrite cbs_in by auto. fold s1. rewrite U1.
  unfold torus_neighbours. rewrite map_map. f_equal.
  rewrite (sumQ_ext (fun o => dot3 (val data (on_torus ls (plus x o))) s1 - dot3 (val data (on_torus ls (plus x o))) s2)%Qc (fun o => dot3 (val data (cbs ls (plus x o))) s1 - dot3 (val data (cbs ls (plus x o))) s2)%Qc); [ring|].
  intros o Ho. apply in_displacements in Ho as (Lo & Fo & _). now rewrite cbs_torus.
Qed.
Lemma antiferro_after data data' x s2 : big_torus ls -> box ls x -> val data' x = s2 -> (forall y, box ls y -> y <> x -> val data' y = val data y) ->
  (antiferro2 ls data' - antiferro2 ls data = c2 * sumQ (map (fun y => dot3 (val data y) s2 - dot3 (val data y) (val data x)) (torus_neighbours ls x)))%Qc.
Proof.
  clear direction hot rnd. intros T B Ex O. assert (In x (all_nodes ls)) as I by (apply in_all_nodes; exact B).
  change (antiferro2 ls data') with (pairsQ (all_nodes ls) (torus_neighbours ls) dot3 (val data')). change (antiferro2 ls data) with (pairsQ (all_nodes ls) (torus_neighbours ls) dot3 (val data)).
  rewrite (pairsQ_flip vdec (all_nodes ls) (torus_neighbours ls) (NoDup_all_nodes ls) (fun y Hy => torus_closed ls y T Hy) (fun a b Ha Hb => torus_sym ls a b T Ha Hb) dot3 dot3_sym x (val data) (val data') s2); auto.
  - now apply torus_no_self.
  - intros y Hy. apply O. now apply in_all_nodes.
Qed.
Lemma turn_attempt_ok data k : big_torus ls -> 1 <= zlen ls <= 3 -> zlen data = cells axs -> Forall unit3 data -> (forall a b, unit3 (direction a b)) -> 0 <= rnd k ->
  let x := position axs (Z.rem (rnd k) (nodes axs)) in let s1 := val data x in let s2 := direction (rnd (S k)) (rnd (S (S k))) in
  exists data' dE, box ls x /\ zlen data' = cells axs /\ Forall unit3 data' /\ val data' x = s2 /\ (forall y, box ls y -> y <> x -> val data' y = val data y) /\
    (antiferro2 ls data' - antiferro2 ls data + c2 * dot3 s1 s2 = c2 * dE)%Qc /\
    turn_attempt axs direction hot rnd (data, k) = Some (if negb (qgt dE 0) || hot (rnd (S (S (S k)))) dE then data' else data, S (S (S (S k)))).
Proof.
  intros T D L FU Ud R x s1 s2. assert (0 <= Z.rem (rnd k) (nodes axs) < nodes axs) as Hp by (apply p_ok; auto). assert (box ls x) as B by (apply site_ok; auto).
  destruct (write_node [] ls F data _ s2 L Hp) as (d' & W & L' & Ex & O & H). fold x in Ex, O. exists d', (- (- dot3 s1 s2 + sumQ (map (fun y => dot3 (val data y) s1 - dot3 (val data y) s2) (torus_neighbours ls x))))%Qc.
  split; [auto|]. split; [auto|]. split; [apply H; auto; apply Ud|]. split; [auto|]. split; [auto|]. split.
  - rewrite (antiferro_after data d' x s2 T B Ex O). fold s1.
    rewrite (sumQ_ext (fun y => dot3 (val data y) s2 - dot3 (val data y) s1)%Qc (fun y => (- (1)) * (dot3 (val data y) s1 - dot3 (val data y) s2))%Qc) by (intros; ring). rewrite sumQ_mul. ring.
  - unfold turn_attempt. pose proof (nodes_pos ls F) as NP. replace (nodes axs =? 0) with false by (symmetry; apply Z.eqb_neq; lia). cbn [guard negb bind].
    rewrite (read_node [] ls F data _ L Hp). cbn [bind]. fold x. fold s1. fold s2. unfold s1 at 1. rewrite turn_sum_torus by (auto; apply Ud). fold s1. cbn [bind]. rewrite W. destruct (_ || _); cbn [bind]; rewrite (gss_ok ls F); reflexivity.
Qed.

(* a spin between spins at right angles to it *)
Lemma turn_back data k : big_torus ls -> 1 <= zlen ls <= 3 -> zlen data = cells axs -> Forall unit3 data -> 0 <= rnd k ->
  let x := position axs (Z.rem (rnd k) (nodes axs)) in unit3 (direction (rnd (S k)) (rnd (S (S k)))) ->
  (forall y, box ls y -> y <> x -> dot3 (val data y) (val data x) = 0%Qc /\ dot3 (val data y) (direction (rnd (S k)) (rnd (S (S k)))) = 0%Qc) ->
  dot3 (val data x) (direction (rnd (S k)) (rnd (S (S k)))) = (- (1))%Qc ->
  exists data', grid_write_int false axs data (Z.rem (rnd k) (nodes axs)) (direction (rnd (S k)) (rnd (S (S k)))) = Some data' /\
    turn_attempt axs direction hot rnd (data, k) = Some (data', S (S (S (S k)))).
Proof.
  intros T D L FU R x Ud Or Op. set (s2 := direction _ _) in *. assert (0 <= Z.rem (rnd k) (nodes axs) < nodes axs) as Hp by (apply p_ok; auto). assert (box ls x) as B by (apply site_ok; auto).
  destruct (write_node [] ls F data _ s2 L Hp) as (d' & W & L' & Ex & O & H). exists d'. split; [auto|].
  unfold turn_attempt. pose proof (nodes_pos ls F) as NP. replace (nodes axs =? 0) with false by (symmetry; apply Z.eqb_neq; lia). cbn [guard negb bind].
  rewrite (read_node [] ls F data _ L Hp). cbn [bind]. fold x. fold s2. rewrite turn_sum_torus by (auto; apply Ud). cbn [bind].
  rewrite (sumQ_ext _ (fun _ => 0%Qc)). 2:{ intros y Hy. assert (In x (all_nodes ls)) as I by (apply in_all_nodes; exact B). pose proof (torus_closed ls x T I y Hy) as Hy'. apply in_all_nodes in Hy'.
    assert (y <> x) as N by (intros ->; eapply torus_no_self; eauto). destruct (Or y Hy' N) as [-> ->]. ring. }
  rewrite sumQ_zero, Op. assert (qgt (- (- (- (1)) + 0)) 0 = false) as -> by reflexivity. cbn [negb orb]. rewrite W. cbn [bind]. rewrite (gss_ok ls F). reflexivity.
Qed.
End Heis.
