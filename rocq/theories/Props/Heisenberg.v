(* C88: the Heisenberg example.  Exact arithmetic. *)
From Coq Require Import QArith.QArith QArith.Qcanon Lia.
From Verif Require Import Model.Base Model.Boundary Model.Layout Model.Access Model.Stencil Model.Spin Model.Evolve Model.Heisenberg
  Spec.Box Spec.Access Spec.Stencil Spec.Spin Spec.Heisenberg
  Proof.BaseL Proof.LayoutL Proof.AccessL Proof.StencilL Proof.StencilS Proof.SpinL Proof.SpinF Proof.ZenerL Proof.SiteL Proof.HeisL.
From Verif Require Proof.StencilM.
Local Open Scope list_scope.
Local Open Scope Z_scope.

Definition up : list Qc := [0%Qc; 0%Qc; 1%Qc].
Definition down : list Qc := [0%Qc; 0%Qc; (- (1))%Qc].
Definition east : list Qc := [1%Qc; 0%Qc; 0%Qc].
Lemma unit_up : unit3 up. Proof. split; [reflexivity|]. apply Qc_is_canon. reflexivity. Qed.
Lemma unit_down : unit3 down. Proof. split; [reflexivity|]. apply Qc_is_canon. reflexivity. Qed.
Lemma unit_east : unit3 east. Proof. split; [reflexivity|]. apply Qc_is_canon. reflexivity. Qed.
Definition never (r : Z) (dE : Qc) : bool := false.
Definition torus (ns : list Z) : list limits := map (fun n => mkLim 0 n 0 n periodic periodic) ns.

(* C88: for every grid, number of steps and random numbers the update is defined, and spins of unit length stay spins of unit length *)
Theorem C88_unit : forall ls direction hot rnd steps data k, Forall serial_axis ls -> (forall n, 0 <= rnd n) -> (forall a b, unit3 (direction a b)) ->
  zlen data = cells (lay 0 ls) -> Forall unit3 data ->
  exists data' k', turn_update (lay 0 ls) direction hot rnd steps (data, k) = Some (data', k') /\ zlen data' = cells (lay 0 ls) /\ Forall unit3 data'.
Proof.
  intros ls direction hot rnd steps data k F R U L FU.
  destruct (SpinF.sweeps_keep (fun st : list (list Qc) * nat => zlen (fst st) = cells (lay 0 ls) /\ Forall unit3 (fst st)) (turn_attempt (lay 0 ls) direction hot rnd) (nodes (lay 0 ls)) steps (data, k)) as ([d' k'] & E & Ld & Ud).
  - intros [d n] [Ld Ud]. destruct (turn_keeps ls F direction hot rnd unit3 d n) as (d' & E & L' & U'); auto; [intros s [? _]; auto|]. eexists. split; [exact E|]. auto.
  - auto.
  - exists d', k'. auto.
Qed.
Print Assumptions C88_unit.

(* C88, the part that holds of the Metropolis rule: every attempt turns one spin into the drawn direction when a number dE is not positive or
   the random number says so; dE is the change of the energy of the antiferromagnet (of the pairs counted from both ends, halved) plus the
   product of the old and the new spin.  Missing: that last term does not belong there *)
Theorem C88_rule_partial : forall ls direction hot rnd data k, big_torus ls -> 1 <= zlen ls <= 3 -> zlen data = cells (lay 0 ls) -> Forall unit3 data ->
  (forall a b, unit3 (direction a b)) -> 0 <= rnd k ->
  exists x data' dE, in_box (map l_x0 ls) (map l_x1 ls) x /\ zlen data' = cells (lay 0 ls) /\ spin_at ls data' x = direction (rnd (S k)) (rnd (S (S k))) /\
    (forall y, in_box (map l_x0 ls) (map l_x1 ls) y -> y <> x -> spin_at ls data' y = spin_at ls data y) /\
    (antiferro2 ls data' - antiferro2 ls data + Qc_of 2 * dot3 (spin_at ls data x) (spin_at ls data' x) = Qc_of 2 * dE)%Qc /\
    turn_attempt (lay 0 ls) direction hot rnd (data, k) = Some (if negb (qgt dE 0) || hot (rnd (S (S (S k)))) dE then data' else data, S (S (S (S k)))).
Proof.
  intros ls direction hot rnd data k T D L FU U R. destruct (turn_attempt_ok ls (torus_serial ls T) direction hot rnd data k T D L FU U R) as (d' & dE & B & L' & _ & E & O & En & St).
  eexists _, d', dE. split; [exact B|]. split; [auto|]. split; [exact E|]. split; [exact O|]. split; [|exact St]. change (spin_at ls) with (at_or (@nil Qc) (lay 0 ls)). rewrite E. exact En.
Qed.
Print Assumptions C88_rule_partial.
Example C88_case : let ls := torus [3; 2] in let data := [up; down; east; up; up; east] in let direction (a b : Z) := if Z.even a then up else if Z.even b then down else [Q2Qc (3 # 5); 0%Qc; Q2Qc (4 # 5)] in
  big_torus ls /\ Forall serial_axis ls /\ 1 <= zlen ls <= 3 /\ zlen data = cells (lay 0 ls) /\ Forall unit3 data /\ (forall a b, unit3 (direction a b)) /\
  option_map (fun st => map (map this) (fst st)) (turn_update (lay 0 ls) direction never (fun k => Z.of_nat (k * k)) 2 (data, 0%nat)) <> Some (map (map this) data) /\
  turn_update (lay 0 ls) direction never (fun k => Z.of_nat (k * k)) 2 (data, 0%nat) <> None.
Proof.
  cbv zeta. assert (big_torus (torus [3; 2])) as T by (repeat constructor; cbn; lia). split; [exact T|]. split; [now apply torus_serial|]. split; [vm_compute; split; discriminate|]. split; [reflexivity|].
  split; [repeat (apply Forall_cons || apply Forall_nil); auto using unit_up, unit_down, unit_east|]. split; [intros a b; destruct (Z.even a); [apply unit_up|]; destruct (Z.even b); [apply unit_down|]; split; [reflexivity|apply Qc_is_canon; reflexivity]|].
  split; vm_compute; discriminate.
Qed.

Lemma box_first ls : Forall serial_axis ls -> 0 <= 0 < nodes (lay 0 ls).
Proof. intros F. pose proof (nodes_pos ls F). lia. Qed.
(* a grid whose first node has spin s and all others have spin t *)
Definition one_and_rest (ls : list limits) (s t : list Qc) : list (list Qc) := s :: repeat t (Z.to_nat (nodes (lay 0 ls) - 1)).
Lemma one_sized ls s t : Forall serial_axis ls -> zlen (one_and_rest ls s t) = cells (lay 0 ls).
Proof. intros F. pose proof (nodes_pos ls F). rewrite <- (nodes_eq ls F). unfold one_and_rest, zlen. cbn [length]. rewrite repeat_length. lia. Qed.
Lemma one_write ls s t u : grid_write_int false (lay 0 ls) (one_and_rest ls s t) 0 u = Some (one_and_rest ls u t).
Proof. reflexivity. Qed.
Lemma one_values ls s t : Forall serial_axis ls -> at_or [] (lay 0 ls) (one_and_rest ls s t) (position (lay 0 ls) 0) = s /\
  forall y, in_box (map l_x0 ls) (map l_x1 ls) y -> y <> position (lay 0 ls) 0 -> at_or [] (lay 0 ls) (one_and_rest ls s t) y = t.
Proof.
  intros F. pose proof (nodes_pos ls F) as N. pose proof (one_sized ls s t F) as L. split.
  - pose proof (read_node [] ls F _ 0 L (box_first ls F)) as R. cbn in R. injection R as R. auto.
  - intros y B Ny. destruct (position_all ls F y B) as (p & Hp & <-). pose proof (read_node [] ls F _ p L Hp) as R. unfold grid_read_int, addr_int in R. cbn [bind] in R.
    assert (p <> 0) as P0 by congruence. rewrite (BaseL.get_nth _ p []) in R by (rewrite L, <- (nodes_eq ls F); lia). injection R as <-. unfold one_and_rest. destruct (Z.to_nat p) as [|q] eqn:E; [lia|]. cbn [nth]. rewrite nth_error_nth with (x := t); [reflexivity|]. apply nth_error_repeat. lia.
Qed.
Lemma unit_one ls s t : unit3 s -> unit3 t -> Forall unit3 (one_and_rest ls s t).
Proof. intros Us Ut. constructor; [auto|]. apply Forall_forall. intros u Hu. apply repeat_spec in Hu. now subst. Qed.

(* C88 is false: the rule is not the Metropolis rule of any energy.  On every torus, at temperature zero, where only attempts that do not
   raise the energy may succeed, a spin between spins at right angles to it turns round and turns round again, and both times dE is -1 *)
Definition up_or_down (a b : Z) : list Qc := if a =? 0 then down else up.
Definition draws (k : nat) : Z := if Nat.eqb k 5 then 1 else 0.
Theorem C88_round_refuted : forall ls, big_torus ls -> 1 <= zlen ls <= 3 ->
  let data := one_and_rest ls up east in let data' := one_and_rest ls down east in
  Forall unit3 data /\ Forall unit3 data' /\ (forall a b, unit3 (up_or_down a b)) /\ data' <> data /\
  turn_attempt (lay 0 ls) up_or_down never draws (data, 0%nat) = Some (data', 4%nat) /\ turn_attempt (lay 0 ls) up_or_down never draws (data', 4%nat) = Some (data, 8%nat).
Proof.
  intros ls T D data data'. pose proof (torus_serial ls T) as F. split; [apply unit_one; auto using unit_up, unit_east|]. split; [apply unit_one; auto using unit_down, unit_east|].
  split; [intros a b; unfold up_or_down; destruct (a =? 0); auto using unit_up, unit_down|]. split; [intros E; discriminate E|].
  assert (forall v w, v = up \/ v = down -> w = up \/ w = down -> dot3 east v = 0%Qc /\ dot3 east w = 0%Qc) as Or by (intros v w [->| ->] [->| ->]; split; apply Qc_is_canon; reflexivity).
  split.
  - destruct (turn_back ls F up_or_down never draws data 0 T D) as (r & W & A).
    + now apply one_sized.
    + apply unit_one; auto using unit_up, unit_east.
    + cbn. lia.
    + apply unit_down.
    + change (Z.rem (draws 0) (nodes (lay 0 ls))) with (Z.rem 0 (nodes (lay 0 ls))). rewrite Z.rem_0_l by (pose proof (nodes_pos ls F); lia). intros y B N. destruct (one_values ls up east F) as [V0 V]. unfold data. rewrite V0, V by auto. apply Or; auto.
    + change (Z.rem (draws 0) (nodes (lay 0 ls))) with (Z.rem 0 (nodes (lay 0 ls))). rewrite Z.rem_0_l by (pose proof (nodes_pos ls F); lia). unfold data. rewrite (proj1 (one_values ls up east F)). apply Qc_is_canon. reflexivity.
    + change (Z.rem (draws 0) (nodes (lay 0 ls))) with (Z.rem 0 (nodes (lay 0 ls))) in W. rewrite Z.rem_0_l in W by (pose proof (nodes_pos ls F); lia). unfold data in W. rewrite one_write in W. injection W as <-. exact A.
  - destruct (turn_back ls F up_or_down never draws data' 4 T D) as (r & W & A).
    + now apply one_sized.
    + apply unit_one; auto using unit_down, unit_east.
    + cbn. lia.
    + apply unit_up.
    + change (Z.rem (draws 4) (nodes (lay 0 ls))) with (Z.rem 0 (nodes (lay 0 ls))). rewrite Z.rem_0_l by (pose proof (nodes_pos ls F); lia). intros y B N. destruct (one_values ls down east F) as [V0 V]. unfold data'. rewrite V0, V by auto. apply Or; auto.
    + change (Z.rem (draws 4) (nodes (lay 0 ls))) with (Z.rem 0 (nodes (lay 0 ls))). rewrite Z.rem_0_l by (pose proof (nodes_pos ls F); lia). unfold data'. rewrite (proj1 (one_values ls down east F)). apply Qc_is_canon. reflexivity.
    + change (Z.rem (draws 4) (nodes (lay 0 ls))) with (Z.rem 0 (nodes (lay 0 ls))) in W. rewrite Z.rem_0_l in W by (pose proof (nodes_pos ls F); lia). unfold data' in W. rewrite one_write in W. injection W as <-. exact A.
Qed.
Print Assumptions C88_round_refuted.
(* so whatever function of the grid is called its energy, some attempt that succeeds at temperature zero does not lower it although the
   program found dE = -1 *)
Theorem C88_energy_refuted : forall ls (energy : list (list Qc) -> Qc), big_torus ls -> 1 <= zlen ls <= 3 ->
  exists data data' k, Forall unit3 data /\ zlen data = cells (lay 0 ls) /\ data' <> data /\
    turn_attempt (lay 0 ls) up_or_down never draws (data, k) = Some (data', S (S (S (S k)))) /\ (energy data <= energy data')%Qc.
Proof.
  intros ls energy T D. destruct (C88_round_refuted ls T D) as (U1 & U2 & _ & N & A1 & A2). pose proof (torus_serial ls T) as F.
  destruct (Qclt_le_dec (energy (one_and_rest ls down east)) (energy (one_and_rest ls up east))) as [H|H].
  - exists (one_and_rest ls down east), (one_and_rest ls up east), 4%nat. split; [auto|]. split; [now apply one_sized|]. split; [congruence|]. split; [auto|]. now apply Qclt_le_weak.
  - exists (one_and_rest ls up east), (one_and_rest ls down east), 0%nat. split; [auto|]. split; [now apply one_sized|]. auto.
Qed.
Print Assumptions C88_energy_refuted.

(* nor does it describe a ferromagnet: on every torus, at temperature zero, a spin of the ground state, all spins up, is turned round, which
   raises the energy *)
Theorem C88_ferromagnet_refuted : forall ls, big_torus ls -> 1 <= zlen ls <= 3 -> exists data,
  turn_attempt (lay 0 ls) up_or_down never draws (repeat up (Z.to_nat (nodes (lay 0 ls))), 0%nat) = Some (data, 4%nat) /\
  (ferro2 ls (repeat up (Z.to_nat (nodes (lay 0 ls)))) < ferro2 ls data)%Qc.
Proof.
  intros ls T D. pose proof (torus_serial ls T) as F. pose proof (nodes_pos ls F) as NP.
  assert (repeat up (Z.to_nat (nodes (lay 0 ls))) = one_and_rest ls up up) as E0. { unfold one_and_rest. replace (Z.to_nat (nodes (lay 0 ls))) with (S (Z.to_nat (nodes (lay 0 ls) - 1))) by lia. reflexivity. }
  rewrite E0. destruct (one_values ls up up F) as [V0 V]. set (data := one_and_rest ls up up) in *.
  assert (Z.rem (draws 0) (nodes (lay 0 ls)) = 0) as Rp by (change (draws 0) with 0; apply Z.rem_0_l; lia).
  assert (in_box (map l_x0 ls) (map l_x1 ls) (position (lay 0 ls) 0)) as B by (apply site_ok; auto; lia). set (x := position (lay 0 ls) 0) in *.
  assert (forall y, in_box (map l_x0 ls) (map l_x1 ls) y -> at_or [] (lay 0 ls) data y = up) as Vu by (intros y By; destruct (list_eq_dec Z.eq_dec y x) as [->|]; auto).
  assert (forall y, In y (torus_neighbours ls x) -> at_or [] (lay 0 ls) data y = up) as Vn. { intros y Hy. apply Vu. assert (In x (all_nodes ls)) as I by (apply in_all_nodes; exact B). pose proof (torus_closed ls x T I y Hy). now apply in_all_nodes. }
  assert (torus_neighbours ls x <> []) as Nn.
  { unfold torus_neighbours. intros E. apply map_eq_nil in E. assert (In (repeat 1 (length ls)) (displacements (length ls))) as I; [|rewrite E in I; destruct I]. apply in_displacements. split; [apply repeat_length|].
    split; [apply Forall_forall; intros i Hi; apply repeat_spec in Hi; lia|]. unfold zlen in D. destruct (length ls); [lia|]. cbn. constructor. lia. }
  exists (one_and_rest ls down up). pose proof (one_sized ls up up F) as L. fold data in L.
  destruct (one_values ls down up F) as [W0 W].
  assert (antiferro2 ls (one_and_rest ls down up) - antiferro2 ls data = c2 * sumQ (map (fun _ => - c2) (torus_neighbours ls x)))%Qc as En.
  { rewrite (antiferro_after ls data (one_and_rest ls down up) x down T B W0). 2:{ intros y By Ny. now rewrite W, V. }
    f_equal. apply sumQ_ext. intros y Hy. rewrite Vn, V0 by auto. apply Qc_is_canon. reflexivity. }
  assert (forall l : list (list Z), l <> [] -> (sumQ (map (fun _ => - c2) l) < 0)%Qc) as Neg.
  { clear. induction l as [|a l IH]; intros N; [easy|]. cbn [map sumQ]. destruct l as [|b l]; [reflexivity|]. specialize (IH ltac:(discriminate)). set (q := sumQ _) in *. clearbody q. clear - IH.
    apply Qclt_le_trans with (- c2 + 0)%Qc; [apply (proj1 (Qclt_minus_iff _ _)) in IH; apply Qclt_minus_iff; replace (- c2 + 0 + - (- c2 + q))%Qc with (0 + - q)%Qc by ring; auto|discriminate]. }
  specialize (Neg _ Nn). split.
  - unfold turn_attempt. replace (nodes (lay 0 ls) =? 0) with false by (symmetry; apply Z.eqb_neq; lia). cbn [guard negb bind]. rewrite Rp. rewrite (read_node [] ls F data 0 L ltac:(lia)). fold x. cbn [bind].
    change (up_or_down (draws 1) (draws 2)) with down. rewrite (turn_sum_torus ls F data x down T D L (unit_one ls up up unit_up unit_up) B (proj1 unit_down)). cbn [bind]. rewrite V0.
    rewrite (sumQ_ext _ (fun y => (- (1)) * (- c2))%Qc). 2:{ intros y Hy. rewrite Vn by auto. apply Qc_is_canon. reflexivity. }
    rewrite sumQ_mul. set (q := sumQ _) in *. assert (qgt (- (- dot3 up down + - (1) * q)) 0 = false) as ->.
    { unfold qgt. destruct (Qclt_le_dec _ _) as [H|]; [|reflexivity]. exfalso. replace (dot3 up down) with (- (1))%Qc in H by (apply Qc_is_canon; reflexivity). replace (- (- - (1) + - (1) * q))%Qc with (q - 1)%Qc in H by ring.
      assert (q < 1)%Qc as Q1 by (eapply Qclt_trans; [exact Neg|reflexivity]). apply (Qclt_not_le _ _ H). apply Qclt_le_weak. apply Qclt_minus_iff. replace (0 + - (q - 1))%Qc with (1 + - q)%Qc by ring. apply (proj1 (Qclt_minus_iff _ _)). auto. }
    cbn [negb orb]. unfold data. rewrite one_write. cbn [bind]. rewrite (gss_ok ls F). reflexivity.
  - unfold ferro2. apply Qclt_minus_iff. replace (- antiferro2 ls (one_and_rest ls down up) + - - antiferro2 ls data)%Qc with (- (antiferro2 ls (one_and_rest ls down up) - antiferro2 ls data))%Qc by ring. rewrite En.
    set (q := sumQ _) in *. clearbody q. replace (- (c2 * q))%Qc with (c2 * (0 + - q))%Qc by ring. apply (proj1 (Qclt_minus_iff _ _)) in Neg. rewrite <- (Qcmult_0_r c2). rewrite !(Qcmult_comm c2). apply Qcmult_lt_compat_r; [reflexivity|auto].
Qed.
Print Assumptions C88_ferromagnet_refuted.
