(* C93: the diffusion couples of the beginners' examples. *)
From Coq Require Import QArith.QArith QArith.Qcanon.
From Verif Require Import Model.Base Model.Boundary Model.Layout Model.Access Model.Stencil Model.Couple Spec.Stencil Spec.Couple
  Proof.BaseL Proof.StencilL Proof.StencilS Proof.CoupleL.
Local Open Scope list_scope.

(* 1stDiffusion prints the values of the bar with fixed ends after as many steps as it makes iterations, whatever the coefficient and
   the spacing, and whatever the memory held. *)
Theorem C93_first : forall nx dx D k m1 m2, 1 <= nx -> dx <> 0%Qc -> D <> 0%Qc -> zlen m1 = nx -> zlen m2 = nx ->
  first_program nx dx D k m1 m2 = Some (map (bar (nx - 1) k) (zrange 0 nx)).
Proof.
  intros nx dx D k m1 m2 H Hdx HD L1 L2. unfold first_program. rewrite dt_eq by auto. cbn [bind]. rewrite fill_start by auto. cbn [bind].
  destruct (first_run periodic nx H dx D k Hdx HD 0 (bar (nx - 1) 0) (bar (nx - 1) 0)) as (V & E); auto. rewrite E. cbn [bind fst]. rewrite Nat.add_0_r. now apply print_tab.
Qed.
Print Assumptions C93_first.

(* The values printed begin with 1, end with 0, never rise from one node to the next, ... *)
Theorem C93_profile : forall nx dx D k m1 m2, 2 <= nx -> dx <> 0%Qc -> D <> 0%Qc -> zlen m1 = nx -> zlen m2 = nx ->
  exists out, first_program nx dx D k m1 m2 = Some out /\ zlen out = nx /\ get out 0 = Some 1%Qc /\ get out (nx - 1) = Some 0%Qc /\
  Forall (fun v => 0 <= v /\ v <= 1)%Qc out /\
  forall x a b, 0 <= x < nx - 1 -> get out x = Some a -> get out (x + 1) = Some b -> (b <= a)%Qc.
Proof.
  intros nx dx D k m1 m2 H Hdx HD L1 L2. exists (tab nx (bar (nx - 1) k)). split; [apply C93_first; auto; lia|]. split; [apply tab_len; lia|].
  split; [rewrite get_tab by lia; now rewrite bar_left, bar_0_left by lia|]. split; [rewrite get_tab by lia; now rewrite bar_right, bar_0_right by lia|]. split.
  - unfold tab. apply Forall_map, Forall_forall. intros x Hx. apply in_zrange in Hx. apply bar_range. lia.
  - intros x a b Hx A B. rewrite get_tab in A, B by lia. injection A as <-. injection B as <-. apply bar_falls. lia.
Qed.
Print Assumptions C93_profile.

(* ... and approach the straight line between the ends: the distance shrinks at least by the factor 1 - 2/(nx-1)^2 with every iteration. *)
Theorem C93_converges : forall nx dx D k m1 m2, 2 <= nx -> dx <> 0%Qc -> D <> 0%Qc -> zlen m1 = nx -> zlen m2 = nx ->
  exists out, first_program nx dx D k m1 m2 = Some out /\
  forall x, 0 <= x < nx -> exists u, get out x = Some u /\
    let n := Qc_of (nx - 1) in let err := (power (1 - Q2Qc (2 # 1) / (n * n)) k * (Qc_of x * Qc_of (nx - 1 - x)))%Qc in
    (1 - Qc_of x / n - err <= u)%Qc /\ (u <= 1 - Qc_of x / n + err)%Qc.
Proof.
  intros nx dx D k m1 m2 H Hdx HD L1 L2. exists (tab nx (bar (nx - 1) k)). split; [apply C93_first; auto; lia|].
  intros x Hx. exists (bar (nx - 1) k x). split; [now rewrite get_tab by lia|]. exact (bar_error (nx - 1) k x ltac:(lia) ltac:(lia)).
Qed.
Print Assumptions C93_converges.

(* MMSPDiffusion, which uses the operators of the library, prints what 1stDiffusion prints after one iteration less: it sets the ends in
   the grid of the previous step and prints that grid. *)
Theorem C93_second : forall nx dx D k m1 m2 m3 m4, 1 <= nx -> dx <> 0%Qc -> D <> 0%Qc -> zlen m1 = nx -> zlen m2 = nx -> zlen m3 = nx -> zlen m4 = nx ->
  second_program nx D (S k) m1 m2 = first_program nx dx D k m3 m4.
Proof.
  intros nx dx D k m1 m2 m3 m4 H Hdx HD L1 L2 L3 L4. rewrite C93_first by auto. unfold second_program. rewrite dt_eq by auto. cbn [bind]. rewrite fill_start by auto. cbn [bind].
  destruct (second_run nx H D k HD 0 (bar (nx - 1) 0) (bar (nx - 1) 0)) as (U & E); auto. rewrite E. cbn [bind snd]. rewrite Nat.add_0_r. now apply print_tab.
Qed.
Print Assumptions C93_second.

(* So it does not print the state it computed last: from three nodes on, the two differ by an iteration. *)
Theorem C93_last_step_refuted : exists nx D m, zlen m = nx /\ second_program nx D 1 m m <> first_program nx 1 D 1 m m.
Proof. exists 3, 1%Qc, (map Qc_of [0; 0; 0]). split; [reflexivity|]. intros E. apply (f_equal (option_map (map this))) in E. vm_compute in E. discriminate E. Qed.
Print Assumptions C93_last_step_refuted.

(* On several ranks MMSPDiffusion is undefined, although it tests which ranks hold the ends of the bar: oldGrid[i] takes the number i of a node of the
   rank for a coordinate, and reads outside the rank's array as soon as the rank begins beyond node 1. *)
Theorem C93_ranks_refuted : forall g0 g1 x0 x1 b1 D dt old new, 1 < x0 -> x0 < x1 ->
  second_step true (lay 1 [mkLim g0 g1 x0 x1 parallel b1]) D dt (old, new) = None.
Proof.
  intros g0 g1 x0 x1 b1 D dt old new H0 H1. unfold second_step. assert (nodes (lay 1 [mkLim g0 g1 x0 x1 parallel b1]) = x1 - x0) as -> by (unfold nodes; cbn; unfold prodZ; cbn; lia).
  rewrite zrange_cons by lia. cbn [fold_opt]. destruct (laplacian_at true _ _ old 0); [|reflexivity]. cbn [bind].
  assert (peek true (lay 1 [mkLim g0 g1 x0 x1 parallel b1]) old 0 = None) as ->; [|reflexivity].
  unfold peek, grid_read_chain. cbn [lay addr_chain subscript nth_error bind a_x0 a_x1 a_b0 a_b1 a_s0 a_sx l_x0 l_x1 l_b0 l_b1 map]. unfold prodZ. cbn [fold_right]. unfold check_boundary. destruct (Z.ltb_spec 0 x0); [|lia].
  cbn. unfold get. destruct (Z.ltb_spec ((0 - (x0 - 1)) * 1) 0); [|lia]. destruct (Z.ltb_spec (0 + (0 - (x0 - 1)) * 1) 0); [reflexivity|lia].
Qed.
Print Assumptions C93_ranks_refuted.

Example C93_case :
  option_map (map this) (first_program 5 1 1 3 (map Qc_of [7; 7; 7; 7; 7]) (map Qc_of [8; 8; 8; 8; 8])) = Some [1; 43 # 64; 11 # 32; 7 # 64; 0]%Q /\
  option_map (map this) (second_program 5 1 4 (map Qc_of [7; 7; 7; 7; 7]) (map Qc_of [8; 8; 8; 8; 8])) = Some [1; 43 # 64; 11 # 32; 7 # 64; 0]%Q.
Proof. split; vm_compute; reflexivity. Qed.
