(* C91, continued: the directions of the Heisenberg program and the right-hand side of the Poisson program.  Serial build, exact
   arithmetic; cos, sin, acos and exp are functions of rational numbers. *)
From Coq Require Import QArith.QArith QArith.Qcanon.
From Verif Require Import Model.Base Model.Boundary Model.Layout Model.Access Model.Stencil Model.Spin Model.Heisenberg Model.Generate Model.Starts
  Spec.Box Spec.Stencil Spec.Spin Spec.Heisenberg Spec.Generate Proof.BaseL Proof.LayoutL Proof.AccessL Proof.StencilL Proof.StencilM Proof.SpinL Proof.SpinF Proof.SiteL Proof.GenerateL.
From Verif Require Proof.SheetL.
From Verif Require Props.Generate Props.Heisenberg.
Local Open Scope list_scope.
Local Open Scope Z_scope.

Definition whole_q (n : Z) : Qc := Q2Qc (inject_Z n).
(* the point of the sphere with longitude psi and angle theta from the pole *)
Definition sphere_point (cosine sine : Qc -> Qc) (psi theta : Qc) : list Qc := [cosine psi * sine theta; sine psi * sine theta; cosine theta]%Qc.

Lemma sphere_unit cosine sine psi theta : (forall t, cosine t * cosine t + sine t * sine t = 1)%Qc -> unit3 (sphere_point cosine sine psi theta).
Proof.
  intros H. split; [reflexivity|]. unfold dot3, sphere_point. cbn [nth]. pose proof (H psi) as A. pose proof (H theta) as B.
  transitivity ((cosine psi * cosine psi + sine psi * sine psi) * (sine theta * sine theta) + cosine theta * cosine theta)%Qc; [ring|]. rewrite A. transitivity (cosine theta * cosine theta + sine theta * sine theta)%Qc; [ring|exact B].
Qed.
Lemma direction_sphere cosine sine arccos pi top a b :
  direction_of cosine sine arccos pi top a b = sphere_point cosine sine (whole_q 2 * pi * whole_q a / whole_q top) (arccos (1 - whole_q 2 * whole_q b / whole_q top))%Qc.
Proof. reflexivity. Qed.

(* node j points to longitude 2 pi r / RAND_MAX, r the random number 2j, and the angle from the pole whose cosine is 1 - 2 r' / RAND_MAX, r'
   the next one; all vectors have length 1, and the update keeps it *)
Theorem C91_directions : forall ls cosine sine arccos pi top rnd, Forall serial_axis ls -> (forall t, cosine t * cosine t + sine t * sine t = 1)%Qc ->
  starts ls any (heisenberg_start false (lay 0 ls) rnd (direction_of cosine sine arccos pi top)) (fun d => Forall unit3 d /\
    forall j, 0 <= j < zlen (all_nodes ls) -> let r := rnd (2 * Z.to_nat j)%nat in let r' := rnd (2 * Z.to_nat j + 1)%nat in
      spin_at ls d (node ls j) = sphere_point cosine sine (whole_q 2 * pi * whole_q r / whole_q top) (arccos (1 - whole_q 2 * whole_q r' / whole_q top)))%Qc.
Proof.
  intros ls cosine sine arccos pi top rnd F H u L _. set (dir := direction_of cosine sine arccos pi top).
  destruct (for_cells_all [] ls F (fun n _ => Some (dir (rnd (2 * Z.to_nat n)%nat) (rnd (S (2 * Z.to_nat n))))) (fun n _ => dir (rnd (2 * Z.to_nat n)%nat) (rnd (S (2 * Z.to_nat n)))) u L) as (d & E & Ld & V); [reflexivity|].
  exists d. split; [exact E|]. split; [auto|]. split.
  - apply (Forall_nodes [] ls F); auto. intros n Hn. rewrite V by auto. unfold dir. rewrite direction_sphere. apply sphere_unit, H.
  - intros j Hj r r'. assert (zlen (all_nodes ls) = nodes (lay 0 ls)) as En by (rewrite (all_nodes_position ls F), BaseL.zlen_map, zlen_zrange; pose proof (nodes_pos ls F); lia).
    rewrite node_position by (auto; lia). rewrite <- direction_sphere. replace r' with (rnd (S (2 * Z.to_nat j))) by (unfold r'; f_equal; lia). apply V. lia.
Qed.
Print Assumptions C91_directions.
Theorem C91_heisenberg_run : forall ls cosine sine arccos pi top hot rnd rnd' steps k, Forall serial_axis ls -> (forall n, 0 <= rnd' n) -> (forall t, cosine t * cosine t + sine t * sine t = 1)%Qc ->
  let dir := direction_of cosine sine arccos pi top in
  starts ls any (fun u => do d <- heisenberg_start false (lay 0 ls) rnd dir u; do st <- turn_update (lay 0 ls) dir hot rnd' steps (d, k); Some (fst st)) (Forall unit3).
Proof.
  intros ls cosine sine arccos pi top hot rnd rnd' steps k F R H dir u L A. destruct (C91_directions ls cosine sine arccos pi top rnd F H u L A) as (d & E & Ld & U & _). fold dir in E. rewrite E. cbn [bind].
  destruct (Props.Heisenberg.C88_unit ls dir hot rnd' steps d k F R (fun a b => sphere_unit cosine sine (whole_q 2 * pi * whole_q a / whole_q top)%Qc (arccos (1 - whole_q 2 * whole_q b / whole_q top)%Qc) H) Ld U) as (d' & k' & E' & L' & U'). rewrite E'. cbn [bind fst]. exists d'. auto.
Qed.
Print Assumptions C91_heisenberg_run.

(* The Poisson program starts from exp(x/L), exp(xy/L^2), exp(xyz/L^3) *)
Lemma whole_mul a b : whole_q (a * b) = (whole_q a * whole_q b)%Qc.
Proof. unfold whole_q. apply Qc_is_canon. cbn [this Q2Qc]. unfold Qcmult. cbn [this Q2Qc]. now rewrite !Qred_correct, inject_Z_mult. Qed.
Lemma whole_nonzero n : n <> 0 -> whole_q n <> 0%Qc.
Proof. intros N E. apply N. apply (f_equal this) in E. cbn [this whole_q Q2Qc] in E. assert (inject_Z n == 0)%Q as K by (rewrite <- (Qred_correct (inject_Z n)), E; reflexivity). unfold Qeq in K. cbn in K. lia. Qed.
Theorem C91_poisson : forall ls exponential n, Forall serial_axis ls -> ls <> [] -> n <> 0 ->
  starts ls any (poisson_start (poisson_value exponential n) false (lay 0 ls)) (fun d => forall x, Props.Generate.boxed ls x ->
    exists p, grid_read false (lay 0 ls) d x = Some (exponential p) /\ (p * whole_q n ^ length x = whole_q (fold_right Z.mul 1%Z x))%Qc).
Proof.
  intros ls exponential n F Ne N u L _. destruct (for_cells_box 0%Qc ls F (fun n0 _ => Some (poisson_value exponential n (position (lay 0 ls) n0))) (fun x _ => poisson_value exponential n x) u L) as (d & E & Ld & V); [reflexivity|].
  exists d. split; [exact E|]. split; [auto|]. intros x Bx. rewrite (read_val 0%Qc ls F d x Ld Bx), V by exact Bx. unfold poisson_value. eexists. split; [reflexivity|].
  destruct x as [|c x]; [cbn; apply Qc_is_canon; reflexivity|]. pose proof (whole_nonzero n N) as Nn.
  assert (forall x p q m, (p * whole_q n ^ m = whole_q q)%Qc -> (fold_left (fun p c => p * (whole_q c / whole_q n))%Qc x p * whole_q n ^ (length x + m) = whole_q (q * fold_right Z.mul 1 x)%Z)%Qc) as X.
  { clear - Nn. induction x as [|c x IH]; intros p q m H; cbn [fold_left length fold_right Nat.add]; [now rewrite Z.mul_1_r|].
    replace (S (length x + m)) with (length x + S m)%nat by lia. rewrite (IH _ (q * c) (S m)); [f_equal; ring|]. cbn [Qcpower]. rewrite whole_mul, <- H. field. exact Nn. }
  specialize (X x (whole_q c / whole_q n)%Qc c 1%nat). rewrite Nat.add_1_r in X. cbn [length fold_right]. apply X. cbn [Qcpower]. field. exact Nn.
Qed.
Print Assumptions C91_poisson.

(* a circle with rational points, and two nodes of a line of six *)
Definition circle_cos (t : Qc) : Qc := ((1 - t * t) / (1 + t * t))%Qc.
Definition circle_sin (t : Qc) : Qc := ((t + t) / (1 + t * t))%Qc.
Example C91_direction_case : (forall t, circle_cos t * circle_cos t + circle_sin t * circle_sin t = 1)%Qc /\
  exists d, heisenberg_start false (lay 0 (Props.Generate.torus [6])) (fun n => Z.of_nat n) (direction_of circle_cos circle_sin (fun t => t) 1%Qc 3) (repeat [] 6) = Some d /\
    map (map this) (firstn 2 d) = [[3 # 5; 0; 4 # 5]; [7 # 25; -24 # 25; 0]]%Q.
Proof.
  split.
  - intros t. unfold circle_cos, circle_sin. assert (1 + t * t <> 0)%Qc as N.
    { intros E. assert (0 <= t * t)%Qc as P by apply SheetL.sq_nonneg.
      assert (0 < 1 + t * t)%Qc as K by (apply Qclt_le_trans with 1%Qc; [reflexivity|]; rewrite <- (Qcplus_0_r 1) at 1; apply Qcplus_le_compat; [apply Qcle_refl|exact P]). rewrite E in K. now apply Qclt_not_eq in K. }
    field. exact N.
  - eexists. split; vm_compute; reflexivity.
Qed.
