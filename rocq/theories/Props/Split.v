(* C80, C81, C82: the semi-implicit Cahn-Hilliard solver: independence of the thread schedule, accepted steps, uniqueness and stability *)
From Coq Require Import QArith.QArith QArith.Qcanon Sorting.Permutation Lqa Lia.
From Verif Require Import Model.Base Model.Boundary Model.Layout Model.Access Model.File Model.Stencil Model.Split
  Spec.Box Spec.Stencil Spec.Split
  Proof.BaseL Proof.LayoutL Proof.StencilL Proof.StencilS Proof.StencilM Proof.SplitL Proof.SplitP Proof.SplitE Proof.SplitR Proof.SplitU.
Local Open Scope Z_scope.

(* C80: the grids after any number of steps, and whether the solver gives up, do not depend on the order in which the threads
   execute the iterations of the parallel loops; no access is out of bounds. *)
Theorem C80_schedule : forall ls h en D K dt omega tolerance residual_step max_iter root steps schedule schedule' old,
  Forall serial_axis ls -> Forall tiled ls -> h <> 0%Qc -> (0 <= dt * D)%Qc -> (0 <= K)%Qc -> (forall c, 0 <= nonlinear en c)%Qc ->
  two_fields ls old ->
  (forall step iter loop, all_nodes ls (schedule step iter loop)) -> (forall step iter loop, all_nodes ls (schedule' step iter loop)) ->
  let result s := update (lay 0 ls) en h D K dt omega tolerance residual_step max_iter root steps s old in
  result schedule = result schedule' /\
  (result schedule = Exit (-1) \/ exists new, result schedule = Done new /\ two_fields ls new).
Proof.
  intros ls h en D K dt omega tol rs mi root steps s s' old Hs Ht Hh Hdt HK Hen To V V' result. unfold result, update. rewrite lap_weight_eq by auto. unfold req. cbn [obind].
  destruct (run_order ls Hs h Hh en D K dt omega Hdt HK Hen Ht tol rs mi root s s' V V' (Z.to_nat steps) 0 old old To To) as (E & HF).
  change (@pair (list (list Qc)) (list (list Qc)) old old) with (@pair cells2 cells2 old old) in *. destruct HF as [F|(o & n & F & T1 & T2)].
  - rewrite <- E, F. cbn. auto.
  - rewrite <- E, F. cbn. split; [auto|right; exists o; auto].
Qed.
Print Assumptions C80_schedule.

Lemma even_axis lo n : 0 <= lo < n -> Z.even (n - lo) = true -> serial_axis (mkLim lo n lo n periodic periodic) /\ tiled (mkLim lo n lo n periodic periodic).
Proof. intros H E. split; [split; [cbn; lia|split; cbn; unfold serial_side; auto]|split; cbn; [lia|auto]]. Qed.
(* The grids built by the program are such grids, and both energies have a nonnegative coefficient. *)
Definition box_of (ns : list Z) : list limits := map (fun n => mkLim 0 n 0 n periodic periodic) ns.
Example C80_grids : Forall (fun ns => Forall serial_axis (box_of ns) /\ Forall tiled (box_of ns))
  [[1024]; [400; 200]; [400; 200; 50]; [64; 32; 8]].
Proof.
  assert (forall ns, Forall (fun n => 0 <= 0 < n /\ Z.even (n - 0) = true) ns -> Forall serial_axis (box_of ns) /\ Forall tiled (box_of ns)) as H.
  { intros ns. unfold box_of. rewrite !Forall_map, !Forall_forall. intros F. split; intros n Hn; destruct (F n Hn); now apply even_axis. }
  repeat (apply Forall_cons; [apply H; repeat constructor; lia|]). constructor.
Qed.
Definition q25 : Qc := Q2Qc (25 # 2).
Definition code_parametric : energetics := parametric (Q2Qc 2) q25 (Q2Qc (9 # 20)) (Q2Qc (1 # 20)) (Q2Qc (19 # 20)).
Example C80_coefficients : (forall c, 0 <= nonlinear vanilla c)%Qc /\ (forall c, 0 <= nonlinear code_parametric c)%Qc.
Proof.
  split; intros c; cbn; unfold square; [apply sq_nonneg|]. apply Qc_add_nonneg; [apply Qc_mul_nonneg; [discriminate|apply sq_nonneg]|discriminate].
Qed.

(* With an odd number of nodes around a periodic axis the two nodes beside the seam have the same colour: the result of a sweep depends
   on the order. *)
Lemma odd_axis lo n : lo < n -> serial_axis (mkLim lo n lo n periodic periodic).
Proof. intros H. split; [cbn; lia|split; cbn; unfold serial_side; auto]. Qed.
Definition line (lo hi : Z) : list limits := [mkLim lo hi lo hi periodic periodic].
Definition pairs (l : list (Q * Q)) : cells2 := map (fun p => [Q2Qc (fst p); Q2Qc (snd p)]) l.
Definition values (o : option cells2) : list (list Q) := match o with Some d => map (map this) d | None => [] end.
Theorem C80_odd_refuted : exists ls old w order order',
  Forall serial_axis ls /\ two_fields ls old /\ all_nodes ls order /\ all_nodes ls order' /\ lap_weight (lay 0 ls) 1%Qc = Some w /\
  map l_x0 ls = [0] /\ map l_x1 ls = [3] /\
  sweep (lay 0 ls) vanilla 1 1 1 1 1 w (fun _ => order) old old <> sweep (lay 0 ls) vanilla 1 1 1 1 1 w (fun _ => order') old old.
Proof.
  exists (line 0 3), (pairs [(1, 0); (0, 0); (2, 0)]%Q), (Q2Qc 2), [0; 1; 2], [2; 1; 0].
  assert (lap_weight (lay 0 (line 0 3)) 1%Qc = Some (Q2Qc 2)) as W.
  { rewrite lap_weight_eq by discriminate. reflexivity. }
  split; [constructor; [apply odd_axis; lia|constructor]|]. split; [split; [reflexivity|repeat constructor]|]. split; [apply Permutation_refl|]. split.
  { change (Permutation [2; 1; 0] [0; 1; 2]). apply Permutation_sym, (Permutation_rev [0; 1; 2]). }
  split; [exact W|]. split; [reflexivity|]. split; [reflexivity|].
  intros E. apply (f_equal values) in E. vm_compute in E. discriminate.
Qed.
Print Assumptions C80_odd_refuted.

(* With negative coordinates the remainder is -1 at odd nodes, which no colour skips: they are relaxed in both passes, together with
   their neighbours. *)
Theorem C80_negative_refuted : exists ls old w order order',
  Forall serial_axis ls /\ two_fields ls old /\ all_nodes ls order /\ all_nodes ls order' /\ lap_weight (lay 0 ls) 1%Qc = Some w /\
  map l_x0 ls = [-2] /\ map l_x1 ls = [2] /\
  sweep (lay 0 ls) vanilla 1 1 1 1 1 w (fun _ => order) old old <> sweep (lay 0 ls) vanilla 1 1 1 1 1 w (fun _ => order') old old.
Proof.
  exists (line (-2) 2), (pairs [(1, 0); (0, 0); (2, 0); (0, 0)]%Q), (Q2Qc 2), [0; 1; 2; 3], [3; 2; 1; 0].
  assert (lap_weight (lay 0 (line (-2) 2)) 1%Qc = Some (Q2Qc 2)) as W.
  { rewrite lap_weight_eq by discriminate. reflexivity. }
  split; [constructor; [apply odd_axis; lia|constructor]|]. split; [split; [reflexivity|repeat constructor]|]. split; [apply Permutation_refl|]. split.
  { change (Permutation [3; 2; 1; 0] [0; 1; 2; 3]). apply Permutation_sym, (Permutation_rev [0; 1; 2; 3]). }
  split; [exact W|]. split; [reflexivity|]. split; [reflexivity|].
  intros E. apply (f_equal values) in E. vm_compute in E. discriminate.
Qed.
Print Assumptions C80_negative_refuted.

(* C81: the states a sweep leaves as they are are exactly the solutions of the two equations. *)
Theorem C81_fixed_points : forall ls h en D K dt omega w order old new,
  Forall serial_axis ls -> Forall tiled ls -> h <> 0%Qc -> (0 <= dt * D)%Qc -> (0 <= K)%Qc -> (forall c, 0 <= nonlinear en c)%Qc -> omega <> 0%Qc ->
  (forall c, contractive en c = nonlinear en c * c)%Qc ->
  two_fields ls old -> two_fields ls new -> (forall colour, all_nodes ls (order colour)) ->
  lap_weight (lay 0 ls) h = Some w ->
  (sweep (lay 0 ls) en h D K dt omega w order old new = Some new <->
   solves ls h D K dt (contractive en) (expansive en) old new).
Proof.
  intros ls h en D K dt omega w order old new Hs Ht Hh Hdt HK Hen Ho Hc To Tn V W. rewrite lap_weight_eq in W by auto. injection W as <-.
  assert (forall x, eqs ls h en D K dt old new x <-> defect1 ls h D dt old new x = 0%Qc /\ defect2 ls h K (contractive en) (expansive en) old new x = 0%Qc) as HE
    by (intros x; unfold eqs, defect2; rewrite Hc; reflexivity).
  split.
  - intros E x Hx. apply HE. destruct (dom_node ls Hs x Hx) as (n & Hn & <-). apply (sweep_fixed_back ls Hs h Hh en D K dt omega Hdt HK Hen order old new Ho Ht V To Tn E n Hn).
  - intros HS. unfold sweep.
    assert (forall color, pass (lay 0 ls) en h D K dt omega (weight ls h) color (order color) old new = Some new) as P.
    { intros color. apply (pass_fixed ls Hs h Hh en D K dt omega Hdt HK Hen color (order color) old new Ho To Tn).
      - intros n Hn. apply in_zrange. now rewrite <- (V color).
      - intros n Hn. apply HE, HS, pos_dom; auto. }
    rewrite P. cbn [bind]. apply P.
Qed.
Print Assumptions C81_fixed_points.

(* Both energies have that form. *)
Example C81_forms : (forall c, contractive vanilla c = nonlinear vanilla c * c)%Qc /\ (forall c, contractive code_parametric c = nonlinear code_parametric c * c)%Qc.
Proof. split; intros c; cbn; unfold square, cube; ring. Qed.

(* A step that does not give up has found a state that satisfies the equations up to the tolerance: with N nodes,
   |A X - B| <= 2 N tolerance |B| by the program's square root. *)
Theorem C81_accepted : forall ls h en D K dt omega tolerance residual_step max_iter root w order old guess new old',
  Forall serial_axis ls -> Forall tiled ls -> h <> 0%Qc -> (0 <= dt * D)%Qc -> (0 <= K)%Qc -> (forall c, 0 <= nonlinear en c)%Qc ->
  (tolerance < 1)%Qc -> 0 <= max_iter ->
  two_fields ls old -> two_fields ls guess -> (forall iter loop, all_nodes ls (order iter loop)) ->
  lap_weight (lay 0 ls) h = Some w ->
  step (lay 0 ls) en h D K dt omega tolerance residual_step max_iter root w order (old, guess) = Done (new, old') ->
  let rest := total ls (fun x => defect1 ls h D dt old new x * defect1 ls h D dt old new x +
    defect2 ls h K (contractive en) (expansive en) old new x * defect2 ls h K (contractive en) (expansive en) old new x)%Qc in
  let norm := total ls (fun x => field ls old 0 x * field ls old 0 x + expansive en (field ls old 0 x) * expansive en (field ls old 0 x))%Qc in
  old' = old /\ two_fields ls new /\
  (rest = 0%Qc /\ norm = 0%Qc \/ norm <> 0%Qc /\ (root (rest / norm) <= c2 * Qc_of (nodes (lay 0 ls)) * tolerance)%Qc).
Proof.
  intros ls h en D K dt omega tol rs mi root w order old guess new old' Hs Ht Hh Hdt HK Hen Htol Hmi To Tg V W E.
  rewrite lap_weight_eq in W by auto. injection W as <-.
  exact (step_accepted ls Hs h Hh en D K dt omega Hdt HK Hen Ht tol rs mi root order old guess new old' V To Tg Htol Hmi E).
Qed.
Print Assumptions C81_accepted.

(* On periodic and insulated grids such a step changes the amount of solute by no more than sqrt(N (1 + eps)) 2 N tolerance |B|, eps being
   the error of the square root. *)
Theorem C81_solute : forall ls h en D K dt omega tolerance residual_step max_iter root eps w order old guess new old',
  Forall serial_axis ls -> Forall tiled ls -> Forall (fun l => periodic_axis l \/ insulated_axis l) ls ->
  h <> 0%Qc -> (0 <= dt * D)%Qc -> (0 <= K)%Qc -> (forall c, 0 <= nonlinear en c)%Qc ->
  (tolerance < 1)%Qc -> 0 <= max_iter -> (0 <= eps)%Qc ->
  (forall q, 0 <= q -> 0 <= root q /\ q <= (1 + eps) * (root q * root q))%Qc ->
  two_fields ls old -> two_fields ls guess -> (forall iter loop, all_nodes ls (order iter loop)) ->
  lap_weight (lay 0 ls) h = Some w ->
  step (lay 0 ls) en h D K dt omega tolerance residual_step max_iter root w order (old, guess) = Done (new, old') ->
  let norm := total ls (fun x => field ls old 0 x * field ls old 0 x + expansive en (field ls old 0 x) * expansive en (field ls old 0 x))%Qc in
  let change := (total ls (field ls new 0) - total ls (field ls old 0))%Qc in
  let bound := (c2 * Qc_of (nodes (lay 0 ls)) * tolerance)%Qc in
  (change * change <= Qc_of (nodes (lay 0 ls)) * ((1 + eps) * (bound * bound) * norm))%Qc.
Proof.
  intros ls h en D K dt omega tol rs mi root eps w order old guess new old' Hs Ht Hcl Hh Hdt HK Hen Htol Hmi Heps Hroot To Tg V W E norm change bound.
  rewrite lap_weight_eq in W by auto. injection W as <-.
  destruct (step_accepted ls Hs h Hh en D K dt omega Hdt HK Hen Ht tol rs mi root order old guess new old' V To Tg Htol Hmi E) as (-> & Tn & HR).
  pose proof (mass_missing ls Hs h Hh en D K dt Hen tol root Hcl old new) as M. cbv zeta in M. fold change in M. fold norm bound in HR. change (total ls (source ls en old)) with norm in HR.
  set (rest := total ls (missing ls h en D K dt old new)) in *.
  assert (0 <= rest)%Qc as R0 by (apply total_nonneg; auto; intros; apply Qc_add_nonneg; apply sq_nonneg).
  assert (0 <= norm)%Qc as N0 by (apply total_nonneg; auto; intros; apply Qc_add_nonneg; apply sq_nonneg).
  assert (0 <= Qc_of (nodes (lay 0 ls)))%Qc as HN.
  { apply Qclt_le_weak. eapply Qc_of_N_pos; eauto. }
  assert (rest <= (1 + eps) * (bound * bound) * norm)%Qc as B.
  { destruct HR as [(-> & ->)|(Nz & HR)]; [replace ((1 + eps) * (bound * bound) * 0)%Qc with 0%Qc by ring; apply Qcle_refl|].
    assert (0 < norm)%Qc as NP by (destruct (Qcle_lt_or_eq _ _ N0) as [|Z]; [assumption|now rewrite Z in Nz]).
    assert (rest = rest / norm * norm)%Qc as ER by (field; auto). set (q := (rest / norm)%Qc) in *.
    assert (0 <= q)%Qc as Q0.
    { apply Qcnot_lt_le. intros L. apply (Qclt_not_le _ _ (Qcmult_lt_compat_r _ _ _ NP L)). rewrite <- ER. replace (0 * norm)%Qc with 0%Qc by ring. exact R0. }
    destruct (Hroot q Q0) as (P0 & P1). rewrite ER. apply Qcmult_le_compat_r; auto. apply Qcle_trans with (1 := P1).
    assert (0 <= 1 + eps)%Qc as Pe by (apply Qc_add_nonneg; [discriminate|auto]).
    assert (root q * root q <= bound * bound)%Qc as Sq.
    { apply Qcle_trans with (root q * bound)%Qc; [rewrite (Qcmult_comm (root q) bound); apply Qcmult_le_compat_r; auto|]. apply Qcmult_le_compat_r; auto. apply Qcle_trans with (root q); auto. }
    rewrite (Qcmult_comm (1 + eps)), (Qcmult_comm (1 + eps)). apply Qcmult_le_compat_r; auto. }
  apply Qcle_trans with (1 := M). rewrite (Qcmult_comm _ rest), (Qcmult_comm (Qc_of _)). apply Qcmult_le_compat_r; auto.
Qed.
Print Assumptions C81_solute.

(* A step that is solved exactly keeps the amount of solute. *)
Theorem C81_solute_exact : forall ls h D K dt con exp old new,
  Forall serial_axis ls -> Forall (fun l => periodic_axis l \/ insulated_axis l) ls -> h <> 0%Qc ->
  solves ls h D K dt con exp old new -> total ls (field ls new 0) = total ls (field ls old 0).
Proof.
  intros ls h D K dt con exp old new Hs Hcl Hh HS. pose proof (mass_defect ls Hs h Hh D dt Hcl old new) as M.
  assert (total ls (defect1 ls h D dt old new) = total ls (fun _ => 0%Qc)) as Z by (apply total_ext; auto; intros x Hx; apply HS, Hx).
  symmetry. apply Qc_sub_zero. rewrite M, Z. unfold total. apply sumQ_zero.
Qed.
Print Assumptions C81_solute_exact.

(* Four nodes on a ring, from a state that is not uniform, with a (bad) square root: the update is accepted and changes the state. *)
Definition ring4 : list limits := line 0 4.
Definition start4 : cells2 := pairs [(1, 0); (0, 0); (1 # 2, 0); (0, 0)]%Q.
Definition forward (_ _ _ : Z) : list Z := [0; 1; 2; 3].
Definition backward (_ _ _ : Z) : list Z := [3; 1; 0; 2].
Definition result4 (schedule : Z -> Z -> Z -> list Z) : outcome cells2 :=
  update (lay 0 ring4) vanilla 1 1 1 (Q2Qc (1 # 4)) 1 (Q2Qc (1 # 2)) 10 3 (fun q => q + 1)%Qc 1 schedule start4.
Example C81_run : Forall serial_axis ring4 /\ Forall tiled ring4 /\ Forall (fun l => periodic_axis l \/ insulated_axis l) ring4 /\
  two_fields ring4 start4 /\ all_nodes ring4 (forward 0 0 0) /\ all_nodes ring4 (backward 0 0 0) /\
  (forall q, 0 <= q -> 0 <= q + 1 /\ q <= (1 + 0) * ((q + 1) * (q + 1)))%Qc /\
  exists new, result4 forward = Done new /\ result4 backward = Done new /\ new <> start4.
Proof.
  split; [constructor; [apply odd_axis; lia|constructor]|]. split; [constructor; [apply even_axis; [lia|reflexivity]|constructor]|]. split; [constructor; [left; repeat split|constructor]|].
  split; [split; [reflexivity|repeat constructor]|]. split; [apply Permutation_refl|]. split.
  { change (Permutation [3; 1; 0; 2] [0; 1; 2; 3]). apply NoDup_Permutation; [repeat constructor; cbn; lia|repeat constructor; cbn; lia|intros x; cbn; lia]. }
  split.
  { intros q Hq. unfold Qcle in *. rewrite !this_mul, !this_add. change (this 0) with 0%Q in *. change (this 1) with 1%Q. revert Hq. generalize (this q). intros t Ht. split; nra. }
  assert (match result4 forward with Done n => map (map this) n <> map (map this) start4 | _ => False end) as H by (vm_compute; discriminate).
  destruct (result4 forward) as [new| |] eqn:E; [|easy|easy]. exists new. split; [auto|]. split.
  - rewrite <- E. apply C80_schedule; unfold ring4; try (constructor; [apply even_axis; [lia|reflexivity]|constructor]).
    + discriminate.
    + discriminate.
    + discriminate.
    + apply C80_coefficients.
    + split; [reflexivity|repeat constructor].
    + intros. change (Permutation [3; 1; 0; 2] [0; 1; 2; 3]). apply NoDup_Permutation; [repeat constructor; cbn; lia|repeat constructor; cbn; lia|intros x; cbn; lia].
    + intros. apply Permutation_refl.
  - intros ->. now apply H.
Qed.

(* C82: the equations of a step have at most one solution, so what a converged step returns does not depend on the first guess, on omega or
   on the order of the sweeps. *)
Theorem C82_unique : forall ls h D K dt old new new' en,
  Forall serial_axis ls -> Forall (fun l => periodic_axis l \/ insulated_axis l) ls -> h <> 0%Qc -> (0 <= dt * D)%Qc -> (0 <= K)%Qc ->
  en = vanilla \/ (exists A B C0 Ca Cb, en = parametric A B C0 Ca Cb /\ 0 <= QA B Ca Cb /\ 0 < QC B C0 Ca Cb)%Qc ->
  two_fields ls new -> two_fields ls new' ->
  solves ls h D K dt (contractive en) (expansive en) old new -> solves ls h D K dt (contractive en) (expansive en) old new' -> new = new'.
Proof.
  intros ls h D K dt old new new' en Hs Hcl Hh Hdt HK Hen Tn Tn' S S'.
  refine (unique ls Hs Hcl h Hh D K dt Hdt HK (contractive en) (expansive en) old new new' _ _ Tn Tn' S S');
    destruct Hen as [->|(A & B & C0 & Ca & Cb & -> & HA & HC)].
  - apply vanilla_mono.
  - intros. apply para_mono; auto. now apply Qclt_le_weak.
  - apply vanilla_strict.
  - intros a b. now apply para_strict.
Qed.
Print Assumptions C82_unique.

(* The free energy never increases in a solved step, whatever the time step: it falls at least by the dissipation. *)
Theorem C82_energy : forall ls h D K dt old new,
  Forall serial_axis ls -> Forall (fun l => periodic_axis l \/ insulated_axis l) ls -> h <> 0%Qc -> (0 <= dt * D)%Qc -> (0 <= K)%Qc ->
  solves ls h D K dt (contractive vanilla) (expansive vanilla) old new ->
  let u := field ls new 1 in
  let dissipation := (dt * D * total ls (fun x => sumQ (map (fun i => step_to h u x i * step_to h u x i) (zrange 0 (zlen ls)))))%Qc in
  (0 <= dissipation)%Qc /\
  (energy ls h K vanilla_density (field ls new 0) + dissipation <= energy ls h K vanilla_density (field ls old 0))%Qc.
Proof.
  intros ls h D K dt old new Hs Hcl Hh Hdt HK S u dissipation. split.
  - apply Qc_mul_nonneg; auto. apply total_nonneg; auto. intros x _. apply sumQ_ge_0. intros i _. apply sq_nonneg.
  - exact (stable ls Hs Hcl h Hh D K dt HK (contractive vanilla) (expansive vanilla) vanilla_density old new (fun x _ => vanilla_convex _ _) S).
Qed.
Print Assumptions C82_energy.

(* Partial: with the program's parametric energy (A = 2, B = A / (Ca - C0)^2, C0 = 0.45, Ca = 0.05, Cb = 0.95) this is shown for concentrations
   no lower than -0.3; its expansive part is a quadratic that is not concave over all concentrations. *)
Theorem C82_energy_parametric_partial : forall ls h D K dt old new,
  Forall serial_axis ls -> Forall (fun l => periodic_axis l \/ insulated_axis l) ls -> h <> 0%Qc -> (0 <= dt * D)%Qc -> (0 <= K)%Qc ->
  (forall x, domain ls x -> - Q2Qc (3 # 10) <= field ls old 0 x /\ - Q2Qc (3 # 10) <= field ls new 0 x)%Qc ->
  solves ls h D K dt (contractive code_parametric) (expansive code_parametric) old new ->
  let u := field ls new 1 in
  let dissipation := (dt * D * total ls (fun x => sumQ (map (fun i => step_to h u x i * step_to h u x i) (zrange 0 (zlen ls)))))%Qc in
  let density := parametric_density (Q2Qc 2) q25 (Q2Qc (9 # 20)) (Q2Qc (1 # 20)) (Q2Qc (19 # 20)) in
  (0 <= dissipation)%Qc /\ (energy ls h K density (field ls new 0) + dissipation <= energy ls h K density (field ls old 0))%Qc.
Proof.
  intros ls h D K dt old new Hs Hcl Hh Hdt HK Hr S u dissipation density. split.
  - apply Qc_mul_nonneg; auto. apply total_nonneg; auto. intros x _. apply sumQ_ge_0. intros i _. apply sq_nonneg.
  - refine (stable ls Hs Hcl h Hh D K dt HK (contractive code_parametric) (expansive code_parametric) density old new _ S).
    intros x Hx. destruct (Hr x Hx) as (R1 & R2). apply para_convex; [discriminate|].
    revert R1 R2. generalize (field ls old 0 x) (field ls new 0 x). intros a b R1 R2.
    replace (half * (QC q25 (Q2Qc (9 # 20)) (Q2Qc (1 # 20)) (Q2Qc (19 # 20)) + Q2Qc 2))%Qc with (Q2Qc (9733 # 1600)) by (apply Qc_is_canon; reflexivity).
    replace (q25 * Q2Qc (9 # 20) + Q2Qc (1 # 20) * Q2Qc (1 # 20) + Q2Qc (19 # 20) * Q2Qc (19 # 20))%Qc with (Q2Qc (653 # 100)) by (apply Qc_is_canon; reflexivity).
    unfold Qcle in *. rewrite this_opp in R1, R2. rewrite this_add, this_mul, this_add, this_mul.
    change (this 0) with 0%Q. change (this c2) with (2 # 1)%Q. change (this (Q2Qc (3 # 10))) with (3 # 10)%Q in *.
    change (this (Q2Qc (9733 # 1600))) with (9733 # 1600)%Q. change (this (Q2Qc (653 # 100))) with (653 # 100)%Q. lra.
Qed.
Print Assumptions C82_energy_parametric_partial.

(* A step of each kind, solved exactly, on two nodes. *)
Definition ring2 : list limits := line 0 2.
Lemma ring2_domain x : domain ring2 x -> x = [0] \/ x = [1].
Proof. intros H. destruct x as [|a [|b x]]; cbn in H; try tauto. assert (a = 0 \/ a = 1) as [->| ->] by lia; auto. Qed.
Example C82_vanilla_step :
  let old := pairs [(13 # 5, 0); (-8 # 5, 0)]%Q in
  let new := pairs [(1, 2 # 5); (0, -2 # 5)]%Q in
  Forall serial_axis ring2 /\ Forall (fun l => periodic_axis l \/ insulated_axis l) ring2 /\ two_fields ring2 old /\ two_fields ring2 new /\
  solves ring2 1 1 1 1 (contractive vanilla) (expansive vanilla) old new /\
  (energy ring2 1 1 vanilla_density (field ring2 new 0) < energy ring2 1 1 vanilla_density (field ring2 old 0))%Qc.
Proof.
  split; [constructor; [apply odd_axis; lia|constructor]|]. split; [constructor; [left; repeat split|constructor]|].
  split; [split; [reflexivity|repeat constructor]|]. split; [split; [reflexivity|repeat constructor]|]. split; [|vm_compute; reflexivity].
  intros x Hx. destruct (ring2_domain x Hx) as [->| ->]; split; apply Qc_is_canon; vm_compute; reflexivity.
Qed.
Example C82_parametric_step :
  let old := pairs [(3 # 5, 0); (2 # 5, 0)]%Q in
  let new := pairs [(601 # 1000, -450108873 # 2000000000); (399 # 1000, -229010127 # 2000000000)]%Q in
  let dt := Q2Qc (500000 # 110549373) in
  two_fields ring2 old /\ two_fields ring2 new /\
  (forall x, domain ring2 x -> - Q2Qc (3 # 10) <= field ring2 old 0 x /\ - Q2Qc (3 # 10) <= field ring2 new 0 x)%Qc /\
  solves ring2 1 1 (Q2Qc (1 # 10)) dt (contractive code_parametric) (expansive code_parametric) old new /\
  (exists A B C0 Ca Cb, code_parametric = parametric A B C0 Ca Cb /\ 0 <= QA B Ca Cb /\ 0 < QC B C0 Ca Cb)%Qc.
Proof.
  split; [split; [reflexivity|repeat constructor]|]. split; [split; [reflexivity|repeat constructor]|]. split; [|split].
  - intros x Hx. destruct (ring2_domain x Hx) as [->| ->]; split; vm_compute; discriminate.
  - intros x Hx. destruct (ring2_domain x Hx) as [->| ->]; split; apply Qc_is_canon; vm_compute; reflexivity.
  - do 5 eexists. split; [reflexivity|]. split; [vm_compute; discriminate|vm_compute; reflexivity].
Qed.

(* Without the restriction the claim is false: a ring of six nodes on which a step with a large dt, solved exactly, raises the energy. *)
Definition ring6 : list limits := line 0 6.
Lemma ring6_domain x : domain ring6 x -> In x [[0]; [1]; [2]; [3]; [4]; [5]].
Proof. intros H. destruct x as [|a [|b x]]; cbn in H; try tauto. cbn. assert (a = 0 \/ a = 1 \/ a = 2 \/ a = 3 \/ a = 4 \/ a = 5) as H' by lia. repeat (destruct H' as [->|H']; [tauto|]). subst. tauto. Qed.
Theorem C82_energy_parametric_refuted : exists ls h D K dt old new,
  Forall serial_axis ls /\ Forall (fun l => periodic_axis l \/ insulated_axis l) ls /\ Forall tiled ls /\ two_fields ls old /\ two_fields ls new /\ h <> 0%Qc /\ (0 <= dt * D)%Qc /\ (0 <= K)%Qc /\
  solves ls h D K dt (contractive code_parametric) (expansive code_parametric) old new /\
  let density := parametric_density (Q2Qc 2) q25 (Q2Qc (9 # 20)) (Q2Qc (1 # 20)) (Q2Qc (19 # 20)) in
  (energy ls h K density (field ls old 0) < energy ls h K density (field ls new 0))%Qc.
Proof.
  exists ring6, 1%Qc, 1%Qc, (Q2Qc (1 # 10)), (Q2Qc (12000 # 391)),
    (pairs [(-11 # 10, 0); (-3 # 10, 0); (-3 # 10, 0); (-11 # 10, 0); (-3 # 10, 0); (-3 # 10, 0)]%Q),
    (pairs [(1 # 10, -426547 # 20000); (-9 # 10, -106539 # 5000); (-9 # 10, -106539 # 5000); (1 # 10, -426547 # 20000); (-9 # 10, -106539 # 5000); (-9 # 10, -106539 # 5000)]%Q).
  split; [constructor; [apply odd_axis; lia|constructor]|]. split; [constructor; [left; repeat split|constructor]|].
  split; [repeat constructor; cbn; try lia; auto|].
  split; [split; [reflexivity|repeat constructor]|]. split; [split; [reflexivity|repeat constructor]|].
  split; [discriminate|]. split; [vm_compute; discriminate|]. split; [vm_compute; discriminate|]. split; [|vm_compute; reflexivity].
  intros x Hx. apply ring6_domain in Hx. cbn in Hx. repeat (destruct Hx as [<-|Hx]; [split; apply Qc_is_canon; vm_compute; reflexivity|]). destruct Hx.
Qed.
Print Assumptions C82_energy_parametric_refuted.
