(* C67-C73: the explicit phase-field programs and grain growth with particles (exact arithmetic). *)
From Coq Require Import QArith.QArith QArith.Qcanon.
From Verif Require Import Model.Base Model.Num Model.Boundary Model.Layout Model.Access Model.Sparse Model.Stencil Model.Spin Model.Evolve Model.Dynamics Model.Zener
  Spec.Box Spec.Access Spec.Stencil Spec.Spin Spec.Dynamics Spec.Zener
  Proof.BaseL Proof.LayoutL Proof.AccessL Proof.StencilL Proof.StencilS Proof.StencilQ Proof.StencilM Proof.DynamicsL Proof.DynamicsF Proof.DynamicsB Proof.MultiphaseL
  Proof.SolidifyL Proof.SolidifyU Proof.ZenerL.
From Verif Require Proof.EvolveL Proof.SpinL Proof.SpinF.
Local Open Scope list_scope.
Local Open Scope Z_scope.

(* a box that starts at the origin, periodic along every axis, and one with insulated sides *)
Definition ring (sides : list Z) : list limits := map (fun n => mkLim 0 n 0 n periodic periodic) sides.
Definition dish (sides : list Z) : list limits := map (fun n => mkLim 0 n 0 n Neumann Neumann) sides.
Definition q (a : Z) (b : positive) : Qc := Q2Qc (a # b).
Lemma ring_serial sides : Forall (fun n => 0 < n) sides -> Forall serial_axis (ring sides).
Proof. intros F. unfold ring. apply Forall_map. eapply Forall_impl; [|exact F]. intros n H. unfold serial_axis. cbn. unfold serial_side. repeat split; try lia; tauto. Qed.
Lemma ring_closed sides : Forall (fun n => 0 < n) sides -> Forall (fun l => periodic_axis l \/ insulated_axis l) (ring sides).
Proof. intros F. unfold ring. apply Forall_map. eapply Forall_impl; [|exact F]. intros n H. left. unfold periodic_axis. cbn. repeat split; auto. Qed.
Lemma repeat_inv {S} (I : S -> Prop) step n s : (forall s, I s -> exists s', step s = Some s' /\ I s') -> I s -> exists s', repeat_step n step s = Some s' /\ I s'.
Proof. intros H. revert s; induction n as [|n IH]; intros s Is; [exists s; auto|]. cbn [repeat_step]. destruct (H s Is) as (s' & -> & Is'). cbn [bind]. auto. Qed.
Lemma steps_inv {S} (I : S -> Prop) step n t s : (forall t s, I s -> exists s', step t s = Some s' /\ I s') -> I s -> exists s', steps_from t n step s = Some s' /\ I s'.
Proof. intros H. revert t s; induction n as [|n IH]; intros t s Is; [exists s; auto|]. cbn [steps_from]. destruct (H t s Is) as (s' & -> & Is'). cbn [bind]. auto. Qed.

(* ---- C67: composition is conserved ---- *)
(* model B and spinodal decomposition, whatever the random numbers: noise t i is the one of node i in step t *)
Theorem C67_model_B : forall ls dx r u K k noise n old new temp, Forall serial_axis ls -> length dx = length ls -> Forall (fun h => h <> 0%Qc) dx ->
  Forall (fun l => periodic_axis l \/ insulated_axis l) ls -> zlen old = cells (lay 0 ls) -> zlen new = cells (lay 0 ls) -> zlen temp = cells (lay 0 ls) ->
  exists old' new' temp', steps_from 0 n (fun t => model_B_step false (lay 0 ls) dx r u K k (noise t)) (old, new, temp) = Some (old', new', temp') /\
    zlen old' = cells (lay 0 ls) /\ sumQ old' = sumQ old.
Proof.
  intros ls dx r u K k noise n old new temp F Ld Fd P L Ln Lt.
  destruct (steps_inv (fun st : list Qc * list Qc * list Qc => let '(o, w, t) := st in zlen o = cells (lay 0 ls) /\ zlen w = cells (lay 0 ls) /\ zlen t = cells (lay 0 ls) /\ sumQ o = sumQ old)
    (fun t => model_B_step false (lay 0 ls) dx r u K k (noise t)) n 0 (old, new, temp)) as ([[o w] t] & E & Lo & _ & _ & S).
  - intros t [[o w] v] (Lo & Lw & Lv & S). rewrite model_B_eq by auto. eexists. split; [reflexivity|]. split; [apply tab_C; auto|]. split; [auto|]. split; [apply tab_C; auto|]. now rewrite next_B_sum.
  - auto.
  - eauto 10.
Qed.
Print Assumptions C67_model_B.
(* Ostwald ripening: field 0 is the composition *)
Theorem C67_ostwald : forall ls dx P n fields old new w, Forall serial_axis ls -> length dx = length ls -> Forall (fun h => h <> 0%Qc) dx ->
  Forall (fun l => periodic_axis l \/ insulated_axis l) ls -> 1 <= fields -> vector_field ls fields old -> vector_field ls fields new -> zlen w = cells (lay 0 ls) ->
  exists old' new' w', repeat_step n (ostwald_step false (lay 0 ls) dx P fields) (old, new, w) = Some (old', new', w') /\
    vector_field ls fields old' /\ total 0 old' = total 0 old.
Proof.
  intros ls dx P n fields old new w F Ld Fd Pe Hn G Gn Lw.
  destruct (repeat_inv (fun st : list (list Qc) * list (list Qc) * list Qc => let '(o, m, t) := st in vgrid ls fields o /\ vgrid ls fields m /\ zlen t = cells (lay 0 ls) /\ total 0 o = total 0 old)
    (ostwald_step false (lay 0 ls) dx P fields) n (old, new, w)) as ([[o m] t] & E & Go & _ & _ & S).
  - intros [[o m] t] (Go & Gm & Lt & S). rewrite ostwald_eq by auto. eexists. split; [reflexivity|]. split; [apply vtab_grid; auto; lia|]. split; [auto|]. split; [apply tab_C; auto|]. rewrite next_O_total; auto. apply Go.
  - auto.
  - eauto 10.
Qed.
Print Assumptions C67_ostwald.
Example C67_case : let ls := ring [4] in
  exists o w t, steps_from 0 3 (fun t => model_B_step false (lay 0 ls) [1%Qc] 1 1 1 (q 1 100) (fun i => Qc_of (t * 3 - i))) (map Qc_of [1; 0; 0; 2], map Qc_of [0; 0; 0; 0], map Qc_of [0; 0; 0; 0]) = Some (o, w, t) /\
    o <> map Qc_of [1; 0; 0; 2] /\ sumQ o = Qc_of 3.
Proof. do 3 eexists. split; [vm_compute; reflexivity|]. split; [intros H; vm_compute in H; discriminate|]. apply qc_this_eq. vm_compute. reflexivity. Qed.
(* between mirror sides the total changes: the weight of a side node is half that of an inner one *)
Example C67_mirror_case : let ls := [mkLim 0 3 0 3 mirror mirror] in
  exists o w t, model_B_step false (lay 0 ls) [1%Qc] 1 1 1 (q 1 100) (fun _ => 0%Qc) (map Qc_of [1; 0; 0], map Qc_of [0; 0; 0], map Qc_of [0; 0; 0]) = Some (o, w, t) /\ sumQ o <> Qc_of 1.
Proof. do 3 eexists. split; [vm_compute; reflexivity|]. intros H. apply (f_equal this) in H. vm_compute in H. discriminate. Qed.

(* ---- C68: bounds ---- *)
(* Allen-Cahn dynamics with the double well whose minima are -a and a (r = u a^2) *)
Theorem C68_allen_cahn : forall ls dx a u K M dt n old new, Forall serial_axis ls -> length dx = length ls -> Forall (fun h => h <> 0%Qc) dx ->
  (0 <= dt * M)%Qc -> (0 <= u)%Qc -> (0 <= K)%Qc -> (dt * M * (Q2Qc (2 # 1) * (u * a * a) + K * stiffness dx) <= 1)%Qc ->
  zlen old = cells (lay 0 ls) -> zlen new = cells (lay 0 ls) -> Forall (fun v => - a <= v <= a)%Qc old ->
  exists old' new', repeat_step n (allen_cahn_step false (lay 0 ls) dx (u * a * a) u K M dt) (old, new) = Some (old', new') /\
    zlen old' = cells (lay 0 ls) /\ Forall (fun v => - a <= v <= a)%Qc old'.
Proof.
  intros ls dx a u K M dt n old new F Ld Fd H1 H2 H3 H4 L Ln R.
  destruct (repeat_inv (fun st : list Qc * list Qc => let '(o, w) := st in zlen o = cells (lay 0 ls) /\ zlen w = cells (lay 0 ls) /\ Forall (fun v => - a <= v <= a)%Qc o)
    (allen_cahn_step false (lay 0 ls) dx (u * a * a) u K M dt) n (old, new)) as ([o w] & E & Lo & _ & S).
  - intros [o w] (Lo & Lw & S). rewrite allen_cahn_eq by auto. eexists. split; [reflexivity|]. split; [apply next_A_len; auto|]. split; [auto|]. now apply next_A_range.
  - auto.
  - eauto 10.
Qed.
Print Assumptions C68_allen_cahn.
(* phase fields of the isotropic grain-growth programs, with and without particles *)
Theorem C68_grains : forall ls dx dt pinned fields n old new, Forall serial_axis ls -> length dx = length ls -> Forall (fun h => h <> 0%Qc) dx ->
  1 <= fields -> (0 <= dt)%Qc -> (dt * (Q2Qc (2 # 1) * Qc_of fields + Q2Qc (2 # 1) * stiffness dx) <= 1)%Qc ->
  vector_field ls fields old -> vector_field ls fields new -> Forall (Forall (fun v => 0 <= v <= 1)%Qc) old ->
  exists old' new', repeat_step n (dense_step false (lay 0 ls) dx dt pinned fields) (old, new) = Some (old', new') /\
    vector_field ls fields old' /\ Forall (Forall (fun v => 0 <= v <= 1)%Qc) old'.
Proof.
  intros ls dx dt pinned fields n old new F Ld Fd Hn H1 H2 G Gn R.
  destruct (repeat_inv (fun st : list (list Qc) * list (list Qc) => let '(o, w) := st in vgrid ls fields o /\ vgrid ls fields w /\ Forall (Forall (fun v => 0 <= v <= 1)%Qc) o)
    (dense_step false (lay 0 ls) dx dt pinned fields) n (old, new)) as ([o w] & E & Lo & _ & S).
  - intros [o w] (Lo & Lw & S). rewrite dense_eq by (auto; lia). eexists. split; [reflexivity|]. split; [apply vtab_grid; auto; lia|]. split; [auto|]. apply next_G_range; auto.
  - auto.
  - eauto 10.
Qed.
Print Assumptions C68_grains.
(* the constants of the examples meet the conditions: allen-cahn.cpp:58-62 in three dimensions, graingrowth.cpp:84 with two fields and
   zener.cpp:115 with three *)
Example C68_case : let dx := [1; 1; 1]%Qc in let dt := q 1 100 in
  (0 <= dt * 1)%Qc /\ (1 = 1 * 1 * 1)%Qc /\ (dt * 1 * (Q2Qc (2 # 1) * (1 * 1 * 1) + 1 * stiffness dx) <= 1)%Qc /\
  (dt * (Q2Qc (2 # 1) * Qc_of 2 + Q2Qc (2 # 1) * stiffness dx) <= 1)%Qc /\ (dt * (Q2Qc (2 # 1) * Qc_of 3 + Q2Qc (2 # 1) * stiffness dx) <= 1)%Qc.
Proof. cbv zeta. repeat split; try (vm_compute; discriminate). Qed.
(* a larger time step leaves the interval *)
Example C68_large_step_case : let ls := ring [3] in
  exists o w, allen_cahn_step false (lay 0 ls) [1%Qc] 1 1 1 1 1 (map Qc_of [1; -1; -1], map Qc_of [0; 0; 0]) = Some (o, w) /\ ~ Forall (fun v => - (1) <= v <= 1)%Qc o.
Proof. do 2 eexists. split; [vm_compute; reflexivity|]. intros H. inversion H as [|? ? [A B] ?]; subst. vm_compute in A. now apply A. Qed.

(* ---- C69: phase fractions ---- *)
Theorem C69_simplex : forall ls dx dt width energy eps mobility pinned fields n old new, Forall serial_axis ls -> length dx = length ls -> Forall (fun h => h <> 0%Qc) dx -> 0 <= fields ->
  vector_field ls fields old -> vector_field ls fields new -> Forall (on_simplex fields) old ->
  exists old' new', repeat_step n (multiphase_step false (lay 0 ls) dx dt width energy eps mobility pinned fields) (old, new) = Some (old', new') /\
    vector_field ls fields old' /\ Forall (on_simplex fields) old'.
Proof.
  intros ls dx dt width energy eps mobility pinned fields n old new F Ld Fd Hn G Gn R.
  destruct (repeat_inv (fun st : list (list Qc) * list (list Qc) => let '(o, w) := st in vgrid ls fields o /\ vgrid ls fields w /\ Forall (on_simplex fields) o)
    (multiphase_step false (lay 0 ls) dx dt width energy eps mobility pinned fields) n (old, new)) as ([o w] & E & Lo & _ & S).
  - intros [o w] (Lo & Lw & S). destruct (multiphase_eq ls dx F Ld Fd dt width energy eps mobility pinned fields Hn o w Lo Lw) as (E & G' & S'). rewrite E. eexists. split; [reflexivity|]. split; [auto|split; auto].
  - auto.
  - eauto 10.
Qed.
Print Assumptions C69_simplex.
Definition one2 (_ _ : Z) : Qc := 1%Qc.
Definition eps0 (_ _ : Z) : Qc := q 2546 1000.
Definition three_fields : list (list Qc) := [[1; 0; 0]; [0; 1; 0]; [q 1 2; 0; q 1 2]]%Qc.
Definition zeros3 : list (list Qc) := repeat [0; 0; 0]%Qc 3.
Example C69_case : let ls := ring [3] in Forall serial_axis ls /\ vector_field ls 3 three_fields /\ vector_field ls 3 zeros3 /\ Forall (on_simplex 3) three_fields /\
  exists o w, multiphase_step false (lay 0 ls) [1%Qc] (q 1 100) (Qc_of 8) one2 eps0 one2 false 3 (three_fields, zeros3) = Some (o, w) /\ o <> three_fields.
Proof.
  cbv zeta. split; [apply ring_serial; repeat constructor|]. split; [split; [reflexivity|repeat constructor]|]. split; [split; [reflexivity|repeat constructor]|]. split.
  - repeat (constructor; [split; [reflexivity|split; [repeat constructor; vm_compute; discriminate|apply qc_this_eq; vm_compute; reflexivity]]|]). constructor.
  - do 2 eexists. split; [vm_compute; reflexivity|]. intros H. vm_compute in H. discriminate.
Qed.

(* ---- C70: particles do not move ---- *)
(* the isotropic dense phase-field program: field 0 of every node is the same after any number of steps *)
Theorem C70_dense : forall ls dx dt fields n old new, Forall serial_axis ls -> length dx = length ls -> Forall (fun h => h <> 0%Qc) dx -> 1 <= fields ->
  vector_field ls fields old -> vector_field ls fields new ->
  exists old' new', repeat_step n (dense_step false (lay 0 ls) dx dt true fields) (old, new) = Some (old', new') /\ map (component 0) old' = map (component 0) old.
Proof.
  intros ls dx dt fields n old new F Ld Fd Hn G Gn.
  destruct (repeat_inv (fun st : list (list Qc) * list (list Qc) => let '(o, w) := st in vgrid ls fields o /\ vgrid ls fields w /\ map (component 0) o = map (component 0) old)
    (dense_step false (lay 0 ls) dx dt true fields) n (old, new)) as ([o w] & E & Lo & _ & S).
  - intros [o w] (Lo & Lw & S). rewrite dense_eq by (auto; lia). eexists. split; [reflexivity|]. assert (vgrid ls fields (next_G ls dx fields dt true o)) as G' by (apply vtab_grid; auto; lia).
    split; [auto|]. split; [auto|]. rewrite <- S.
    change (field 0 (next_G ls dx fields dt true o) = field 0 o). set (g := next_G ls dx fields dt true o) in *. rewrite (list_get (field 0 g) (fun i => nth (Z.to_nat i) (field 0 g) 0%Qc) (nodes (lay 0 ls))).
    + symmetry. apply list_get; [rewrite field_len, <- cells_nodes_0; apply Lo|]. intros i Hi. rewrite (BaseL.get_nth _ i 0%Qc) by (rewrite field_len, (proj1 Lo), cells_nodes_0; auto).
      f_equal. rewrite !field_nth. symmetry. apply next_G_pinned; auto; try lia. apply Lo.
    + rewrite field_len, <- cells_nodes_0. apply G'.
    + intros i Hi. apply BaseL.get_nth. rewrite field_len, (proj1 G'), cells_nodes_0. auto.
  - auto.
  - eauto.
Qed.
Print Assumptions C70_dense.
(* the Monte Carlo programs, isotropic and anisotropic, whatever the random numbers and energies: the particles, the nodes with spin 0,
   are the same nodes after any number of steps, and no new spins appear *)
Theorem C70_monte_carlo : forall ls energy accept rnd steps data k, Forall serial_axis ls -> 1 <= zlen ls <= 3 -> (forall n, 0 <= rnd n) -> zlen data = cells (lay 0 ls) ->
  exists data' k', zener_update (lay 0 ls) energy accept rnd steps (data, k) = Some (data', k') /\ zlen data' = cells (lay 0 ls) /\
    (forall x, in_box (map l_x0 ls) (map l_x1 ls) x -> (value_at ls data' x = 0 <-> value_at ls data x = 0)) /\ (forall s, In s data' -> In s data).
Proof. intros ls energy accept rnd steps data k F D R L. exact (particles_stay ls F D energy accept rnd R steps data k L). Qed.
Print Assumptions C70_monte_carlo.
Example C70_case : let ls := ring [3; 3] in let data := [0; 1; 1; 2; 1; 2; 2; 1; 0] in Forall serial_axis ls /\ zlen data = cells (lay 0 ls) /\
  exists st, zener_update (lay 0 ls) unlike_q (accept_iso (fun _ _ => true)) (fun k => Z.of_nat (k * 7 + 1)) 2 (data, 0%nat) = Some st /\ fst st <> data.
Proof. cbv zeta. split; [apply ring_serial; repeat constructor|]. split; [reflexivity|]. eexists. split; [vm_compute; reflexivity|]. vm_compute. discriminate. Qed.
(* false of the anisotropic dense program: there the rates of the pairs with field 0 are zero, but a node where another field is cut off
   at 0 is scaled back to sum 1, which changes field 0 *)
Theorem C70_anisotropic_refuted : exists ls dx old new old' new' i, Forall serial_axis ls /\ vector_field ls 3 old /\ Forall (on_simplex 3) old /\
  multiphase_step false (lay 0 ls) dx (q 1 100) (Qc_of 8) one2 eps0 one2 true 3 (old, new) = Some (old', new') /\
  component 0 (nth i old []) = 1%Qc /\ (component 0 (nth i old' []) < 1)%Qc.
Proof.
  exists (ring [3]), [1%Qc], three_fields, zeros3. destruct C69_case as (S & V & _ & O & _).
  do 2 eexists. exists 0%nat. split; [auto|]. split; [auto|]. split; [auto|]. split; [vm_compute; reflexivity|]. split; reflexivity.
Qed.
Print Assumptions C70_anisotropic_refuted.
(* false of the isotropic sparse program: its test for a particle looks at the number of the node, so that at every other node field 0
   evolves like any other field, and the whole of node 0 stays as it is *)
Theorem C70_sparse_refuted :
  (forall mpi axs dx former latter node, node <> 0 -> zener_grow mpi axs dx former latter node = grow mpi axs dx former latter node) /\
  exists ls former latter former' latter', Forall serial_axis ls /\
    zener_grow_step false (lay 0 ls) [1%Qc] (former, latter) = Some (former', latter') /\
    sread num_Qc (nth 1 former []) 0 = Some 1%Qc /\ exists v, sread num_Qc (nth 1 former' []) 0 = Some v /\ (v < 1)%Qc.
Proof.
  split.
  - intros mpi axs dx former latter node N. unfold zener_grow, grow. destruct (Z.eqb_spec node 0) as [E|_]; [easy|]. reflexivity.
  - exists (ring [4]), [[Some (1, 1%Qc)]; [Some (0, 1%Qc)]; [Some (1, 1%Qc)]; [Some (1, 1%Qc)]], [[]; []; []; []].
    do 2 eexists. split; [apply ring_serial; repeat constructor|]. split; [vm_compute; reflexivity|]. split; [reflexivity|]. eexists. split; [vm_compute; reflexivity|]. reflexivity.
Qed.
Print Assumptions C70_sparse_refuted.

(* ---- C71: runs can be cut in two ---- *)
Definition scalars (ls : list limits) (data : list Qc) : Prop := zlen data = cells (lay 0 ls).
Section Restart.
Context (ls : list limits) (dx : list Qc) (F : Forall serial_axis ls) (Ld : length dx = length ls) (Fd : Forall (fun h => h <> 0%Qc) dx).
Definition two (st : list Qc * list Qc) : Prop := scalars ls (fst st) /\ scalars ls (snd st).
Definition three (st : list Qc * list Qc * list Qc) : Prop := two (fst st) /\ scalars ls (snd st).
Definition vtwo (n : Z) (st : list (list Qc) * list (list Qc)) : Prop := vector_field ls n (fst st) /\ vector_field ls n (snd st).
Definition vthree (n : Z) (st : list (list Qc) * list (list Qc) * list Qc) : Prop := vtwo n (fst st) /\ scalars ls (snd st).

Theorem C71_diffusion : forall k, restartable two fst (diffusion_step false (lay 0 ls) dx k).
Proof.
  intros k. apply (restart_pure _ _ _ (next_D ls dx k)). intros [o w] [L Lw]. cbn [fst snd] in *. rewrite diffusion_eq by auto. eexists. split; [reflexivity|]. split; [|reflexivity]. split; [apply tab_C; auto|auto].
Qed.
Theorem C71_allen_cahn : forall r u K M dt, restartable two fst (allen_cahn_step false (lay 0 ls) dx r u K M dt).
Proof.
  intros r u K M dt. apply (restart_pure _ _ _ (next_A ls dx r u K M dt (fun _ => 0%Qc))). intros [o w] [L Lw]. cbn [fst snd] in *. rewrite allen_cahn_eq by auto. eexists. split; [reflexivity|]. split; [|reflexivity]. split; [apply tab_C; auto|auto].
Qed.
Theorem C71_cahn_hilliard : forall r u K M dt, restartable three (fun st => fst (fst st)) (cahn_hilliard_step false (lay 0 ls) dx r u K M dt).
Proof.
  intros r u K M dt. apply (restart_pure _ _ _ (next_B ls dx r u K (dt * M)%Qc (fun _ => 0%Qc))). intros [[o w] t] [[L Lw] Lt]. cbn [fst snd] in *. rewrite cahn_hilliard_eq by auto. eexists. split; [reflexivity|]. split; [|reflexivity].
  split; [split; [apply tab_C; auto|auto]|apply tab_C; auto].
Qed.
(* with noise, the number of the step belongs to the state *)
Theorem C71_model_A : forall r u K M dt noise, restartable (fun st => two (snd st)) (fun st => (fst st, fst (snd st)))
  (fun '(t, st) => do st' <- model_A_step false (lay 0 ls) dx r u K M dt (noise t) st; Some (t + 1, st')).
Proof.
  intros r u K M dt noise. apply (restart_pure _ _ _ (fun '(t, o) => (t + 1, next_A ls dx r u K M dt (noise t) o))). intros [t [o w]] [L Lw]. cbn [fst snd] in *. rewrite model_A_eq by auto. cbn [bind]. eexists. split; [reflexivity|]. split; [|reflexivity].
  split; [apply tab_C; auto|auto].
Qed.
Theorem C71_model_B : forall r u K k noise, restartable (fun st => three (snd st)) (fun st => (fst st, fst (fst (snd st))))
  (fun '(t, st) => do st' <- model_B_step false (lay 0 ls) dx r u K k (noise t) st; Some (t + 1, st')).
Proof.
  intros r u K k noise. apply (restart_pure _ _ _ (fun '(t, o) => (t + 1, next_B ls dx r u K k (noise t) o))). intros [t [[o w] v]] [[L Lw] Lv]. cbn [fst snd] in *. rewrite model_B_eq by auto. cbn [bind]. eexists. split; [reflexivity|]. split; [|reflexivity].
  split; [split; [apply tab_C; auto|auto]|apply tab_C; auto].
Qed.
Theorem C71_ostwald : forall P n, 1 <= n -> restartable (vthree n) (fun st => fst (fst st)) (ostwald_step false (lay 0 ls) dx P n).
Proof.
  intros P n Hn. apply (restart_pure _ _ _ (next_O ls dx n P)). intros [[o w] t] [[G Gw] Lt]. cbn [fst snd] in *. rewrite ostwald_eq by auto. eexists. split; [reflexivity|]. split; [|reflexivity].
  split; [split; [apply vtab_grid; auto; lia|auto]|apply tab_C; auto].
Qed.
Theorem C71_grains : forall dt pinned n, 0 <= n -> restartable (vtwo n) fst (dense_step false (lay 0 ls) dx dt pinned n).
Proof.
  intros dt pinned n Hn. apply (restart_pure _ _ _ (next_G ls dx n dt pinned)). intros [o w] [G Gw]. cbn [fst snd] in *. rewrite dense_eq by auto. eexists. split; [reflexivity|]. split; [|reflexivity]. split; [apply vtab_grid; auto; lia|auto].
Qed.
Theorem C71_multiphase : forall dt width energy eps mobility pinned n, 0 <= n -> restartable (vtwo n) fst (multiphase_step false (lay 0 ls) dx dt width energy eps mobility pinned n).
Proof.
  intros dt width energy eps mobility pinned n Hn. apply (restart_pure _ _ _ (next_M ls dx dt width energy eps mobility pinned n)). intros [o w] [G Gw]. cbn [fst snd] in *.
  destruct (multiphase_eq ls dx F Ld Fd dt width energy eps mobility pinned n Hn o w G Gw) as (E & G' & _). rewrite E. eexists. split; [reflexivity|]. split; [|reflexivity]. split; auto.
Qed.
End Restart.
Print Assumptions C71_diffusion. Print Assumptions C71_allen_cahn. Print Assumptions C71_cahn_hilliard. Print Assumptions C71_model_A. Print Assumptions C71_model_B.
Print Assumptions C71_ostwald. Print Assumptions C71_grains. Print Assumptions C71_multiphase.
(* false of the solidification program: two calls of update with one step each differ from one call with two steps, on every grid with a
   uniform field at half solid unless the driving force happens to be 0 *)
Definition uniform {T} (ls : list limits) (c : T) : list T := repeat c (Z.to_nat (cells (lay 0 ls))).
Theorem C71_solidification_refuted : forall ls dx flux melt tau dt DiffT u new0 new1 ref, Forall serial_axis ls -> length dx = length ls -> Forall (fun h => h <> 0%Qc) dx -> zlen ls = 2 ->
  vector_field ls 2 new0 -> vector_field ls 2 new1 -> zlen ref = cells (lay 0 ls) -> dt <> 0%Qc -> (0 < tau / dt)%Qc -> melt u <> 0%Qc ->
  let update := solidify_update false (lay 0 ls) dx flux melt tau dt DiffT in
  exists a ra b rb c rc, update 2%nat new0 (uniform ls [half; u], ref) = Some (a, ra) /\ update 1%nat new0 (uniform ls [half; u], ref) = Some (b, rb) /\ update 1%nat new1 (b, rb) = Some (c, rc) /\
    map (component 1) a <> map (component 1) c.
Proof.
  intros ls dx flux melt tau dt DiffT u new0 new1 ref F Ld Fd Two G0 G1 Lr Ndt Ht Nm update. change (uniform ls [half; u]) with (flat ls [half; u]). unfold update, solidify_update.
  assert (0 <= half <= 1)%Qc as Hh by (split; vm_compute; discriminate).
  destruct (new_phase_range melt tau dt half u Ht Hh) as (p1 & E1 & R1). destruct (new_phase_range melt tau dt p1 (u + (half - half))%Qc Ht R1) as (p2 & E2 & _).
  rewrite (start_flat ls dx F Ld half u ref Lr). cbn [bind repeat_step].
  rewrite (uniform_step ls dx F Ld Fd Two flux melt tau dt DiffT half u half p1 new0 G0 Ndt E1). cbn [bind].
  rewrite (uniform_step ls dx F Ld Fd Two flux melt tau dt DiffT p1 (u + (half - half))%Qc half p2 (flat ls [half; u]) (flat_vgrid ls dx F Ld [half; u] eq_refl) Ndt E2). cbn [bind].
  do 6 eexists. split; [reflexivity|]. split; [reflexivity|]. rewrite (start_flat ls dx F Ld p1 (u + (half - half))%Qc (flat ls half)) by (apply (flat_len ls dx F Ld)). cbn [bind].
  rewrite (uniform_step ls dx F Ld Fd Two flux melt tau dt DiffT p1 (u + (half - half))%Qc p1 p2 new1 G1 Ndt E2). cbn [bind]. split; [reflexivity|].
  change (field 1 (flat ls [p2; (u + (half - half) + (p1 - half))%Qc]) <> field 1 (flat ls [p2; (u + (half - half) + (p1 - p1))%Qc])). rewrite !field_flat. intros H.
  assert (0 < cells (lay 0 ls)) as Pc by (rewrite cells_nodes_0; now apply SpinF.nodes_pos).
  assert (hd 0%Qc (flat ls (comp 1 [p2; (u + (half - half) + (p1 - half))%Qc])) = hd 0%Qc (flat ls (comp 1 [p2; (u + (half - half) + (p1 - p1))%Qc]))) as H0 by now rewrite H.
  unfold flat in H0. destruct (Z.to_nat (cells (lay 0 ls))) as [|m] eqn:Em; [lia|]. cbn [repeat hd] in H0. unfold comp in H0. change (Z.to_nat 1) with 1%nat in H0. cbn [nth] in H0.
  apply (new_phase_moves melt tau dt u p1 Ht Nm E1). transitivity (u + (half - half) + (p1 - half) - u + half)%Qc; [ring|]. rewrite H0. ring.
Qed.
Print Assumptions C71_solidification_refuted.
Example C71_case : let ls := ring [2; 3] in Forall serial_axis ls /\ length [1; 1]%Qc = length ls /\ two ls (uniform ls 0%Qc, uniform ls 0%Qc) /\ vector_field ls 2 (uniform ls [0; 0]%Qc) /\ zlen ls = 2 /\
  (exists st, repeat_step 2 (diffusion_step false (lay 0 ls) [1; 1]%Qc (q 1 8)) (map Qc_of [1; 0; 0; 0; 0; 0], uniform ls 0%Qc) = Some st).
Proof.
  cbv zeta. split; [apply ring_serial; repeat constructor|]. split; [reflexivity|]. split; [split; reflexivity|]. split; [split; [reflexivity|repeat constructor]|]. split; [reflexivity|]. eexists. vm_compute. reflexivity.
Qed.

(* ---- C72: heat balance of the solidification program ---- *)
(* field 0: solid fraction, field 1: temperature.  At the end of a call with m + 1 steps the heat gained is the latent heat of the first m
   of them: with the phase field prev after m steps, the total temperature has risen by the rise of the total solid fraction up to prev *)
Theorem C72_balance : forall ls dx flux melt tau dt DiffT m old ref new0 old' ref', Forall serial_axis ls -> length dx = length ls -> Forall (fun h => h <> 0%Qc) dx ->
  Forall (fun l => periodic_axis l \/ insulated_axis l) ls -> vector_field ls 2 old -> vector_field ls 2 new0 -> zlen ref = cells (lay 0 ls) ->
  let update := solidify_update false (lay 0 ls) dx flux melt tau dt DiffT in
  update (S m) new0 (old, ref) = Some (old', ref') ->
  exists prev refm, update m new0 (old, ref) = Some (prev, refm) /\ (total 1 old' - total 1 old = total 0 prev - total 0 old)%Qc.
Proof.
  intros ls dx flux melt tau dt DiffT m old ref new0 old' ref' F Ld Fd P G G0 Lr update E. unfold update, solidify_update in E |- *.
  rewrite (start_field ls dx F Ld) in E |- * by auto. cbn [bind] in E |- *.
  set (step := solidify_step false (lay 0 ls) dx flux melt tau dt DiffT) in *.
  assert (repeat_step (S m) step (old, new0, field 0 old) = bind (repeat_step m step (old, new0, field 0 old)) step) as Sn.
  { rewrite <- (times_repeat (S m)), <- (times_repeat m). replace (S m) with (m + 1)%nat by lia. rewrite times_add. destruct (times m step _) as [s|]; [|reflexivity]. cbn [bind times]. now destruct (step s). }
  rewrite Sn in E. clear Sn. destruct (repeat_step m step (old, new0, field 0 old)) as [[[om nm] rm]|] eqn:Em; [|discriminate]. cbn [bind] in E |- *.
  destruct (step (om, nm, rm)) as [[[oe ne] re]|] eqn:Es; [|discriminate]. cbn [bind] in E. injection E as <- <-. exists om, rm. split; [reflexivity|].
  assert (forall n s, repeat_step n step (old, new0, field 0 old) = Some s -> let '(o, w, r) := s in vgrid ls 2 o /\ vgrid ls 2 w /\ zlen r = cells (lay 0 ls) /\ (total 1 o - sumQ r = total 1 old - total 0 old)%Qc) as H.
  { induction n as [|n IH]; intros s E.
    - injection E as <-. split; [auto|]. split; [auto|]. split; [rewrite field_len; apply G|]. reflexivity.
    - rewrite <- times_repeat in E. replace (S n) with (n + 1)%nat in E by lia. rewrite times_add in E. destruct (times n step _) as [[[o w] r]|] eqn:En; [|discriminate]. rewrite times_repeat in En. apply IH in En as (Go & Gw & Lo & B).
      cbn [bind times] in E. destruct (step (o, w, r)) as [[[o1 w1] r1]|] eqn:E1; [|discriminate]. injection E as <-.
      destruct (step_balance ls dx F Ld Fd flux melt tau dt DiffT o w r o1 w1 r1 Go Gw Lo P E1) as (H1 & H2 & -> & H4). split; [auto|]. split; [auto|]. split; [rewrite field_len; apply Go|congruence]. }
  destruct (H m _ Em) as (Go & Gw & Lo & B). destruct (step_balance ls dx F Ld Fd flux melt tau dt DiffT om nm rm oe ne re Go Gw Lo P Es) as (_ & _ & -> & H4).
  change (sumQ (field 0 om)) with (total 0 om) in H4. rewrite B in H4. transitivity ((total 1 oe - total 0 om) + total 0 om - total 1 old)%Qc; [ring|]. rewrite H4. ring.
Qed.
Print Assumptions C72_balance.
(* so enthalpy, total temperature minus total solid fraction, is not conserved: in a call of one step the solid fraction changes and the
   temperature does not, on every closed grid with a uniform field at half solid *)
Theorem C72_enthalpy_refuted : forall ls dx flux melt tau dt DiffT u new0 ref, Forall serial_axis ls -> length dx = length ls -> Forall (fun h => h <> 0%Qc) dx -> zlen ls = 2 ->
  vector_field ls 2 new0 -> zlen ref = cells (lay 0 ls) -> dt <> 0%Qc -> (0 < tau / dt)%Qc -> melt u <> 0%Qc ->
  exists p ref', solidify_update false (lay 0 ls) dx flux melt tau dt DiffT 1 new0 (uniform ls [half; u], ref) = Some (uniform ls [p; u], ref') /\ (0 <= p <= 1)%Qc /\ p <> half.
Proof.
  intros ls dx flux melt tau dt DiffT u new0 ref F Ld Fd Two G0 Lr Ndt Ht Nm. change (uniform ls [half; u]) with (flat ls [half; u]). unfold solidify_update.
  assert (0 <= half <= 1)%Qc as Hh by (split; vm_compute; discriminate). destruct (new_phase_range melt tau dt half u Ht Hh) as (p1 & E1 & R1).
  rewrite (start_flat ls dx F Ld half u ref Lr). cbn [bind repeat_step].
  rewrite (uniform_step ls dx F Ld Fd Two flux melt tau dt DiffT half u half p1 new0 G0 Ndt E1). cbn [bind]. exists p1. eexists. split; [|split; [auto|apply (new_phase_moves melt tau dt u p1 Ht Nm E1)]].
  change (uniform ls [p1; u]) with (flat ls [p1; u]). replace (u + (half - half))%Qc with u by ring. reflexivity.
Qed.
Print Assumptions C72_enthalpy_refuted.
Example C72_case : let ls := ring [2; 2] in let old := [[1; 0]; [q 1 2; 0]; [0; 0]; [0; q 1 4]]%Qc in
  vector_field ls 2 old /\ (0 < q 3 10000 / q 5 100000)%Qc /\
  exists st, solidify_update false (lay 0 ls) [q 1 40; q 1 40] (fun a b => (a, b)) (fun v => v) (q 3 10000) (q 5 100000) (q 9 4) 2 (uniform ls [0; 0]%Qc) (old, uniform ls 0%Qc) = Some st.
Proof. cbv zeta. split; [split; [reflexivity|repeat constructor]|]. split; [reflexivity|]. eexists. vm_compute. reflexivity. Qed.

(* ---- C73: grain boundaries of the Monte Carlo programs with particles ---- *)
(* one attempt at a node x drawn at random: a particle stays; otherwise one of the spins of x and its neighbours is drawn, and if it is neither
   the spin of x nor that of the particles, the spin of x is changed exactly if the test accepts half the change of the boundary energy,
   which counts every pair twice *)
Theorem C73_metropolis : forall ls energy accept rnd data k, big_torus ls -> 1 <= zlen ls <= 3 -> (forall n, 0 <= rnd n) -> boundary_like energy -> zlen data = cells (lay 0 ls) ->
  let attempt := zener_attempt (lay 0 ls) energy accept rnd in
  let x := position (lay 0 ls) (Z.rem (rnd k) (nodes (lay 0 ls))) in let s1 := value_at ls data x in
  in_box (map l_x0 ls) (map l_x1 ls) x /\
  (s1 = 0 -> attempt (data, k) = Some (data, S k)) /\
  (s1 <> 0 -> exists choices, NoDup choices /\ (forall s, In s choices <-> s = s1 \/ exists y, In y (torus_neighbours ls x) /\ s = value_at ls data y) /\
     let s2 := nth (Z.to_nat (Z.rem (rnd (S k)) (zlen choices))) choices 0 in
     (s2 = s1 \/ s2 = 0 -> attempt (data, k) = Some (data, S (S k))) /\
     (s2 <> s1 -> s2 <> 0 -> exists data' dE, zlen data' = cells (lay 0 ls) /\ value_at ls data' x = s2 /\
        (forall y, in_box (map l_x0 ls) (map l_x1 ls) y -> y <> x -> value_at ls data' y = value_at ls data y) /\
        (boundary_energy2 ls energy (value_at ls data') - boundary_energy2 ls energy (value_at ls data) = Q2Qc (2 # 1) * dE)%Qc /\
        attempt (data, k) = Some (if accept (rnd (S (S k))) s1 s2 dE then data' else data, S (S (S k))))).
Proof.
  intros ls energy accept rnd data k T D R Be L. pose proof (SpinL.torus_serial ls T) as F. split; [apply SpinF.site_ok; auto; apply SpinF.p_ok; auto|].
  exact (attempt_rule ls F D energy accept rnd R data k T Be L).
Qed.
Print Assumptions C73_metropolis.
(* without thermal fluctuations the boundary energy never rises, isotropic or not *)
Theorem C73_isotropic : forall ls rnd steps data k, big_torus ls -> 1 <= zlen ls <= 3 -> (forall n, 0 <= rnd n) -> zlen data = cells (lay 0 ls) ->
  exists data' k', zener_update (lay 0 ls) unlike_q (accept_iso (fun _ _ => false)) rnd steps (data, k) = Some (data', k') /\
    (boundary_energy2 ls unlike_q (value_at ls data') <= boundary_energy2 ls unlike_q (value_at ls data))%Qc.
Proof.
  intros ls rnd steps data k T D R L. apply (boundaries_shrink ls (SpinL.torus_serial ls T) D unlike_q _ rnd R); auto.
  - split; [intros s; unfold unlike_q; now rewrite Z.eqb_refl|intros s t; unfold unlike_q; now rewrite Z.eqb_sym].
  - intros r s1 s2 dE H. unfold accept_iso in H. rewrite orb_false_r in H. apply negb_true_iff in H. now apply EvolveL.qgt_false.
Qed.
Print Assumptions C73_isotropic.
Theorem C73_anisotropic : forall ls energy mobility cold rnd steps data k, big_torus ls -> 1 <= zlen ls <= 3 -> (forall n, 0 <= rnd n) -> boundary_like energy -> zlen data = cells (lay 0 ls) ->
  exists data' k', zener_update (lay 0 ls) energy (accept_aniso energy mobility cold (fun _ _ _ _ => false)) rnd steps (data, k) = Some (data', k') /\
    (boundary_energy2 ls energy (value_at ls data') <= boundary_energy2 ls energy (value_at ls data))%Qc.
Proof.
  intros ls energy mobility cold rnd steps data k T D R Be L. apply (boundaries_shrink ls (SpinL.torus_serial ls T) D energy _ rnd R); auto.
  intros r s1 s2 dE H. unfold accept_aniso in H. destruct (qgt dE 0) eqn:Q; [discriminate|]. now apply EvolveL.qgt_false.
Qed.
Print Assumptions C73_anisotropic.
Example C73_case : let ls := ring [3; 3] in let data := [0; 1; 1; 2; 1; 2; 2; 1; 0] in big_torus ls /\ boundary_like unlike_q /\ zlen data = cells (lay 0 ls) /\
  exists st, zener_update (lay 0 ls) unlike_q (accept_iso (fun _ _ => false)) (fun k => Z.of_nat (k * 7 + 1)) 2 (data, 0%nat) = Some st /\
    (boundary_energy2 ls unlike_q (value_at ls (fst st)) < boundary_energy2 ls unlike_q (value_at ls data))%Qc.
Proof.
  cbv zeta. split; [repeat constructor; cbn; lia|]. split; [split; [intros s; unfold unlike_q; now rewrite Z.eqb_refl|intros s t; unfold unlike_q; now rewrite Z.eqb_sym]|]. split; [reflexivity|].
  eexists. split; [vm_compute; reflexivity|]. vm_compute. reflexivity.
Qed.
