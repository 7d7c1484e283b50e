(* C91: the initial grids of the examples, and runs that begin with them.  Serial build, exact arithmetic. *)
From Coq Require Import QArith.QArith QArith.Qcanon.
From Verif Require Import Model.Base Model.Num Model.Boundary Model.Layout Model.Access Model.Sparse Model.Stencil Model.Spin Model.Evolve Model.Dynamics Model.Zener Model.AnisoSparse Model.Generate
  Spec.Box Spec.Access Spec.Stencil Spec.Evolve Spec.Spin Spec.Dynamics Spec.AnisoSparse Spec.Generate
  Proof.BaseL Proof.LayoutL Proof.AccessL Proof.StencilL Proof.StencilS Proof.StencilM Proof.SpinL Proof.SpinF Proof.SiteL Proof.AnisoSparseG Proof.GenerateL.
From Verif Require Props.Spin Props.Dynamics Props.AnisoSparse.
Local Open Scope list_scope.
Local Open Scope Z_scope.

Definition boxed (ls : list limits) (x : list Z) : Prop := in_box (map l_x0 ls) (map l_x1 ls) x.
Definition random (rnd : nat -> Z) : Prop := forall n, 0 <= rnd n.
(* coordinates begin at 0 or above *)
Definition positive_box (ls : list limits) : Prop := Forall (fun l => 0 <= l_x0 l) ls.
Definition torus (ns : list Z) : list limits := map (fun n => mkLim 0 n 0 n periodic periodic) ns.

(* C91, Monte Carlo: the spins are the random numbers, reduced to the range of the program *)
Lemma spins_start ls rnd (h : Z -> Z) : Forall serial_axis ls ->
  starts ls any (fun u => for_cells false (lay 0 ls) (fun n _ => Some (h (rnd (Z.to_nat n)))) u)
    (fun d => forall j, 0 <= j < zlen (all_nodes ls) -> value_at ls d (node ls j) = h (rnd (Z.to_nat j))).
Proof.
  intros F u L _. destruct (for_cells_all 0 ls F (fun n _ => Some (h (rnd (Z.to_nat n)))) (fun n _ => h (rnd (Z.to_nat n))) u L) as (d & E & Ld & V); [reflexivity|].
  exists d. split; [exact E|]. split; [auto|]. intros j Hj. assert (zlen (all_nodes ls) = nodes (lay 0 ls)) as En by (rewrite (all_nodes_position ls F), BaseL.zlen_map, zlen_zrange; pose proof (nodes_pos ls F); lia).
  rewrite node_position by (auto; lia). apply V. lia.
Qed.
Lemma spins_all ls d (P : Z -> Prop) : Forall serial_axis ls -> zlen d = cells (lay 0 ls) -> (forall j, 0 <= j < zlen (all_nodes ls) -> P (value_at ls d (node ls j))) -> Forall P d.
Proof.
  intros F L H. assert (zlen (all_nodes ls) = nodes (lay 0 ls)) as En by (rewrite (all_nodes_position ls F), BaseL.zlen_map, zlen_zrange; pose proof (nodes_pos ls F); lia).
  apply (Forall_nodes 0 ls F); auto. intros n Hn. rewrite <- node_position by auto. apply H. lia.
Qed.
Theorem C91_spins : forall ls rnd, Forall serial_axis ls -> random rnd ->
  starts ls any (ising_start false (lay 0 ls) rnd) (fun d => Forall (fun s => s = 1 \/ s = -1) d /\
    forall j, 0 <= j < zlen (all_nodes ls) -> value_at ls d (node ls j) = if Z.odd (rnd (Z.to_nat j)) then 1 else -1) /\
  starts ls any (potts_start false (lay 0 ls) rnd) (fun d => Forall (fun s => 0 <= s < 20) d /\
    forall j, 0 <= j < zlen (all_nodes ls) -> value_at ls d (node ls j) = rnd (Z.to_nat j) mod 20) /\
  (let q := match ls with [_] => 100 | _ => 20 end in starts ls any (growth_start false (lay 0 ls) rnd) (fun d => Forall (fun s => 0 <= s < q) d /\
    forall j, 0 <= j < zlen (all_nodes ls) -> value_at ls d (node ls j) = rnd (Z.to_nat j) mod q)).
Proof.
  intros ls rnd F R. split; [|split].
  - intros u L A. destruct (spins_start ls rnd (fun r => 2 * Z.rem r 2 - 1) F u L A) as (d & E & Ld & V). exists d. split; [exact E|]. split; [auto|].
    assert (forall j, 0 <= j < zlen (all_nodes ls) -> value_at ls d (node ls j) = if Z.odd (rnd (Z.to_nat j)) then 1 else -1) as V' by (intros j Hj; rewrite V, Z.rem_mod_nonneg, Zmod_odd by (auto; lia); destruct (Z.odd _); reflexivity).
    split; [|exact V']. apply (spins_all ls); auto. intros j Hj. rewrite V' by auto. destruct (Z.odd _); auto.
  - intros u L A. destruct (spins_start ls rnd (fun r => Z.rem r 20) F u L A) as (d & E & Ld & V). exists d. split; [exact E|]. split; [auto|].
    assert (forall j, 0 <= j < zlen (all_nodes ls) -> value_at ls d (node ls j) = rnd (Z.to_nat j) mod 20) as V' by (intros j Hj; rewrite V, Z.rem_mod_nonneg by (auto; lia); reflexivity).
    split; [|exact V']. apply (spins_all ls); auto. intros j Hj. rewrite V' by auto. apply Z.mod_pos_bound. lia.
  - intros q u L A. assert (q = if zlen (lay 0 ls) =? 1 then 100 else 20) as Eq. { subst q. rewrite zlen_lay. destruct ls as [|l1 [|l2 m]]; try reflexivity. rewrite !zlen_cons. destruct (Z.eqb_spec (1 + (1 + zlen m)) 1); [|reflexivity]. pose proof (zlen_nonneg m). lia. }
    assert (0 < q) as Q by (rewrite Eq; destruct (_ =? 1); lia).
    destruct (spins_start ls rnd (fun r => Z.rem r q) F u L A) as (d & E & Ld & V). exists d. split; [unfold growth_start; now rewrite <- Eq|]. split; [auto|].
    assert (forall j, 0 <= j < zlen (all_nodes ls) -> value_at ls d (node ls j) = rnd (Z.to_nat j) mod q) as V' by (intros j Hj; rewrite V, Z.rem_mod_nonneg by (auto; lia); reflexivity).
    split; [|exact V']. apply (spins_all ls); auto. intros j Hj. rewrite V' by auto. now apply Z.mod_pos_bound.
Qed.
Print Assumptions C91_spins.

(* C91, noise: values between -1 and 1, or two fractions that add up to 1 *)
Lemma unit_bounds rnd top n : random rnd -> (forall k, rnd k <= top) -> 0 < top -> (0 <= unit_random rnd top n <= 1)%Qc.
Proof.
  intros R T P. unfold unit_random. set (r := rnd (Z.to_nat n)). assert (0 <= r <= top) as [A B] by (split; [apply R|apply T]). clearbody r.
  assert (0 < inject_Z top)%Q as Pt by (change 0%Q with (inject_Z 0); now rewrite <- Zlt_Qlt).
  unfold Qcle, Qcdiv. rewrite this_mul, this_inv. change (this 0%Qc) with 0%Q. change (this 1%Qc) with 1%Q. cbn [this Q2Qc]. rewrite !Qred_correct.
  change (inject_Z r * / inject_Z top)%Q with (inject_Z r / inject_Z top)%Q. split.
  - apply Qle_shift_div_l; [exact Pt|]. rewrite Qmult_0_l. change 0%Q with (inject_Z 0). now rewrite <- Zle_Qle.
  - apply Qle_shift_div_r; [exact Pt|]. rewrite Qmult_1_l. now rewrite <- Zle_Qle.
Qed.
Theorem C91_noise : forall ls rnd top, Forall serial_axis ls -> random rnd -> (forall k, rnd k <= top) -> 0 < top ->
  starts ls any (noise_start false (lay 0 ls) rnd top) (Forall (fun v => - (1) <= v <= 1)%Qc) /\
  starts ls (fun c => zlen c = 2) (ostwald_start false (lay 0 ls) rnd top) (Forall (on_simplex 2)).
Proof.
  intros ls rnd top F R T P. split.
  - intros u L _. destruct (for_cells_all 0%Qc ls F (fun n _ => Some (1 - Q2Qc (2 # 1) * unit_random rnd top n)%Qc) (fun n _ => 1 - Q2Qc (2 # 1) * unit_random rnd top n)%Qc u L) as (d & E & Ld & V); [reflexivity|].
    exists d. split; [exact E|]. split; [auto|]. apply (Forall_nodes 0%Qc ls F); auto. intros n Hn. rewrite V by auto. destruct (unit_bounds rnd top n R T P) as [A B]. set (r := unit_random rnd top n) in *. clearbody r. clear - A B.
    unfold Qcle in *. rewrite this_sub, this_mul. change (this (- (1))%Qc) with (-(1))%Q. change (this 0%Qc) with 0%Q in *. change (this 1%Qc) with 1%Q in *. change (this (Q2Qc (2 # 1))) with (2 # 1)%Q. split; Lqa.lra.
  - intros u L K. pose (g := fun (n : Z) (_ : list Qc) => [unit_random rnd top n; 1 - unit_random rnd top n]%Qc).
    destruct (for_cells_all [] ls F (fun n c => let r := unit_random rnd top n in do c <- put c 0 r; put c 1 (1 - r)%Qc) g u L) as (d & E & Ld & V).
    { intros n Hn. pose proof (val_Forall [] ls F _ u _ L K (site_ok ls n F Hn)) as Z2. cbv beta in Z2. destruct (at_or [] (lay 0 ls) u (position (lay 0 ls) n)) as [|a [|b [|e c]]]; try discriminate Z2; [reflexivity|]. rewrite !zlen_cons in Z2. pose proof (zlen_nonneg c). lia. }
    exists d. split; [exact E|]. split; [auto|]. apply (Forall_nodes [] ls F); auto. intros n Hn. rewrite V by auto. destruct (unit_bounds rnd top n R T P) as [A B]. unfold g. set (r := unit_random rnd top n) in *. clearbody r. split; [reflexivity|]. split.
    + repeat constructor; auto. unfold Qcle in *. rewrite this_sub. change (this 0%Qc) with 0%Q in *. change (this 1%Qc) with 1%Q in *. Lqa.lra.
    + cbn [sumQ]. ring.
Qed.
Print Assumptions C91_noise.

(* C91, grains: one field is 1 at every node, the others are 0 *)
Definition grains_dense (ls : list limits) (of : list Z -> Z) (n : Z) (d : list (list Qc)) : Prop :=
  forall x, boxed ls x -> cell_at ls d x = map (fun k => if k =? of x then 1%Qc else 0%Qc) (zrange 0 n).
Definition grains_sparse (ls : list limits) (of : list Z -> Z) (d : list (list (option (Z * Qc)))) : Prop :=
  forall x, boxed ls x -> fields_of ls d x = [(of x, 1%Qc)].
Lemma pair_cell (P : list Qc -> Prop) c : zlen c = 2 -> (forall a b, P [a; b]) -> P c.
Proof. intros Z2 H. destruct c as [|a [|b [|e c]]]; try discriminate Z2; [apply H|]. rewrite !zlen_cons in Z2. pose proof (zlen_nonneg c). lia. Qed.
Lemma triple_cell (P : list Qc -> Prop) c : zlen c = 3 -> (forall a b e, P [a; b; e]) -> P c.
Proof. intros Z3 H. destruct c as [|a [|b [|e [|f c]]]]; try discriminate Z3; [apply H|]. rewrite !zlen_cons in Z3. pose proof (zlen_nonneg c). lia. Qed.
Lemma quad_cell (P : list Qc -> Prop) c : zlen c = 4 -> (forall a b e f, P [a; b; e; f]) -> P c.
Proof. intros Z4 H. destruct c as [|a [|b [|e [|f [|g c]]]]]; try discriminate Z4; [apply H|]. rewrite !zlen_cons in Z4. pose proof (zlen_nonneg c). lia. Qed.
Lemma brick_grain ls x : positive_box ls -> boxed ls x -> brick x = grain x /\ 0 <= brick x < 4.
Proof.
  intros P B. assert (Forall (fun c => 0 <= c) x) as N. { clear - P B. unfold boxed in B. revert x B. induction P as [|l ls H _ IH]; intros [|c x] B; cbn in B; try easy. constructor; [lia|apply IH; tauto]. }
  assert (forall a s, 0 <= a -> s = 64 \/ s = 128 -> (Z.rem a s <? s / 4) || (Z.rem a s >? s / 4 * 3) = (s / 4 <? Z.abs (a mod s - s / 2))) as O.
  { intros a s Ha Hs. rewrite Z.rem_mod_nonneg by lia. pose proof (Z.mod_pos_bound a s ltac:(lia)) as M. destruct Hs as [-> | ->]; change (64 / 4) with 16; change (128 / 4) with 32; change (64 / 2) with 32; change (128 / 2) with 64; rewrite Z.gtb_ltb;
      repeat match goal with |- context [?u <? ?v] => destruct (Z.ltb_spec u v) end; cbn [orb]; reflexivity || lia. }
  assert (forall b s, 0 <= b -> s = 64 \/ s = 128 -> (if Z.rem b s <? s / 2 then 2 else 3) = 2 + b mod s / (s / 2)) as H2.
  { intros b s Hb Hs. rewrite Z.rem_mod_nonneg by lia. pose proof (Z.mod_pos_bound b s ltac:(lia)) as M. destruct Hs as [-> | ->]; change (64 / 2) with 32; change (128 / 2) with 64.
    - destruct (Z.ltb_spec (b mod 64) 32); [rewrite Z.div_small by lia; reflexivity|]. rewrite <- (Z.div_unique_pos (b mod 64) 32 1 (b mod 64 - 32)) by lia. reflexivity.
    - destruct (Z.ltb_spec (b mod 128) 64); [rewrite Z.div_small by lia; reflexivity|]. rewrite <- (Z.div_unique_pos (b mod 128) 64 1 (b mod 128 - 64)) by lia. reflexivity. }
  destruct x as [|a [|b [|c x]]].
  - cbn. lia.
  - inversion N as [|? ? Na _]; subst. cbn [brick grain]. rewrite Z.rem_mod_nonneg by lia. pose proof (Z.mod_pos_bound a 128 ltac:(lia)) as M. set (r := a mod 128) in *. clearbody r.
    destruct (Z.ltb_spec r 32); [rewrite <- (Z.div_unique_pos r 32 0 r) by lia; lia|]. destruct (Z.ltb_spec r 64); [rewrite <- (Z.div_unique_pos r 32 1 (r - 32)) by lia; lia|].
    destruct (Z.ltb_spec r 96); [rewrite <- (Z.div_unique_pos r 32 2 (r - 64)) by lia; lia|]. rewrite <- (Z.div_unique_pos r 32 3 (r - 96)) by lia. lia.
  - inversion N as [|? ? Na N']; subst. inversion N' as [|? ? Nb _]; subst. cbn [brick grain]. rewrite <- (O a 128), <- (O b 128), <- (H2 b 128) by lia. change (128 / 4) with 32. change (32 * 3) with 96. change (128 / 2) with 64.
    destruct ((_ <? 32) || _); [destruct (_ <? 64)|destruct ((_ <? 32) || _)]; lia.
  - inversion N as [|? ? Na N']; subst. inversion N' as [|? ? Nb _]; subst. cbn [brick grain]. rewrite <- (O a 64), <- (O b 64), <- (H2 b 64) by lia. change (64 / 4) with 16. change (16 * 3) with 48. change (64 / 2) with 32.
    destruct ((_ <? 16) || _); [destruct (_ <? 32)|destruct ((_ <? 16) || _)]; lia.
Qed.
Definition disc_field (x : list Z) : Z := if disc x then 1 else 0.
Lemma sparse_fields ls u x l : at_or [] (lay 0 ls) u x = map Some l -> fields_of ls u x = l.
Proof. unfold at_or, fields_of. intros E. destruct (grid_read false (lay 0 ls) u x) as [o|]; subst. - induction l; cbn; [reflexivity|]. now rewrite IHl at 1. - destruct l; [reflexivity|discriminate]. Qed.
Lemma sparse_start ls (of : list Z -> Z) : Forall serial_axis ls ->
  starts ls (fun o => o = []) (for_cells false (lay 0 ls) (fun n c => sset_op num_Qc c (of (position (lay 0 ls) n)) (fun _ => 1%Qc)))
    (fun d => forall x, boxed ls x -> at_or [] (lay 0 ls) d x = [Some (of x, 1%Qc)]).
Proof.
  intros F u L K. destruct (for_cells_box [] ls F (fun n c => sset_op num_Qc c (of (position (lay 0 ls) n)) (fun _ => 1%Qc)) (fun x _ => [Some (of x, 1%Qc)]) u L) as (d & E & Ld & V); [|exists d; auto].
  intros n Hn. rewrite (val_Forall [] ls F _ u _ L K (site_ok ls n F Hn)). reflexivity.
Qed.
Theorem C91_two_grains : forall ls, Forall serial_axis ls -> positive_box ls ->
  starts ls (fun c => zlen c = 2) (two_grains_start false (lay 0 ls)) (fun d => forall x, boxed ls x ->
    (in_disc x -> cell_at ls d x = [0; 1]%Qc) /\ (~ in_disc x -> cell_at ls d x = [1; 0]%Qc)) /\
  starts ls (fun o => o = []) (two_grains_sparse_start false (lay 0 ls)) (fun d => forall x, boxed ls x ->
    (in_disc_sparse x -> fields_of ls d x = [(1, 1%Qc)]) /\ (~ in_disc_sparse x -> fields_of ls d x = [(0, 1%Qc)])).
Proof.
  intros ls F P. split.
  - intros u L K. destruct (for_cells_box [] ls F (fun n c => if disc (position (lay 0 ls) n) then do c <- put c 0 0%Qc; put c 1 1%Qc else do c <- put c 0 1%Qc; put c 1 0%Qc)
      (fun x _ => if disc x then [0; 1] else [1; 0])%Qc u L) as (d & E & Ld & V).
    { intros n Hn. pose proof (val_Forall [] ls F _ u _ L K (site_ok ls n F Hn)) as Hc. cbv beta in Hc. set (c := at_or [] (lay 0 ls) u _) in *. clearbody c. pattern c. apply pair_cell; [exact Hc|]. intros a b. cbv beta. destruct (disc _); reflexivity. }
    exists d. split; [exact E|]. split; [auto|]. intros x B. pose proof (V x B) as Vx. unfold cell_at. fold (at_or (@nil Qc) (lay 0 ls) d x). rewrite Vx. rewrite <- (disc_ok ls x P B). destruct (disc x); split; congruence.
  - intros u L K. destruct (sparse_start ls (fun x => if disc_sparse x then 1 else 0) F u L K) as (d & E & Ld & V). exists d. split; [exact E|]. split; [auto|]. intros x B. pose proof (V x B) as Vx. cbv beta in Vx.
    assert (disc_sparse x = true <-> in_disc_sparse x) as I. { pose proof (disc_ok ls x P B) as I. destruct x as [|a [|b x]]; try exact I. cbn. rewrite Z.ltb_lt. lia. }
    rewrite <- I. destruct (disc_sparse x); split; intros H; try congruence; exact (sparse_fields ls d x [_] Vx).
Qed.
Print Assumptions C91_two_grains.
Theorem C91_four_grains : forall ls, Forall serial_axis ls -> positive_box ls ->
  starts ls (fun c => zlen c = 4) (bricks_start false (lay 0 ls)) (grains_dense ls grain 4) /\
  starts ls (fun o => o = []) (bricks_sparse_start false (lay 0 ls)) (grains_sparse ls grain).
Proof.
  intros ls F P. split.
  - intros u L K. destruct (for_cells_box [] ls F (fun n c => do c <- fold_opt (fun c h => put c h 0%Qc) (zrange 0 4) c; put c (brick (position (lay 0 ls) n)) 1%Qc)
      (fun x _ => map (fun k => if k =? brick x then 1%Qc else 0%Qc) (zrange 0 4)) u L) as (d & E & Ld & V).
    { intros n Hn. pose proof (val_Forall [] ls F _ u _ L K (site_ok ls n F Hn)) as Hc. cbv beta in Hc. set (c := at_or [] (lay 0 ls) u _) in *. clearbody c. pattern c. apply quad_cell; [exact Hc|]. intros a b e f. cbv beta.
      destruct (brick_grain ls _ P (site_ok ls n F Hn)) as [_ B]. set (k := brick _) in *. clearbody k. assert (k = 0 \/ k = 1 \/ k = 2 \/ k = 3) as [-> | [-> | [-> | ->]]] by lia; reflexivity. }
    exists d. split; [exact E|]. split; [auto|]. intros x B. pose proof (V x B) as Vx. unfold cell_at. fold (at_or (@nil Qc) (lay 0 ls) d x). rewrite Vx. now rewrite (proj1 (brick_grain ls x P B)).
  - intros u L K. destruct (sparse_start ls brick F u L K) as (d & E & Ld & V). exists d. split; [exact E|]. split; [auto|]. intros x B. rewrite <- (proj1 (brick_grain ls x P B)). exact (sparse_fields ls d x [_] (V x B)).
Qed.
Print Assumptions C91_four_grains.

(* C91, particles: 0 (field 0) at the drawn nodes and their neighbours, elsewhere grain 2 in the discs and grain 1 around them *)
Lemma particles_defined ls rnd x : {in_particle ls rnd x} + {~ in_particle ls rnd x}.
Proof.
  destruct (in_dec vdec x (flat_map (fun y => map (fun o => on_torus ls (plus y o)) (cube (length ls))) (drawn ls rnd))) as [I|I]; [left|right].
  - apply in_flat_map in I as (y & Hy & I). apply in_map_iff in I as (o & E & Ho). exists y, o. auto.
  - intros (y & o & Hy & Ho & E). apply I. apply in_flat_map. exists y. split; [auto|]. apply in_map_iff. exists o. auto.
Qed.
Theorem C91_particles : forall ls rnd, big_torus ls -> 1 <= zlen ls <= 3 -> positive_box ls -> random rnd ->
  starts ls any (zener_start false (lay 0 ls) rnd) (fun d => forall x, boxed ls x ->
    (in_particle ls rnd x -> value_at ls d x = 0) /\ (~ in_particle ls rnd x -> in_disc x -> value_at ls d x = 2) /\
    (~ in_particle ls rnd x -> ~ in_disc x -> value_at ls d x = 1)).
Proof.
  intros ls rnd BT D P R u L _. pose proof (torus_serial ls BT) as F.
  destruct (for_cells_box 0 ls F (fun n _ => Some (if disc (position (lay 0 ls) n) then 2 else 1)) (fun x _ => if disc x then 2 else 1) u L) as (u1 & E1 & L1 & V1); [reflexivity|].
  destruct (stamps_ok 0 ls BT D rnd R (fun _ => Some 0) (fun _ => 0) (fun _ => True) ltac:(auto) u1 L1 ltac:(apply Forall_forall; auto)) as (d & E & Ld & _ & V).
  exists d. split; [unfold zener_start; rewrite E1; exact E|]. split; [auto|]. intros x B. destruct (V x B) as [Va Vb]. pose proof (disc_ok ls x P B) as I. unfold value_at. fold (at_or 0 (lay 0 ls) d x). split; [exact Va|].
  split; intros H G; rewrite (Vb H), V1 by auto; destruct (disc x); tauto || (exfalso; apply G, I; reflexivity) || (exfalso; assert (false = true) by (apply I; exact G); discriminate).
Qed.
Print Assumptions C91_particles.
Definition particle_cells (ls : list limits) (rnd : nat -> Z) (x : list Z) (f : Z -> Qc) : Prop :=
  exists k, (in_particle ls rnd x -> k = 0) /\ (~ in_particle ls rnd x -> in_disc x -> k = 2) /\ (~ in_particle ls rnd x -> ~ in_disc x -> k = 1) /\
    f k = 1%Qc /\ forall j, j <> k -> f j = 0%Qc.
Definition pure (k : Z) : list (option (Z * Qc)) := [Some (k, 1%Qc)].
Definition stamped (k : Z) : list (option (Z * Qc)) := [Some (k, 0%Qc); Some (0, 1%Qc); Some (3 - k, 0%Qc)].
Definition stamp_of (c : list (option (Z * Qc))) : list (option (Z * Qc)) := match c with Some (1, _) :: _ => stamped 1 | _ => stamped 2 end.
Definition zener_cell (c : list (option (Z * Qc))) : Prop := c = pure 1 \/ c = pure 2 \/ c = stamped 1 \/ c = stamped 2.
Lemma stamp_sparse c : zener_cell c ->
  (do c <- sset_op num_Qc c 0 (fun _ => 1%Qc); do c <- sset_op num_Qc c 1 (fun _ => 0%Qc); sset_op num_Qc c 2 (fun _ => 0%Qc)) = Some (stamp_of c) /\
  zener_cell (stamp_of c) /\ stamp_of (stamp_of c) = stamp_of c.
Proof. unfold zener_cell. intros [-> | [-> | [-> | ->]]]; (split; [reflexivity|]); split; try reflexivity; cbn; auto. Qed.
Lemma le01 : (0 <= 1)%Qc. Proof. discriminate. Qed.
Lemma cell_sound c : zener_cell c -> (tidy c /\ nonneg (stored c) /\ indices 3 (stored c)) /\ (1 <= Spec.AnisoSparse.total (stored c))%Qc.
Proof.
  assert (forall l, NoDup (map fst l) -> nonneg l -> indices 3 l -> (1 <= Spec.AnisoSparse.total l)%Qc -> (tidy (map Some l) /\ nonneg (stored (map Some l)) /\ indices 3 (stored (map Some l))) /\ (1 <= Spec.AnisoSparse.total (stored (map Some l)))%Qc) as G.
  { intros l N Q I T. assert (stored (map Some l) = l) as -> by (clear; induction l; cbn; [reflexivity|]; now rewrite IHl at 1). split; [|auto]. split; [|auto]. exists l. auto. }
  intros [-> | [-> | [-> | ->]]]; [apply (G [(1, 1%Qc)])|apply (G [(2, 1%Qc)])|apply (G [(1, 0%Qc); (0, 1%Qc); (2, 0%Qc)])|apply (G [(2, 0%Qc); (0, 1%Qc); (1, 0%Qc)])]; try (vm_compute; discriminate).
  all: try (cbn [map fst]; repeat constructor; cbn; lia). all: repeat constructor; cbn [snd fst]; try lia; try apply Qcle_refl; try apply le01.
Qed.
Theorem C91_particles_sparse : forall ls rnd, big_torus ls -> 1 <= zlen ls <= 3 -> positive_box ls -> random rnd ->
  starts ls (fun o => o = []) (zener_sparse_start false (lay 0 ls) rnd) (fun d => sound 3 ls d /\ full d /\
    forall x, boxed ls x -> particle_cells ls rnd x (at_index (fields_of ls d x))).
Proof.
  intros ls rnd BT D P R u L K. pose proof (torus_serial ls BT) as F.
  destruct (sparse_start ls (fun x => if disc x then 2 else 1) F u L K) as (u1 & E1 & L1 & V1).
  destruct (stamps_ok [] ls BT D rnd R _ stamp_of zener_cell stamp_sparse u1 L1) as (d & E & Ld & O & V).
  { apply (Forall_val [] ls F); auto. intros x B. rewrite V1 by auto. unfold zener_cell. destruct (disc x); auto. }
  exists d. split; [unfold zener_sparse_start; rewrite E1; exact E|]. split; [auto|]. split; [split; [auto|]; eapply Forall_impl; [|exact O]; intros c Hc; apply (cell_sound c Hc)|].
  split; [eapply Forall_impl; [|exact O]; intros c Hc; apply (cell_sound c Hc)|]. intros x B. destruct (V x B) as [Va Vb]. rewrite V1 in Va, Vb by auto. pose proof (disc_ok ls x P B) as I.
  destruct (particles_defined ls rnd x) as [Y|Y].
  - specialize (Va Y). clear Vb. exists 0. split; [auto|]. split; [tauto|]. split; [tauto|].
    destruct (disc x); [rewrite (sparse_fields ls d x [(2, 0%Qc); (0, 1%Qc); (1, 0%Qc)] Va)|rewrite (sparse_fields ls d x [(1, 0%Qc); (0, 1%Qc); (2, 0%Qc)] Va)]; (split; [reflexivity|]); intros j Hj; unfold at_index; cbn [find fst snd];
      repeat match goal with |- context [?a =? ?b] => destruct (Z.eqb_spec a b); [reflexivity || lia|] end; reflexivity.
  - specialize (Vb Y). clear Va. exists (if disc x then 2 else 1). split; [tauto|]. split; [intros _ H; apply I in H; now rewrite H|]. split; [intros _ H; destruct (disc x); [exfalso; apply H, I; reflexivity|reflexivity]|].
    rewrite (sparse_fields ls d x [_] Vb). unfold at_index. cbn [find fst snd]. rewrite Z.eqb_refl. split; [reflexivity|]. intros j Hj. destruct (Z.eqb_spec (if disc x then 2 else 1) j); [congruence|]. reflexivity.
Qed.
Print Assumptions C91_particles_sparse.

(* the dense programs set fields 0 and 1 of every node and field 2 in the discs; field 2 elsewhere is what the memory held *)
Definition third (v : Qc) (ls : list limits) (memory : list (list Qc)) (x : list Z) : Prop := nth 2 (cell_at ls memory x) 0%Qc = v.
Theorem C91_particles_dense_partial : forall ls rnd memory, big_torus ls -> 1 <= zlen ls <= 3 -> positive_box ls -> random rnd ->
  zlen memory = cells (lay 0 ls) -> Forall (fun c => zlen c = 3) memory ->
  exists d, zener_dense_start false (lay 0 ls) rnd memory = Some d /\ zlen d = cells (lay 0 ls) /\ forall x, boxed ls x ->
    (in_particle ls rnd x -> cell_at ls d x = [1; 0; 0]%Qc) /\ (~ in_particle ls rnd x -> in_disc x -> cell_at ls d x = [0; 0; 1]%Qc) /\
    (~ in_particle ls rnd x -> ~ in_disc x -> cell_at ls d x = [0; 1; nth 2 (cell_at ls memory x) 0]%Qc).
Proof.
  intros ls rnd u BT D P R L K. pose proof (torus_serial ls BT) as F.
  destruct (for_cells_box [] ls F (fun n c => do c <- put c 0 0%Qc; do c <- put c 1 0%Qc; if disc (position (lay 0 ls) n) then put c 2 1%Qc else put c 1 1%Qc)
    (fun x c => if disc x then [0; 0; 1] else [0; 1; nth 2 c 0])%Qc u L) as (u1 & E1 & L1 & V1).
  { intros n Hn. pose proof (val_Forall [] ls F _ u _ L K (site_ok ls n F Hn)) as Hc. cbv beta in Hc. set (c := at_or [] (lay 0 ls) u _) in *. clearbody c. pattern c. apply triple_cell; [exact Hc|]. intros a b e. cbv beta. destruct (disc _); reflexivity. }
  destruct (stamps_ok [] ls BT D rnd R (fun c => do c <- put c 0 1%Qc; do c <- put c 1 0%Qc; put c 2 0%Qc) (fun _ => [1; 0; 0]%Qc) (fun c => zlen c = 3)
    ltac:(intros c Hc; split; [pattern c; apply triple_cell; [exact Hc|reflexivity]|split; reflexivity]) u1 L1) as (d & E & Ld & O & V).
  { apply (Forall_val [] ls F); auto. intros x B. rewrite V1 by auto. destruct (disc x); reflexivity. }
  exists d. split; [unfold zener_dense_start; rewrite E1; exact E|]. split; [auto|]. intros x B. destruct (V x B) as [Va Vb]. rewrite V1 in Vb by auto. pose proof (disc_ok ls x P B) as I. unfold cell_at. fold (at_or (@nil Qc) (lay 0 ls) d x). fold (at_or (@nil Qc) (lay 0 ls) u x).
  split; [exact Va|]. split; intros H G; rewrite (Vb H); destruct (disc x); tauto || (exfalso; apply G, I; reflexivity) || (exfalso; assert (false = true) by (apply I; exact G); discriminate).
Qed.
Print Assumptions C91_particles_dense_partial.
(* so that field takes every value v, at every node outside the particles and the discs, for some content of the memory *)
Theorem C91_particles_dense_refuted : forall ls rnd x v, big_torus ls -> 1 <= zlen ls <= 3 -> positive_box ls -> random rnd ->
  boxed ls x -> ~ in_particle ls rnd x -> ~ in_disc x ->
  exists memory d, zlen memory = cells (lay 0 ls) /\ Forall (fun c => zlen c = 3) memory /\ zener_dense_start false (lay 0 ls) rnd memory = Some d /\ cell_at ls d x = [0; 1; v]%Qc.
Proof.
  intros ls rnd x v BT D P R B H G. pose proof (torus_serial ls BT) as F. set (m := map (fun _ : Z => [0; 0; v]%Qc) (zrange 0 (nodes (lay 0 ls)))).
  assert (zlen m = cells (lay 0 ls)) as L by (apply (filled [] ls F (fun _ => [0; 0; v]%Qc) 0); pose proof (nodes_pos ls F); lia).
  destruct (C91_particles_dense_partial ls rnd m BT D P R L) as (d & E & Ld & V); [apply Forall_forall; intros c Hc; apply in_map_iff in Hc as (? & <- & _); reflexivity|].
  exists m, d. split; [auto|]. split; [apply Forall_forall; intros c Hc; apply in_map_iff in Hc as (? & <- & _); reflexivity|]. split; [auto|]. destruct (V x B) as (_ & _ & Vc). rewrite (Vc H G). destruct (position_all ls F x B) as (n & Hn & <-).
  unfold cell_at. fold (at_or (@nil Qc) (lay 0 ls) m (position (lay 0 ls) n)). unfold m. rewrite (proj2 (filled [] ls F (fun _ => [0; 0; v]%Qc) n Hn)). reflexivity.
Qed.
Print Assumptions C91_particles_dense_refuted.
Example C91_dense_case : let ls := torus [40] in big_torus ls /\ zlen ls = 1 /\ positive_box ls /\ random (fun _ => 0) /\ boxed ls [5] /\ ~ in_particle ls (fun _ => 0) [5] /\ ~ in_disc [5] /\ in_particle ls (fun _ => 0) [39] /\ in_disc [20].
Proof.
  cbv zeta. split; [repeat constructor; cbn; lia|]. split; [reflexivity|]. split; [repeat constructor; cbn; lia|]. split; [intros n; lia|]. split; [cbn; lia|].
  assert (forall x, In x (drawn (torus [40]) (fun _ => 0)) -> x = [0]) as Dx by (intros x Hx; unfold drawn in Hx; apply in_map_iff in Hx as (j & <- & _); reflexivity).
  split; [|split; [cbn; lia|split; [|cbn; lia]]].
  - intros (x & o & Hx & Ho & E). rewrite (Dx x Hx) in E. cbn in Ho. destruct Ho as [<-|[<-|[<-|[]]]]; discriminate E.
  - exists [0], [-1]. split; [|split; [now left|reflexivity]]. unfold drawn. apply in_map_iff. exists 0%nat. split; [reflexivity|]. apply in_seq. split; [lia|]. set (N := 409600 / _). clearbody N. lia.
Qed.

(* C91: runs of the programs that begin with these grids keep the promises of the properties about updates, from any content of the
   memory.  rnd' and the other arguments of the update are its own. *)
Theorem C91_spin_runs : forall ls hot rnd rnd' steps k, Forall serial_axis ls -> random rnd -> random rnd' ->
  starts ls any (fun u => do d <- ising_start false (lay 0 ls) rnd u; do st <- ising_update (lay 0 ls) hot rnd' steps (d, k); Some (fst st)) (Forall (fun s => s = 1 \/ s = -1)) /\
  starts ls any (fun u => do d <- potts_start false (lay 0 ls) rnd u; do st <- potts_update (lay 0 ls) hot rnd' steps (d, k); Some (fst st)) (Forall (fun s => 0 <= s < 20)).
Proof.
  intros ls hot rnd rnd' steps k F R R'. destruct (C91_spins ls rnd F R) as (SI & SP & _). split; intros u L A.
  - destruct (SI u L A) as (d & E & Ld & S & _). rewrite E. cbn [bind]. destruct (Props.Spin.C47_ising_spins ls hot rnd' steps d k F R' Ld S) as (d' & k' & E' & L' & S'). rewrite E'. cbn [bind fst]. exists d'. auto.
  - destruct (SP u L A) as (d & E & Ld & S & _). rewrite E. cbn [bind]. destruct (Props.Spin.C47_potts_spins ls hot rnd' steps d k F R' Ld S) as (d' & k' & E' & L' & S'). rewrite E'. cbn [bind fst]. exists d'. auto.
Qed.
Print Assumptions C91_spin_runs.
Theorem C91_zener_run : forall ls energy accept rnd rnd' steps k, big_torus ls -> 1 <= zlen ls <= 3 -> positive_box ls -> random rnd -> random rnd' ->
  starts ls any (fun u => do d <- zener_start false (lay 0 ls) rnd u; do st <- zener_update (lay 0 ls) energy accept rnd' steps (d, k); Some (fst st))
    (fun d => Forall (fun s => s = 0 \/ s = 1 \/ s = 2) d /\ forall x, boxed ls x -> (value_at ls d x = 0 <-> in_particle ls rnd x)).
Proof.
  intros ls energy accept rnd rnd' steps k BT D P R R' u L A. pose proof (torus_serial ls BT) as F. destruct (C91_particles ls rnd BT D P R u L A) as (d & E & Ld & V). rewrite E. cbn [bind].
  destruct (Props.Dynamics.C70_monte_carlo ls energy accept rnd' steps d k F D R' Ld) as (d' & k' & E' & L' & Z' & I'). rewrite E'. cbn [bind fst]. exists d'. split; [auto|]. split; [auto|].
  assert (forall x, boxed ls x -> disc x = true <-> in_disc x) as I by (intros x B; now apply (disc_ok ls)). split.
  - apply Forall_forall. intros s Hs. apply I' in Hs. revert s Hs. apply Forall_forall. apply (Forall_val 0 ls F); auto. intros x B. destruct (V x B) as (Va & Vb & Vc). change (at_or 0 (lay 0 ls) d x) with (value_at ls d x).
    destruct (particles_defined ls rnd x); [left; auto|]. specialize (I x B). destruct (disc x); [right; right; apply Vb; tauto|right; left; apply Vc; auto; intros H; apply I in H; discriminate].
  - intros x B. rewrite (Z' x B). destruct (V x B) as (Va & Vb & Vc). split; [|exact Va]. intros H. destruct (particles_defined ls rnd x) as [Y|Y]; [auto|exfalso]. specialize (I x B). destruct (disc x).
    + rewrite Vb in H by tauto. discriminate H.
    + rewrite Vc in H; [discriminate H|auto|]. intros G. apply I in G. discriminate.
Qed.
Print Assumptions C91_zener_run.
Theorem C91_phase_runs : forall ls dx rnd top K M dt n, Forall serial_axis ls -> positive_box ls -> length dx = length ls -> Forall (fun h => h <> 0%Qc) dx ->
  random rnd -> (forall k, rnd k <= top) -> 0 < top ->
  ((0 <= dt * M)%Qc -> (0 <= K)%Qc -> (dt * M * (Q2Qc (2 # 1) + K * stiffness dx) <= 1)%Qc -> forall new, zlen new = cells (lay 0 ls) ->
    starts ls any (fun u => do d <- noise_start false (lay 0 ls) rnd top u; do st <- repeat_step n (allen_cahn_step false (lay 0 ls) dx 1 1 K M dt) (d, new); Some (fst st)) (Forall (fun v => - (1) <= v <= 1)%Qc)) /\
  ((0 <= dt)%Qc -> (dt * (Q2Qc (2 # 1) * Qc_of 2 + Q2Qc (2 # 1) * stiffness dx) <= 1)%Qc -> forall new, vector_field ls 2 new ->
    starts ls (fun c => zlen c = 2) (fun u => do d <- two_grains_start false (lay 0 ls) u; do st <- repeat_step n (dense_step false (lay 0 ls) dx dt false 2) (d, new); Some (fst st))
      (fun d => vector_field ls 2 d /\ Forall (Forall (fun v => 0 <= v <= 1)%Qc) d)) /\
  (forall width energy eps mobility pinned new, vector_field ls 4 new ->
    starts ls (fun c => zlen c = 4) (fun u => do d <- bricks_start false (lay 0 ls) u; do st <- repeat_step n (multiphase_step false (lay 0 ls) dx dt width energy eps mobility pinned 4) (d, new); Some (fst st))
      (fun d => vector_field ls 4 d /\ Forall (on_simplex 4) d)).
Proof.
  intros ls dx rnd top K M dt n F P Hd Nd R T Pt. split; [|split].
  - intros H1 H2 H3 new Ln u L A. destruct (proj1 (C91_noise ls rnd top F R T Pt) u L A) as (d & E & Ld & S). rewrite E. cbn [bind].
    destruct (Props.Dynamics.C68_allen_cahn ls dx 1 1 K M dt n d new F Hd Nd H1 le01 H2) as (o & w & E' & L' & S'); auto.
    replace (1 * 1 * 1)%Qc with 1%Qc in E' by ring. rewrite E'. cbn [bind fst]. exists o. auto.
  - intros H1 H2 new Hn u L A. destruct (proj1 (C91_two_grains ls F P) u L A) as (d & E & Ld & V). rewrite E. cbn [bind].
    assert (Forall (fun c => c = [0; 1]%Qc \/ c = [1; 0]%Qc) d) as S. { apply (Forall_val [] ls F); auto. intros x B. destruct (V x B) as [Va Vb]. change (at_or [] (lay 0 ls) d x) with (cell_at ls d x). pose proof (disc_ok ls x P B) as I. destruct (disc x); [left; apply Va; tauto|right; apply Vb; intros G; apply I in G; discriminate]. }
    destruct (Props.Dynamics.C68_grains ls dx dt false 2 n d new F Hd Nd ltac:(lia) H1 H2) as (o & w & E' & L' & S'); auto.
    + split; [auto|]. eapply Forall_impl; [|exact S]. intros c [-> | ->]; reflexivity.
    + eapply Forall_impl; [|exact S]. intros c [-> | ->]; repeat constructor; try apply Qcle_refl; apply le01.
    + rewrite E'. cbn [bind fst]. exists o. split; [auto|]. split; [apply L'|]. auto.
  - intros width energy eps mobility pinned new Hn u L A. destruct (proj1 (C91_four_grains ls F P) u L A) as (d & E & Ld & V). rewrite E. cbn [bind].
    assert (Forall (on_simplex 4) d) as S.
    { apply (Forall_val [] ls F); auto. intros x B. change (at_or [] (lay 0 ls) d x) with (cell_at ls d x). rewrite (V x B). destruct (brick_grain ls x P B) as [G N]. rewrite <- G. set (k := brick x) in *. clearbody k.
      assert (k = 0 \/ k = 1 \/ k = 2 \/ k = 3) as [-> | [-> | [-> | ->]]] by lia; (split; [reflexivity|]); (split; [repeat constructor; try apply Qcle_refl; apply le01|cbn [map zrange seq Z.to_nat]; apply Qc_is_canon; reflexivity]). }
    destruct (Props.Dynamics.C69_simplex ls dx dt width energy eps mobility pinned 4 n d new F Hd Nd ltac:(lia)) as (o & w & E' & L' & S'); auto.
    + split; [auto|]. eapply Forall_impl; [|exact S]. intros c Hc. apply Hc.
    + rewrite E'. cbn [bind fst]. exists o. split; [auto|]. split; [apply L'|]. auto.
Qed.
Print Assumptions C91_phase_runs.
Lemma grains_sound ls d N (of : list Z -> Z) : Forall serial_axis ls -> zlen d = cells (lay 0 ls) -> (forall x, boxed ls x -> at_or [] (lay 0 ls) d x = [Some (of x, 1%Qc)]) ->
  (forall x, boxed ls x -> 0 <= of x < N) -> sound N ls d /\ full d.
Proof.
  intros F L V I. split; [split; [auto|]|]; apply (Forall_val [] ls F); auto; intros x B; rewrite (V x B); cbn [stored flat_map app].
  - split; [exists [(of x, 1%Qc)]; split; [reflexivity|repeat constructor; cbn; tauto]|]. split; (constructor; [|constructor]); cbn [fst snd]; [apply le01|auto].
  - unfold Spec.AnisoSparse.total. cbn [map snd sumQ]. rewrite Qcplus_0_r. apply Qcle_refl.
Qed.
Theorem C91_sparse_runs : forall ls dx energy eps mobility pinned n latter, Forall serial_axis ls -> ls <> [] -> positive_box ls -> Props.AnisoSparse.spaced dx ls ->
  symmetric energy -> symmetric eps -> symmetric mobility ->
  (sound 4 ls latter ->
    starts ls (fun o => o = []) (fun u => do d <- bricks_sparse_start false (lay 0 ls) u; do st <- iterate n (aniso_step false (lay 0 ls) dx energy eps mobility pinned) (d, latter); Some (fst st))
      (fun d => sound 4 ls d /\ full d)) /\
  (forall rnd, big_torus ls -> zlen ls <= 3 -> random rnd -> sound 3 ls latter ->
    starts ls (fun o => o = []) (fun u => do d <- zener_sparse_start false (lay 0 ls) rnd u; do st <- iterate n (aniso_step false (lay 0 ls) dx energy eps mobility pinned) (d, latter); Some (fst st))
      (fun d => sound 3 ls d /\ full d)).
Proof.
  intros ls dx energy eps mobility pinned n latter F Ne P Sd Se Sp Sm. split.
  - intros Sl u L A. destruct (sparse_start ls brick F u L A) as (d & E & Ld & V). destruct (grains_sound ls d 4 brick F Ld V) as [Sd' Fd]; [intros x B; apply (brick_grain ls x P B)|].
    unfold bricks_sparse_start. rewrite E. cbn [bind].
    destruct (Props.AnisoSparse.C89_every_step ls dx energy eps mobility pinned 4 n d latter F Ne Sd Se Sp Sm ltac:(lia) Sd' Fd Sl) as (o & w & E' & So & Fo & _). exists o. split; [exact (f_equal (fun r => do st <- r; Some (fst st)) E')|]. split; [apply So|auto].
  - intros rnd BT D R Sl u L A. assert (1 <= zlen ls) as D1 by (destruct ls as [|l m]; [congruence|rewrite zlen_cons; pose proof (zlen_nonneg m); lia]).
    destruct (C91_particles_sparse ls rnd BT (conj D1 D) P R u L A) as (d & E & Ld & Sd' & Fd & _). rewrite E. cbn [bind].
    destruct (Props.AnisoSparse.C89_every_step ls dx energy eps mobility pinned 3 n d latter F Ne Sd Se Sp Sm ltac:(lia) Sd' Fd Sl) as (o & w & E' & So & Fo & _). exists o. split; [exact (f_equal (fun r => do st <- r; Some (fst st)) E')|]. split; [apply So|auto].
Qed.
Print Assumptions C91_sparse_runs.
(* a small case of every hypothesis: a 6 x 4 torus, an alternating random sequence, and the values it gives *)
Definition alternating (k : nat) : Z := if Nat.even k then 3 else 42.
Example C91_case : let ls := torus [6; 4] in let memory := map (fun k => 100 + k) (zrange 0 24) in
  Forall serial_axis ls /\ big_torus ls /\ positive_box ls /\ random alternating /\ zlen memory = cells (lay 0 ls) /\
  (exists d, ising_start false (lay 0 ls) alternating memory = Some d /\ firstn 4 d = [1; -1; 1; -1]) /\
  map grain [[10; 10]; [10; 70]; [50; 10]; [50; 50]] = [2; 3; 1; 0].
Proof.
  cbv zeta. assert (big_torus (torus [6; 4])) as BT by (repeat constructor; cbn; lia). split; [now apply torus_serial|]. split; [exact BT|]. split; [repeat constructor; cbn; lia|].
  split; [intros n; unfold alternating; destruct (Nat.even n); lia|]. split; [reflexivity|]. split; [eexists; split; vm_compute; reflexivity|]. reflexivity.
Qed.
