(* Monte Carlo grain growth *)
From Verif Require Import Model.Base Model.Boundary Model.Layout Model.Access Model.Spin Spec.Box Spec.Access Spec.Stencil Spec.Spin
  Proof.BaseL Proof.LayoutL Proof.AccessL Proof.StencilS Proof.SpinL Proof.SpinF.
Local Open Scope list_scope.
Local Open Scope Z_scope.

Lemma in_boxb_ok ls x : in_boxb ls x = true <-> box ls x.
Proof.
  revert x. induction ls as [|l ls IH]; intros [|c x]; cbn; try easy. rewrite !andb_true_iff, Z.leb_le, Z.ltb_lt, IH. tauto.
Qed.
Lemma inside_ok' ls x : whole ls -> length x = length ls -> inside_global (lay 0 ls) x = in_boxb ls x.
Proof.
  unfold inside_global. intros W. revert x. induction W as [|l t (H0 & H1 & _) _ IH]; intros [|c x] L; cbn in L; try lia; [reflexivity|]. cbn [lay combine forallb a_g0 a_g1 in_boxb]. rewrite IH by lia. now rewrite H0, H1.
Qed.
Section Box.
Context (ls : list limits).
Notation axs := (lay 0 ls).
Hypothesis W : whole ls.
(* a grid of any boundary conditions, read inside only *)
Lemma whole_lims : Forall (fun l => l_x0 l <= l_x1 l) ls.
Proof. eapply Forall_impl; [|exact W]. cbn. intros l (_ & _ & H). lia. Qed.
Lemma outside_ok x : length x = length ls -> outside axs x = negb (in_boxb ls x).
Proof.
  unfold outside. clear W. revert x. induction ls as [|l t IH]; intros [|c x] L; cbn in L; try lia; [reflexivity|]. cbn [lay combine existsb a_x0 a_x1 in_boxb]. rewrite IH by lia. rewrite !negb_andb. f_equal.
  rewrite Z.geb_leb. rewrite <- Z.leb_antisym. f_equal. rewrite Z.leb_antisym. now rewrite negb_involutive.
Qed.
Lemma inside_ok x : length x = length ls -> inside_global axs x = in_boxb ls x.
Proof. apply inside_ok', W. Qed.
Lemma near_ok x : length x = length ls -> near_sites axs x = box_neighbours ls x.
Proof.
  intros L. unfold near_sites, box_neighbours. rewrite length_lay, offsets_cube. unfold displacements, nonzero.
  assert (forall l, Forall (fun o => length o = length ls) l -> filter (inside_global axs) (map (vadd x) l) = filter (in_boxb ls) (map (plus x) l)) as X.
  { induction 1 as [|o l Lo _ IH]; [reflexivity|]. cbn [map filter]. rewrite IH, vadd_plus by congruence. now rewrite inside_ok by (rewrite plus_length; congruence). }
  apply X. apply Forall_forall. intros o Ho. apply filter_In in Ho as [Ho _]. now apply in_cube in Ho.
Qed.
Lemma neighbour_iff x y : box ls x -> (In y (box_neighbours ls x) <-> box ls y /\ exists o, In o (displacements (length ls)) /\ plus x o = y).
Proof.
  intros B. unfold box_neighbours. rewrite filter_In, in_map_iff, in_boxb_ok. split; [intros ((o & E & H) & By)|intros (By & o & H & E)]; eauto 6.
Qed.
Lemma plus_neg x o : length x = length o -> plus (plus x o) (neg o) = x.
Proof. revert o. induction x as [|c x IH]; intros [|d o] L; cbn in *; try discriminate; [reflexivity|]. unfold neg in IH. rewrite IH by lia. f_equal. lia. Qed.
Lemma box_sym x y : In x (all_nodes ls) -> In y (all_nodes ls) -> count_occ vdec (box_neighbours ls x) y = count_occ vdec (box_neighbours ls y) x.
Proof.
  intros Hx Hy. apply in_all_nodes in Hx, Hy. unfold box_neighbours.
  assert (forall l z, box ls z -> count_occ vdec (filter (in_boxb ls) l) z = count_occ vdec l z) as X.
  { induction l as [|a l IH]; intros z Hz; [reflexivity|]. cbn [filter count_occ]. destruct (in_boxb ls a) eqn:E; cbn [count_occ]; rewrite IH by auto; [reflexivity|].
    destruct (vdec a z) as [->|]; [|reflexivity]. apply in_boxb_ok in Hz. congruence. }
  rewrite !X by auto. apply count_map_sym. intros o Ho. apply in_displacements in Ho as (L & _). pose proof (local_len _ _ Hx). pose proof (local_len _ _ Hy). split; intros <-.
  - apply plus_neg. congruence.
  - rewrite <- (neg_neg o) at 2. apply plus_neg. unfold neg. rewrite map_length. congruence.
Qed.
Lemma box_closed x : In x (all_nodes ls) -> incl (box_neighbours ls x) (all_nodes ls).
Proof. intros Hx y Hy. apply in_all_nodes in Hx. apply neighbour_iff in Hy as [By _]; auto. now apply in_all_nodes. Qed.
Lemma plus_same x o : length x = length o -> plus x o = x -> Forall (fun i => i = 0) o.
Proof. revert o. induction x as [|c x IH]; intros [|d o] L E; cbn in *; try discriminate; constructor; injection E as E1 E2; [lia|apply IH; auto]. Qed.
Lemma box_no_self x : box ls x -> ~ In x (box_neighbours ls x).
Proof.
  intros B H. apply neighbour_iff in H as (_ & o & Ho & E); auto. apply in_displacements in Ho as (L & _ & X). apply plus_same in E; [|rewrite (local_len _ _ B); auto].
  apply Exists_exists in X as (i & Hi & N). rewrite Forall_forall in E. auto.
Qed.
(* nodes of equal parity are not neighbours *)
Lemma parity_apart x y : box ls x -> same_parity x y -> ~ In y (box_neighbours ls x).
Proof.
  intros B P H. apply neighbour_iff in H as (_ & o & Ho & E); auto. apply in_displacements in Ho as (L & F & X). pose proof (local_len _ _ B) as Lx. assert (length x = length o) as L2 by congruence. clear B L Lx. subst y.
  revert o F X P L2. induction x as [|c x IH]; intros [|d o] F X P L2; cbn in *; try discriminate; [inversion X|]. inversion F as [|? ? Hd Fo]; subst. inversion P as [|? ? ? ? Pc Po]; subst.
  assert (d = 0) as ->. { replace (c - (c + d)) with (- d) in Pc by lia. assert (d = -1 \/ d = 0 \/ d = 1) as [-> |[-> | ->]] by lia; [discriminate|reflexivity|discriminate]. }
  inversion X as [? ? N|? ? X']; subst; [easy|]. apply (IH o); auto.
Qed.

(* ---- one attempt ---- *)
Notation spins := (value_at ls).
Lemma read_in data x : zlen data = cells axs -> box ls x -> grid_read false axs data x = Some (spins data x).
Proof.
  intros L B. destruct (local_encode false 0 ls data x ltac:(lia) whole_lims B) as (R & _ & H). unfold value_at. rewrite R. destruct (get_ok data (encode axs x)) as [v ->]; [lia|reflexivity].
Qed.
Lemma spins_In data x : zlen data = cells axs -> box ls x -> In (spins data x) data.
Proof.
  intros L B. pose proof (read_in data x L B) as E. unfold grid_read in E. destruct (addr_vec _ _ _ _) as [q|]; [|discriminate]. cbn [bind] in E. apply get_err in E. eapply nth_error_In; eauto.
Qed.
Context (hot : Z -> Z -> bool) (sel : list Z -> Z -> bool).
(* the new spin, from the spin and those of the neighbours *)
Definition fresh (b : bool) (s1 : Z) (nbs : list Z) (rn r : Z) : Z :=
  if negb b then s1 else if zlen (filter (Z.eqb s1) nbs) =? zlen nbs then s1
  else let s2 := nth (Z.to_nat (Z.rem rn (zlen nbs))) nbs 0 in
    if s1 =? s2 then s1 else
    if accept hot r (sumZ (map (fun s => unlike s s2 - unlike s s1) nbs)) then s2 else s1.
Lemma fold_change s1 s2 nbs a : fold_left (fun dE spin => dE + (differ spin s2 - differ spin s1)) nbs a = a + sumZ (map (fun s => unlike s s2 - unlike s s1) nbs).
Proof. revert a. induction nbs as [|s nbs IH]; intros a; cbn [fold_left map]; rewrite ?sumZ_cons, ?sumZ_nil; [lia|]. rewrite IH. change differ with unlike. lia. Qed.
Lemma visit_ok data x rd rn r : zlen data = cells axs -> box ls x -> 0 <= rn ->
  exists n, visit false axs hot sel data x rd rn r = Some (fresh (sel x rd) (spins data x) (map (spins data) (box_neighbours ls x)) rn r, n).
Proof.
  intros L B R. unfold visit. rewrite read_in by auto. cbn [bind]. unfold fresh. destruct (sel x rd); cbn [negb]; [|eauto]. rewrite near_ok by apply (local_len _ _ B).
  rewrite (map_opt_map _ (spins data)) by (intros y Hy; apply read_in; auto; apply neighbour_iff in Hy; tauto). cbn [bind]. set (nbs := map _ _).
  destruct (Z.eqb_spec (zlen (filter (Z.eqb (spins data x)) nbs)) (zlen nbs)) as [E|N]; [eauto|].
  assert (0 < zlen nbs) as Hn. { pose proof (zlen_nonneg nbs). destruct (Z.eq_dec (zlen nbs) 0) as [E0|]; [|lia]. exfalso. apply N. destruct nbs; [reflexivity|]. rewrite zlen_cons in E0. pose proof (zlen_nonneg nbs). lia. }
  pose proof (Z.rem_bound_pos rn (zlen nbs) R Hn). rewrite (BaseL.get_nth _ _ 0) by lia. cbn [bind]. cbv zeta. destruct (_ =? _); [eauto|]. rewrite fold_change, Z.add_0_l. eauto.
Qed.
Lemma write_in data x v : zlen data = cells axs -> box ls x ->
  exists data', grid_write false axs data x v = Some data' /\ zlen data' = cells axs /\ spins data' x = v /\
    (forall y, box ls y -> y <> x -> spins data' y = spins data y) /\ (forall P : Z -> Prop, Forall P data -> P v -> Forall P data').
Proof.
  intros L B. destruct (inrange_access false 0 ls data x v ltac:(lia) whole_lims L B) as (d' & Wr & Ld & R & O). exists d'. split; [auto|]. split; [congruence|]. split; [unfold value_at; now rewrite R|]. split.
  - intros y By Ny. unfold value_at. destruct (O y By Ny) as [-> _]. reflexivity.
  - intros P FP Pv. unfold grid_write in Wr. destruct (addr_vec _ _ _ _); [|discriminate]. cbn [bind] in Wr. eapply Forall_put; eauto.
Qed.
Lemma fresh_in b s1 nbs rn r : 0 <= rn -> fresh b s1 nbs rn r = s1 \/ In (fresh b s1 nbs rn r) nbs.
Proof.
  intros R. unfold fresh. destruct b; cbn [negb]; [|now left]. destruct (Z.eqb_spec (zlen (filter (Z.eqb s1) nbs)) (zlen nbs)) as [E|N]; [now left|]. cbv zeta. destruct (_ =? _); [now left|]. destruct (accept _ _ _); [|now left]. right.
  assert (0 < zlen nbs) as Hn. { pose proof (zlen_nonneg nbs). destruct (Z.eq_dec (zlen nbs) 0) as [E0|]; [|lia]. exfalso. apply N. destruct nbs; [reflexivity|]. rewrite zlen_cons in E0. pose proof (zlen_nonneg nbs). lia. }
  pose proof (Z.rem_bound_pos rn (zlen nbs) R Hn). apply nth_In. unfold zlen in *. lia.
Qed.
Lemma fresh_accepted b s1 nbs rn r : fresh b s1 nbs rn r <> s1 -> accept hot r (sumZ (map (fun s => unlike s (fresh b s1 nbs rn r) - unlike s s1) nbs)) = true.
Proof.
  unfold fresh. destruct b; cbn [negb]; [|easy]. destruct (zlen _ =? _); [easy|]. cbv zeta. set (s2 := nth _ _ _). destruct (s1 =? s2); [easy|]. destruct (accept hot r (sumZ (map (fun s => unlike s s2 - unlike s s1) nbs))) eqn:E; [|easy]. intros _. exact E.
Qed.
(* the energy after node x has got spin v *)
Lemma energy_after data x v data' : box ls x -> spins data' x = v -> (forall y, box ls y -> y <> x -> spins data' y = spins data y) ->
  grain_energy2 ls (spins data') - grain_energy2 ls (spins data) = 2 * sumZ (map (fun s => unlike s v - unlike s (spins data x)) (map (spins data) (box_neighbours ls x))).
Proof.
  intros B E O. rewrite map_map. apply (pairs_flip vdec (all_nodes ls) (box_neighbours ls) (NoDup_all_nodes ls)).
  - intros y Hy. now apply box_closed.
  - intros a b Ha Hb. now apply box_sym.
  - now apply in_all_nodes.
  - now apply box_no_self.
  - exact E.
  - intros y Hy. apply O. now apply in_all_nodes.
Qed.

(* ---- sweeps ---- *)
Lemma site_length s j : length (site_of axs s j) = length ls.
Proof.
  assert (forall x o, length (vadd x o) = length x) as X by (induction x as [|c x IH]; intros [|d o]; cbn; auto). unfold site_of. rewrite !X. unfold first_cell_start. rewrite map_length. apply length_lay.
Qed.
Definition attempted (data : list Z) (x : list Z) (b : bool) (rn r : Z) (data' : list Z) : Prop :=
  grid_write false axs data x (fresh b (spins data x) (map (spins data) (box_neighbours ls x)) rn r) = Some data'.
Definition kept (I : list Z -> Prop) : Prop := forall data x b rn r, zlen data = cells axs -> I data -> box ls x -> 0 <= rn -> exists data', attempted data x b rn r data' /\ zlen data' = cells axs /\ I data'.
Variable I : list Z -> Prop.
Hypothesis KI : kept I.
Section Sweep.
Variable (rnd : nat -> Z) (s : Z).
Hypothesis R : forall k, 0 <= rnd k.
Hypothesis N : 0 < num_lattice_cells axs.
Let inb k := box ls (site_of axs s (Z.rem (rnd k) (num_lattice_cells axs))).
Lemma pass_out hh data k : ~ inb k -> pass false axs hot sel rnd s (hh, data, k) = Some (hh, data, S k).
Proof.
  intros B. unfold pass. replace (num_lattice_cells axs =? 0) with false by (symmetry; apply Z.eqb_neq; lia). cbn [guard negb bind]. rewrite outside_ok by apply site_length.
  destruct (in_boxb _ _) eqn:E; [apply in_boxb_ok in E; easy|]. cbn [negb]. do 2 f_equal. f_equal. lia.
Qed.
Lemma pass_in hh data k : inb k -> zlen data = cells axs -> I data -> exists data' k', pass false axs hot sel rnd s (hh, data, k) = Some (hh + 1, data', k') /\ zlen data' = cells axs /\ I data'.
Proof.
  intros B L Id. unfold pass. replace (num_lattice_cells axs =? 0) with false by (symmetry; apply Z.eqb_neq; lia). cbn [guard negb bind]. rewrite outside_ok by apply site_length.
  destruct (in_boxb _ _) eqn:E; [|apply in_boxb_ok in B; congruence]. cbn [negb]. unfold inb in B. set (x := site_of _ _ _) in *.
  destruct (visit_ok data x (rnd (S k)) (rnd (S (S k))) (rnd (S (S (S k)))) L B (R _)) as (n & ->). cbn [bind fst snd].
  destruct (KI data x (sel x (rnd (S k))) (rnd (S (S k))) (rnd (S (S (S k)))) L Id B (R _)) as (d' & A & L' & I'). unfold attempted in A. rewrite A. cbn [bind]. eauto.
Qed.
Lemma sweep_defined fuel : forall hh data k, zlen data = cells axs -> I data ->
  sweep false axs hot sel fuel rnd s (hh, data, k) = Some None \/ exists data', sweep false axs hot sel fuel rnd s (hh, data, k) = Some (Some data') /\ zlen data' = cells axs /\ I data'.
Proof.
  induction fuel as [|f IH]; intros hh data k L Id; cbn [sweep]; destruct (hh <? to_flip axs s); try (right; exists data; now auto); [now left|].
  destruct (in_boxb ls (site_of axs s (Z.rem (rnd k) (num_lattice_cells axs)))) eqn:E.
  - destruct (pass_in hh data k) as (d' & k' & -> & L' & I'); auto; [now apply in_boxb_ok|]. cbn [bind]. auto.
  - rewrite pass_out by (intros B; apply in_boxb_ok in B; congruence). cbn [bind]. auto.
Qed.
(* enough fuel *)
Lemma sweep_more f g : forall st d, sweep false axs hot sel f rnd s st = Some (Some d) -> sweep false axs hot sel (f + g) rnd s st = Some (Some d).
Proof.
  induction f as [|f IH]; intros [[hh data] k] d; cbn [sweep Nat.add].
  - destruct g; cbn [sweep]; destruct (hh <? _); intros E; try discriminate; auto.
  - destruct (hh <? _); [|auto]. destruct (pass _ _ _ _ _ _) as [st|]; [|discriminate]. cbn [bind]. apply IH.
Qed.
Lemma reach m : forall hh data k, inb (k + m) -> hh < to_flip axs s -> zlen data = cells axs -> I data ->
  exists f data' k', (forall f', sweep false axs hot sel (f + f') rnd s (hh, data, k) = sweep false axs hot sel f' rnd s (hh + 1, data', k')) /\ zlen data' = cells axs /\ I data'.
Proof.
  induction m as [|m IH]; intros hh data k B H L Id.
  - rewrite Nat.add_0_r in B. destruct (pass_in hh data k B L Id) as (d' & k' & E & L' & I'). exists 1%nat, d', k'. split; [|auto]. intros f'. cbn [Nat.add sweep]. replace (hh <? to_flip axs s) with true by (symmetry; apply Z.ltb_lt; auto). rewrite E. reflexivity.
  - destruct (in_boxb ls (site_of axs s (Z.rem (rnd k) (num_lattice_cells axs)))) eqn:E.
    + apply in_boxb_ok in E. destruct (pass_in hh data k E L Id) as (d' & k' & Ep & L' & I'). exists 1%nat, d', k'. split; [|auto]. intros f'. cbn [Nat.add sweep]. replace (hh <? to_flip axs s) with true by (symmetry; apply Z.ltb_lt; auto). rewrite Ep. reflexivity.
    + destruct (IH hh data (S k)) as (f & d' & k' & X & L' & I'); auto; [now rewrite <- plus_n_Sm in B|]. exists (S f), d', k'. split; [|auto]. intros f'. cbn [Nat.add sweep]. replace (hh <? to_flip axs s) with true by (symmetry; apply Z.ltb_lt; auto).
      rewrite pass_out by (intros Bx; apply in_boxb_ok in Bx; congruence). cbn [bind]. apply X.
Qed.
Lemma sweep_ends : (forall k, exists m, inb (k + m)) -> forall data, zlen data = cells axs -> I data -> exists f data', sweep false axs hot sel f rnd s (0, data, 0%nat) = Some (Some data') /\ zlen data' = cells axs /\ I data'.
Proof.
  intros Fr. assert (forall n hh data k, to_flip axs s - hh <= Z.of_nat n -> zlen data = cells axs -> I data -> exists f data', sweep false axs hot sel f rnd s (hh, data, k) = Some (Some data') /\ zlen data' = cells axs /\ I data') as X.
  { induction n as [|n IH]; intros hh data k H L Id.
    - exists 0%nat, data. cbn [sweep]. replace (hh <? to_flip axs s) with false by (symmetry; apply Z.ltb_ge; lia). auto.
    - destruct (Z_lt_dec hh (to_flip axs s)) as [Hl|]; [|exists 0%nat, data; cbn [sweep]; replace (hh <? to_flip axs s) with false by (symmetry; apply Z.ltb_ge; lia); auto].
      destruct (Fr k) as (m & B). destruct (reach m hh data k B Hl L Id) as (f & d' & k' & E & L' & I'). destruct (IH (hh + 1) d' k' ltac:(lia) L' I') as (f' & d2 & E2 & L2 & I2). exists (f + f')%nat, d2. rewrite E. auto. }
  intros data. apply (X (Z.to_nat (to_flip axs s))). unfold to_flip. rewrite Z2Nat.id by apply zlen_nonneg. lia.
Qed.
(* a sublattice without nodes *)
Lemma sweep_stuck fuel : (forall k, ~ inb k) -> forall hh data k, hh < to_flip axs s -> sweep false axs hot sel fuel rnd s (hh, data, k) = Some None.
Proof.
  intros Fr. induction fuel as [|f IH]; intros hh data k H; cbn [sweep]; replace (hh <? to_flip axs s) with true by (symmetry; apply Z.ltb_lt; auto); [reflexivity|]. rewrite pass_out by auto. cbn [bind]. auto.
Qed.
End Sweep.
(* ---- the whole update ---- *)
Lemma update_defined fuel rnd steps data : (forall a b k, 0 <= rnd a b k) -> 0 < num_lattice_cells axs -> zlen data = cells axs -> I data ->
  growth_update axs hot sel fuel rnd steps data = Some None \/ exists data', growth_update axs hot sel fuel rnd steps data = Some (Some data') /\ zlen data' = cells axs /\ I data'.
Proof.
  intros R N L Id. unfold growth_update. set (P := fun st : option (list Z) => match st with None => True | Some d => zlen d = cells axs /\ I d end).
  match goal with |- context [fold_opt ?f ?l ?z] => destruct (fold_keeps P f l z) as (st & E & Pst) end; [|split; auto|].
  - intros st0 step P0. apply fold_keeps; [|auto]. clear st0 P0. intros [d|] s P0; [|exists None; split; [reflexivity|exact Logic.I]]. destruct P0 as [L0 I0].
    destruct (sweep_defined (rnd step s) s (R step s) N fuel 0 d 0%nat L0 I0) as [->|(d' & -> & L' & I')]; eexists; split; try reflexivity; cbn; auto.
  - rewrite E. destruct st as [d|]; [right; exists d; destruct Pst; auto|now left].
Qed.
Lemma update_ends rnd steps : (forall a b k, 0 <= rnd a b k) -> 0 < num_lattice_cells axs ->
  (forall a b k, 0 <= b < num_sublattices axs -> exists m, box ls (site_of axs b (Z.rem (rnd a b (k + m)%nat) (num_lattice_cells axs)))) ->
  forall data, zlen data = cells axs -> I data ->
  exists fuel data', growth_update axs hot sel fuel rnd steps data = Some (Some data') /\ zlen data' = cells axs /\ I data'.
Proof.
  intros R N Fr data L Id. unfold growth_update.
  assert (forall step l d, Forall (fun b => 0 <= b < num_sublattices axs) l -> zlen d = cells axs -> I d -> exists fuel d', (forall g, fold_opt (fun st s => match st with None => Some None | Some data => sweep false axs hot sel (fuel + g) (rnd step s) s (0, data, 0%nat) end) l (Some d) = Some (Some d')) /\ zlen d' = cells axs /\ I d') as X.
  { intros step l. induction l as [|b l IH]; intros d Fl Ld I0; [exists 0%nat, d; cbn; auto|]. inversion Fl as [|? ? Hb Fl']; subst.
    destruct (sweep_ends (rnd step b) b (R step b) N (fun k => Fr step b k Hb) d Ld I0) as (f1 & d1 & E1 & L1 & I1). destruct (IH d1 Fl' L1 I1) as (f2 & d2 & E2 & L2 & I2).
    exists (f1 + f2)%nat, d2. split; [|auto]. intros g. cbn [fold_opt]. rewrite <- Nat.add_assoc. rewrite (sweep_more _ _ f1 (f2 + g) _ _ E1). cbn [bind]. rewrite <- (E2 (f1 + g)%nat).
    replace (f2 + (f1 + g))%nat with (f1 + (f2 + g))%nat by lia. reflexivity. }
  assert (forall l d, zlen d = cells axs -> I d -> exists fuel d', (forall g, fold_opt (fun st step => fold_opt (fun st s => match st with None => Some None | Some data => sweep false axs hot sel (fuel + g) (rnd step s) s (0, data, 0%nat) end) (zrange 0 (num_sublattices axs)) st) l (Some d) = Some (Some d')) /\ zlen d' = cells axs /\ I d') as Y.
  { induction l as [|step l IH]; intros d Ld I0; [exists 0%nat, d; cbn; auto|].
    destruct (X step (zrange 0 (num_sublattices axs)) d) as (f1 & d1 & E1 & L1 & I1); auto; [apply Forall_forall; intros b Hb; now apply in_zrange in Hb|]. destruct (IH d1 L1 I1) as (f2 & d2 & E2 & L2 & I2).
    exists (f1 + f2)%nat, d2. split; [|auto]. intros g. cbn [fold_opt]. replace (f1 + f2 + g)%nat with (f1 + (f2 + g))%nat by lia. rewrite E1. cbn [bind]. rewrite <- (E2 (f1 + g)%nat).
    replace (f2 + (f1 + g))%nat with (f1 + (f2 + g))%nat by lia. reflexivity. }
  destruct (Y (zrange 0 steps) data L Id) as (f & d' & E & L' & I'). exists f, d'. specialize (E 0%nat). rewrite Nat.add_0_r in E. auto.
Qed.
End Box.
