(* Loops that set up a grid: one pass over all nodes, and stamps around drawn nodes *)
From Coq Require Import QArith.QArith QArith.Qcanon Sorting.Sorted.
From Verif Require Import Model.Base Model.Num Model.Boundary Model.Layout Model.Access Model.Sparse Model.Spin Model.Evolve Model.Dynamics Model.Zener Model.Generate
  Spec.Box Spec.Access Spec.Stencil Spec.Spin Spec.Generate Proof.BaseL Proof.LayoutL Proof.AccessL Proof.StencilL Proof.StencilS Proof.SpinL Proof.SpinF Proof.SiteL Proof.TopoF.
Local Open Scope Z_scope.

Section Start.
Context {T : Type} (d : T) (ls : list limits) (F : Forall serial_axis ls).
Notation axs := (lay 0 ls).
Notation val := (at_or d axs).

Lemma nth_val u n : zlen u = cells axs -> 0 <= n < nodes axs -> nth (Z.to_nat n) u d = val u (position axs n) /\ get u n = Some (val u (position axs n)).
Proof.
  intros L H. pose proof (read_node d ls F u n L H) as R. unfold grid_read_int, addr_int in R. cbn [bind] in R. split; [|exact R]. rewrite (BaseL.get_nth _ _ d) in R by (rewrite (nodes_eq ls F) in H; lia). congruence.
Qed.
(* the loop over the nodes *)
Lemma for_cells_all (body : Z -> T -> option T) (g : Z -> T -> T) u : zlen u = cells axs ->
  (forall n, 0 <= n < nodes axs -> body n (val u (position axs n)) = Some (g n (val u (position axs n)))) ->
  exists u', for_cells false axs body u = Some u' /\ zlen u' = cells axs /\ forall n, 0 <= n < nodes axs -> val u' (position axs n) = g n (val u (position axs n)).
Proof.
  intros L H. pose proof (nodes_pos ls F) as Hn. assert (zlen u = nodes axs) as Lu by (rewrite (nodes_eq ls F); auto).
  set (f := fun n => g n (val u (position axs n))). exists (map f (zrange 0 (nodes axs))).
  assert (forall k, (k <= Z.to_nat (nodes axs))%nat -> fold_opt (fun w i => do c <- grid_read_int false axs w i; do c <- body i c; grid_write_int false axs w i c) (zrange 0 (Z.of_nat k)) u = Some (map f (zrange 0 (Z.of_nat k)) ++ skipn k u)) as A.
  { induction k as [|k IH]; intros Hk; [reflexivity|]. rewrite Nat2Z.inj_succ, <- Z.add_1_r, zrange_snoc, fold_opt_app, IH, map_app by lia. cbn [bind fold_opt map].
    assert (length (map f (zrange 0 (Z.of_nat k))) = k) as Lm by (rewrite map_length; pose proof (zlen_zrange 0 (Z.of_nat k) ltac:(lia)) as Lz; unfold zlen in Lz; lia).
    destruct (nth_val u (Z.of_nat k) L ltac:(lia)) as [E _]. rewrite Nat2Z.id in E. destruct (skipn k u) as [|c rest] eqn:Es; [exfalso; apply (f_equal (@length T)) in Es; rewrite skipn_length in Es; cbn in Es; unfold zlen in Lu; lia|].
    assert (c = val u (position axs (Z.of_nat k)) /\ skipn (S k) u = rest) as [-> Er].
    { rewrite <- E. clear - Es. revert u Es. induction k as [|k IH]; intros [|a u] Es; cbn in *; try discriminate; [injection Es as -> ->; auto|]. apply (IH u Es). }
    rewrite Er. set (m := map f (zrange 0 (Z.of_nat k))) in *. set (v := val u _).
    assert (get (m ++ v :: rest) (Z.of_nat k) = Some v) as G. { unfold get. destruct (Z.ltb_spec (Z.of_nat k) 0); [lia|]. rewrite Nat2Z.id, nth_error_app2 by lia. replace (k - length m)%nat with 0%nat by lia. reflexivity. }
    unfold grid_read_int, grid_write_int, addr_int. cbn [bind]. rewrite G. cbn [bind]. unfold v. rewrite H by lia. cbn [bind]. rewrite put_ok by (unfold zlen; rewrite app_length; cbn; lia). cbn [bind].
    rewrite Nat2Z.id, <- app_assoc. cbn [app]. fold v. change (f (Z.of_nat k)) with (g (Z.of_nat k) v). generalize (g (Z.of_nat k) v). intros w. rewrite <- Lm. f_equal. clear. induction m as [|e m IHm]; cbn; [reflexivity|]. now rewrite IHm. }
  split; [|split].
  - specialize (A (Z.to_nat (nodes axs)) (le_n _)). rewrite Z2Nat.id in A by lia. unfold for_cells. rewrite A. f_equal. rewrite skipn_all2 by (unfold zlen in Lu; lia). apply app_nil_r.
  - apply (filled d ls F f 0). lia.
  - intros n Hn'. now rewrite (proj2 (filled d ls F f n Hn')).
Qed.
Lemma for_cells_box (body : Z -> T -> option T) (g : list Z -> T -> T) u : zlen u = cells axs ->
  (forall n, 0 <= n < nodes axs -> body n (val u (position axs n)) = Some (g (position axs n) (val u (position axs n)))) ->
  exists u', for_cells false axs body u = Some u' /\ zlen u' = cells axs /\ forall x, box ls x -> val u' x = g x (val u x).
Proof.
  intros L H. destruct (for_cells_all body (fun n => g (position axs n)) u L H) as (u' & E & L' & V). exists u'. split; [auto|]. split; [auto|]. intros x B. destruct (position_all ls F x B) as (p & Hp & <-). auto.
Qed.
Lemma Forall_val (P : T -> Prop) u : zlen u = cells axs -> (forall x, box ls x -> P (val u x)) -> Forall P u.
Proof.
  intros L H. apply Forall_forall. intros c Hc. apply In_nth_error in Hc as [n En]. assert (0 <= Z.of_nat n < nodes axs) as Hn. { rewrite (nodes_eq ls F). assert (n < length u)%nat by (apply nth_error_Some; congruence). unfold zlen in *. lia. }
  destruct (nth_val u (Z.of_nat n) L Hn) as [E _]. rewrite Nat2Z.id in E. rewrite (nth_error_nth _ _ d En) in E. rewrite E. apply H. now apply site_ok.
Qed.
Lemma Forall_nodes (P : T -> Prop) u : zlen u = cells axs -> (forall n, 0 <= n < nodes axs -> P (val u (position axs n))) -> Forall P u.
Proof. intros L H. apply Forall_val; auto. intros x B. destruct (position_all ls F x B) as (p & Hp & <-). auto. Qed.
Lemma val_Forall (P : T -> Prop) u x : zlen u = cells axs -> Forall P u -> box ls x -> P (val u x).
Proof. intros L H B. rewrite Forall_forall in H. apply H. now apply val_in. Qed.

(* applying g to the nodes that some coordinates name *)
Context (f : T -> option T) (g : T -> T) (ok : T -> Prop).
Hypothesis Hf : forall c, ok c -> f c = Some (g c) /\ ok (g c) /\ g (g c) = g c.
Definition vdec : forall x y : list Z, {x = y} + {x <> y} := list_eq_dec Z.eq_dec.
Lemma touched ps u : Forall (fun p => length p = length ls /\ box ls (cbs ls p)) ps -> zlen u = cells axs -> Forall ok u ->
  exists u', fold_opt (fun u p => do c <- grid_read false axs u p; do c <- f c; grid_write false axs u p c) ps u = Some u' /\ zlen u' = cells axs /\ Forall ok u' /\
    forall y, box ls y -> val u' y = if in_dec vdec y (map (cbs ls) ps) then g (val u y) else val u y.
Proof.
  intros Hp. revert u. induction Hp as [|p ps [Lp Bp] _ IH]; intros u L O; [exists u; split; [reflexivity|]; split; [auto|]; split; [auto|]; intros y By; reflexivity|]. cbn [fold_opt].
  assert (grid_read false axs u p = Some (val u (cbs ls p))) as Ru by (rewrite (read_defined d ls u p F L Lp Bp), val_cbs; auto). rewrite Ru. cbn [bind].
  pose proof (val_Forall ok u _ L O Bp) as Op. destruct (Hf _ Op) as (Ef & Og & _). rewrite Ef. cbn [bind].
  assert (grid_write false axs u p (g (val u (cbs ls p))) = grid_write false axs u (cbs ls p) (g (val u (cbs ls p)))) as Ew.
  { rewrite !grid_write_eq by (rewrite length_lay; auto; now rewrite (local_len _ _ Bp)). rewrite !adjust_cbs by (auto; apply (local_len _ _ Bp)). now rewrite (cbs_in ls (cbs ls p)). }
  rewrite Ew. destruct (write_val d ls F u (cbs ls p) (g (val u (cbs ls p))) L Bp) as (u1 & -> & L1 & V1 & K1 & Q1). cbn [bind].
  destruct (IH u1 L1 (Q1 ok O Og)) as (u' & E & L' & O' & V). exists u'. split; [auto|]. split; [auto|]. split; [auto|]. intros y By. rewrite V by auto. cbn [map].
  destruct (vdec y (cbs ls p)) as [->|N].
  - rewrite V1. destruct (in_dec vdec (cbs ls p) (map (cbs ls) ps)); destruct (in_dec vdec (cbs ls p) (cbs ls p :: map (cbs ls) ps)) as [|C]; try (exfalso; apply C; now left); [|reflexivity].
    apply (Hf _ Op).
  - rewrite K1 by auto. destruct (in_dec vdec y (map (cbs ls) ps)) as [I|I]; destruct (in_dec vdec y (cbs ls p :: map (cbs ls) ps)) as [J|J]; try reflexivity; exfalso.
    + apply J. now right.
    + destruct J as [J|J]; [now apply N|auto].
Qed.
End Start.

(* ---- the nodes drawn for the particles ---- *)
Lemma sorted_app {A} (R : A -> A -> Prop) l m : StronglySorted R l -> StronglySorted R m -> (forall a b, In a l -> In b m -> R a b) -> StronglySorted R (l ++ m).
Proof.
  intros Sl Sm H. induction Sl as [|a l Sl IH Fa]; [exact Sm|]. cbn [app]. constructor; [apply IH; intros; apply H; [now right|auto]|]. apply Forall_app. split; [exact Fa|]. apply Forall_forall. intros b Hb. apply H; [now left|auto].
Qed.
Lemma sorted_flat L cs : StronglySorted lex_lt L -> StronglySorted Z.lt cs -> StronglySorted lex_lt (flat_map (fun c => map (cons c) L) cs).
Proof.
  intros SL Sc. induction Sc as [|c cs Sc IH Fc]; cbn [flat_map]; [constructor|]. apply sorted_app; [|exact IH|].
  - clear - SL. induction SL as [|x L SL IH Fx]; cbn [map]; constructor; auto. apply Forall_map. eapply Forall_impl; [|exact Fx]. intros y Hy. cbn. auto.
  - intros a b Ha Hb. apply in_map_iff in Ha as (x & <- & _). apply in_flat_map in Hb as (e & He & Hb). apply in_map_iff in Hb as (y & <- & _). cbn. left. rewrite Forall_forall in Fc. auto.
Qed.
Lemma sorted_range a b : StronglySorted Z.lt (zrange a b).
Proof.
  unfold zrange. generalize 0%nat. induction (Z.to_nat (b - a)) as [|n IH]; intros k; cbn [seq map]; constructor; auto. apply Forall_map, Forall_forall. intros i Hi. apply in_seq in Hi. lia.
Qed.
Lemma all_nodes_position ls : Forall serial_axis ls -> Spin.all_nodes ls = map (position (lay 0 ls)) (zrange 0 (nodes (lay 0 ls))).
Proof.
  intros F. apply sites_are; [exact (lims_le _ F)|]. split; [intros x; rewrite in_all_nodes; tauto|].
  clear F. induction ls as [|l ls IH]; cbn [Spin.all_nodes]; [repeat constructor|]. apply sorted_flat; [exact IH|apply sorted_range].
Qed.
Lemma node_position ls j : Forall serial_axis ls -> 0 <= j < nodes (lay 0 ls) -> node ls j = position (lay 0 ls) j.
Proof.
  intros F H. unfold node. rewrite (all_nodes_position ls F). apply nth_error_nth. rewrite nth_error_map. replace j with (0 + Z.of_nat (Z.to_nat j)) at 2 by lia. rewrite nth_error_zrange by lia. reflexivity.
Qed.
Lemma drawn_position ls rnd : Forall serial_axis ls -> (forall n, 0 <= rnd n) -> drawn ls rnd = map (fun j => position (lay 0 ls) (Z.rem (rnd (Z.to_nat j)) (nodes (lay 0 ls)))) (zrange 0 (n_particles (lay 0 ls))).
Proof.
  intros F R. pose proof (nodes_pos ls F) as Np. unfold drawn. assert (zlen (Spin.all_nodes ls) = nodes (lay 0 ls)) as -> by (rewrite (all_nodes_position ls F), BaseL.zlen_map, zlen_zrange; lia). cbv zeta.
  unfold zrange, n_particles. rewrite map_map, Z.sub_0_r. change (50 * 8192) with 409600. rewrite Z.quot_div_nonneg by lia. apply map_ext. intros j. rewrite Z.add_0_l, Nat2Z.id, Z.rem_mod_nonneg by (auto; lia). apply node_position; auto. apply Z.mod_pos_bound. lia.
Qed.

Lemma fold_flat {A B C} (h : A -> C -> option A) (k : B -> list C) l a :
  fold_opt (fun a b => fold_opt h (k b) a) l a = fold_opt h (flat_map k l) a.
Proof. revert a. induction l as [|b l IH]; intros a; cbn [fold_opt flat_map]; [reflexivity|]. rewrite fold_opt_app. destruct (fold_opt h (k b) a); cbn [bind]; auto. Qed.
Lemma fold_same {A B} (h k : A -> B -> option A) l a : (forall a b, h a b = k a b) -> fold_opt h l a = fold_opt k l a.
Proof. intros E. revert a. induction l as [|b l IH]; intros a; cbn [fold_opt]; [reflexivity|]. rewrite E. destruct (k a b); cbn [bind]; auto. Qed.
Lemma fold_over {A B C} (h : A -> C -> option A) (k : B -> C) l a : fold_opt (fun a b => h a (k b)) l a = fold_opt h (map k l) a.
Proof. revert a. induction l as [|b l IH]; intros a; cbn [fold_opt map]; [reflexivity|]. destruct (h a (k b)); cbn [bind]; auto. Qed.

Section Stamps.
Context {T : Type} (d : T) (ls : list limits) (BT : big_torus ls) (D : 1 <= zlen ls <= 3) (rnd : nat -> Z) (R : forall n, 0 <= rnd n).
Notation axs := (lay 0 ls).
Notation val := (at_or d axs).
Context (f : T -> option T) (g : T -> T) (ok : T -> Prop).
Hypothesis Hf : forall c, ok c -> f c = Some (g c) /\ ok (g c) /\ g (g c) = g c.
Lemma stamps_ok u : zlen u = cells axs -> Forall ok u ->
  exists u', stamps false axs rnd f u = Some u' /\ zlen u' = cells axs /\ Forall ok u' /\
    forall y, box ls y -> (in_particle ls rnd y -> val u' y = g (val u y)) /\ (~ in_particle ls rnd y -> val u' y = val u y).
Proof.
  intros L O. pose proof (torus_serial ls BT) as F. pose proof (nodes_pos ls F) as Np.
  set (ps := flat_map (fun x => map (vadd x) (cube (length ls))) (drawn ls rnd)).
  assert (cube_offsets axs = cube (length ls)) as Ec. { unfold cube_offsets. rewrite zlen_lay. destruct (Z.leb_spec 1 (zlen ls)); [|lia]. destruct (Z.leb_spec (zlen ls) 3); [|lia]. cbn [andb]. now rewrite offsets_cube, length_lay. }
  assert (stamps false axs rnd f u = fold_opt (fun u p => do c <- grid_read false axs u p; do c <- f c; grid_write false axs u p c) ps u) as ->.
  { unfold stamps, ps. rewrite (drawn_position ls rnd F R), <- fold_flat, <- fold_over. apply fold_same. intros a j. unfold stamp. replace (nodes axs =? 0) with false by (symmetry; apply Z.eqb_neq; lia). cbn [negb guard bind]. rewrite Ec. now rewrite <- fold_over. }
  assert (forall x, In x (drawn ls rnd) -> box ls x) as Bd. { intros x Hx. rewrite (drawn_position ls rnd F R) in Hx. apply in_map_iff in Hx as (j & <- & _). apply site_ok; auto. apply Z.rem_bound_pos; auto. }
  assert (forall x o, In x (drawn ls rnd) -> In o (cube (length ls)) -> cbs ls (vadd x o) = on_torus ls (plus x o) /\ length (vadd x o) = length ls /\ box ls (cbs ls (vadd x o))) as C.
  { intros x o Hx Ho. apply in_cube in Ho as [Lo Fo]. pose proof (Bd x Hx) as Bx. pose proof (local_len _ _ Bx) as Lx. rewrite vadd_plus by congruence. split; [now apply cbs_torus|]. split; [rewrite plus_length; congruence|]. now apply cbs_plus. }
  assert (forall y, In y (map (cbs ls) ps) <-> in_particle ls rnd y) as I.
  { intros y. unfold ps. rewrite in_map_iff. split.
    - intros (p & <- & Hp). apply in_flat_map in Hp as (x & Hx & Hp). apply in_map_iff in Hp as (o & <- & Ho). exists x, o. split; [auto|]. split; [auto|]. symmetry. now apply C.
    - intros (x & o & Hx & Ho & <-). exists (vadd x o). split; [now apply C|]. apply in_flat_map. exists x. split; [auto|]. now apply in_map. }
  destruct (touched d ls F f g ok Hf ps u) as (u' & E & L' & O' & V); auto.
  { apply Forall_forall. intros p Hp. apply in_flat_map in Hp as (x & Hx & Hp). apply in_map_iff in Hp as (o & <- & Ho). now apply C. }
  exists u'. split; [exact E|]. split; [auto|]. split; [auto|]. intros y By. rewrite V by auto. destruct (in_dec vdec y (map (cbs ls) ps)) as [J|J]; rewrite I in J; tauto.
Qed.
End Stamps.

Lemma disc_ok ls x : Forall (fun l => 0 <= l_x0 l) ls -> box ls x -> disc x = true <-> in_disc x.
Proof.
  intros P B. assert (Forall (fun c => 0 <= c) x) as N. { clear - P B. revert x B. induction P as [|l ls H _ IH]; intros [|c x] B; cbn in B; try easy. constructor; [lia|apply IH; tauto]. }
  destruct x as [|a [|b x]]; cbn [disc in_disc]; [easy| |]; inversion N as [|? ? Na N']; subst.
  - rewrite Z.rem_mod_nonneg, Z.ltb_lt by lia. lia.
  - inversion N' as [|? ? Nb _]; subst. rewrite !Z.rem_mod_nonneg, Z.ltb_lt by lia. rewrite !Z.pow_2_r. lia.
Qed.
