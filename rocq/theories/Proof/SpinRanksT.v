(* the four kinds of trials *)
From Coq Require Import QArith.QArith QArith.Qcanon.
From Verif Require Import Model.Base Model.Num Model.Boundary Model.Layout Model.Access Model.Sparse Model.Stencil Model.Spin Model.Evolve Model.Zener Model.Heisenberg Model.SpinRanks
  Spec.Box Spec.Access Spec.Stencil Spec.Spin Spec.SpinRanks Proof.BaseL Proof.LayoutL Proof.AccessL Proof.SparseL Proof.StencilL Proof.StencilS Proof.SpinL Proof.SpinF Proof.SpinRanksF.
From Verif Require Proof.EvolveL.
Local Open Scope list_scope.
Local Open Scope Z_scope.

Lemma fold_ext {A B} (f g : A -> B -> option A) l : forall a, (forall o a, In o l -> f a o = g a o) -> fold_opt f l a = fold_opt g l a.
Proof. induction l as [|o l IH]; intros a H; cbn; [reflexivity|]. rewrite H by now left. destruct (g a o); cbn; [|reflexivity]. apply IH. intros. apply H. now right. Qed.
Lemma fold_inv {A B} (P : A -> Prop) (f : A -> B -> option A) l : forall a, P a -> (forall o a, In o l -> P a -> exists a', f a o = Some a' /\ P a') -> exists a', fold_opt f l a = Some a' /\ P a'.
Proof. induction l as [|o l IH]; intros a Ha H; cbn; [eauto|]. destruct (H o a (or_introl eq_refl) Ha) as (a' & -> & Ha'). cbn. apply IH; [auto|]. intros. apply H; [now right|auto]. Qed.
Lemma cube_near d o : In o (if (1 <=? Z.of_nat d) && (Z.of_nat d <=? 3) then offsets d else []) -> near d o.
Proof. destruct (_ && _); [|intros []]. rewrite offsets_cube, in_cube. now right. Qed.
Lemma potts_near d o : In o (if Z.of_nat d =? 2 then map (fun i => [i; 0]) [-1; 0; 1] else if Z.of_nat d =? 3 then offsets 3 else []) -> near d o.
Proof.
  destruct (Z.eqb_spec (Z.of_nat d) 2) as [E|_]; [|destruct (Z.eqb_spec (Z.of_nat d) 3) as [E|_]; [|intros []]].
  - assert (d = 2%nat) as -> by lia. intros H. right. cbn in H. destruct H as [<-|[<-|[<-|[]]]]; (split; [reflexivity|]; repeat constructor; lia).
  - assert (d = 3%nat) as -> by lia. rewrite offsets_cube, in_cube. now right.
Qed.
Lemma self_near d : near d []. Proof. now left. Qed.

Lemma ising_local (valid : Z -> Prop) d hot : (forall v : Z, valid v -> valid (- v)) -> local_trial valid d (ising_trial d hot).
Proof.
  intros Vn. split.
  - intros rd rd' rnd E. unfold ising_trial. rewrite (E [] (self_near d)). destruct (rd' []) as [s|]; cbn [bind]; [|reflexivity]. erewrite fold_ext; [reflexivity|]. intros o a Io. now rewrite (E o (cube_near d o Io)).
  - intros rd rnd _ E. unfold ising_trial. destruct (E [] (self_near d)) as (v & -> & Vv). cbn [bind].
    match goal with |- context [fold_opt ?f ?l ?a] => destruct (fold_inv (fun _ => True) f l a I) as (sum & -> & _) end.
    + intros o a Io _. destruct (E o (cube_near d o Io)) as (w & -> & _). cbn. eauto.
    + cbn [bind]. do 2 eexists. split; [reflexivity|]. destruct (accept _ _ _); auto.
Qed.
Lemma potts_local d hot : local_trial (fun s => 0 <= s < 20) d (potts_trial d hot).
Proof.
  split.
  - intros rd rd' rnd E. unfold potts_trial. rewrite (E [] (self_near d)). destruct (rd' []) as [s|]; cbn [bind]; [|reflexivity]. erewrite fold_ext; [reflexivity|]. intros o a Io. now rewrite (E o (potts_near d o Io)).
  - intros rd rnd R E. unfold potts_trial. destruct (E [] (self_near d)) as (v & -> & Vv). cbn [bind].
    match goal with |- context [fold_opt ?f ?l ?a] => destruct (fold_inv (fun _ => True) f l a I) as (sum & -> & _) end.
    + intros o a Io _. destruct (E o (potts_near d o Io)) as (w & -> & _). cbn. eauto.
    + cbn [bind]. do 2 eexists. split; [reflexivity|]. cbv beta. destruct (accept _ _ _); [|auto]. apply Z.rem_bound_pos; [apply R|lia].
Qed.
Lemma product_ok s s1 s2 : zlen s = 3 -> zlen s1 = 3 -> zlen s2 = 3 -> exists q, product3 s s1 s2 = Some q.
Proof.
  destruct s as [|a [|b [|c [|]]]], s1 as [|a1 [|b1 [|c1 [|]]]], s2 as [|a2 [|b2 [|c2 [|]]]]; intros H H1 H2; unfold zlen in *; cbn [length] in *; try lia. eexists. reflexivity.
Qed.
Lemma turn_local (valid : list Qc -> Prop) d direction hot : (forall v, valid v -> zlen v = 3) -> (forall a b, valid (direction a b)) -> local_trial valid d (turn_trial d direction hot).
Proof.
  intros V3 Vd. split.
  - intros rd rd' rnd E. unfold turn_trial. rewrite (E [] (self_near d)). destruct (rd' []) as [s|]; cbn [bind]; [|reflexivity]. erewrite fold_ext; [reflexivity|]. intros o a Io. now rewrite (E o (cube_near d o Io)).
  - intros rd rnd _ E. unfold turn_trial. destruct (E [] (self_near d)) as (v & -> & Vv). cbn [bind].
    match goal with |- context [fold_opt ?f ?l ?a] => destruct (fold_inv (fun _ => True) f l a I) as (sum & -> & _) end.
    + intros o a Io _. destruct (E o (cube_near d o Io)) as (w & -> & Vw). cbn [bind]. destruct (product_ok w v (direction (rnd 0%nat) (rnd 1%nat)) (V3 _ Vw) (V3 _ Vv) (V3 _ (Vd _ _))) as (q & ->). cbn. eauto.
    + cbn [bind]. do 2 eexists. split; [reflexivity|]. cbv beta. destruct (_ || _); auto.
Qed.
Lemma zener_local (valid : Z -> Prop) d energy accept : (1 <= d <= 3)%nat -> local_trial valid d (zener_trial d energy accept).
Proof.
  intros Hd. split.
  - intros rd rd' rnd E. unfold zener_trial. rewrite (E [] (self_near d)). destruct (rd' []) as [s|]; cbn [bind]; [|reflexivity]. destruct (negb _); [|reflexivity].
    rewrite (fold_ext (fun s o => do spin <- rd o; sset_op num_Z s spin (fun _ => 1)) (fun s o => do spin <- rd' o; sset_op num_Z s spin (fun _ => 1))) by (intros o a Io; now rewrite (E o (cube_near d o Io))).
    match goal with |- context [fold_opt ?f ?l ?a] => destruct (fold_opt f l a) as [nb|] end; cbn [bind]; [|reflexivity]. destruct (guard _); cbn [bind]; [|reflexivity].
    destruct (sindex _ _) as [t|]; cbn [bind]; [|reflexivity]. destruct (_ && _); [|reflexivity]. erewrite fold_ext; [reflexivity|]. intros o a Io. now rewrite (E o (cube_near d o Io)).
  - intros rd rnd R E. unfold zener_trial. destruct (E [] (self_near d)) as (v & -> & Vv). cbn [bind]. destruct (negb (v =? 0)) eqn:Ev; [|eauto].
    set (cube := if (1 <=? Z.of_nat d) && (Z.of_nat d <=? 3) then offsets d else []) in *.
    assert (exists o cs, cube = o :: cs) as (o0 & cs & Ec).
    { unfold cube. assert ((1 <=? Z.of_nat d) && (Z.of_nat d <=? 3) = true) as -> by (rewrite andb_true_iff, !Z.leb_le; lia). destruct d as [|[|[|[|d]]]]; try lia; do 2 eexists; reflexivity. }
    assert (forall o, In o cube -> near d o) as Ic by (intros; now apply cube_near). clearbody cube.
    assert (exists l, fold_opt (fun s o => do spin <- rd o; sset_op num_Z s spin (fun _ => 1)) cube [] = Some (map Some l) /\ l <> [] /\ forall k, In k (map fst l) -> valid k) as (l & -> & Nl & Kl).
    { clear -E Ec Ic. rewrite Ec in Ic |- *. clear Ec. cbn [fold_opt]. destruct (E o0 (Ic o0 (or_introl eq_refl))) as (w & -> & Vw). cbn [bind].
      rewrite (sset_op_map num_Z [] w). cbn [bind].
      assert (forall l s, (forall o, In o l -> near d o) -> s <> [] -> (forall k, In k (map fst s) -> valid k) ->
        exists s', fold_opt (fun s o => do spin <- rd o; sset_op num_Z s spin (fun _ => 1)) l (map Some s) = Some (map Some s') /\ s' <> [] /\ forall k, In k (map fst s') -> valid k) as X.
      { induction l as [|o l IH]; intros s Io Ns Ks; cbn [fold_opt]; [eauto|]. destruct (E o (Io o (or_introl eq_refl))) as (u & -> & Vu). cbn [bind]. rewrite sset_op_map. cbn [bind]. apply IH.
        - intros o' I'. apply Io. now right.
        - destruct s as [|[j q] s]; cbn; [discriminate|]. destruct (j =? _); discriminate.
        - intros k Hk. apply keys_aset in Hk as [->|Hk]; auto. }
      apply X; [intros o Io; apply Ic; now right|discriminate|]. intros k Hk. apply keys_aset in Hk as [->|[]]. auto. }
    cbn [bind]. rewrite zlen_map. assert (0 < zlen l) as Pl by (destruct l; [easy|]; rewrite zlen_cons; pose proof (zlen_nonneg l); lia).
    replace (zlen l =? 0) with false by (symmetry; apply Z.eqb_neq; lia). cbn [guard negb bind]. pose proof (Z.rem_bound_pos (rnd 0%nat) (zlen l) (R 0%nat) Pl) as Hj. set (j := Z.rem (rnd 0%nat) (zlen l)) in *.
    destruct (nth_error l (Z.to_nat j)) as [it|] eqn:Ej; [|apply nth_error_None in Ej; unfold zlen in *; lia].
    replace (sindex (map Some l) j) with (Some (fst it)). 2:{ symmetry. replace j with (Z.of_nat (Z.to_nat j)) by lia. now apply EvolveL.sindex_map. } cbn [bind].
    assert (valid (fst it)) as Vt by (apply Kl, in_map; eapply nth_error_In; eauto). destruct (_ && _); [|eauto].
    match goal with |- context [fold_opt ?f ?l ?a] => destruct (fold_inv (fun _ => True) f l a I) as (sum & -> & _) end.
    + intros o a Io _. destruct (E o (Ic o Io)) as (w & -> & _). cbn. eauto.
    + cbn [bind]. do 2 eexists. split; [reflexivity|]. destruct (accept _ _ _ _); auto.
Qed.

(* ---- the serial programs ---- *)
Section Serial.
Context (ls : list limits) (F : Forall serial_axis ls).
Notation axs := (lay 0 ls).
Lemma self_read {T} (data : list T) p : zlen data = cells axs -> 0 <= p < nodes axs ->
  grid_read_int false axs data p = grid_read false axs data (vadd (position axs p) []) /\
  forall v, grid_read false axs data (vadd (position axs p) []) = Some v -> grid_write_int false axs data p v = Some data.
Proof using F.
  intros L H. assert (forall x, vadd x [] = x) as -> by (intros []; reflexivity). pose proof (proj1 (read_int_position false 0 ls data p ltac:(lia) ltac:(auto) (lims_le _ F) H)) as E. split; [exact E|].
  intros v Ev. rewrite <- E in Ev. unfold grid_read_int, grid_write_int in *. now apply put_same.
Qed.
Lemma pick (rnd : nat -> Z) k : 0 <= rnd k -> nodes axs =? 0 = false /\ 0 <= Z.rem (rnd k) (nodes axs) < nodes axs.
Proof using F. intros R. pose proof (nodes_pos ls F). split; [apply Z.eqb_neq; lia|apply Z.rem_bound_pos; lia]. Qed.
Lemma dim : Z.of_nat (length ls) = zlen axs.
Proof using F. unfold zlen. now rewrite length_lay. Qed.

Lemma ising_serial hot rnd data k : zlen data = cells axs -> (forall k, 0 <= rnd k) -> visit_one (ising_trial (length ls) hot) false axs rnd (data, k) = ising_attempt axs hot rnd (data, k).
Proof using F.
  intros L R. unfold visit_one, ising_attempt. destruct (pick rnd k (R k)) as [-> Hp]. cbn [negb guard bind]. set (p := Z.rem (rnd k) (nodes axs)) in *. destruct (self_read data p L Hp) as [-> W]. unfold ising_trial.
  destruct (grid_read false axs data (vadd _ [])) as [s|]; cbn [bind]; [|reflexivity]. specialize (W s eq_refl). unfold change, ising_offsets. rewrite dim, length_lay. match goal with |- context [fold_opt ?f ?l ?a] => destruct (fold_opt f l a) as [sum|] end; cbn [bind]; [|reflexivity].
  rewrite Nat.add_0_r. rewrite (gss_ok ls F). cbn [fst snd]. destruct (accept _ _ _); [clear W|rewrite W]; cbn [bind guard negb]; [destruct (grid_write_int _ _ _ _ _); cbn; [|reflexivity]|]; do 3 f_equal; lia.
Qed.
Lemma potts_serial hot rnd data k : zlen data = cells axs -> (forall k, 0 <= rnd k) -> visit_one (potts_trial (length ls) hot) false axs rnd (data, k) = potts_attempt axs hot rnd (data, k).
Proof using F.
  intros L R. unfold visit_one, potts_attempt. destruct (pick rnd k (R k)) as [-> Hp]. cbn [negb guard bind]. set (p := Z.rem (rnd k) (nodes axs)) in *. destruct (self_read data p L Hp) as [-> W]. unfold potts_trial.
  destruct (grid_read false axs data (vadd _ [])) as [s|]; cbn [bind]; [|reflexivity]. specialize (W s eq_refl). unfold change, potts_offsets. rewrite dim, !Nat.add_0_r. match goal with |- context [fold_opt ?f ?l ?a] => destruct (fold_opt f l a) as [sum|] end; cbn [bind]; [|reflexivity].
  replace (S k + 1)%nat with (S (S k)) by lia. rewrite (gss_ok ls F). cbn [fst snd]. destruct (accept _ _ _); [clear W|rewrite W]; cbn [bind guard negb]; [destruct (grid_write_int _ _ _ _ _); cbn; [|reflexivity]|]; do 3 f_equal; lia.
Qed.
Lemma turn_serial direction hot rnd data k : zlen data = cells axs -> (forall k, 0 <= rnd k) -> visit_one (turn_trial (length ls) direction hot) false axs rnd (data, k) = turn_attempt axs direction hot rnd (data, k).
Proof using F.
  intros L R. unfold visit_one, turn_attempt. destruct (pick rnd k (R k)) as [-> Hp]. cbn [negb guard bind]. set (p := Z.rem (rnd k) (nodes axs)) in *. destruct (self_read data p L Hp) as [-> W]. unfold turn_trial.
  destruct (grid_read false axs data (vadd _ [])) as [s|]; cbn [bind]; [|reflexivity]. specialize (W s eq_refl). unfold turn_sum, ising_offsets. rewrite dim, length_lay. rewrite Nat.add_0_r. replace (S k + 1)%nat with (S (S k)) by lia. replace (S k + 2)%nat with (S (S (S k))) by lia.
  match goal with |- context [fold_opt ?f ?l ?a] => destruct (fold_opt f l a) as [sum|] end; cbn [bind]; [|reflexivity].
  rewrite (gss_ok ls F). cbn [fst snd]. destruct (_ || _); [clear W|rewrite W]; cbn [bind guard negb]; [destruct (grid_write_int _ _ _ _ _); cbn; [|reflexivity]|]; do 3 f_equal; lia.
Qed.
Lemma zener_serial energy accept rnd data k : zlen data = cells axs -> (forall k, 0 <= rnd k) -> visit_one (zener_trial (length ls) energy accept) false axs rnd (data, k) = zener_attempt axs energy accept rnd (data, k).
Proof using F.
  intros L R. unfold visit_one, zener_attempt. destruct (pick rnd k (R k)) as [-> Hp]. cbn [negb guard bind]. set (p := Z.rem (rnd k) (nodes axs)) in *. destruct (self_read data p L Hp) as [-> W]. unfold zener_trial.
  destruct (grid_read false axs data (vadd _ [])) as [s|]; cbn [bind]; [|reflexivity]. specialize (W s eq_refl). unfold near_spins, spin_cost, cube_offsets. rewrite dim, length_lay. rewrite Nat.add_0_r. replace (S k + 1)%nat with (S (S k)) by lia.
  destruct (negb (s =? 0)); [|cbn [bind fst snd]; rewrite W; cbn [bind]; do 3 f_equal; lia].
  match goal with |- context [fold_opt ?f ?l ?a] => destruct (fold_opt f l a) as [nb|] end; cbn [bind]; [|reflexivity]. destruct (guard _); cbn [bind]; [|reflexivity]. destruct (sindex _ _) as [t|]; cbn [bind]; [|reflexivity].
  destruct (_ && _); [|cbn [bind fst snd]; rewrite W; cbn [bind]; do 3 f_equal; lia]. match goal with |- context [fold_opt ?f ?l ?a] => destruct (fold_opt f l a) as [sum|] end; cbn [bind]; [|reflexivity].
  cbn [fst snd]. destruct (accept _ _ _ _); [clear W|rewrite W]; cbn [bind guard negb]; [destruct (grid_write_int _ _ _ _ _); cbn; [|reflexivity]|]; do 3 f_equal; lia.
Qed.
End Serial.

(* ---- the number of exchanges ---- *)
Lemma swaps_are n g : 0 <= n -> 0 < g -> swaps_per_step n g = (n + g - 1) / g.
Proof.
  intros Hn Hg. pattern n. apply natlike_ind; [|intros m Hm IH|exact Hn].
  - unfold swaps_per_step. change (zlen (filter (fun h => h mod g =? 0) (zrange 0 0))) with 0. symmetry. apply Z.div_small. lia.
  - unfold swaps_per_step in *. unfold Z.succ. rewrite zrange_snoc by lia. rewrite List.filter_app, zlen_app, IH.
    cbn [filter]. destruct (Z.eqb_spec (m mod g) 0) as [E|E]; pose proof (Z.div_mod m g ltac:(lia)) as D; pose proof (Z.mod_pos_bound m g Hg) as R; set (k := m / g) in *; set (t := m mod g) in *; clearbody k t.
    + replace (zlen [m]) with 1 by reflexivity. subst t m. rewrite Z.add_0_r in *. replace (g * k + g - 1) with ((g - 1) + k * g) by lia. replace (g * k + 1 + g - 1) with (0 + (k + 1) * g) by lia. rewrite !Z.div_add by lia. rewrite (Z.div_small (g - 1)) by lia. rewrite Z.div_0_l by lia. lia.
    + change (zlen (@nil Z)) with 0. subst m. replace (g * k + t + g - 1) with ((t - 1) + (k + 1) * g) by lia. replace (g * k + t + 1 + g - 1) with (t + (k + 1) * g) by lia. rewrite !Z.div_add by lia. rewrite (Z.div_small (t - 1)), (Z.div_small t) by lia. lia.
Qed.
Lemma one_swap n : 0 < n -> swaps_per_step n n = 1.
Proof.
  intros H. unfold swaps_per_step. rewrite (zrange_app 0 1 n) by lia. rewrite List.filter_app. assert (filter (fun h => h mod n =? 0) (zrange 0 1) = [0]) as ->. { change (zrange 0 1) with [0]. cbn [filter]. rewrite Z.mod_0_l by lia. reflexivity. }
  assert (filter (fun h => h mod n =? 0) (zrange 1 n) = []) as ->; [|reflexivity].
  assert (forall l, (forall h, In h l -> h mod n =? 0 = false) -> filter (fun h => h mod n =? 0) l = []) as X. { induction l as [|a l IH]; intros Hl; [reflexivity|]. cbn. rewrite Hl by now left. apply IH. intros. apply Hl. now right. }
  apply X. intros h Hh. apply in_zrange in Hh. apply Z.eqb_neq. rewrite Z.mod_small; lia.
Qed.
