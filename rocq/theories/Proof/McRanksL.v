(* Monte Carlo grain growth on several ranks *)
From Verif Require Import Model.Base Model.Boundary Model.Layout Model.Access Model.Setup Model.Codec Model.MPI Model.Ghostswap Model.Colour Model.Spin Model.McRanks
  Spec.Box Spec.Access Spec.Bytes Spec.Decomp Spec.Schedule Spec.Stencil Spec.Spin Spec.McRanks
  Proof.BaseL Proof.LayoutL Proof.AccessL Proof.CodecL Proof.SetupL Proof.MPIL Proof.GhostL Proof.HaloL Proof.ColourL Proof.StencilS Proof.SpinL Proof.SpinF Proof.GrowthL Proof.GrowthF.
Local Open Scope list_scope.
Local Open Scope Z_scope.

(* ---- a sweep as a list of attempts ---- *)
Section Sweep.
Context (ge : geom) (hot : Z -> Z -> bool) (sel : list Z -> Z -> bool) (rnd : nat -> Z) (s : Z) (V : list attempt -> list Z -> Prop).
Notation axs := (ge_axes ge).
Notation site k := (site_of axs s (Z.rem (rnd k) (num_lattice_cells axs))).
Hypothesis N : 0 < num_lattice_cells axs.
Hypothesis R : forall k, 0 <= rnd k.
Hypothesis H : forall l data j rd rn r, V l data -> outside axs (site_of axs s j) = false -> 0 <= rn ->
  exists v n data', visit true axs hot sel data (site_of axs s j) rd rn r = Some (v, n) /\ grid_write true axs data (site_of axs s j) v = Some data' /\ V (l ++ [mkAttempt (site_of axs s j) rd rn r]) data'.
Hypothesis O : forall j, outside axs (site_of axs s j) = false -> owns ge (site_of axs s j) /\ of_sublattice s (site_of axs s j).
Hypothesis Fr : forall k, exists m, outside axs (site (k + m)%nat) = false.

Lemma pass_skip hh data k : outside axs (site k) = true -> pass true axs hot sel rnd s (hh, data, k) = Some (hh, data, S k).
Proof using All.
  intros B. unfold pass. replace (num_lattice_cells axs =? 0) with false by (symmetry; apply Z.eqb_neq; lia). cbn [guard negb bind]. rewrite B. do 2 f_equal. f_equal. lia.
Qed.
Lemma pass_try hh l data k : outside axs (site k) = false -> V l data ->
  exists data' n, pass true axs hot sel rnd s (hh, data, k) = Some (hh + 1, data', (S k + n)%nat) /\ V (l ++ [mkAttempt (site k) (rnd (S k)) (rnd (S (S k))) (rnd (S (S (S k))))]) data'.
Proof using All.
  intros B Vd. unfold pass. replace (num_lattice_cells axs =? 0) with false by (symmetry; apply Z.eqb_neq; lia). cbn [guard negb bind]. rewrite B.
  destruct (H l data _ (rnd (S k)) (rnd (S (S k))) (rnd (S (S (S k)))) Vd B (R _)) as (v & n & d' & E & E' & V'). rewrite E. cbn [bind fst snd]. rewrite E'. cbn [bind]. eauto.
Qed.
Lemma drawn_le k k' l : (k <= k')%nat -> drawn ge s rnd k' l -> drawn ge s rnd k l.
Proof. intros Hk D. inversion D; subst; constructor; auto. lia. Qed.

Lemma sweep_next m : forall hh l data k, outside axs (site (k + m)%nat) = false -> hh < to_flip axs s -> V l data ->
  exists f data' k' x k1, (forall g, sweep true axs hot sel (f + g) rnd s (hh, data, k) = sweep true axs hot sel g rnd s (hh + 1, data', k')) /\ (k <= k1)%nat /\ (S k1 <= k')%nat /\
    x = site k1 /\ outside axs x = false /\ V (l ++ [mkAttempt x (rnd (S k1)) (rnd (S (S k1))) (rnd (S (S (S k1))))]) data'.
Proof using All.
  induction m as [|m IH]; intros hh l data k B Hh Vd; (destruct (outside axs (site k)) eqn:E; [|destruct (pass_try hh l data k E Vd) as (d' & n & Ep & V'); exists 1%nat, d', (S k + n)%nat, (site k), k;
    (split; [|split; [lia|split; [lia|auto]]]); intros g; cbn [Nat.add sweep]; replace (hh <? to_flip axs s) with true by (symmetry; apply Z.ltb_lt; auto); rewrite Ep; reflexivity]).
  - rewrite Nat.add_0_r in B. congruence.
  - destruct (IH hh l data (S k)) as (f & d' & k' & x & k1 & X & H1 & H2 & H3); auto; [now rewrite <- plus_n_Sm in B|].
    exists (S f), d', k', x, k1. split; [|split; [lia|auto]]. intros g. cbn [Nat.add sweep]. replace (hh <? to_flip axs s) with true by (symmetry; apply Z.ltb_lt; auto). rewrite pass_skip by auto. cbn [bind]. apply X.
Qed.
Lemma sweep_over n : forall hh l0 data k, Z.of_nat n = to_flip axs s - hh -> V l0 data ->
  exists f data' l, (forall g, sweep true axs hot sel (f + g) rnd s (hh, data, k) = Some (Some data')) /\ V (l0 ++ l) data' /\ zlen l = to_flip axs s - hh /\ drawn ge s rnd k l.
Proof using All.
  induction n as [|n IH]; intros hh l0 data k E Vd.
  - exists 0%nat, data, []. split; [|rewrite app_nil_r, zlen_nil; split; [auto|split; [lia|constructor]]]. intros g. cbn [Nat.add]. destruct g; cbn [sweep]; replace (hh <? to_flip axs s) with false by (symmetry; apply Z.ltb_ge; lia); reflexivity.
  - destruct (Fr k) as (m & B). destruct (sweep_next m hh l0 data k B ltac:(lia) Vd) as (f & d' & k' & x & k1 & X & H1 & H2 & H3 & H4 & V').
    destruct (IH (hh + 1) _ d' k' ltac:(lia) V') as (f' & d2 & l & Y & V2 & L & D). exists (f + f')%nat, d2, (mkAttempt x (rnd (S k1)) (rnd (S (S k1))) (rnd (S (S (S k1)))) :: l).
    split; [intros g; rewrite <- Nat.add_assoc, X; apply Y|]. split; [now rewrite <- app_assoc in V2|]. split; [rewrite zlen_cons; lia|].
    subst x. destruct (O _ H4). apply (drawn_cons ge s rnd k k1); auto; [rewrite Z.rem_mod_nonneg; auto; lia|]. eapply drawn_le; eauto.
Qed.
Lemma sweep_all data : V [] data -> exists f data' l, (forall g, sweep true axs hot sel (f + g) rnd s (0, data, 0%nat) = Some (Some data')) /\ V l data' /\ zlen l = to_flip axs s /\ drawn ge s rnd 0 l.
Proof using All.
  intros Vd. destruct (sweep_over (Z.to_nat (to_flip axs s)) 0 [] data 0%nat) as (f & d & l & X); auto; [rewrite Z2Nat.id; [lia|apply zlen_nonneg]|]. rewrite Z.sub_0_r in X. exists f, d, l. exact X.
Qed.
End Sweep.

(* ---- attempts on fields ---- *)
Lemma visit_gen mpi axs hot sel (S : list Z -> Z) nbs data x rd rn r : near_sites axs x = nbs -> grid_read mpi axs data x = Some (S x) -> (forall y, In y nbs -> grid_read mpi axs data y = Some (S y)) -> 0 <= rn ->
  exists n, visit mpi axs hot sel data x rd rn r = Some (fresh hot (sel x rd) (S x) (map S nbs) rn r, n).
Proof.
  intros E0 E1 E2 R. unfold visit. rewrite E1, E0. cbn [bind]. unfold fresh. destruct (sel x rd); cbn [negb]; [|eauto].
  rewrite (map_opt_map _ S) by auto. cbn [bind]. set (l := map _ _).
  destruct (Z.eqb_spec (zlen (filter (Z.eqb (S x)) l)) (zlen l)) as [E|N]; [eauto|].
  assert (0 < zlen l) as Hn. { pose proof (zlen_nonneg l). destruct (Z.eq_dec (zlen l) 0) as [E3|]; [|lia]. exfalso. apply N. destruct l; [reflexivity|]. rewrite zlen_cons in E3. pose proof (zlen_nonneg l). lia. }
  pose proof (Z.rem_bound_pos rn (zlen l) R Hn). rewrite (BaseL.get_nth _ _ 0) by lia. cbn [bind]. cbv zeta. destruct (_ =? _); [eauto|]. rewrite (fold_change hot sel), Z.add_0_l. eauto.
Qed.

Section Fields.
Context (w : list limits) (hot : Z -> Z -> bool) (sel : list Z -> Z -> bool).
(* the field after an attempt *)
Definition tried (F : list Z -> Z) (a : attempt) : list Z -> Z := fun y =>
  if vdec y (at_site a) then fresh hot (sel (at_site a) (a_d a)) (F (at_site a)) (map F (box_neighbours w (at_site a))) (a_n a) (a_r a) else F y.
Notation all := (fold_left tried).
Definition here (y : list Z) (a : attempt) : bool := if vdec (at_site a) y then true else false.

Lemma all_away l : forall F y, (forall a, In a l -> at_site a <> y) -> all l F y = F y.
Proof.
  induction l as [|a l IH]; intros F y A; [reflexivity|]. cbn [fold_left]. rewrite IH by (intros b Hb; apply A; now right). unfold tried. destruct (vdec y (at_site a)) as [E|]; [|reflexivity]. exfalso. apply (A a); [now left|auto].
Qed.
(* the value of a node depends on the attempts at it and on the values of its neighbours, which are in other classes *)
Lemma all_here (cl : list Z -> Prop) l : (forall x y, box w x -> cl x -> cl y -> ~ In y (box_neighbours w x)) -> Forall (fun a => cl (at_site a)) l ->
  forall F y, box w y -> all l F y = fold_left (fun v a => fresh hot (sel y (a_d a)) v (map F (box_neighbours w y)) (a_n a) (a_r a)) (filter (here y) l) (F y).
Proof.
  intros Ap Fl F y By. destruct (list_eq_dec vdec (map at_site (filter (here y) l)) []) as [E|E].
  { assert (filter (here y) l = []) as Ef by (destruct (filter (here y) l); [auto|discriminate]). rewrite Ef. cbn [fold_left]. apply all_away. intros a Ha Ea.
    assert (In a (filter (here y) l)) as X by (apply filter_In; split; [auto|]; unfold here; destruct (vdec (at_site a) y); congruence). rewrite Ef in X. destruct X. }
  assert (cl y) as Cy.
  { destruct (filter (here y) l) as [|a l'] eqn:Ef; [easy|]. assert (In a (filter (here y) l)) as Ha by (rewrite Ef; now left). apply filter_In in Ha as [Ha Hb]. unfold here in Hb. destruct (vdec (at_site a) y) as [<-|]; [|discriminate]. rewrite Forall_forall in Fl. auto. }
  clear E. revert F. induction Fl as [|a l Ca Fl IH]; intros F; [reflexivity|]. cbn [fold_left filter]. rewrite IH.
  assert (map (tried F a) (box_neighbours w y) = map F (box_neighbours w y)) as En.
  { apply map_ext_in. intros z Hz. unfold tried. destruct (vdec z (at_site a)) as [->|]; [|reflexivity]. exfalso. now apply (Ap y (at_site a)). }
  rewrite En. unfold here at 2. destruct (vdec (at_site a) y) as [E|E].
  - cbn [fold_left]. f_equal. unfold tried. destruct (vdec y (at_site a)) as [_|]; [|congruence]. now rewrite E.
  - f_equal. unfold tried. destruct (vdec y (at_site a)); [congruence|reflexivity].
Qed.
Lemma all_same (cl : list Z -> Prop) l1 l2 : (forall x y, box w x -> cl x -> cl y -> ~ In y (box_neighbours w x)) -> Forall (fun a => cl (at_site a)) l1 -> Forall (fun a => cl (at_site a)) l2 ->
  forall F y, box w y -> filter (here y) l1 = filter (here y) l2 -> all l1 F y = all l2 F y.
Proof. intros Ap F1 F2 F y By E. rewrite !(all_here cl) by auto. now rewrite E. Qed.
Lemma all_in (P : Z -> Prop) l : Forall (fun a => 0 <= a_n a /\ box w (at_site a)) l -> forall F, (forall y, box w y -> P (F y)) -> forall y, box w y -> P (all l F y).
Proof.
  induction 1 as [|a l [Ha Hb] _ IH]; intros F PF y By; [auto|]. cbn [fold_left]. apply IH; auto. clear y By. intros y By. unfold tried. destruct (vdec y (at_site a)) as [->|]; [|auto].
  match goal with |- P (fresh _ ?b ?s ?n ?rn ?r) => destruct (fresh_in hot sel b s n rn r Ha) as [-> |X] end; [auto|]. apply in_map_iff in X as (z & <- & Hz). apply PF. apply (neighbour_iff w) in Hz; tauto.
Qed.
(* the serial program *)
Lemma attempts_all l : whole w -> Forall (fun a => 0 <= a_n a /\ box w (at_site a)) l -> forall data F, zlen data = cells (lay 0 w) -> (forall y, box w y -> value_at w data y = F y) ->
  exists data', attempts (lay 0 w) hot sel l data = Some data' /\ zlen data' = cells (lay 0 w) /\ forall y, box w y -> value_at w data' y = all l F y.
Proof.
  intros W Fl. induction Fl as [|a l [Ha Hb] _ IH]; intros data F L Ef; [exists data; auto|]. destruct (visit_ok w W hot sel data (at_site a) (a_d a) (a_n a) (a_r a) L Hb Ha) as (n & E).
  match type of E with _ = Some (?v, _) => destruct (write_in w W hot sel data (at_site a) v L Hb) as (d1 & E1 & L1 & V1 & V2 & _) end.
  assert (attempt_at (lay 0 w) hot sel data a = Some d1) as Ea by (unfold attempt_at; rewrite E; exact E1). unfold attempts. cbn [fold_opt]. rewrite Ea. cbn [bind]. fold (attempts (lay 0 w) hot sel l d1).
  apply (IH d1 (tried F a) L1). intros y By. unfold tried. destruct (vdec y (at_site a)) as [->|Ny]; [|rewrite V2 by auto; auto]. rewrite V1, Ef by auto. f_equal. apply map_ext_in. intros z Hz. apply Ef. apply (neighbour_iff w) in Hz; tauto.
Qed.
End Fields.
