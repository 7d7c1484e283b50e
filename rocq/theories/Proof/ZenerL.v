(* grain growth with particles: Monte Carlo *)
From Coq Require Import QArith.QArith QArith.Qcanon.
From Verif Require Import Model.Base Model.Num Model.Boundary Model.Layout Model.Access Model.Sparse Model.Stencil Model.Spin Model.Evolve Model.Zener
  Spec.Box Spec.Access Spec.Stencil Spec.Spin Spec.Zener
  Proof.BaseL Proof.LayoutL Proof.AccessL Proof.SparseL Proof.StencilL Proof.StencilS Proof.SpinL Proof.SpinF.
From Verif Require Proof.EvolveL Proof.StencilM.
Local Open Scope list_scope.
Local Open Scope Z_scope.

Lemma q_of_add a b : q_of (a + b) = (q_of a + q_of b)%Qc.
Proof. apply qc_this_eq. rewrite StencilM.this_add. unfold q_of. cbn [Q2Qc this]. rewrite !Qred_correct. now rewrite inject_Z_plus. Qed.

Section GraphQ.
Context {A : Type} (dec : forall x y : A, {x = y} + {x <> y}) (S : list A) (nb : A -> list A).
Let cnt := count_occ dec.
Lemma sumQ_one (p : A) (f : A -> Qc) l : NoDup l -> In p l -> (forall x, In x l -> x <> p -> f x = 0%Qc) -> sumQ (map f l) = f p.
Proof.
  clear. induction l as [|a l IH]; intros ND I Hz; [destruct I|]. inversion ND as [|? ? Na ND']; subst. cbn [map sumQ]. destruct I as [->|I].
  - rewrite (sumQ_ext f (fun _ => 0%Qc)); [rewrite sumQ_zero; ring|]. intros x Hx. apply Hz; [now right|]. intros ->. auto.
  - rewrite Hz; [|now left|intros ->; auto]. rewrite IH; auto; [ring|]. intros; apply Hz; auto. now right.
Qed.
Lemma q_of_0 : q_of (Z.of_nat 0) = 0%Qc. Proof. now apply qc_this_eq. Qed.
Lemma q_of_1 : q_of 1 = 1%Qc. Proof. now apply qc_this_eq. Qed.
Lemma q_of_S n : q_of (Z.of_nat (Datatypes.S n)) = (1 + q_of (Z.of_nat n))%Qc.
Proof. rewrite Nat2Z.inj_succ, <- Z.add_1_l, q_of_add, q_of_1. reflexivity. Qed.
Lemma sumQ_count (g : A -> Qc) l : NoDup S -> incl l S -> sumQ (map g l) = sumQ (map (fun x => q_of (Z.of_nat (cnt l x)) * g x)%Qc S).
Proof.
  intros ND. induction l as [|a l IH]; intros I; [symmetry; rewrite (sumQ_ext _ (fun _ => 0%Qc)); [apply sumQ_zero|]; intros x _; cbn [cnt count_occ]; rewrite q_of_0; ring|].
  cbn [map sumQ]. rewrite IH by (intros x Hx; apply I; now right).
  rewrite (sumQ_ext (fun x => q_of (Z.of_nat (cnt (a :: l) x)) * g x)%Qc (fun x => (if dec x a then g x else 0) + q_of (Z.of_nat (cnt l x)) * g x)%Qc).
  - rewrite sumQ_add, (sumQ_one a (fun x => if dec x a then g x else 0%Qc)); [destruct (dec a a); [reflexivity|easy]|auto|apply I; now left|]. intros x _ N. now destruct (dec x a).
  - intros x _. unfold cnt. cbn [count_occ]. destruct (dec a x), (dec x a); subst; try easy; rewrite ?q_of_S; ring.
Qed.
Lemma sumQ_at (p : A) c l : sumQ (map (fun y => if dec y p then c else 0%Qc) l) = (q_of (Z.of_nat (cnt l p)) * c)%Qc.
Proof. unfold cnt. induction l as [|a l IH]; cbn [map count_occ sumQ]; [rewrite q_of_0; ring|]. destruct (dec a p); rewrite IH, ?q_of_S; ring. Qed.
Hypothesis ND : NoDup S.
Hypothesis closed : forall x, In x S -> incl (nb x) S.
Hypothesis sym : forall x y, In x S -> In y S -> cnt (nb x) y = cnt (nb y) x.
Context {B : Type} (energy : B -> B -> Qc) (Es : forall s t, energy s t = energy t s).
Definition pairsQ (f : A -> B) : Qc := sumQ (map (fun x => sumQ (map (fun y => energy (f x) (f y)) (nb x))) S).
Lemma pairsQ_flip p f f' s2 : In p S -> ~ In p (nb p) -> f' p = s2 -> (forall y, In y S -> y <> p -> f' y = f y) ->
  (pairsQ f' - pairsQ f = c2 * sumQ (map (fun y => energy (f y) s2 - energy (f y) (f p)) (nb p)))%Qc.
Proof.
  intros Ip Np Fp Fo. unfold pairsQ. rewrite <- sumQ_sub. set (D := fun y => (energy (f y) s2 - energy (f y) (f p))%Qc).
  assert (cnt (nb p) p = 0%nat) as C0 by (apply count_occ_not_In; auto).
  rewrite (sumQ_ext _ (fun x => (if dec x p then sumQ (map D (nb p)) else 0) + q_of (Z.of_nat (cnt (nb p) x)) * D x)%Qc).
  - rewrite sumQ_add, (sumQ_one p (fun x => if dec x p then sumQ (map D (nb p)) else 0%Qc)); [|auto|auto|intros x _ N; now destruct (dec x p)]. destruct (dec p p) as [_|]; [|easy]. rewrite <- (sumQ_count D (nb p)) by auto.
    assert (c2 = 1 + 1)%Qc as -> by now apply qc_this_eq. ring.
  - intros x Hx. rewrite <- sumQ_sub. destruct (dec x p) as [->|N].
    + rewrite C0, q_of_0, Qcmult_0_l, Qcplus_0_r. apply sumQ_ext. intros y Hy. rewrite Fp, Fo; [|now apply (closed p)|intros ->; auto].
      unfold D. rewrite (Es s2), (Es (f p)). reflexivity.
    + rewrite (sumQ_ext _ (fun y => if dec y p then D x else 0%Qc)); [rewrite sumQ_at, sym by auto; ring|].
      intros y Hy. rewrite (Fo x Hx N). destruct (dec y p) as [->|Ny]; [now rewrite Fp|]. rewrite (Fo y); [ring|now apply (closed x)|auto].
Qed.
End GraphQ.

Section Mc.
Context (ls : list limits) (F : Forall serial_axis ls) (D3 : 1 <= zlen ls <= 3).
Notation axs := (lay 0 ls).
Notation spins := (spins ls).

Lemma offs : cube_offsets axs = cube (length ls).
Proof.
  unfold cube_offsets. assert (zlen axs = zlen ls) as E by (unfold zlen; now rewrite length_lay). rewrite E, length_lay.
  replace (1 <=? zlen ls) with true by (symmetry; apply Z.leb_le; lia). replace (zlen ls <=? 3) with true by (symmetry; apply Z.leb_le; lia). apply offsets_cube.
Qed.
Lemma read_off data x o : zlen data = cells axs -> box ls x -> In o (cube (length ls)) ->
  grid_read false axs data (vadd x o) = Some (spins data (cbs ls (plus x o))) /\ box ls (cbs ls (plus x o)).
Proof.
  intros L B Io. apply in_cube in Io as [Lo Bo]. pose proof (local_len _ _ B) as Lx. rewrite vadd_plus by congruence.
  pose proof (cbs_plus ls x o F B Lo Bo) as Bc. assert (length (plus x o) = length ls) as Lp by (rewrite plus_length; congruence).
  rewrite (read_defined 0 ls data (plus x o) F L Lp Bc). split; [|auto]. now rewrite (spin_cbs ls) by auto.
Qed.

(* the spins around a node *)
Lemma near_spins_ok data x : zlen data = cells axs -> box ls x ->
  exists s, near_spins axs data x = Some (map Some s) /\ s <> [] /\ forall k, In k (map fst s) -> In k data.
Proof.
  intros L B. unfold near_spins. rewrite offs.
  assert (forall l (s : list (Z * Z)), (forall o, In o l -> In o (cube (length ls))) -> (forall k, In k (map fst s) -> In k data) ->
    exists s', fold_opt (fun s o => do spin <- grid_read false axs data (vadd x o); sset_op num_Z s spin (fun _ => 1)) l (map Some s) = Some (map Some s') /\
      (forall k, In k (map fst s') -> In k data) /\ (l <> [] \/ s <> [] -> s' <> [])) as H.
  { induction l as [|o l IH]; intros s Io Hk; cbn [fold_opt].
    - exists s. split; [reflexivity|]. split; [auto|]. tauto.
    - destruct (read_off data x o L B (Io o (or_introl eq_refl))) as [E Bo]. rewrite E. cbn [bind]. rewrite sset_op_map. cbn [bind].
      destruct (IH (aset num_Z s (spins data (cbs ls (plus x o))) (fun _ => 1))) as (s' & E' & K' & N').
      + intros o' I'. apply Io. now right.
      + intros k Hk'. apply keys_aset in Hk' as [->|Hk']; [|auto]. apply spins_in; auto.
      + exists s'. split; [exact E'|]. split; [auto|]. intros _. apply N'. right. destruct s as [|[j v] s]; cbn; [discriminate|]. destruct (j =? _); discriminate. }
  destruct (H (cube (length ls)) []) as (s & E & K & Nz); [auto|intros k []|]. exists s. split; [exact E|]. split; [|auto]. apply Nz. left.
  destruct (length ls) as [|n]; [discriminate|]. cbn. assert (In (repeat 0 n) (cube n)) as I. { apply in_cube. split; [apply repeat_length|]. apply Forall_forall. intros i Hi. apply repeat_spec in Hi. lia. }
  destruct (cube n); [destruct I|]. discriminate.
Qed.

(* the spins to choose from, in the order of the sparse object *)
Lemma near_spins_keys data x : zlen data = cells axs -> box ls x ->
  exists s, near_spins axs data x = Some (map Some s) /\ NoDup (map fst s) /\ forall k, In k (map fst s) <-> exists o, In o (cube (length ls)) /\ k = spins data (cbs ls (plus x o)).
Proof.
  intros L B. unfold near_spins. rewrite offs.
  assert (forall l (s : list (Z * Z)), (forall o, In o l -> In o (cube (length ls))) -> NoDup (map fst s) ->
    exists s', fold_opt (fun s o => do spin <- grid_read false axs data (vadd x o); sset_op num_Z s spin (fun _ => 1)) l (map Some s) = Some (map Some s') /\
      NoDup (map fst s') /\ (forall k, In k (map fst s') <-> In k (map fst s) \/ exists o, In o l /\ k = spins data (cbs ls (plus x o)))) as H.
  { induction l as [|o l IH]; intros s Io Nd; cbn [fold_opt].
    - exists s. split; [reflexivity|]. split; [auto|]. intros k. split; [auto|]. intros [H|(o & [] & _)]. auto.
    - destruct (read_off data x o L B (Io o (or_introl eq_refl))) as [E Bo]. rewrite E. cbn [bind]. rewrite sset_op_map. cbn [bind].
      destruct (IH (aset num_Z s (spins data (cbs ls (plus x o))) (fun _ => 1))) as (s' & E' & N' & K').
      + intros o' I'. apply Io. now right.
      + now apply NoDup_aset.
      + exists s'. split; [exact E'|]. split; [auto|]. intros k. rewrite K', keys_aset. split.
        * intros [[->|H]|(o' & I' & ->)]; [right; exists o; split; [now left|auto]|now left|right; exists o'; split; [now right|auto]].
        * intros [H|(o' & [<-|I'] & ->)]; [auto|auto|right; eauto]. }
  destruct (H (cube (length ls)) []) as (s & E & N & K); [auto|constructor|]. exists s. split; [exact E|]. split; [auto|]. intros k. rewrite K. cbn [map]. split; [intros [[]|H']; auto|auto].
Qed.
Lemma cube_torus data x k : big_torus ls -> box ls x ->
  (exists o, In o (cube (length ls)) /\ k = spins data (cbs ls (plus x o))) <-> k = spins data x \/ exists y, In y (torus_neighbours ls x) /\ k = spins data y.
Proof.
  intros T B. split.
  - intros (o & Io & ->). pose proof Io as Io'. apply in_cube in Io' as [Lo Bo]. destruct (existsb (fun i : Z => negb (i =? 0)) o) eqn:Ex.
    + right. rewrite cbs_torus by auto. exists (on_torus ls (plus x o)). split; [|reflexivity]. unfold torus_neighbours. apply (in_map (fun o => on_torus ls (plus x o))). unfold displacements. apply filter_In. auto.
    + left. assert (o = repeat 0 (length ls)) as ->. { rewrite <- Lo. clear - Ex. induction o as [|i o IH]; [reflexivity|]. cbn in Ex. apply orb_false_iff in Ex as [Ei Ex]. destruct (Z.eqb_spec i 0); [|discriminate]. subst. cbn. f_equal. auto. }
      rewrite plus_zero by apply (local_len _ _ B). now rewrite cbs_in.
  - intros [->|(y & Iy & ->)].
    + exists (repeat 0 (length ls)). split; [|rewrite plus_zero by apply (local_len _ _ B); now rewrite cbs_in]. apply in_cube. split; [apply repeat_length|]. apply Forall_forall. intros i Hi. apply repeat_spec in Hi. lia.
    + unfold torus_neighbours in Iy. apply in_map_iff in Iy as (o & <- & Io). pose proof Io as Io'. apply in_displacements in Io as (Lo & Fo & _). exists o. split; [apply in_cube; auto|]. now rewrite cbs_torus.
Qed.

Context (energy : Z -> Z -> Qc) (accept : Z -> Z -> Z -> Qc -> bool) (rnd : nat -> Z) (R : forall n, 0 <= rnd n).

Lemma spin_cost_eq data x s1 s2 : zlen data = cells axs -> box ls x ->
  spin_cost axs energy data x s1 s2 = Some (- energy s1 s2 + sumQ (map (fun o => energy (spins data (cbs ls (plus x o))) s2 - energy (spins data (cbs ls (plus x o))) s1) (cube (length ls))))%Qc.
Proof.
  intros L B. unfold spin_cost. rewrite offs. generalize (- energy s1 s2)%Qc as start.
  assert (forall l start, (forall o, In o l -> In o (cube (length ls))) ->
    fold_opt (fun dE o => do spin <- grid_read false axs data (vadd x o); Some (dE + (energy spin s2 - energy spin s1))%Qc) l start =
    Some (start + sumQ (map (fun o => energy (spins data (cbs ls (plus x o))) s2 - energy (spins data (cbs ls (plus x o))) s1) l))%Qc) as H; [|intros; apply H; auto].
  induction l as [|o l IH]; intros start Io; cbn [fold_opt map sumQ]; [f_equal; ring|].
  destruct (read_off data x o L B (Io o (or_introl eq_refl))) as [E _]. rewrite E. cbn [bind]. rewrite IH by (intros; apply Io; now right). f_equal. ring.
Qed.

(* one attempt: nothing, or the spin of one node that is no particle takes a value that is none either and occurs in the grid *)
Lemma attempt_cases data k : zlen data = cells axs -> exists data' k',
  zener_attempt axs energy accept rnd (data, k) = Some (data', k') /\ zlen data' = cells axs /\
  (data' = data \/
   exists p s2 dE, 0 <= p < nodes axs /\ let x := position axs p in let s1 := spins data x in
     s1 <> 0 /\ s2 <> 0 /\ s1 <> s2 /\ In s2 data /\ spins data' x = s2 /\ (forall y, box ls y -> y <> x -> spins data' y = spins data y) /\
     (forall P : Z -> Prop, Forall P data -> P s2 -> Forall P data') /\
     spin_cost axs energy data x s1 s2 = Some dE /\ accept (rnd (S (S k))) s1 s2 dE = true).
Proof.
  intros L. unfold zener_attempt. pose proof (nodes_pos ls F) as NP. replace (nodes axs =? 0) with false by (symmetry; apply Z.eqb_neq; lia). cbn [guard negb bind].
  set (p := Z.rem (rnd k) (nodes axs)). assert (0 <= p < nodes axs) as Hp by (apply p_ok; auto). pose proof (site_ok ls p F Hp) as B.
  rewrite (read_site ls data p F L Hp). cbn [bind]. destruct (Z.eqb_spec (spins data (position axs p)) 0) as [E0|N0]; cbn [negb].
  { exists data, (S k). auto. }
  destruct (near_spins_ok data _ L B) as (s & -> & Ns & Ks). cbn [bind]. rewrite BaseL.zlen_map.
  assert (0 < zlen s) as Ps by (destruct s; [easy|]; rewrite zlen_cons; pose proof (zlen_nonneg s); lia).
  replace (zlen s =? 0) with false by (symmetry; apply Z.eqb_neq; lia). cbn [guard negb bind].
  assert (0 <= Z.rem (rnd (S k)) (zlen s) < zlen s) as Hj by (apply Z.rem_bound_pos; auto; lia). set (j := Z.rem (rnd (S k)) (zlen s)) in *.
  destruct (nth_error s (Z.to_nat j)) as [it|] eqn:Ej; [|apply nth_error_None in Ej; unfold zlen in *; lia].
  replace (sindex (map Some s) j) with (Some (fst it)). 2:{ symmetry. replace j with (Z.of_nat (Z.to_nat j)) by lia. now apply EvolveL.sindex_map. } cbn [bind].
  assert (In (fst it) data) as Iit by (apply Ks, in_map; eapply nth_error_In; eauto).
  destruct (Z.eqb_spec (spins data (position axs p)) (fst it)) as [E1|N1]; cbn [negb andb]; [exists data, (S (S k)); auto|].
  destruct (Z.eqb_spec (fst it) 0) as [E2|N2]; cbn [negb]; [exists data, (S (S k)); auto|].
  rewrite (spin_cost_eq data _ _ _ L B). cbn [bind]. set (dE := (_ + _)%Qc). destruct (accept _ _ _ dE) eqn:Ac; [|exists data, (S (S (S k))); auto].
  destruct (write_site ls data p (fst it) F L Hp) as (d' & W & L' & E & O & P). rewrite W. cbn [bind]. exists d', (S (S (S k))). split; [auto|]. split; [auto|]. right.
  exists p, (fst it), dE. split; [auto|]. cbv zeta. do 7 (split; [auto; fail|]). split; [|auto]. apply spin_cost_eq; auto.
Qed.

Lemma sweeps_keep (I : list Z -> Prop) steps data k : (forall d, I d -> zlen d = cells axs) ->
  (forall d n d' n', I d -> zener_attempt axs energy accept rnd (d, n) = Some (d', n') -> I d') -> I data ->
  exists data' k', zener_update axs energy accept rnd steps (data, k) = Some (data', k') /\ I data'.
Proof.
  intros Il H I0. unfold zener_update. destruct (fold_keeps (fun st : list Z * nat => I (fst st)) (fun st _ => fold_opt (fun st _ => zener_attempt axs energy accept rnd st) (zrange 0 (nodes axs)) st) (zrange 0 steps) (data, k)) as ([d' k'] & E & I1); auto.
  - intros st _ I1. apply fold_keeps; auto. intros [d n] _ I2. cbn [fst] in I2. destruct (attempt_cases d n (Il _ I2)) as (d2 & n2 & E & _). exists (d2, n2). split; [auto|]. cbn [fst]. eapply H; eauto.
  - exists d', k'. auto.
Qed.

Lemma particles_stay steps data k : zlen data = cells axs -> exists data' k', zener_update axs energy accept rnd steps (data, k) = Some (data', k') /\ zlen data' = cells axs /\
  (forall y, box ls y -> (spins data' y = 0 <-> spins data y = 0)) /\ (forall s, In s data' -> In s data).
Proof.
  intros L. apply (sweeps_keep (fun d => zlen d = cells axs /\ (forall y, box ls y -> (spins d y = 0 <-> spins data y = 0)) /\ (forall s, In s d -> In s data))).
  - tauto.
  - intros d n d' n' (Ld & Z & I) E. destruct (attempt_cases d n Ld) as (d2 & n2 & E2 & L2 & H). rewrite E in E2. injection E2 as <- <-.
    split; [auto|]. destruct H as [->|(p & s2 & dE & Hp & H)]; [auto|]. cbv zeta in H. destruct H as (N0 & N2 & _ & I2 & Ex & O & P & _). split.
    + intros y By. destruct (list_eq_dec Z.eq_dec y (position axs p)) as [->|Ny]; [rewrite Ex, <- Z by auto; tauto|]. rewrite O by auto. auto.
    + intros s Hs. pose proof (P (fun t => In t data)) as Q. rewrite !Forall_forall in Q. apply Q; auto.
  - split; [auto|]. split; [tauto|auto].
Qed.

(* the cost is the change of the boundary energy *)
Lemma attempt_cost data p s2 data' dE : big_torus ls -> boundary_like energy -> zlen data = cells axs -> 0 <= p < nodes axs -> let x := position axs p in
  spins data' x = s2 -> (forall y, box ls y -> y <> x -> spins data' y = spins data y) -> spin_cost axs energy data x (spins data x) s2 = Some dE ->
  (boundary_energy2 ls energy (spins data') - boundary_energy2 ls energy (spins data) = c2 * dE)%Qc.
Proof.
  intros T [E0 Es] L Hp x Ex O C. pose proof (site_ok ls p F Hp) as B. fold x in B. assert (In x (all_nodes ls)) as I by (apply in_all_nodes; exact B).
  change (boundary_energy2 ls energy) with (pairsQ (all_nodes ls) (torus_neighbours ls) energy).
  rewrite (pairsQ_flip vdec (all_nodes ls) (torus_neighbours ls) (NoDup_all_nodes ls) (fun y Hy => torus_closed ls y T Hy) (fun a b Ha Hb => torus_sym ls a b T Ha Hb) energy Es x (spins data) (spins data') s2); auto.
  - f_equal. rewrite (spin_cost_eq data x _ _ L B) in C. injection C as <-. set (g := fun o => (energy (spins data (cbs ls (plus x o))) s2 - energy (spins data (cbs ls (plus x o))) (spins data x))%Qc).
    assert (sumQ (map g (cube (length ls))) = sumQ (map g (displacements (length ls))) + g (repeat 0%Z (length ls)))%Qc as ->.
    { unfold displacements. set (P := fun o => existsb (fun i : Z => negb (i =? 0)%Z) o).
      assert (forall l, sumQ (map g (filter P l)) = sumQ (map (fun o => if P o then g o else 0%Qc) l)) as -> by (clear; induction l as [|a l IH]; cbn [filter map sumQ]; [reflexivity|]; destruct (P a); cbn [map sumQ]; rewrite IH; ring).
      rewrite (sumQ_ext g (fun o => (if P o then g o else 0) + (if P o then 0 else g o))%Qc) by (intros o _; destruct (P o); ring). rewrite sumQ_add. f_equal.
      assert (P (repeat 0%Z (length ls)) = false) as P0 by (unfold P; clear; induction (length ls); cbn; auto).
      rewrite (sumQ_one (repeat 0%Z (length ls))); [now rewrite P0|apply NoDup_cube| |].
      - apply in_cube. split; [apply repeat_length|]. apply Forall_forall. intros i Hi. apply repeat_spec in Hi. lia.
      - intros o Ho N. destruct (P o) eqn:E; [reflexivity|]. exfalso. apply N. apply in_cube in Ho as [Lo _]. rewrite <- Lo. clear - E. induction o as [|i o IH]; [reflexivity|]. cbn in E. apply orb_false_iff in E as [Ei E].
        destruct (Z.eqb_spec i 0); [|discriminate]. subst. cbn. f_equal. auto. }
    unfold g at 2. rewrite plus_zero by apply (local_len _ _ B). rewrite cbs_in, E0 by auto. unfold torus_neighbours. rewrite map_map.
    rewrite (sumQ_ext (fun o => energy (spins data (on_torus ls (plus x o))) s2 - energy (spins data (on_torus ls (plus x o))) (spins data x))%Qc g); [ring|].
    intros o Ho. apply in_displacements in Ho as (Lo & Fo & _). unfold g. now rewrite cbs_torus.
  - now apply torus_no_self.
  - intros y Hy. apply O. now apply in_all_nodes.
Qed.

(* an attempt in full *)
Lemma attempt_rule data k : big_torus ls -> boundary_like energy -> zlen data = cells axs ->
  let x := position axs (Z.rem (rnd k) (nodes axs)) in let s1 := spins data x in
  (s1 = 0 -> zener_attempt axs energy accept rnd (data, k) = Some (data, S k)) /\
  (s1 <> 0 -> exists choices, NoDup choices /\ (forall s, In s choices <-> s = s1 \/ exists y, In y (torus_neighbours ls x) /\ s = spins data y) /\
     let s2 := nth (Z.to_nat (Z.rem (rnd (S k)) (zlen choices))) choices 0 in
     (s2 = s1 \/ s2 = 0 -> zener_attempt axs energy accept rnd (data, k) = Some (data, S (S k))) /\
     (s2 <> s1 -> s2 <> 0 -> exists data' dE, zlen data' = cells axs /\ spins data' x = s2 /\ (forall y, box ls y -> y <> x -> spins data' y = spins data y) /\
        (boundary_energy2 ls energy (spins data') - boundary_energy2 ls energy (spins data) = c2 * dE)%Qc /\
        zener_attempt axs energy accept rnd (data, k) = Some (if accept (rnd (S (S k))) s1 s2 dE then data' else data, S (S (S k))))).
Proof.
  intros T Be L. unfold zener_attempt. pose proof (nodes_pos ls F) as NP. replace (nodes axs =? 0) with false by (symmetry; apply Z.eqb_neq; lia). cbn [guard negb bind].
  set (p := Z.rem (rnd k) (nodes axs)). assert (0 <= p < nodes axs) as Hp by (apply p_ok; auto). pose proof (site_ok ls p F Hp) as B.
  rewrite (read_site ls data p F L Hp). cbn [bind]. cbv zeta. set (x := position axs p) in *. set (s1 := spins data x) in *. destruct (Z.eqb_spec s1 0) as [E0|N0]; cbn [negb].
  { split; [auto|easy]. }
  split; [easy|]. intros _. destruct (near_spins_keys data x L B) as (s & E & Nd & Ks). rewrite E. cbn [bind]. exists (map fst s). split; [auto|]. split; [intros k'; rewrite Ks; apply cube_torus; auto|].
  rewrite !BaseL.zlen_map. assert (0 < zlen s) as Ps. { assert (In s1 (map fst s)) as I by (apply Ks, cube_torus; auto). destruct s; [destruct I|]. rewrite zlen_cons. pose proof (zlen_nonneg s). lia. }
  replace (zlen s =? 0) with false by (symmetry; apply Z.eqb_neq; lia). cbn [guard negb bind].
  assert (0 <= Z.rem (rnd (S k)) (zlen s) < zlen s) as Hj by (apply Z.rem_bound_pos; auto; lia). set (j := Z.rem (rnd (S k)) (zlen s)) in *.
  destruct (nth_error s (Z.to_nat j)) as [it|] eqn:Ej; [|apply nth_error_None in Ej; unfold zlen in *; lia].
  replace (sindex (map Some s) j) with (Some (fst it)). 2:{ symmetry. replace j with (Z.of_nat (Z.to_nat j)) by lia. now apply EvolveL.sindex_map. } cbn [bind].
  replace (nth (Z.to_nat j) (map fst s) 0) with (fst it) by (symmetry; apply nth_error_nth; now rewrite nth_error_map, Ej). set (s2 := fst it) in *.
  split.
  - intros [H|H]; rewrite H; [rewrite Z.eqb_refl; reflexivity|]. cbn [Z.eqb negb]. rewrite andb_false_r. reflexivity.
  - intros N1 N2. destruct (Z.eqb_spec s1 s2) as [|_]; [congruence|]. destruct (Z.eqb_spec s2 0) as [|_]; [easy|]. cbn [negb andb].
    pose proof (spin_cost_eq data x s1 s2 L B) as Cst. rewrite Cst. cbn [bind]. set (dE := (- energy s1 s2 + _)%Qc) in *.
    destruct (write_site ls data p s2 F L Hp) as (d' & W & L' & Ex & O & P). rewrite W. exists d', dE. split; [auto|]. split; [auto|]. split; [auto|]. split; [eapply attempt_cost; eauto|].
    destruct (accept _ _ _ _); reflexivity.
Qed.

Lemma boundaries_shrink steps data k : big_torus ls -> boundary_like energy -> (forall r s1 s2 dE, accept r s1 s2 dE = true -> (dE <= 0)%Qc) -> zlen data = cells axs ->
  exists data' k', zener_update axs energy accept rnd steps (data, k) = Some (data', k') /\ (boundary_energy2 ls energy (spins data') <= boundary_energy2 ls energy (spins data))%Qc.
Proof.
  intros T Be Cold L. destruct (sweeps_keep (fun d => zlen d = cells axs /\ (boundary_energy2 ls energy (spins d) <= boundary_energy2 ls energy (spins data))%Qc) steps data k) as (d' & k' & E & _ & H).
  - tauto.
  - intros d n d' n' (Ld & H) E. destruct (attempt_cases d n Ld) as (d2 & n2 & E2 & L2 & Cs). rewrite E in E2. injection E2 as <- <-.
    split; [auto|]. destruct Cs as [->|(p & s2 & dE & Hp & Cs)]; [auto|]. cbv zeta in Cs. destruct Cs as (_ & _ & _ & _ & Ex & O & _ & C & Ac).
    pose proof (attempt_cost d p s2 d' dE T Be Ld Hp Ex O C) as Q. apply Cold in Ac. eapply Qcle_trans; [|exact H].
    clear - Q Ac. apply Qcle_minus_iff in Ac. apply Qcle_minus_iff. set (a := boundary_energy2 ls energy (spins d)) in *. set (b := boundary_energy2 ls energy (spins d')) in *.
    replace (a + - b)%Qc with (c2 * (0 + - dE))%Qc; [|transitivity (- (c2 * dE))%Qc; [ring|rewrite <- Q; ring]]. rewrite <- (Qcmult_0_l (0 + - dE)%Qc). apply Qcmult_le_compat_r; [discriminate|auto].
  - split; [auto|apply Qcle_refl].
  - exists d', k'. auto.
Qed.
End Mc.
