From Coq Require Import QArith.QArith QArith.Qcanon QArith.Qround Permutation.
From Verif Require Import Model.Base Model.Num Model.Boundary Model.Layout Model.Access Model.Sparse Model.File Model.Stencil Model.Evolve Model.Image Spec.Box Spec.Access Spec.Image
  Proof.BaseL Proof.LayoutL Proof.AccessL Proof.RegionL Proof.StencilL Proof.ImageL.
Local Open Scope list_scope.
Local Open Scope Z_scope.

Lemma fold_fields_many (n : Z) rd f is : 1 < n -> (forall i, In i is -> rd i = Some (f i)) -> fold_fields n rd is = Some (fold_left (fun s v => s + v * v)%Qc (map f is) 0%Qc).
Proof.
  intros Hn. unfold fold_fields. replace (n >? 1) with true by (symmetry; apply Z.gtb_lt; lia). generalize 0%Qc as s. induction is as [|i is IH]; intros s H; [reflexivity|]. cbn [fold_opt map fold_left].
  rewrite H by now left. cbn [bind]. rewrite IH by (intros; apply H; now right). reflexivity.
Qed.
Lemma fold_fields_few (n : Z) rd f is : n <= 1 -> zlen is <= 1 -> (forall i, In i is -> rd i = Some (f i)) -> fold_fields n rd is = Some (match map f is with v :: _ => v | [] => 0%Qc end).
Proof.
  intros Hn L H. unfold fold_fields. replace (n >? 1) with false by (symmetry; rewrite Z.gtb_ltb; apply Z.ltb_ge; lia). destruct is as [|i [|j is]]; [reflexivity| |rewrite !zlen_cons in L; pose proof (zlen_nonneg is); lia].
  cbn [fold_opt map]. rewrite H by now left. reflexivity.
Qed.
(* the sum over fields, and the root if there is not exactly one *)
Lemma fold_shown root rd f is : (forall i, In i is -> rd i = Some (f i)) ->
  exists s, fold_fields (zlen is) rd is = Some s /\ (if negb (zlen is =? 1) then root s else s) = shown root (map f is).
Proof.
  intros H. destruct (Z.le_gt_cases (zlen is) 1) as [L|L].
  - eexists. split; [apply fold_fields_few with (f := f); auto|]. destruct is as [|i [|j is]]; [reflexivity..|]. rewrite !zlen_cons in L. pose proof (zlen_nonneg is). lia.
  - eexists. split; [apply fold_fields_many with (f := f); auto|]. replace (zlen is =? 1) with false by (symmetry; apply Z.eqb_neq; lia). destruct is as [|i [|j is]]; [reflexivity|unfold zlen in L; cbn in L; lia|reflexivity].
Qed.

Lemma mem_in s i : mem s i = true <-> In i s.
Proof. unfold mem. rewrite existsb_exists. split; [intros (j & I & E); apply Z.eqb_eq in E; now subst|intros I; exists i; split; auto; apply Z.eqb_refl]. Qed.
Lemma excluded_len s n : NoDup s -> Forall (fun i => 0 <= i < n) s -> zlen (filter (fun i => negb (mem s i)) (zrange 0 n)) = n - zlen s \/ n < 0.
Proof.
  intros N F. destruct (Z.le_gt_cases 0 n) as [Hn|Hn]; [left|now right].
  assert (Permutation s (filter (mem s) (zrange 0 n))) as P.
  { apply NoDup_Permutation; auto. { apply NoDup_filter, NoDup_zrange. } intros i. rewrite filter_In, mem_in, in_zrange. rewrite Forall_forall in F. split; [intros I; split; auto|tauto]. }
  apply Permutation_length in P. assert (forall l, length l = (length (filter (mem s) l) + length (filter (fun i => negb (mem s i)) l))%nat) as A.
  { induction l as [|a l IH]; [reflexivity|]. cbn. destruct (mem s a); cbn; lia. }
  specialize (A (zrange 0 n)). pose proof (zlen_zrange 0 n Hn) as L. unfold zlen in *. lia.
Qed.

(* the fields that are shown *)
Definition selected (mode : Z) (fieldset : list Z) (fields : Z) : list Z :=
  if mode =? 2 then fieldset else if mode =? 3 then filter (fun i => negb (mem fieldset i)) (zrange 0 fields) else zrange 0 fields.
Lemma vector_value_shown root mode fieldset drawing v : 0 <= mode <= 3 -> NoDup fieldset -> Forall (fun i => 0 <= i < zlen v) fieldset ->
  (mode < 2 -> fieldset = []) -> (mode = 2 -> fieldset <> []) ->
  let vals := map (fun i => nth (Z.to_nat i) v 0%Qc) (selected mode fieldset (zlen v)) in
  vector_value root mode fieldset drawing (zlen v) v = Some (if mode =? 1 then magnitude root vals else shown root vals).
Proof.
  intros Hm N F E0 E2 vals. pose proof (zlen_nonneg v) as L0.
  assert (forall i, 0 <= i < zlen v -> get v i = Some (nth (Z.to_nat i) v 0%Qc)) as G.
  { intros i Hi. unfold get. replace (i <? 0) with false by (symmetry; apply Z.ltb_ge; lia). apply nth_error_nth'. unfold zlen in Hi. lia. }
  assert (zlen (selected mode fieldset (zlen v)) = vector_included mode fieldset (zlen v)) as Len.
  { unfold selected, vector_included. destruct (Z.eqb_spec mode 2); [reflexivity|]. destruct (Z.eqb_spec mode 3).
    - destruct (excluded_len fieldset (zlen v) N F); lia.
    - rewrite E0 by lia. rewrite zlen_zrange by lia. unfold zlen at 3. cbn. lia. }
  assert (forall i, In i (selected mode fieldset (zlen v)) -> get v i = Some (nth (Z.to_nat i) v 0%Qc)) as GS.
  { intros i Hi. apply G. unfold selected in Hi. rewrite Forall_forall in F. destruct (mode =? 2); [auto|]. destruct (mode =? 3); [apply filter_In in Hi as [Hi _]|]; now apply in_zrange. }
  destruct (fold_shown root (get v) (fun i => nth (Z.to_nat i) v 0%Qc) _ GS) as (s & S1 & S2). fold vals in S2. rewrite Len in S1, S2.
  unfold vector_value, vector_sum. assert (mode = 0 \/ mode = 1 \/ mode = 2 \/ mode = 3) as [-> | [-> | [-> | ->]]] by lia; cbn [Z.eqb Pos.eqb orb].
  - change (selected 0 fieldset (zlen v)) with (zrange 0 (zlen v)) in S1. rewrite S1. cbn [bind]. now rewrite S2.
  - rewrite (fold_fields_many 2 (get v) (fun i => nth (Z.to_nat i) v 0%Qc)); [reflexivity|lia|]. intros i Hi. apply G. now apply in_zrange.
  - change (selected 2 fieldset (zlen v)) with fieldset in *. destruct fieldset as [|f fs] eqn:EF; [now destruct E2|]. rewrite <- EF in *. assert (vector_included 2 fieldset (zlen v) = zlen fieldset) as VI by reflexivity.
    destruct (vector_included 2 fieldset (zlen v) >? 1) eqn:Q.
    + apply Z.gtb_lt in Q. rewrite (fold_fields_many 2 (get v) (fun i => nth (Z.to_nat i) v 0%Qc)) by (auto; lia). rewrite (fold_fields_many _ (get v) (fun i => nth (Z.to_nat i) v 0%Qc)) in S1 by auto. injection S1 as <-. cbn [bind]. now rewrite <- S2.
    + rewrite Z.gtb_ltb in Q. apply Z.ltb_ge in Q. rewrite VI in *. destruct fs as [|f' fs']; [|rewrite EF, !zlen_cons in Q; pose proof (zlen_nonneg fs'); lia]. unfold vals. rewrite EF. cbn [map shown]. rewrite GS by (rewrite EF; now left). reflexivity.
  - change (selected 3 fieldset (zlen v)) with (filter (fun i => negb (mem fieldset i)) (zrange 0 (zlen v))) in S1. rewrite S1. cbn [bind]. now rewrite S2.
Qed.

Lemma sread_field v i : sread num_Qc (map Some v) i = Some (field_of v i).
Proof.
  unfold sread, field_of. assert (exists r, sfind (map Some v) i = Some r /\ match r with Some p => exists it, find (fun it => fst it =? i) v = Some it /\ nth_error (map Some v) p = Some (Some it) | None => find (fun it => fst it =? i) v = None end) as (r & -> & H).
  { induction v as [|[k q] v (r & IH & IH')]; [exists None; auto|]. cbn [map sfind find fst]. destruct (k =? i) eqn:E; [exists (Some O); split; [reflexivity|]; exists (k, q); split; reflexivity|].
    rewrite IH. cbn [bind]. exists (option_map S r). split; [reflexivity|]. destruct r as [p|]; cbn [option_map]; auto. }
  cbn [bind]. destruct r as [p|]; [|now rewrite H]. destruct H as (it & -> & H). unfold svalue, sitem, get. replace (Z.of_nat p <? 0) with false by (symmetry; apply Z.ltb_ge; lia). rewrite Nat2Z.id, H. reflexivity.
Qed.
Definition sparse_shown root mode fieldset (v : list (Z * Qc)) : Qc :=
  if mode =? 2 then shown root (map (field_of v) fieldset)
  else magnitude root (map snd (if mode =? 3 then filter (fun it => negb (mem fieldset (fst it))) v else v)).
Lemma fold_all v (s : Qc) : fold_left (fun s it => (s + sq (snd it))%Qc) v s = fold_left (fun s v => (s + v * v)%Qc) (map snd (v : list (Z * Qc))) s.
Proof. revert s. induction v as [|it v IH]; intros s; [reflexivity|]. cbn. apply IH. Qed.
Lemma fold_rest fs v (s : Qc) : fold_left (fun s it => if mem fs (fst it) then s else (s + sq (snd it))%Qc) v s = fold_left (fun s v => (s + v * v)%Qc) (map snd (filter (fun it : Z * Qc => negb (mem fs (fst it))) v)) s.
Proof. revert s. induction v as [|it v IH]; intros s; [reflexivity|]. cbn [fold_left filter]. rewrite IH. destruct (mem fs (fst it)); reflexivity. Qed.
Lemma sparse_draw_shown root mode fieldset v : 0 <= mode <= 3 -> (mode < 2 -> fieldset = []) -> sparse_draw_value root mode fieldset v = Some (sparse_shown root mode fieldset v).
Proof.
  intros Hm E0. unfold sparse_draw_value, sparse_sum, sparse_shown. destruct (fold_shown root (sread num_Qc (map Some v)) (field_of v) fieldset (fun i _ => sread_field v i)) as (s & S1 & S2).
  assert (mode = 0 \/ mode = 1 \/ mode = 2 \/ mode = 3) as [-> | [-> | [-> | ->]]] by lia; cbn [Z.ltb Z.compare Pos.compare Pos.compare_cont Z.eqb Pos.eqb negb orb bind].
  - unfold magnitude. now rewrite fold_all.
  - unfold magnitude. now rewrite fold_all.
  - rewrite S1. cbn [bind]. now rewrite S2.
  - unfold magnitude. now rewrite fold_rest.
Qed.
Lemma sparse_scan_shown root mode fieldset v : 0 <= mode <= 3 -> (mode < 2 -> fieldset = []) -> ~ (mode = 3 /\ zlen fieldset = 1) ->
  sparse_scan_value root mode fieldset v = Some (sparse_shown root mode fieldset v).
Proof.
  intros Hm E0 N. rewrite <- sparse_draw_shown by auto. unfold sparse_scan_value, sparse_draw_value. destruct (sparse_sum mode fieldset v); [|reflexivity]. cbn [bind]. do 2 f_equal.
  destruct (Z.eqb_spec mode 2) as [->|M]; [reflexivity|]. cbn [negb orb]. destruct (Z.eqb_spec (zlen fieldset) 1) as [L|L]; [|reflexivity]. exfalso. destruct (Z.eq_dec mode 3); [now apply N|]. rewrite E0 in L by lia. discriminate L.
Qed.

(* ---- contours ---- *)
Lemma near_on tol v l : near tol v l = true <-> (l <> 0%Qc /\ ((v - l < tol * l /\ l - v < tol * l /\ 0 < l) \/ (v - l < tol * - l /\ l - v < tol * - l /\ l < 0)))%Qc.
Proof.
  assert (forall a, qabs a = a /\ (0 <= a)%Qc \/ qabs a = (- a)%Qc /\ (a < 0)%Qc) as AB by (intros a; unfold qabs; destruct (Qclt_le_dec a 0); auto).
  assert (forall a m, (0 < m)%Qc -> (qabs a * / m < tol)%Qc <-> (a < tol * m)%Qc /\ (- a < tol * m)%Qc) as K.
  { intros a m Hm. assert (m <> 0)%Qc as NZ by (intros ->; now apply Qclt_not_le in Hm; apply Hm; apply Qcle_refl).
    assert ((qabs a * / m < tol)%Qc <-> (qabs a < tol * m)%Qc) as ->.
    { split; intros H.
      - replace (qabs a) with (qabs a * / m * m)%Qc by (field; auto). now apply Qcmult_lt_compat_r.
      - replace tol with (tol * m * / m)%Qc by (field; auto). apply Qcmult_lt_compat_r; auto. unfold Qclt, Qcinv, Q2Qc. cbn [this]. rewrite !Qred_correct. apply Qinv_lt_0_compat. exact Hm. }
    destruct (AB a) as [[-> P]|[-> P]]; split; try tauto; intros H; split; auto.
    - eapply Qcle_lt_trans; [|exact H]. apply Qcle_trans with 0%Qc; auto. apply Qcopp_le_compat in P. exact P.
    - eapply Qclt_trans; [exact P|]. eapply Qclt_trans; [|exact H]. apply Qclt_minus_iff in P. now replace (0 + - a)%Qc with (- a)%Qc in P by ring. }
  unfold near. destruct (AB l) as [[-> P]|[-> P]].
  - destruct (Qc_eq_dec l 0) as [->|NZ]; [split; [discriminate|tauto]|]. assert (0 < l)%Qc as PL by (destruct (Qcle_lt_or_eq _ _ P); auto; congruence). rewrite recip_eq by auto. rewrite qgt_true, K by auto.
    replace (- (v - l))%Qc with (l - v)%Qc by ring. split; [tauto|]. intros (_ & [?|(_ & _ & X)]); [tauto|]. exfalso. eapply Qclt_not_le; [exact X|exact P].
  - assert (l <> 0)%Qc as NZ by (intros ->; now apply Qclt_not_le in P; apply P; apply Qcle_refl). assert (0 < - l)%Qc as PL by (apply Qclt_minus_iff in P; now replace (0 + - l)%Qc with (- l)%Qc in P by ring).
    assert (- l <> 0)%Qc as NZ' by (intros E; rewrite E in PL; now apply Qclt_not_le in PL; apply PL; apply Qcle_refl). rewrite recip_eq by auto. rewrite qgt_true, K by auto.
    replace (- (v - l))%Qc with (l - v)%Qc by ring. split; [tauto|]. intros (_ & [(_ & _ & X)|?]); [|tauto]. exfalso. eapply Qclt_not_le; [exact P|]. now apply Qclt_le_weak.
Qed.
Lemma contour_on tol levels v : existsb (near tol v) levels = true <-> on_contour tol levels v.
Proof. rewrite existsb_exists. unfold on_contour. split; intros (l & I & H); exists l; rewrite near_on in *; tauto. Qed.
Lemma mark_spec coninv tol levels v p q : mark coninv tol levels v p = q <-> (on_contour tol levels v /\ q = (if coninv then 255 else 0)) \/ (~ on_contour tol levels v /\ q = p).
Proof.
  unfold mark. pose proof (contour_on tol levels v) as C. destruct (existsb (near tol v) levels).
  - assert (on_contour tol levels v) by now apply C. split; [intros <-; now left|]. now intros [[_ ->]|[? _]].
  - assert (~ on_contour tol levels v) by (intros X; apply C in X; discriminate). split; [intros <-; now right|]. now intros [[? _]|[_ ->]].
Qed.

(* ---- the range without limits ---- *)
Lemma widen_hi l : forall lo hi, let r := fold_left widen l (lo, hi) in greatest hi l (snd r) /\ In (fst r) (lo :: l).
Proof.
  induction l as [|v l IH]; intros lo hi; cbv zeta; [cbn; repeat split; auto; constructor; auto using Qcle_refl|]. cbn [fold_left].
  assert (exists lo' hi', widen (lo, hi) v = (lo', hi') /\ ((hi' = v /\ (hi < v)%Qc /\ lo' = lo) \/ (hi' = hi /\ (v <= hi)%Qc /\ (lo' = lo \/ lo' = v)))) as (lo' & hi' & -> & C).
  { unfold widen. destruct (qgt v hi) eqn:Q1; [apply qgt_true in Q1; eauto 8|apply qgt_false in Q1; destruct (qgt lo v); eauto 10]. }
  destruct (IH lo' hi') as [[I F] J]. set (r := fold_left widen l (lo', hi')) in *. clearbody r. split.
  - inversion F as [|? ? F1 F2]; subst. split.
    + destruct I as [I|I]; [|right; now right]. destruct C as [(E & _)|(E & _)]; [right; left|left]; congruence.
    + constructor; [|constructor; auto]; destruct C as [(-> & C & _)|(-> & C & _)]; auto; eapply Qcle_trans; [|exact F1|exact C|exact F1]. now apply Qclt_le_weak.
  - destruct J as [<-|J]; [|right; now right]. destruct C as [(_ & _ & ->)|(_ & _ & [-> | ->])]; [now left|now left|right; now left].
Qed.
Lemma widen_lo l : forall lo hi u, In u l -> (u <= hi)%Qc -> (fst (fold_left widen l (lo, hi)) <= u)%Qc.
Proof.
  assert (forall l lo hi, (fst (fold_left widen l (lo, hi)) <= lo)%Qc) as M.
  { clear. induction l as [|v l IH]; intros lo hi; [apply Qcle_refl|]. cbn [fold_left]. unfold widen at 2. destruct (qgt v hi); [apply IH|]. destruct (qgt lo v) eqn:Q; [|apply IH]. apply qgt_true in Q. eapply Qcle_trans; [apply IH|]. now apply Qclt_le_weak. }
  induction l as [|v l IH]; intros lo hi u I H; [destruct I|]. cbn [fold_left]. destruct I as [->|I].
  - unfold widen at 2. replace (qgt u hi) with false by (symmetry; now apply qgt_false). destruct (qgt lo u) eqn:Q; [apply M|]. apply qgt_false in Q. eapply Qcle_trans; [apply M|exact Q].
  - unfold widen at 2. destruct (qgt v hi) eqn:Q; [apply IH; auto; apply qgt_true in Q; eapply Qcle_trans; [exact H|now apply Qclt_le_weak]|]. destruct (qgt lo v); apply IH; auto.
Qed.
(* all of the values lie strictly inside the limits that --zoom starts from, which are the wrong way round *)
Lemma scan_reversed M N v l : (v < M)%Qc -> (N < v)%Qc -> scan M N (v :: l) = fold_left widen l (M, v).
Proof. intros H1 H2. unfold scan. cbn [fold_left]. unfold widen at 2. replace (qgt v N) with true; [reflexivity|]. symmetry. now apply qgt_true. Qed.

(* ---- a slice outside the grid ---- *)
Lemma drawn_outside a0 b0 a1 b1 a2 b2 axis level : 0 <= axis <= 2 -> ~ (fst (nth (Z.to_nat axis) [(a0, b0); (a1, b1); (a2, b2)] (0, 0)) <= level < snd (nth (Z.to_nat axis) [(a0, b0); (a1, b1); (a2, b2)] (0, 0))) ->
  drawn [(a0, b0); (a1, b1); (a2, b2)] axis level = Some [].
Proof.
  intros Ha S. cbn [drawn]. replace ((0 <=? axis) && (axis <? 3)) with true by (symmetry; apply andb_true_intro; split; [apply Z.leb_le|apply Z.ltb_lt]; lia). cbn [guard bind]. f_equal.
  apply filter_none. intros x Hx. apply in_flat_map in Hx as (x2 & H2 & Hx). apply in_flat_map in Hx as (x1 & H1 & Hx). apply in_map_iff in Hx as (x0 & <- & H0).
  apply in_rev in H1. apply in_zrange in H0, H1, H2. apply Z.eqb_neq. intros E. apply S. clear S.
  assert (axis = 0 \/ axis = 1 \/ axis = 2) as [-> | [-> | ->]] by lia; change (Z.to_nat 0) with 0%nat in *; change (Z.to_nat 1) with 1%nat in *; change (Z.to_nat 2) with 2%nat in *; cbn [nth fst snd] in *; lia.
Qed.
