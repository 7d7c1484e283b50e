From Coq Require Import QArith.QArith QArith.Qcanon Sorting.Sorted Permutation.
From Verif Require Import Model.Base Model.Num Model.Layout Model.Access Model.Sparse Model.Evolve Model.Stencil Model.Topology Model.Tessellate Model.Topo Model.Report
  Spec.Box Spec.Stencil Spec.Evolve Spec.Topology Spec.Table Spec.Topo Spec.Report
  Proof.BaseL Proof.StencilL Proof.LayoutL Proof.AccessL Proof.EvolveL Proof.TopologyL Proof.TopologyF Proof.TopoL Proof.TopoF Proof.TopoA Props.Topology Proof.TopoT.
Local Open Scope Z_scope.

(* ---- numbers ---- *)
Lemma this_q_of n : this (q_of n) = inject_Z n.
Proof.
  unfold q_of. cbn [Q2Qc this]. unfold Qred, inject_Z. pose proof (Z.ggcd_gcd n 1) as G1. pose proof (Z.ggcd_correct_divisors n 1) as G2. destruct (Z.ggcd n 1) as [g [aa bb]]. cbn [fst] in G1. rewrite Z.gcd_1_r in G1. subst g. destruct G2 as [G2 G3]. rewrite Z.mul_1_l in *. now subst.
Qed.
Lemma q_of_le a b : (q_of a <= q_of b)%Qc <-> a <= b.
Proof. unfold Qcle. rewrite !this_q_of. unfold Qle, inject_Z. cbn [Qnum Qden]. lia. Qed.
Lemma q_of_lt a b : (q_of a < q_of b)%Qc <-> a < b.
Proof. unfold Qclt. rewrite !this_q_of. unfold Qlt, inject_Z. cbn [Qnum Qden]. lia. Qed.
Lemma trunc_le q q' : (q <= q')%Qc -> truncZ q <= truncZ q'.
Proof.
  unfold Qcle, Qle, truncZ. intros H. set (a := Qnum (this q)) in *. set (b := Zpos (Qden (this q))) in *. set (c := Qnum (this q')) in *. set (e := Zpos (Qden (this q'))) in *.
  assert (0 < b) by reflexivity. assert (0 < e) by reflexivity. clearbody a b c e.
  rewrite <- (Z.quot_mul_cancel_r a b e) by lia. rewrite <- (Z.quot_mul_cancel_r c e b) by lia. replace (e * b) with (b * e) by lia. apply Z.quot_le_mono; lia.
Qed.
Lemma trunc_q_of n : truncZ (q_of n) = n.
Proof. unfold truncZ. rewrite this_q_of. cbn [Qnum Qden inject_Z]. now rewrite Z.quot_1_r. Qed.

(* ---- the three loops before the analysis ---- *)
Definition bulky (it : Z * grain) : bool := negb (excluded (snd it)) && negb (qgt 1%Qc (volume (snd it))).
Definition slight (it : Z * grain) : bool := negb (excluded (snd it)) && qgt 1%Qc (volume (snd it)).
Lemma weigh_fold scale m : forall done s b q,
  fold_left (fun '(done, small, bulk, sum) it =>
    if excluded (snd it) then (done ++ [it], small, bulk, sum)
    else if qgt 1%Qc (volume (snd it)) then (done ++ [(fst it, set_exclusion true (snd it))], small + 1, bulk, sum)
    else (done ++ [it], small, bulk + 1, (sum + cell_volume scale * volume (snd it))%Qc)) m (done, s, b, q) =
  (done ++ exclude_small m, s + zlen (filter slight m), b + zlen (filter bulky m), (q + cell_volume scale * sumQ (map (fun it => volume (snd it)) (filter bulky m)))%Qc).
Proof.
  induction m as [|it m IH]; intros done s b q; cbn [fold_left].
  - unfold exclude_small. cbn. rewrite app_nil_r, !Z.add_0_r. repeat f_equal. ring.
  - unfold exclude_small. cbn [map filter]. fold (exclude_small m). destruct it as [a g]. cbn [fst snd].
    assert (bulky (a, g) = negb (excluded g) && negb (qgt 1%Qc (volume g))) as -> by reflexivity. assert (slight (a, g) = negb (excluded g) && qgt 1%Qc (volume g)) as -> by reflexivity.
    destruct (excluded g); cbn [negb andb]; [|destruct (qgt 1%Qc (volume g)); cbn [negb andb]].
    + rewrite IH, <- app_assoc. reflexivity.
    + rewrite IH, <- app_assoc, zlen_cons. cbn [app]. f_equal. f_equal. f_equal. lia.
    + rewrite IH, <- app_assoc, zlen_cons. cbn [app map sumQ snd]. f_equal; [f_equal; lia|]. ring.
Qed.
Lemma weigh_eq scale m : weigh_grains scale m =
  (exclude_small m, zlen (filter slight m), zlen (filter bulky m), (cell_volume scale * sumQ (map (fun it => volume (snd it)) (filter bulky m)))%Qc).
Proof. unfold weigh_grains. rewrite weigh_fold. rewrite !Z.add_0_l. cbn [app]. f_equal. ring. Qed.
Lemma cell_size_eq scale : cell_volume scale = cell_size scale.
Proof.
  unfold cell_volume, cell_size. symmetry. rewrite fold_symmetric; [reflexivity|intros; ring|intros; ring].
Qed.

Definition widen1 (b : Z * Z) (c : Qc) : Z * Z :=
  if qgt (q_of (fst b)) c then (truncZ c, snd b) else if qgt c (q_of (snd b)) then (fst b, truncZ c) else b.
Lemma to_int_eq c n : to_int c = Some n -> n = truncZ c.
Proof. unfold to_int. cbv zeta. destruct (guard _); cbn [bind]; congruence. Qed.
Lemma pindex_eq {T} (p : list T) k d : 0 <= k < 3 -> length p = 3%nat -> pindex p k = Some (nth (Z.to_nat k) p d).
Proof.
  intros K L. destruct p as [|p0 [|p1 [|p2 [|]]]]; try discriminate. assert (k = 0 \/ k = 1 \/ k = 2) as [-> | [-> | ->]] by lia; reflexivity.
Qed.
Lemma pset_eq {T} (p : list T) k v : 0 <= k < 3 -> pset p k v = set_nth (Z.to_nat k) p v.
Proof. intros K. assert (k = 0 \/ k = 1 \/ k = 2) as [-> | [-> | ->]] by lia; reflexivity. Qed.
Lemma widen_one c lo hi k lo' hi' : 0 <= k < 3 -> length c = 3%nat -> length lo = 3%nat -> length hi = 3%nat -> widen c (lo, hi) k = Some (lo', hi') ->
  length lo' = 3%nat /\ length hi' = 3%nat /\ forall j, (j < 3)%nat ->
    (nth j lo' 0, nth j hi' 0) = if (j =? Z.to_nat k)%nat then widen1 (nth j lo 0, nth j hi 0) (nth j c 0%Qc) else (nth j lo 0, nth j hi 0).
Proof.
  intros K Lc Ll Lh E. unfold widen in E. rewrite (pindex_eq c k 0%Qc), (pindex_eq lo k 0), (pindex_eq hi k 0) in E by auto. cbn [bind] in E. set (i := Z.to_nat k) in *. assert (i < 3)%nat as Hi by (unfold i; lia).
  unfold widen1. cbn [fst snd].
  destruct (qgt (q_of (nth i lo 0)) (nth i c 0%Qc)) eqn:Q1; [destruct (to_int _) as [n|] eqn:T; cbn [bind] in E; [|discriminate]; apply to_int_eq in T|
    destruct (qgt (nth i c 0%Qc) (q_of (nth i hi 0))) eqn:Q2; [destruct (to_int _) as [n|] eqn:T; cbn [bind] in E; [|discriminate]; apply to_int_eq in T|]].
  all: rewrite ?pset_eq in E by auto; fold i in E; injection E as <- <-; rewrite ?length_set_nth; (split; [assumption|]); (split; [assumption|]); intros j Hj; destruct (Nat.eqb_spec j i) as [->|N].
  all: rewrite ?Q1, ?Q2, ?nth_set_nth_eq by lia; rewrite ?nth_set_nth_ne by auto; congruence.
Qed.
Lemma widen_all d c lo hi lo' hi' : d = 2 \/ d = 3 -> length c = 3%nat -> length lo = 3%nat -> length hi = 3%nat -> fold_opt (widen c) (zrange 0 d) (lo, hi) = Some (lo', hi') ->
  length lo' = 3%nat /\ length hi' = 3%nat /\ forall j, (j < Z.to_nat d)%nat -> (nth j lo' 0, nth j hi' 0) = widen1 (nth j lo 0, nth j hi 0) (nth j c 0%Qc).
Proof.
  intros D Lc Ll Lh E.
  assert (exists lo1 hi1, widen c (lo, hi) 0 = Some (lo1, hi1) /\ exists lo2 hi2, widen c (lo1, hi1) 1 = Some (lo2, hi2) /\ if d =? 3 then widen c (lo2, hi2) 2 = Some (lo', hi') else (lo2, hi2) = (lo', hi')) as (lo1 & hi1 & E1 & lo2 & hi2 & E2 & E3).
  { destruct D as [-> | ->].
    - change (zrange 0 2) with [0; 1] in E. cbn [fold_opt] in E. destruct (widen c (lo, hi) 0) as [[lo1 hi1]|]; cbn [bind] in E; [|discriminate]. destruct (widen c (lo1, hi1) 1) as [[lo2 hi2]|] eqn:E2; cbn [bind] in E; [|discriminate].
      exists lo1, hi1. split; [reflexivity|]. exists lo2, hi2. split; [exact E2|]. cbn [Z.eqb Pos.eqb]. congruence.
    - change (zrange 0 3) with [0; 1; 2] in E. cbn [fold_opt] in E. destruct (widen c (lo, hi) 0) as [[lo1 hi1]|]; cbn [bind] in E; [|discriminate]. destruct (widen c (lo1, hi1) 1) as [[lo2 hi2]|] eqn:E2; cbn [bind] in E; [|discriminate].
      destruct (widen c (lo2, hi2) 2) as [[lo3 hi3]|] eqn:E3; cbn [bind] in E; [|discriminate]. exists lo1, hi1. split; [reflexivity|]. exists lo2, hi2. split; [exact E2|]. cbn [Z.eqb Pos.eqb]. congruence. }
  apply widen_one in E1 as (A1 & A2 & A3); try lia. apply widen_one in E2 as (B1 & B2 & B3); try lia. destruct D as [-> | ->]; cbn [Z.eqb Pos.eqb] in E3.
  - injection E3 as <- <-. split; [exact B1|]. split; [exact B2|]. intros j Hj. rewrite B3 by lia. assert (j = 0 \/ j = 1)%nat as [-> | ->] by lia; cbn [Nat.eqb Z.to_nat Pos.to_nat Pos.iter_op].
    + rewrite A3 by lia. reflexivity.
    + replace (1 =? Pos.to_nat 1)%nat with true by reflexivity. f_equal. rewrite A3 by lia. reflexivity.
  - apply widen_one in E3 as (C1 & C2 & C3); try lia. split; [exact C1|]. split; [exact C2|]. intros j Hj. rewrite C3 by lia. assert (j = 0 \/ j = 1 \/ j = 2)%nat as [-> | [-> | ->]] by lia.
    + change (0 =? Z.to_nat 2)%nat with false. cbv iota. rewrite B3 by lia. change (0 =? Z.to_nat 1)%nat with false. cbv iota. rewrite A3 by lia. reflexivity.
    + change (1 =? Z.to_nat 2)%nat with false. cbv iota. rewrite B3 by lia. change (1 =? Z.to_nat 1)%nat with true. cbv iota. f_equal. rewrite A3 by lia. reflexivity.
    + change (2 =? Z.to_nat 2)%nat with true. cbv iota. f_equal. rewrite B3 by lia. change (2 =? Z.to_nat 1)%nat with false. cbv iota. rewrite A3 by lia. reflexivity.
Qed.
Lemma padd_nth p q k : length p = 3%nat -> length q = 3%nat -> length (padd p q) = 3%nat /\ ((k < 3)%nat -> nth k (padd p q) 0%Qc = (nth k p 0 + nth k q 0)%Qc).
Proof.
  intros P Q. destruct p as [|p0 [|p1 [|p2 [|]]]]; try discriminate. destruct q as [|q0 [|q1 [|q2 [|]]]]; try discriminate. split; [reflexivity|].
  intros K. assert (k = 0 \/ k = 1 \/ k = 2)%nat as [-> | [-> | ->]] by lia; reflexivity.
Qed.
Definition kept (it : Z * grain) : bool := negb (excluded (snd it)).
Lemma centres_fold d (mid : nat -> Z -> Qc) m : d = 2 \/ d = 3 ->
  (forall it, In it m -> excluded (snd it) = false -> get_centroid (snd it) = Some (map (fun k => mid k (fst it)) [0; 1; 2]%nat)) ->
  forall b sum lo hi b' sum' lo' hi', length sum = 3%nat -> length lo = 3%nat -> length hi = 3%nat ->
  fold_opt (fun '(bulk, sum, box) it =>
    if excluded (snd it) then Some (bulk, sum, box)
    else
      do center <- get_centroid (snd it);
      do box <- fold_opt (widen center) (zrange 0 d) box;
      Some (bulk + 1, padd sum center, box)) m (b, sum, (lo, hi)) = Some (b', sum', (lo', hi')) ->
  b' = b + zlen (filter kept m) /\ length sum' = 3%nat /\ length lo' = 3%nat /\ length hi' = 3%nat /\
  (forall k, (k < 3)%nat -> nth k sum' 0%Qc = (nth k sum 0 + sumQ (map (fun it => mid k (fst it)) (filter kept m)))%Qc) /\
  forall k, (k < Z.to_nat d)%nat -> (nth k lo' 0, nth k hi' 0) = fold_left widen1 (map (fun it => mid k (fst it)) (filter kept m)) (nth k lo 0, nth k hi 0).
Proof.
  intros D. induction m as [|it m IH]; intros C b sum lo hi b' sum' lo' hi' Ls Ll Lh E; cbn [fold_opt] in E.
  - injection E as <- <- <- <-. split; [change (zlen (filter kept [])) with 0; lia|]. do 3 (split; [assumption|]). split; [|reflexivity]. intros k _. cbn [filter map sumQ]. ring.
  - cbn [filter]. assert (kept it = negb (excluded (snd it))) as -> by reflexivity. destruct (excluded (snd it)) eqn:X; cbn [bind] in E; cbn [negb].
    + apply (IH (fun i Hi => C i (or_intror Hi)) _ _ _ _ _ _ _ _ Ls Ll Lh E).
    + rewrite (C it (or_introl eq_refl) X) in E. cbn [bind] in E. set (c := map _ [0; 1; 2]%nat) in E. destruct (fold_opt (widen c) (zrange 0 d) (lo, hi)) as [[lo1 hi1]|] eqn:W; cbn [bind] in E; [|discriminate].
      apply widen_all in W as (W1 & W2 & W3); auto. assert (length c = 3%nat) as Lc by reflexivity. destruct (padd_nth sum c 0 Ls Lc) as [Lp _].
      apply (IH (fun i Hi => C i (or_intror Hi))) in E as (E1 & E2 & E3 & E4 & E5 & E6); auto. rewrite zlen_cons. split; [lia|]. do 3 (split; [assumption|]). cbn [map sumQ fold_left].
      assert (forall k, (k < 3)%nat -> nth k c 0%Qc = mid k (fst it)) as Nc by (intros k K; assert (k = 0 \/ k = 1 \/ k = 2)%nat as [-> | [-> | ->]] by lia; reflexivity). split.
      * intros k K. rewrite E5 by auto. rewrite (proj2 (padd_nth sum c k Ls Lc) K), Nc by auto. ring.
      * intros k K. rewrite E6 by auto. rewrite W3 by auto. rewrite Nc by (destruct D as [-> | ->]; cbn in K; lia). reflexivity.
Qed.

(* ---- the span on one axis ---- *)
Lemma span_low cs : forall b, fst (fold_left widen1 cs b) <= fst b /\ Forall (fun c => fst (fold_left widen1 cs b) <= truncZ c) cs /\
  (fst (fold_left widen1 cs b) = fst b \/ exists c, In c cs /\ fst (fold_left widen1 cs b) = truncZ c).
Proof.
  induction cs as [|c cs IH]; intros b; cbn [fold_left]; [split; [lia|split; [constructor|auto]]|]. destruct (IH (widen1 b c)) as (I1 & I2 & I3). set (r := fst (fold_left widen1 cs (widen1 b c))) in *.
  assert (fst (widen1 b c) <= fst b /\ fst (widen1 b c) <= truncZ c /\ (fst (widen1 b c) = fst b \/ fst (widen1 b c) = truncZ c)) as (S1 & S2 & S3).
  { unfold widen1. destruct (qgt (q_of (fst b)) c) eqn:Q; cbn [fst].
    - apply qgt_true in Q. apply Qclt_le_weak, trunc_le in Q. rewrite trunc_q_of in Q. repeat split; auto; lia.
    - apply qgt_false, trunc_le in Q. rewrite trunc_q_of in Q. destruct (qgt c (q_of (snd b))); cbn [fst]; repeat split; auto; lia. }
  split; [lia|]. split; [constructor; [lia|exact I2]|]. destruct I3 as [I3|(c' & H & I3)]; [|right; exists c'; split; [now right|exact I3]]. rewrite I3. destruct S3 as [S3|S3]; [now left|right; exists c; split; [now left|exact S3]].
Qed.
Lemma span_high cs : forall b, snd b <= snd (fold_left widen1 cs b) /\ (snd (fold_left widen1 cs b) = snd b \/ exists c, In c cs /\ snd (fold_left widen1 cs b) = truncZ c).
Proof.
  induction cs as [|c cs IH]; intros b; cbn [fold_left]; [split; [lia|auto]|]. destruct (IH (widen1 b c)) as (I1 & I3). set (r := snd (fold_left widen1 cs (widen1 b c))) in *.
  assert (snd b <= snd (widen1 b c) /\ (snd (widen1 b c) = snd b \/ snd (widen1 b c) = truncZ c)) as (S1 & S3).
  { unfold widen1. destruct (qgt (q_of (fst b)) c); cbn [snd]; [split; [lia|auto]|]. destruct (qgt c (q_of (snd b))) eqn:Q; cbn [snd]; [|split; [lia|auto]].
    apply qgt_true in Q. apply Qclt_le_weak, trunc_le in Q. rewrite trunc_q_of in Q. split; [lia|auto]. }
  split; [lia|]. destruct I3 as [I3|(c' & H & I3)]; [|right; exists c'; split; [now right|exact I3]]. rewrite I3. destruct S3 as [S3|S3]; [now left|right; exists c; split; [now left|exact S3]].
Qed.
(* centres that are not below the least one so far raise the upper end *)
Lemma span_high_all cs : forall b, Forall (fun c => q_of (fst b) <= c)%Qc cs -> fst (fold_left widen1 cs b) = fst b /\ Forall (fun c => truncZ c <= snd (fold_left widen1 cs b)) cs.
Proof.
  induction cs as [|c cs IH]; intros b H; cbn [fold_left]; [split; [reflexivity|constructor]|]. inversion H as [|? ? H1 H2]; subst.
  assert (widen1 b c = if qgt c (q_of (snd b)) then (fst b, truncZ c) else b) as W by (unfold widen1; apply qgt_false in H1; now rewrite H1).
  assert (fst (widen1 b c) = fst b) as Fb by (rewrite W; destruct (qgt c _); reflexivity). destruct (IH (widen1 b c)) as [I1 I2]; [now rewrite Fb|]. split; [congruence|]. constructor; [|exact I2].
  destruct (span_high cs (widen1 b c)) as [S _]. enough (truncZ c <= snd (widen1 b c)) by lia. rewrite W. destruct (qgt c (q_of (snd b))) eqn:Q; cbn [snd]; [lia|]. apply qgt_false, trunc_le in Q. now rewrite trunc_q_of in Q.
Qed.
Lemma span_falls cs : forall b, Forall (fun c => c < q_of (fst b))%Qc cs -> StronglySorted (fun c c' => c' < q_of (truncZ c))%Qc cs -> snd (fold_left widen1 cs b) = snd b.
Proof.
  induction cs as [|c cs IH]; intros b H S; cbn [fold_left]; [reflexivity|]. inversion H as [|? ? H1 H2]; subst. apply StronglySorted_inv in S as [S1 S2].
  assert (widen1 b c = (truncZ c, snd b)) as W by (unfold widen1; apply qgt_true in H1; now rewrite H1). rewrite W. now rewrite IH.
Qed.

(* ---- counting ---- *)
Lemma map_fst_filter {V} (p : Z * V -> bool) (q : Z -> bool) m : (forall it, In it m -> p it = q (fst it)) -> map fst (filter p m) = filter q (map fst m).
Proof.
  induction m as [|it m IH]; intros H; cbn [filter map]; [reflexivity|]. rewrite (H it (or_introl eq_refl)), <- IH by (intros; apply H; now right). destruct (q (fst it)); reflexivity.
Qed.
Lemma zlen_map {X Y} (f : X -> Y) l : zlen (map f l) = zlen l.
Proof. unfold zlen. now rewrite map_length. Qed.
Lemma sorted_filter (p : Z -> bool) l : StronglySorted Z.lt l -> StronglySorted Z.lt (filter p l).
Proof.
  induction l as [|x l IH]; intros S; cbn [filter]; [constructor|]. apply StronglySorted_inv in S as [S1 S2]. destruct (p x); [|auto]. constructor; [auto|]. rewrite Forall_forall in *. intros y Hy. apply filter_In in Hy. now apply S2.
Qed.
Lemma same_len {X} (l l' : list X) : NoDup l -> NoDup l' -> (forall x, In x l <-> In x l') -> zlen l = zlen l'.
Proof. intros N N' H. unfold zlen. f_equal. apply Permutation_length. now apply NoDup_Permutation. Qed.
Lemma sorted_nodup l : StronglySorted Z.lt l -> NoDup l.
Proof. induction 1; constructor; auto. rewrite Forall_forall in *. intros H1. specialize (H0 _ H1). lia. Qed.

Lemma exclusions_fold d ms (ex : Z -> bool) (ne : Z -> Z) : (forall it, In it ms -> exists g st, compute_topology d (snd it) = Some (g, 0 :: st) /\ excluded g = ex (fst it) /\ num_edges g = ne (fst it)) ->
  forall f e, fold_opt (fun '(no_faces, no_edges) it =>
    do r <- compute_topology d (snd it);
    let '(g, stats) := r in
    do s0 <- get stats 0;
    let no_faces := if (s0 =? -1) && negb (excluded g) then no_faces + 1 else no_faces in
    let g := if s0 =? -1 then set_exclusion true g else g in
    let no_edges := if (num_edges g =? 0) && negb (excluded g) then no_edges + 1 else no_edges in
    Some (no_faces, no_edges)) ms (f, e) = Some (f, e + zlen (filter (fun a => (ne a =? 0) && negb (ex a)) (map fst ms))).
Proof.
  induction ms as [|it ms IH]; intros H f e; cbn [fold_opt map filter]; [change (zlen []) with 0; now rewrite Z.add_0_r|].
  destruct (H it (or_introl eq_refl)) as (g & st & C & X & N). rewrite C. cbn [bind]. change (get (0 :: st) 0) with (Some 0). cbn [bind]. change (0 =? -1) with false. cbn [andb]. cbv zeta iota. rewrite X, N.
  rewrite IH by (intros i Hi; apply H; now right). destruct ((ne (fst it) =? 0) && negb (ex (fst it))); [rewrite zlen_cons|]; do 2 f_equal; lia.
Qed.
Lemma violations_fold axs ms (ex pl sm : Z -> bool) :
  (forall it, In it ms -> excluded (snd it) = ex (fst it) /\ (ex (fst it) = false -> is_plateaunic (dimension axs) (snd it) = pl (fst it) /\ if dimension axs =? 2 then sm (fst it) = false else breaks_smith (snd it) = Some (sm (fst it)))) ->
  forall eu s p, exists eu', fold_opt (fun '(euler, smith, plateau) it =>
    let g := snd it in
    if excluded g then Some (euler, smith, plateau)
    else
      let plateau := if is_plateaunic (dimension axs) g then plateau else plateau + 1 in
      if dimension axs =? 2 then Some (if get_euler g =? 1 then euler else euler + 1, smith, plateau)
      else
        do b <- breaks_smith g;
        Some (if get_euler g =? 2 then euler else euler + 1, if b then smith + 1 else smith, plateau)) ms (eu, s, p) =
    Some (eu', s + zlen (filter (fun a => negb (ex a) && sm a) (map fst ms)), p + zlen (filter (fun a => negb (ex a) && negb (pl a)) (map fst ms))).
Proof.
  intros H. match goal with |- forall eu s p, exists eu', fold_opt ?f _ _ = _ => set (F0 := f) end.
  assert (forall eu s p it, F0 (eu, s, p) it = if excluded (snd it) then Some (eu, s, p) else if dimension axs =? 2 then Some (if get_euler (snd it) =? 1 then eu else eu + 1, s, if is_plateaunic (dimension axs) (snd it) then p else p + 1)
    else do b <- breaks_smith (snd it); Some (if get_euler (snd it) =? 2 then eu else eu + 1, if b then s + 1 else s, if is_plateaunic (dimension axs) (snd it) then p else p + 1)) as EF by reflexivity.
  clearbody F0. revert H. induction ms as [|it ms IH]; intros H eu s p; cbn [fold_opt map filter]; [exists eu; change (zlen []) with 0; now rewrite !Z.add_0_r|].
  destruct (H it (or_introl eq_refl)) as (X & N). rewrite EF, X. specialize (IH (fun i Hi => H i (or_intror Hi))).
  destruct (ex (fst it)); cbn [bind negb andb]; [apply IH|]. destruct (N eq_refl) as [N1 N2]. rewrite N1. destruct (dimension axs =? 2).
  - cbn [bind]. rewrite N2. destruct (IH (if get_euler (snd it) =? 1 then eu else eu + 1) s (if pl (fst it) then p else p + 1)) as (eu' & ->). exists eu'. do 2 f_equal. destruct (pl (fst it)); cbn [negb]; [|rewrite zlen_cons]; lia.
  - rewrite N2. cbn [bind]. destruct (IH (if get_euler (snd it) =? 2 then eu else eu + 1) (if sm (fst it) then s + 1 else s) (if pl (fst it) then p else p + 1)) as (eu' & ->). exists eu'. f_equal. f_equal; [f_equal|].
    + destruct (sm (fst it)); [rewrite zlen_cons|]; lia.
    + destruct (pl (fst it)); cbn [negb]; [|rewrite zlen_cons]; lia.
Qed.

(* ---- Smith's rule ---- *)
Lemma qgt_hundredth y n : 0 < n -> qgt (q_of y / q_of n)%Qc (q_of 1 / q_of 100)%Qc = (n <? 100 * y).
Proof.
  intros N. destruct (Z.ltb_spec n (100 * y)) as [L|L]; [apply qgt_true|apply qgt_false]; unfold Qclt, Qcle, Qcdiv, Qcmult, Qcinv; cbn [this Q2Qc]; rewrite !Qred_correct, !this_q_of; destruct n as [|n|n]; try lia; unfold Qlt, Qle, Qmult, Qinv, inject_Z; cbn [Qnum Qden]; lia.
Qed.
Lemma q_of_mult a b : q_of (a * b) = (q_of a * q_of b)%Qc.
Proof. unfold q_of, Qcmult. apply Qc_is_canon. cbn [this Q2Qc]. rewrite !Qred_correct, inject_Z_mult. reflexivity. Qed.
Lemma q_of_opp a : q_of (- a) = (- q_of a)%Qc.
Proof. unfold q_of, Qcopp. apply Qc_is_canon. cbn [this Q2Qc]. rewrite !Qred_correct, inject_Z_opp. reflexivity. Qed.
Lemma smith_rule g g' f e : 0 < f -> num_faces g = f -> get_pbar 3 g = Some (g', q_of (2 * e) / q_of f)%Qc -> breaks_smith g = Some (f <? 200 * Z.abs (3 * f - 6 - e)).
Proof.
  intros Pf Nf P. unfold breaks_smith. assert (q_of f <> 0%Qc) as Nz by (intros K; apply q_of_0 in K; lia). rewrite Nf, recip_eq by auto. cbn [bind]. rewrite P. cbn [bind snd]. cbv zeta. f_equal.
  set (y := 2 * (3 * f - 6 - e)). assert (q_of 6 - q_of 12 * / q_of f - q_of (2 * e) / q_of f = q_of y / q_of f)%Qc as ->.
  { assert (q_of y = q_of 6 * q_of f - q_of 12 - q_of (2 * e))%Qc as ->. { unfold Qcminus. rewrite <- q_of_mult, <- !q_of_opp, <- !q_of_plus. f_equal. unfold y. lia. } field. exact Nz. }
  destruct (qgt 0%Qc (q_of y / q_of f)%Qc) eqn:Q.
  - assert (y < 0) as Y. { apply qgt_true in Q. unfold Qclt, Qcdiv, Qcmult, Qcinv in Q; cbn [this Q2Qc] in Q. rewrite !Qred_correct, !this_q_of in Q. destruct f as [|f|f]; try lia. unfold Qlt, Qmult, Qinv, inject_Z in Q; cbn [Qnum Qden] in Q. lia. }
    replace (- (q_of y / q_of f))%Qc with (q_of (- y) / q_of f)%Qc by (rewrite q_of_opp; field; exact Nz). rewrite qgt_hundredth by auto. f_equal. unfold y in *. lia.
  - assert (0 <= y) as Y. { apply qgt_false in Q. unfold Qcle, Qcdiv, Qcmult, Qcinv in Q; cbn [this Q2Qc] in Q. rewrite !Qred_correct, !this_q_of in Q. destruct f as [|f|f]; try lia. unfold Qle, Qmult, Qinv, inject_Z in Q; cbn [Qnum Qden] in Q. lia. }
    rewrite qgt_hundredth by auto. f_equal. unfold y in *. lia.
Qed.
(* a second edge at every face: three edges and three faces at least *)
Lemma another {X} (eqd : forall x y : X, {x = y} + {x <> y}) (l : list X) x : NoDup l -> In x l -> zlen l <> 1 -> exists y, In y l /\ y <> x.
Proof.
  intros N I L. destruct l as [|a [|b l]]; [destruct I|now elim L|]. destruct (eqd a x) as [->|Na]; [|exists a; split; [now left|auto]]. exists b. split; [cbn; auto|]. inversion N as [|? ? H _]; subst. intros ->. apply H. now left.
Qed.
Lemma at_least (l : list Z) a b c : In a l -> In b l -> In c l -> a <> b -> a <> c -> b <> c -> 3 <= zlen l.
Proof.
  intros Ia Ib Ic H1 H2 H3. assert (NoDup [a; b; c]) as N by (repeat constructor; cbn; intuition congruence). pose proof (NoDup_incl_length N (l' := l)) as K. unfold zlen. cbn in K. enough (3 <= length l)%nat by lia. apply K. intros z [<-|[<-|[<-|[]]]]; auto.
Qed.
Lemma at_least_l (l : list (list Z)) a b c : In a l -> In b l -> In c l -> a <> b -> a <> c -> b <> c -> 3 <= zlen l.
Proof.
  intros Ia Ib Ic H1 H2 H3. assert (NoDup [a; b; c]) as N by (repeat constructor; cbn; intuition congruence). pose proof (NoDup_incl_length N (l' := l)) as K. unfold zlen. cbn in K. enough (3 <= length l)%nat by lia. apply K. intros z [<-|[<-|[<-|[]]]]; auto.
Qed.
Lemma three_of_each h : paired h -> boundaries h <> [] -> faces_with h 1 = 0 -> 3 <= zlen (boundaries h) /\ 3 <= zlen (neighbours h).
Proof.
  intros P B W. assert (exists e0, In e0 (boundaries h)) as (e0 & He) by (destruct (boundaries h) as [|e0 l]; [now elim B|exists e0; now left]). destruct (P e0 He) as (a & b & E0 & Lt & Ia & Ib). subst e0.
  assert (NoDup (boundaries h)) as Nb by apply NoDup_nodup.
  assert (forall f, In f (neighbours h) -> sides h f <> 1) as Two.
  { intros f If K. unfold faces_with in W. assert (In f (filter (fun f => sides h f =? 1) (neighbours h))) as I by (apply filter_In; split; [auto|now apply Z.eqb_eq]). destruct (filter _ _); [destruct I|]. rewrite zlen_cons in W. pose proof (zlen_nonneg l). lia. }
  assert (forall f, In f [a; b] -> In f (neighbours h) -> exists e, In e (boundaries h) /\ In f e /\ e <> [a; b]) as More.
  { intros f If In_. pose proof (Two f In_) as K. unfold sides in K. destruct (another (list_eq_dec Z.eq_dec) (filter (fun e => if in_dec Z.eq_dec f e then true else false) (boundaries h)) [a; b]) as (e & Ie & Ne); [now apply NoDup_filter| |exact K|].
    - apply filter_In. split; [exact He|]. destruct (in_dec Z.eq_dec f [a; b]); auto.
    - apply filter_In in Ie as [I1 I2]. exists e. split; [exact I1|]. destruct (in_dec Z.eq_dec f e); [auto|discriminate]. }
  destruct (More a (or_introl eq_refl) Ia) as (e1 & I1 & A1 & N1). destruct (More b (or_intror (or_introl eq_refl)) Ib) as (e2 & I2 & B2 & N2).
  destruct (P e1 I1) as (a1 & b1 & -> & L1 & J1 & K1). destruct (P e2 I2) as (a2 & b2 & -> & L2 & J2 & K2).
  assert ([a1; b1] <> [a2; b2]) as N3. { intros K. injection K as <- <-. apply N1. destruct A1 as [<-|[<-|[]]]; destruct B2 as [B2|[B2|[]]]; subst; try lia; auto. }
  split; [apply (at_least_l _ [a; b] [a1; b1] [a2; b2]); auto|].
  destruct A1 as [<-|[<-|[]]].
  - apply (at_least _ a1 b b1); auto; try lia. intros <-. now apply N1.
  - apply (at_least _ b1 b a1); auto; try lia.
Qed.

Section Run.
Context (ls : list limits) (data : list (sobj Qc)) (F : list Z -> list (Z * Qc)) (G : list Z -> Z) (A : list Z -> list Z).
Context (Hd : length ls = 2%nat \/ length ls = 3%nat) (Hl : lims_ok ls) (HM : microstructure ls F G A) (HG : grid_of ls data F).
Context (xs : list (list Z)) (Hxs : all_nodes (map l_x0 ls) (map l_x1 ls) (fun _ => True) xs) (scale : list Qc).
Local Notation axs := (lay 0 ls).
Local Notation d := (zlen ls).
Local Notation hist := (history d F G A xs).
Local Notation heavy := (fun a => negb (qgt 1%Qc (amount F xs a))).
Local Notation light := (fun a => qgt 1%Qc (amount F xs a)).

Lemma d_cases : d = 2 \/ d = 3.
Proof. unfold zlen. destruct Hd; lia. Qed.
Lemma hist_moment3 k a : (k < 3)%nat -> first_moment k (hist a) = amount_moment F xs k a.
Proof.
  intros K. destruct (Nat.lt_ge_cases k (Z.to_nat d)) as [L|L]; [now apply (hist_moment ls F G A Hd xs Hxs)|].
  rewrite (proj2 (history_mass ls F G A xs a) k). unfold amount_moment. f_equal. apply map_ext_in. intros x Hx. f_equal. apply (box_xs ls Hd xs Hxs) in Hx. apply local_len in Hx.
  assert (length ls = 2%nat) as E by (unfold zlen in L; destruct Hd; lia). assert (k = 2)%nat as -> by (unfold zlen in L; lia). rewrite E in Hx. destruct x as [|x0 [|x1 [|x2 x]]]; cbn in Hx; try discriminate. reflexivity.
Qed.
Lemma grain_facts m it : state ls F G A xs m -> In it m -> excluded (snd it) = false /\ volume (snd it) = amount F xs (fst it) /\
  grain_after (fst it) (sized (hist (fst it))) = Some (if light (fst it) then set_exclusion true (snd it) else snd it) /\
  (amount F xs (fst it) <> 0%Qc -> get_centroid (snd it) = Some (map (fun k => middle F xs k (fst it)) [0; 1; 2]%nat)).
Proof.
  intros St I. destruct it as [a g]. apply (grain_iff ls F G A Hd HM xs Hxs m a g St) in I as [_ Ga]. cbn [fst snd].
  destruct (small_after ls F G A Hd HM xs Hxs a g Ga) as (M & X & V & Gs). rewrite (hist_total ls F G A xs) in V. split; [exact X|]. split; [exact V|]. rewrite X, V in Gs. cbn [negb andb] in Gs. split; [exact Gs|].
  intros N0. destruct (history_typed ls F G A Hd HM xs Hxs a) as [W P]. rewrite (C66_centroid a (hist a) g W); [|eapply Forall_impl; [|exact P]; intros []; cbn; tauto|exact Ga|now rewrite (hist_total ls F G A xs)].
  f_equal. apply map_ext_in. intros k Hk. unfold middle. rewrite (hist_total ls F G A xs), hist_moment3 by (cbn in Hk; lia). reflexivity.
Qed.
Lemma ids_present m a : state ls F G A xs m -> In a (map fst m) <-> present F xs a.
Proof.
  intros St. split.
  - intros Ia. apply in_map_iff in Ia as ([a' g0] & Ea & Ia). cbn in Ea. subst a'. apply (grain_iff ls F G A Hd HM xs Hxs m a g0 St) in Ia as [Ia _]. exact Ia.
  - intros St'. destruct (history_typed ls F G A Hd HM xs Hxs a) as [_ Pl]. apply in_map_iff. exists (a, made a (hist a)). split; [reflexivity|].
    apply (grain_iff ls F G A Hd HM xs Hxs m a _ St). split; [exact St'|]. now apply made_after.
Qed.
Lemma heavy_list m : state ls F G A xs m -> listing (large F xs) (filter heavy (map fst m)) /\ listing (tiny F xs) (filter light (map fst m)).
Proof.
  intros St. pose proof (state_sorted ls F G A xs m St) as S. split; (split; [now apply sorted_filter|]); intros a; rewrite filter_In, (ids_present m a St).
  - unfold large. rewrite negb_true_iff, qgt_false. tauto.
  - unfold tiny. rewrite qgt_true. tauto.
Qed.
Lemma edges_hist a : edges_of ls G A a (boundaries (hist a)).
Proof. split; [apply NoDup_nodup|]. intros e. apply (history_edges ls F G A Hd xs Hxs). Qed.
Lemma edges_len a es : edges_of ls G A a es -> zlen es = zlen (boundaries (hist a)).
Proof. intros [N H]. apply same_len; [exact N|apply NoDup_nodup|]. intros e. rewrite H. symmetry. apply (history_edges ls F G A Hd xs Hxs). Qed.
Lemma faces_len a fs : d = 3 -> faces_of ls G A a fs -> zlen fs = zlen (neighbours (hist a)).
Proof.
  intros D [N H]. apply same_len; [now apply sorted_nodup|apply NoDup_nodup|]. intros b. rewrite H, (history_faces ls F G A Hd xs Hxs). rewrite D. change (3 - 1) with 2. tauto.
Qed.
Lemma corners_len a vs : d = 2 -> plane_corners_of ls A a vs -> zlen vs = zlen (nodup (list_eq_dec Z.eq_dec) (reported (hist a))).
Proof.
  intros D [N H]. apply same_len; [exact N|apply NoDup_nodup|]. intros b. rewrite H, nodup_In, (history_vertices ls F G A Hd xs Hxs). tauto.
Qed.
Lemma sized_paired a : d = 3 -> paired (sized (hist a)).
Proof.
  intros D e He. destruct (sized_same (hist a)) as (Z1 & Z2 & _). rewrite Z1, Z2 in *. now apply (hist_paired ls F G A Hd HM xs Hxs a D).
Qed.
Lemma faces_few g h a : inv h g -> neighbours h = neighbours (hist a) -> num_faces g <= 65536.
Proof.
  intros I E. unfold num_faces. assert (forall b, In b (faces g) -> 0 <= b < 65536) as R.
  { intros b Hb. rewrite (i_faces_in _ _ I), E, (history_faces ls F G A Hd xs Hxs) in Hb. destruct Hb as (_ & x & B & _ & _ & Hb). destruct (HM x B) as (_ & _ & _ & Sx). apply Sx in Hb as (y & By & _ & Gy & _). destruct (HM y By) as ((_ & R & _) & (l1 & v & l2 & El & _) & _). subst b.
    rewrite Forall_forall in R. specialize (R (G y, v)). cbn [fst] in R. apply R. rewrite El. apply in_elt. }
  pose proof (NoDup_incl_length (sorted_nodup _ (sorted_of_inc _ (i_faces _ _ I))) (l' := zrange 0 65536)) as K. assert (incl (faces g) (zrange 0 65536)) as J by (intros b Hb; apply in_zrange; now apply R). specialize (K J).
  pose proof (TopoA.zlen_zrange 0 65536). unfold zlen in *. lia.
Qed.

Definition no_edge (a : Z) : bool := zlen (boundaries (hist a)) =? 0.
Definition plateau_ok (a : Z) : bool :=
  if d =? 2 then zlen (nodup (list_eq_dec Z.eq_dec) (reported (hist a))) =? zlen (boundaries (hist a)) else zlen (boundaries (hist a)) =? 3 * zlen (neighbours (hist a)) - 6.
Definition smith_bad (a : Z) : bool :=
  if d =? 2 then false else zlen (neighbours (hist a)) <? 200 * Z.abs (3 * zlen (neighbours (hist a)) - 6 - zlen (boundaries (hist a))).
Lemma judged p n it : analysed ls F G A xs p n it -> excluded (snd it) = no_edge (fst it) || light (fst it) /\
  (no_edge (fst it) || light (fst it) = false -> is_plateaunic d (snd it) = plateau_ok (fst it) /\ (if d =? 2 then smith_bad (fst it) = false else breaks_smith (snd it) = Some (smith_bad (fst it)))).
Proof.
  destruct it as [a g']. intros An. cbn [fst snd]. destruct (analysed_facts ls F G A Hd HM xs Hxs p n a g' An) as (I & M & V & X & NE & NF & _ & _). rewrite (hist_total ls F G A xs) in X.
  split; [exact X|]. intros Ex. unfold no_edge in Ex. apply orb_false_iff in Ex as [Ne _]. destruct An as (g0 & g & st & E & _ & _ & C & Sn & _). cbn [fst snd] in *.
  assert (flagged g = g) as Fg. { unfold flagged. destruct (flagged_shape g) as (_ & F2 & _). rewrite Sn in NE. unfold num_edges in *. rewrite F2 in NE. now rewrite NE, Ne. }
  assert (g' = g) as -> by congruence. clear Sn Fg. unfold plateau_ok, smith_bad. destruct (sized_same (hist a)) as (Z1 & Z2 & _ & _ & Z5 & _). apply Z.eqb_neq in Ne.
  unfold is_plateaunic. destruct d_cases as [D|D]; rewrite D in C; [assert (d =? 2 = true) as -> by (rewrite D; reflexivity)|assert (d =? 2 = false) as -> by (rewrite D; reflexivity)].
  - split; [|reflexivity]. fold (num_edges g). rewrite NE. f_equal.
    assert (Forall (fun a => match a with ATopology dim => dim = 2 | _ => True end) (sized (hist a))) as Pt.
    { unfold sized. apply Forall_app. split; [|destruct (qgt 1%Qc (mass (hist a))); repeat constructor]. destruct (history_typed ls F G A Hd HM xs Hxs a) as [_ P]. eapply Forall_impl; [|exact P]. intros []; cbn; tauto. }
    destruct (C43_plane a (sized (hist a)) g0 g _ (sized_typed ls F G A Hd HM xs Hxs a) Pt E C) as (_ & _ & Nv & Iv & _). rewrite Z5 in Iv. apply same_len; [exact Nv|apply NoDup_nodup|]. intros v. rewrite nodup_In. apply Iv.
  - assert (boundaries (sized (hist a)) <> []) as Nb by (rewrite Z2; intros K; rewrite K in Ne; now apply Ne).
    destruct (C43_pvector a (sized (hist a)) g0 g _ (sized_typed ls F G A Hd HM xs Hxs a) E Nb C) as (_ & _ & _ & _ & _ & W1).
    destruct (three_of_each _ (sized_paired a D) Nb W1) as [T1 T2].
    destruct (C43_vertices a (sized (hist a)) g0 (sized_typed ls F G A Hd HM xs Hxs a) E (sized_paired a D) T1 T2) as [_ Vx]. destruct (Vx g _ C) as (_ & _ & _ & Pb). rewrite Z1, Z2 in *. split.
    + fold (num_edges g) (num_faces g). rewrite NE, NF. f_equal. apply Z.mod_small. pose proof (faces_few g _ a I Z1). lia.
    + apply (smith_rule g g); [lia|exact NF|exact Pb].
Qed.

Lemma screen_spec r : screen axs data scale = Some r -> exists ids,
  listing (present F xs) ids /\ (exists hd bulk rest span, mmsp2topo axs data = Some (hd, bulk, rest, span)) /\
  let big := filter heavy ids in
  r_bulk r = zlen big /\ r_surface r = zlen ids - zlen big /\ r_zero_volume r = zlen (filter light ids) /\
  (big <> [] -> r_volume r = Some (cell_size scale * sumQ (map (amount F xs) big) / q_of (zlen big))%Qc) /\
  (big <> [] -> r_centre r = Some (map (fun k => sumQ (map (middle F xs k) big) / q_of (zlen big))%Qc [0; 1; 2]%nat)) /\
  (forall k, (k < Z.to_nat d)%nat -> (nth k (r_min r) 0, nth k (r_max r) 0) = fold_left widen1 (map (middle F xs k) big) (1000, 0)) /\
  r_zero_faces r = 0 /\ r_boundary r = 0 /\ r_zone r = 0 /\ r_zero_edges r = zlen (filter no_edge big) /\
  r_smith r = zlen (filter (fun a => negb (no_edge a) && smith_bad a) big) /\ r_plateau r = zlen (filter (fun a => negb (no_edge a) && negb (plateau_ok a)) big) /\
  r_smith_of r = zlen big /\ r_plateau_of r = zlen ids.
Proof.
  intros E. unfold screen in E. destruct (scan axs data) as [[m s]|] eqn:S; cbn [bind fst] in E; [|discriminate]. rewrite weigh_eq in E.
  destruct (scan_ok ls data F G A Hd Hl HM HG xs Hxs (scan_conv ls data F G A Hd Hl HM HG xs Hxs _ S)) as (m0 & S' & St). rewrite S in S'. injection S' as -> Es.
  pose proof (fun it => grain_facts m0 it St) as Gf.
  destruct (centres axs (exclude_small m0)) as [[[b sum] [lo hi]]|] eqn:Ce; cbn [bind] in E; [|discriminate].
  destruct (count_exclusions axs (exclude_small m0)) as [[nf ne]|] eqn:Cx; cbn [bind] in E; [|discriminate].
  destruct (analyse axs (exclude_small m0)) as [[[m' p] n]|] eqn:An; cbn [bind] in E; [|discriminate].
  destruct (table axs m' p n) as [[bk rs]|] eqn:T; cbn [bind] in E; [|discriminate].
  destruct (violations axs m') as [[[eu sm] pl]|] eqn:Vi; cbn [bind] in E; [|discriminate]. injection E as <-. cbn [r_bulk r_surface r_volume r_centre r_min r_max r_smith r_smith_of r_plateau r_plateau_of r_boundary r_zero_volume r_zone r_zero_faces r_zero_edges fst snd].
  assert (mmsp2topo axs data = Some (titles p n, bk, rs, s)) as Mm by (unfold mmsp2topo; rewrite S; cbn [bind]; rewrite An; cbn [bind]; rewrite T; reflexivity).
  exists (map fst m0). split; [split; [exact (state_sorted ls F G A xs m0 St)|intros a; now apply ids_present]|]. split; [now exists (titles p n), bk, rs, s|]. cbv zeta.
  assert (map fst (filter bulky m0) = filter heavy (map fst m0)) as B1. { apply map_fst_filter. intros it I. destruct (Gf it I) as (X & V & _). unfold bulky. now rewrite X, V. }
  assert (map fst (filter slight m0) = filter light (map fst m0)) as B2. { apply map_fst_filter. intros it I. destruct (Gf it I) as (X & V & _). unfold slight. now rewrite X, V. }
  assert (map fst (exclude_small m0) = map fst m0) as B0 by (unfold exclude_small; rewrite map_map; reflexivity).
  assert (forall it, In it (exclude_small m0) -> exists g, In (fst it, g) m0 /\ snd it = if light (fst it) then set_exclusion true g else g) as Ex.
  { intros it I. unfold exclude_small in I. apply in_map_iff in I as (it0 & <- & I). exists (snd it0). cbn [fst snd]. split; [destruct it0; exact I|]. destruct (Gf it0 I) as (X & V & _). now rewrite X, V. }
  assert (map fst (filter kept (exclude_small m0)) = filter heavy (map fst m0)) as B3.
  { rewrite <- B0. apply map_fst_filter. intros it I. destruct (Ex it I) as (g & Ig & Es'). destruct (Gf _ Ig) as (X & _). cbn [fst snd] in X. unfold kept. rewrite Es'. destruct (qgt 1%Qc (amount F xs (fst it))); [reflexivity|]. now rewrite X. }
  unfold centres in Ce. rewrite (dim_ls ls) in Ce. apply (centres_fold d (middle F xs)) in Ce as (C1 & C2 & C3 & C4 & C5 & C6); try reflexivity.
  2: { exact d_cases. }
  2: { intros it I X. destruct (Ex it I) as (g & Ig & Es'). destruct (Gf _ Ig) as (_ & V & _ & Ct). cbn [fst snd] in *. destruct (qgt 1%Qc (amount F xs (fst it))) eqn:Q; [rewrite Es' in X; discriminate|]. rewrite Es'. apply Ct.
       apply qgt_false in Q. intros K. rewrite K in Q. now apply Q. }
  assert (zlen (filter kept (exclude_small m0)) = zlen (filter heavy (map fst m0))) as L3 by (rewrite <- B3, zlen_map; reflexivity).
  assert (forall k, map (fun it : Z * grain => middle F xs k (fst it)) (filter kept (exclude_small m0)) = map (middle F xs k) (filter heavy (map fst m0))) as L4 by (intros k; rewrite <- B3, map_map; reflexivity).
  rewrite L3 in C1. rewrite Z.add_0_l in C1. set (big := filter heavy (map fst m0)) in *.
  assert (zlen (exclude_small m0) = zlen (map fst m0)) as L0 by (rewrite <- B0, zlen_map; reflexivity).
  assert (zlen (filter bulky m0) = zlen big) as L1 by (rewrite <- B1, zlen_map; reflexivity). assert (zlen (filter slight m0) = zlen (filter light (map fst m0))) as L2 by (rewrite <- B2, zlen_map; reflexivity).
  assert (big <> [] -> q_of (zlen big) <> 0%Qc) as Nz. { intros N K. apply q_of_0 in K. apply N. destruct big; [reflexivity|rewrite zlen_cons in K; pose proof (zlen_nonneg big); lia]. }
  split; [exact C1|]. split; [rewrite L0; lia|]. split; [exact L2|]. split.
  { intros N. unfold average. rewrite L1, recip_eq by auto. cbn [bind]. rewrite cell_size_eq. replace (map (fun it : Z * grain => volume (snd it)) (filter bulky m0)) with (map (amount F xs) big); [reflexivity|]. rewrite <- B1, map_map. apply map_ext_in. intros it I. apply filter_In in I as [I _]. destruct (Gf it I) as (_ & V & _). now rewrite V. }
  split.
  { intros N. unfold pdiv. rewrite C1, recip_eq by auto. cbn [bind]. f_equal. destruct sum as [|s0 [|s1 [|s2 [|]]]]; try discriminate. pose proof (C5 0%nat) as K0. pose proof (C5 1%nat) as K1. pose proof (C5 2%nat) as K2. cbn [nth] in K0, K1, K2. rewrite L4 in K0, K1, K2. cbn [map]. unfold Qcdiv. rewrite K0, K1, K2 by lia. repeat f_equal; ring. }
  split.
  { intros k K. rewrite C6 by exact K. rewrite L4. f_equal. destruct d_cases as [D|D]; rewrite D in *; [assert (k = 0 \/ k = 1)%nat as [-> | ->] by lia|assert (k = 0 \/ k = 1 \/ k = 2)%nat as [-> | [-> | ->]] by lia]; reflexivity. }
  pose proof (run_parts ls data F G A Hd Hl HM HG xs Hxs _ _ _ _ Mm) as (m1 & m2 & p2 & n2 & St1 & Et & T2 & _).
  unfold count_exclusions in Cx. rewrite (dim_ls ls) in Cx. pose proof An as An'. apply analyse_ok in An as (P & Nn & _ & _ & Fl). rewrite (dim_ls ls) in Fl.
  rewrite (exclusions_fold d (exclude_small m0) light (fun a => zlen (boundaries (hist a)))) in Cx.
  2: { intros it I. destruct (Ex it I) as (g & Ig & Es'). destruct (Gf _ Ig) as (_ & _ & Ga & _). cbn [fst snd] in Ga. rewrite <- Es' in Ga. assert (exists it' g1 a1 a2, compute_topology d (snd it) = Some (g1, [0; a1; a2; num_faces g1]) /\ In it' m') as (it' & g1 & a1 & a2 & Cp & _).
       { clear - Fl I. induction Fl as [|i i' l l' H Fl IH]; [destruct I|]. destruct I as [->|I]; [|destruct (IH I) as (it' & g1 & a1 & a2 & K1 & K2); exists it', g1, a1, a2; split; [exact K1|now right]]. destruct H as [_ (g & a1 & a2 & C & _)]. exists i', g, a1, a2. split; [exact C|now left]. }
       exists g1, [a1; a2; num_faces g1]. split; [exact Cp|]. pose proof (compute_shape _ _ _ _ Cp) as (S1 & S2 & S3 & S4 & S5 & S6). split.
       - rewrite S6, Es'. destruct (Gf _ Ig) as (X & _). cbn [fst snd] in X. destruct (qgt 1%Qc (amount F xs (fst it))); [reflexivity|exact X].
       - unfold num_edges. rewrite S2. fold (num_edges (snd it)). rewrite (num_edges_eq _ _ (after_inv _ _ _ (sized_typed ls F G A Hd HM xs Hxs (fst it)) Ga)). now rewrite (proj1 (proj2 (sized_same (hist (fst it))))). }
  injection Cx as <- <-. split; [reflexivity|]. split; [reflexivity|]. split; [reflexivity|].
  assert (forall q : Z -> bool, filter q big = filter (fun a => negb (qgt 1%Qc (amount F xs a)) && q a) (map fst m0)) as FF.
  { intros q. unfold big. generalize (map fst m0) as l. induction l as [|a l IH]; cbn [filter]; [reflexivity|]. destruct (negb (qgt 1%Qc (amount F xs a))) eqn:Q; cbn [filter andb]; [destruct (q a); now rewrite IH|exact IH]. }
  split. { rewrite Z.add_0_l, B0, FF. f_equal. apply filter_ext. intros a. unfold no_edge. apply andb_comm. }
  unfold mmsp2topo in Mm. clear Et T2 St1 m1 m2 p2 n2.
  assert (map fst m' = map fst m0 /\ Forall (analysed ls F G A xs p n) m') as [Q1 Q2].
  { clear - Fl Gf Hd HM Hxs Ex B0. rewrite <- B0. assert (forall it, In it (exclude_small m0) -> grain_after (fst it) (sized (hist (fst it))) = Some (snd it) /\ excluded (snd it) = light (fst it)) as K.
    { intros it I. destruct (Ex it I) as (g & Ig & Es'). destruct (Gf _ Ig) as (X & _ & Ga & _). cbn [fst snd] in *. rewrite Es'. split; [exact Ga|]. destruct (qgt 1%Qc (amount F xs (fst it))); [reflexivity|exact X]. }
    clear Gf Ex B0. induction Fl as [|i i' l l' H Fl IH]; [split; [reflexivity|constructor]|]. destruct IH as [I1 I2]; [intros; apply K; now right|]. destruct H as [Hf (g & a1 & a2 & C & Sn & P2 & N2)]. cbn [map]. rewrite Hf, I1. split; [reflexivity|]. constructor; [|exact I2].
    destruct (K i (or_introl eq_refl)) as [K1 K2]. exists (snd i), g, [0; a1; a2]. rewrite Hf. split; [exact K1|]. split; [|split; [rewrite (hist_total ls F G A xs); exact K2|]; cbn [nth]; auto].
    revert K1. generalize (history_typed ls F G A Hd HM xs Hxs (fst i)). clear. intros [W Pl] K1. unfold sized, grain_after in K1. rewrite fold_opt_app in K1. destruct (fold_opt perform (hist (fst i)) (grain_new (fst i))) as [g1|] eqn:E1; cbn [bind] in K1; [|discriminate].
    destruct (plain_keeps _ _ _ Pl E1) as [M1 _]. destruct (qgt _ _); cbn in K1; injection K1 as <-; exact M1. }
  destruct (violations_fold axs m' (fun a => no_edge a || light a) plateau_ok smith_bad) with (eu := 0) (s := 0) (p := 0) as (eu' & Ve).
  { intros it I. rewrite Forall_forall in Q2. rewrite (dim_ls ls). apply (judged p n it), Q2, I. }
  pose proof (eq_trans (eq_sym Vi) Ve) as Ve'. injection Ve' as _ -> ->. rewrite !Z.add_0_l, Q1, !FF. split; [|split; [|auto]].
  - f_equal. apply filter_ext. intros a. rewrite negb_orb. destruct (no_edge a), (qgt 1%Qc (amount F xs a)), (smith_bad a); reflexivity.
  - f_equal. apply filter_ext. intros a. rewrite negb_orb. destruct (no_edge a), (qgt 1%Qc (amount F xs a)), (plateau_ok a); reflexivity.
Qed.
End Run.
