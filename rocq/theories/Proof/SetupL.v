From Verif Require Import Model.Base Model.Boundary Model.Layout Model.Setup Spec.Box Spec.Access Spec.Decomp
  Proof.BaseL Proof.LayoutL Proof.AccessL.
From Coq Require Import ZifyBool.
Ltac Zify.zify_post_hook ::= Z.div_mod_to_equations.

(* ---------- factors ---------- *)
Lemma in_factors np f : 0 < np -> (In f (factors np) <-> 0 < f /\ (f | np)).
Proof.
  intros Hnp. unfold factors. rewrite filter_In, in_zrange. split.
  - intros [H1 H2]. split; [lia|]. exists (Z.quot np f). lia.
  - intros [H1 [k Hk]]. assert (0 < k) by nia. split; [nia|].
    subst np. rewrite Z.quot_mul by lia. lia.
Qed.

Lemma one_in_factors np : 0 < np -> In 1 (factors np).
Proof. intros H. apply in_factors; auto. split; [lia|]. exists np; lia. Qed.

Lemma factors_nonempty np : 0 < np -> 0 < zlen (factors np).
Proof.
  intros H. pose proof (one_in_factors np H). destruct (factors np); [easy|]. rewrite zlen_cons.
  pose proof (zlen_nonneg l). lia.
Qed.

(* ---------- combinations ---------- *)
Fixpoint undigits (n : Z) (ds : list Z) : Z :=
  match ds with [] => 0 | c :: t => c * n ^ zlen t + undigits n t end.

Lemma undigits_bounds n ds : 0 < n -> Forall (fun c => 0 <= c < n) ds ->
  0 <= undigits n ds < n ^ zlen ds.
Proof.
  intros Hn. induction 1 as [|c t Hc Ht IH]; simpl; [change (0 <= 0 < 1); lia|].
  rewrite zlen_cons. pose proof (zlen_nonneg t). rewrite Z.pow_add_r by lia. rewrite Z.pow_1_r. nia.
Qed.

Lemma combo_undigits n ds : 0 < n -> Forall (fun c => 0 <= c < n) ds ->
  combo (length ds) n (undigits n ds) = ds.
Proof.
  intros Hn. induction 1 as [|c t Hc Ht IH]; simpl; [reflexivity|].
  pose proof (undigits_bounds n t Hn Ht) as B.
  change (Z.of_nat (length t)) with (zlen t).
  assert (Z.quot (c * n ^ zlen t + undigits n t) (n ^ zlen t) = c) as E.
  { rewrite Z.quot_div_nonneg by nia. rewrite Z.div_add_l by nia. rewrite Z.div_small by lia. lia. }
  rewrite E. f_equal. replace (c * n ^ zlen t + undigits n t - c * n ^ zlen t) with (undigits n t) by lia.
  exact IH.
Qed.

Lemma combo_digits d n i : 0 < n -> 0 <= i < n ^ Z.of_nat d ->
  length (combo d n i) = d /\ Forall (fun c => 0 <= c < n) (combo d n i).
Proof.
  intros Hn. revert i; induction d as [|d IH]; intros i Hi; simpl; [split; [reflexivity|constructor]|].
  replace (Z.of_nat (S d)) with (1 + Z.of_nat d) in Hi by lia.
  rewrite Z.pow_add_r, Z.pow_1_r in Hi by lia.
  set (s := n ^ Z.of_nat d) in *. assert (0 < s) by (subst s; apply Z.pow_pos_nonneg; lia).
  rewrite Z.quot_div_nonneg by lia.
  assert (0 <= i / s < n).
  { split; [apply Z.div_pos; lia|apply Z.div_lt_upper_bound; lia]. }
  assert (0 <= i - i / s * s < s).
  { rewrite Z.mul_comm, <- Z.mod_eq by lia. apply Z.mod_pos_bound; lia. }
  destruct (IH _ H1) as [I1 I2]. split; [lia|]. constructor; auto.
Qed.

Lemma digits_of (fs p : list Z) : Forall (fun q => In q fs) p ->
  exists ds, Forall (fun c => 0 <= c < zlen fs) ds /\ map_opt (get fs) ds = Some p /\ length ds = length p.
Proof.
  induction 1 as [|q p Hq _ (ds & D1 & D2 & D3)].
  - exists []. repeat split; constructor.
  - apply In_nth_error in Hq as [n Hn].
    exists (Z.of_nat n :: ds).
    assert (n < length fs)%nat by (apply nth_error_Some; congruence).
    split; [constructor; auto; unfold zlen; lia|]. split; [|simpl; lia].
    simpl. unfold get at 1. destruct (Z.ltb_spec (Z.of_nat n) 0); [lia|].
    rewrite Nat2Z.id, Hn. simpl. rewrite D2. reflexivity.
Qed.

(* ---------- ghost area ---------- *)
Lemma seq_split_area (pre : list gaxis) g gs' :
  area (pre ++ g :: gs') (length pre) = prodZ (map glen pre) * prodZ (map glen gs').
Proof.
  unfold area. rewrite app_length. simpl length.
  replace (length pre + S (length gs'))%nat with (length pre + (1 + length gs'))%nat by lia.
  rewrite !seq_app, !map_app, !prodZ_app. simpl.
  rewrite Nat.eqb_refl.
  change (prodZ [1]) with 1.
  assert (forall (f : nat -> Z) (l : list gaxis) k,
     (forall j, (j < length l)%nat -> f (k + j)%nat = match nth_error l j with Some g => glen g | None => 1 end) ->
     prodZ (map f (seq k (length l))) = prodZ (map glen l)) as Gen.
  { intros f l. induction l as [|a l IH]; intros k Hf; simpl; [reflexivity|].
    rewrite !prodZ_cons. f_equal.
    - specialize (Hf O). rewrite Nat.add_0_r in Hf. rewrite Hf by (simpl; lia). reflexivity.
    - apply IH. intros j Hj. specialize (Hf (S j)).
      replace (S k + j)%nat with (k + S j)%nat by lia. rewrite Hf by (simpl; lia). reflexivity. }
  rewrite (Gen _ pre O).
  2:{ intros j Hj. simpl. destruct (Nat.eqb_spec (length pre) j); [lia|].
      rewrite nth_error_app1 by lia. reflexivity. }
  rewrite (Gen _ gs' (length pre + 1)%nat).
  2:{ intros j Hj. destruct (Nat.eqb_spec (length pre) (length pre + 1 + j)); [lia|].
      rewrite nth_error_app2 by lia. replace (length pre + 1 + j - length pre)%nat with (S j) by lia. reflexivity. }
  lia.
Qed.

Lemma ghost_area_spec_aux pre gs p : length p = length gs ->
  ghost_area (pre ++ gs) (length pre) p = halo_area (prodZ (map glen pre)) (map glen gs) p.
Proof.
  revert pre gs; induction p as [|q p IH]; intros pre [|g gs]; simpl; intros H; try lia; auto.
  rewrite seq_split_area. f_equal.
  specialize (IH (pre ++ [g]) gs). rewrite <- app_assoc, app_length in IH. simpl in IH.
  replace (length pre + 1)%nat with (S (length pre)) in IH by lia. rewrite IH by lia.
  rewrite map_app, prodZ_app. simpl. rewrite prodZ_cons. change (prodZ []) with 1. f_equal. lia.
Qed.

Lemma ghost_area_spec gs p : length p = length gs ->
  ghost_area gs 0 p = halo_area 1 (map glen gs) p.
Proof. intros H. exact (ghost_area_spec_aux [] gs p H). Qed.

Lemma halo_area_nonneg b L p : 0 <= b -> Forall (fun l => 0 <= l) L -> Forall (fun q => 0 < q) p ->
  0 <= halo_area b L p.
Proof.
  intros Hb HL. revert b Hb p. induction HL as [|l L Hl HL IH]; intros b Hb [|q p] Hp; simpl; try lia.
  inversion Hp; subst. pose proof (prodZ_nonneg L HL). specialize (IH (b * l) ltac:(nia) p H2). nia.
Qed.

(* ---------- search ---------- *)
Definition gok (gs : list gaxis) := Forall (fun g => gx_0 g <= gx_1 g) gs.

Lemma gok_len gs : gok gs -> Forall (fun l => 0 <= l) (map glen gs).
Proof. induction 1; simpl; constructor; auto. unfold glen; lia. Qed.

(* the candidate processor grid number i *)
Definition cand (fs : list Z) (d : nat) (i : Z) : option (list Z) := map_opt (get fs) (combo d (zlen fs) i).

Lemma cand_ok np d i : 0 < np -> 0 <= i < zlen (factors np) ^ Z.of_nat d ->
  exists p, cand (factors np) d i = Some p /\ length p = d /\ Forall (fun q => 0 < q) p.
Proof.
  intros Hnp Hi. pose proof (factors_nonempty np Hnp) as Hf.
  destruct (combo_digits d _ _ Hf Hi) as [C1 C2]. unfold cand.
  destruct (map_opt_ok (get (factors np)) (combo d (zlen (factors np)) i)) as [p Hp].
  { intros c Hc. rewrite Forall_forall in C2. apply get_ok. auto. }
  exists p. split; [auto|]. split; [rewrite (map_opt_length _ _ _ Hp); auto|].
  apply map_opt_some in Hp. clear - Hp Hnp. induction Hp as [|c q cs p Hc _ IH]; constructor; auto.
  unfold get in Hc. destruct (c <? 0); [discriminate|]. apply nth_error_In in Hc.
  apply in_factors in Hc; tauto.
Qed.

Lemma prodZ_divides q p : In q p -> (q | prodZ p).
Proof.
  induction p as [|a p IH]; simpl; [easy|]. rewrite prodZ_cons. intros [->|H].
  - exists (prodZ p); lia.
  - destruct (IH H) as [k Hk]. exists (a * k). rewrite Hk. lia.
Qed.

Lemma cand_complete np d p : 0 < np -> procgrid np d p ->
  exists i, 0 <= i < zlen (factors np) ^ Z.of_nat d /\ cand (factors np) d i = Some p.
Proof.
  intros Hnp (P1 & P2 & P3).
  assert (Forall (fun q => In q (factors np)) p) as Hin.
  { apply Forall_forall. intros q Hq. apply in_factors; auto. rewrite Forall_forall in P2.
    split; [auto|]. rewrite <- P3. now apply prodZ_divides. }
  destruct (digits_of _ _ Hin) as (ds & D1 & D2 & D3).
  pose proof (factors_nonempty np Hnp) as Hf.
  exists (undigits (zlen (factors np)) ds). unfold cand. rewrite <- P1, <- D3. split.
  - change (Z.of_nat (length ds)) with (zlen ds). now apply undigits_bounds.
  - now rewrite combo_undigits.
Qed.

Definition inv np gs (done : list Z) (st : Z * list Z) : Prop :=
  (fst st = -1 /\ forall i p, In i done -> cand (factors np) (length gs) i = Some p -> prodZ p <> np) \/
  (0 <= fst st /\ procgrid np (length gs) (snd st) /\ fst st = halo_area 1 (map glen gs) (snd st) /\
   forall i p, In i done -> cand (factors np) (length gs) i = Some p -> prodZ p = np ->
     fst st <= halo_area 1 (map glen gs) p).

Lemma search_inv np gs done l st : 0 < np -> gok gs ->
  (forall i, In i l -> 0 <= i < zlen (factors np) ^ Z.of_nat (length gs)) ->
  inv np gs done st ->
  exists st', fold_opt (search_step np gs (factors np)) l st = Some st' /\ inv np gs (done ++ l) st'.
Proof.
  intros Hnp Hg. revert done st; induction l as [|i l IH]; intros done st Hl Hi.
  - simpl. exists st. rewrite app_nil_r. auto.
  - destruct (cand_ok np (length gs) i Hnp) as (p & Hp & Hlen & Hpos); [apply Hl; now left|].
    assert (exists st1, search_step np gs (factors np) st i = Some st1 /\ inv np gs (done ++ [i]) st1) as (st1 & S1 & I1).
    { unfold search_step. unfold cand in Hp. rewrite Hp. simpl.
      pose proof (gok_len gs Hg) as HL.
      destruct (Z.eqb_spec (prodZ p) np) as [E|E].
      - rewrite ghost_area_spec by auto.
        pose proof (halo_area_nonneg 1 _ _ ltac:(lia) HL Hpos) as Hnn.
        destruct ((halo_area 1 (map glen gs) p <? fst st) || (fst st <? 0)) eqn:B.
        + eexists; split; [reflexivity|]. right. simpl.
          split; [auto|]. split; [repeat split; auto|]. split; [reflexivity|].
          intros j q Hj Hq Hqn. apply in_app_iff in Hj as [Hj|[<-|[]]].
          * destruct Hi as [[I1 I2]|(I1 & I2 & I3 & I4)].
            -- exfalso. eapply I2; eauto.
            -- specialize (I4 j q Hj Hq Hqn). lia.
          * unfold cand in Hq. rewrite Hp in Hq. inversion Hq; subst. lia.
        + eexists; split; [reflexivity|].
          destruct Hi as [[I1 I2]|(I1 & I2 & I3 & I4)]; [lia|].
          right. repeat (split; [assumption|]). intros j q Hj Hq Hqn.
          apply in_app_iff in Hj as [Hj|[<-|[]]]; [eauto|].
          unfold cand in Hq. rewrite Hp in Hq. inversion Hq; subst. lia.
      - eexists; split; [reflexivity|].
        destruct Hi as [[I1 I2]|(I1 & I2 & I3 & I4)]; [left|right].
        + split; [auto|]. intros j q Hj Hq. apply in_app_iff in Hj as [Hj|[<-|[]]]; [eauto|].
          unfold cand in Hq. rewrite Hp in Hq. inversion Hq; subst. auto.
        + repeat (split; [assumption|]). intros j q Hj Hq Hqn.
          apply in_app_iff in Hj as [Hj|[<-|[]]]; [eauto|].
          unfold cand in Hq. rewrite Hp in Hq. inversion Hq; subst. contradiction. }
    destruct (IH (done ++ [i]) st1) as (st' & S' & I'); [intros; apply Hl; now right|auto|].
    exists st'. simpl. rewrite S1. simpl. split; [auto|]. rewrite <- app_assoc in I'. exact I'.
Qed.

Lemma procgrid_exists np d : 0 < np -> (0 < d)%nat -> exists p, procgrid np d p.
Proof.
  intros Hnp Hd. destruct d as [|d]; [lia|]. exists (np :: repeat 1 d). repeat split.
  - simpl. now rewrite repeat_length.
  - constructor; [auto|]. apply Forall_forall. intros x Hx. apply repeat_spec in Hx. lia.
  - rewrite prodZ_cons. assert (prodZ (repeat 1 d) = 1) as ->; [|lia].
    induction d as [|d IH]; simpl; [reflexivity|]. rewrite prodZ_cons. rewrite IH by lia. lia.
Qed.

Theorem choose_p1_ok np gs : 0 < np -> gs <> [] -> gok gs ->
  exists p, choose_p1 np gs = Some p /\ procgrid np (length gs) p /\
    (forall q, procgrid np (length gs) q -> halo_area 1 (map glen gs) p <= halo_area 1 (map glen gs) q).
Proof.
  intros Hnp Hne Hg.
  destruct (search_inv np gs [] (zrange 0 (zlen (factors np) ^ zlen gs)) (-1, map (fun _ => 1) gs) Hnp Hg)
    as (st & S1 & I1).
  - intros i Hi. now apply in_zrange in Hi.
  - left. split; [reflexivity|]. intros i p [].
  - unfold choose_p1. rewrite S1. simpl. exists (snd st). split; [reflexivity|].
    simpl in I1.
    assert (forall q, procgrid np (length gs) q ->
       exists i, In i (zrange 0 (zlen (factors np) ^ zlen gs)) /\ cand (factors np) (length gs) i = Some q) as Hall.
    { intros q Hq. destruct (cand_complete np (length gs) q Hnp Hq) as (i & Hi & Hc).
      exists i. split; [apply in_zrange; exact Hi|auto]. }
    destruct I1 as [[I1 I2]|(I1 & I2 & I3 & I4)].
    + exfalso. destruct (procgrid_exists np (length gs)) as [q Hq]; auto.
      { destruct gs; [easy|simpl; lia]. }
      destruct (Hall q Hq) as (i & Hi & Hc). apply (I2 i q Hi Hc). apply Hq.
    + split; [auto|]. intros q Hq. destruct (Hall q Hq) as (i & Hi & Hc).
      rewrite <- I3. eapply I4; eauto. apply Hq.
Qed.

(* ---------- ranks and positions ---------- *)
Lemma rank_pos_spec p1 r : Forall (fun q => 0 < q) p1 -> 0 <= r < prodZ p1 ->
  in_box (map (fun _ => 0) p1) p1 (rank_pos (slices p1) r) /\ dotZ (slices p1) (rank_pos (slices p1) r) = r.
Proof.
  intros Hp; revert r; induction Hp as [|q p Hq Hp IH]; intros r Hr; simpl.
  - change (prodZ []) with 1 in Hr. split; [exact I|lia].
  - rewrite prodZ_cons in Hr. pose proof (prodZ_pos p Hp) as Hpp.
    rewrite Z.quot_div_nonneg by lia. set (k := r / prodZ p).
    assert (0 <= k < q).
    { subst k. split; [apply Z.div_pos; lia|apply Z.div_lt_upper_bound; lia]. }
    assert (0 <= r - k * prodZ p < prodZ p).
    { subst k. rewrite Z.mul_comm, <- Z.mod_eq by lia. apply Z.mod_pos_bound; lia. }
    destruct (IH _ H0) as [I1 I2]. repeat split; auto; lia.
Qed.

Lemma rank_of_pos_bounds p1 pos : Forall (fun q => 0 < q) p1 -> in_box (map (fun _ => 0) p1) p1 pos ->
  0 <= dotZ (slices p1) pos < prodZ p1.
Proof.
  intros Hp; revert pos; induction Hp as [|q p Hq Hp IH]; intros [|c pos]; simpl; try easy.
  intros [Hc Hb]. rewrite prodZ_cons. specialize (IH _ Hb). nia.
Qed.

Lemma pos_of_rank p1 pos : Forall (fun q => 0 < q) p1 -> in_box (map (fun _ => 0) p1) p1 pos ->
  rank_pos (slices p1) (dotZ (slices p1) pos) = pos.
Proof.
  intros Hp; revert pos; induction Hp as [|q p Hq Hp IH]; intros [|c pos]; simpl; try easy.
  intros [Hc Hb]. pose proof (rank_of_pos_bounds p pos Hp Hb) as B.
  assert (Z.quot (prodZ p * c + dotZ (slices p) pos) (prodZ p) = c) as E.
  { rewrite Z.quot_div_nonneg by nia. rewrite Z.mul_comm, Z.div_add_l by lia. rewrite Z.div_small by lia. lia. }
  rewrite E. f_equal. replace (prodZ p * c + dotZ (slices p) pos - c * prodZ p) with (dotZ (slices p) pos) by lia.
  auto.
Qed.

(* ---------- one axis ---------- *)
(* first cell of block k *)
Definition start (g : gaxis) (p k : Z) : Z :=
  gx_0 g + k * (glen g / p) + Z.min k (glen g mod p).

Lemma local_limits_start g p k : 0 < p -> gx_0 g <= gx_1 g -> 0 <= k < p ->
  local_limits g p k = (start g p k, start g p (k + 1)).
Proof.
  intros Hp Hg Hk. unfold local_limits, start.
  assert (0 <= glen g) by (unfold glen; lia).
  rewrite Z.quot_div_nonneg by lia.
  replace (glen g - p * (glen g / p)) with (glen g mod p) by (rewrite Z.mod_eq; lia).
  pose proof (Z.mod_pos_bound (glen g) p Hp).
  destruct (Z.ltb_spec 0 (glen g mod p)).
  - destruct (Z.ltb_spec k (glen g mod p)); [f_equal; nia|].
    destruct (Z.eqb_spec k (glen g mod p)); f_equal; nia.
  - f_equal; nia.
Qed.

Lemma start_0 g p : 0 < p -> start g p 0 = gx_0 g.
Proof. intros. unfold start. pose proof (Z.mod_pos_bound (glen g) p H). lia. Qed.
Lemma start_p g p : 0 < p -> start g p p = gx_1 g.
Proof.
  intros. unfold start. pose proof (Z.mod_pos_bound (glen g) p H).
  rewrite Z.min_r by lia. pose proof (Z.div_mod (glen g) p). unfold glen in *. lia.
Qed.
Lemma start_step g p k : 0 < p -> gx_0 g <= gx_1 g -> 
  glen g / p <= start g p (k + 1) - start g p k <= glen g / p + 1.
Proof. intros. unfold start. nia. Qed.
Lemma start_mono g p j k : 0 < p -> gx_0 g <= gx_1 g -> j <= k -> start g p j <= start g p k.
Proof.
  intros. unfold start. assert (0 <= glen g / p) by (apply Z.div_pos; unfold glen; lia).
  assert (j * (glen g / p) <= k * (glen g / p)) by (apply Z.mul_le_mono_nonneg_r; lia). lia.
Qed.

Lemma start_find g p x : 0 < p -> gx_0 g <= gx_1 g -> gx_0 g <= x < gx_1 g ->
  exists k, 0 <= k < p /\ start g p k <= x < start g p (k + 1).
Proof.
  intros Hp Hg Hx. rewrite <- (start_0 g p Hp), <- (start_p g p Hp) in Hx.
  assert (forall n : nat, x < start g p (Z.of_nat n) ->
     exists k, 0 <= k < Z.of_nat n /\ start g p k <= x < start g p (k + 1)) as Gen.
  { induction n as [|n IH]; intros Hn.
    - change (Z.of_nat 0) with 0 in Hn. lia.
    - destruct (Z.lt_ge_cases x (start g p (Z.of_nat n))) as [L|L].
      + destruct (IH L) as (k & K1 & K2). exists k. split; [lia|auto].
      + exists (Z.of_nat n). split; [lia|]. split; [auto|]. now replace (Z.of_nat n + 1) with (Z.of_nat (S n)) by lia. }
  destruct (Gen (Z.to_nat p)) as (k & K1 & K2).
  - rewrite Z2Nat.id by lia. lia.
  - exists k. split; [lia|auto].
Qed.

Lemma start_unique g p j k x : 0 < p -> gx_0 g <= gx_1 g ->
  start g p j <= x < start g p (j + 1) -> start g p k <= x < start g p (k + 1) -> j = k.
Proof.
  intros Hp Hg Hj Hk. destruct (Z.lt_trichotomy j k) as [L|[E|L]]; [|auto|].
  - pose proof (start_mono g p (j + 1) k Hp Hg ltac:(lia)). lia.
  - pose proof (start_mono g p (k + 1) j Hp Hg ltac:(lia)). lia.
Qed.

Lemma axis_limits_eq g p k : 0 < p -> gx_0 g <= gx_1 g -> 0 <= k < p ->
  axis_limits g p k = mkLim (gx_0 g) (gx_1 g) (start g p k) (start g p (k + 1))
     (if start g p k =? gx_0 g then periodic else parallel)
     (if start g p (k + 1) =? gx_1 g then periodic else parallel).
Proof. intros. unfold axis_limits. rewrite local_limits_start by auto. reflexivity. Qed.

(* ---------- all axes ---------- *)
Lemma zip_limits_ok gs p1 pos : gok gs -> Forall (fun q => 0 < q) p1 ->
  in_box (map (fun _ => 0) p1) p1 pos -> length p1 = length gs ->
  lims_ok (zip_limits gs p1 pos) /\ length (zip_limits gs p1 pos) = length gs.
Proof.
  intros Hg; revert p1 pos; induction Hg as [|g gs Hg0 Hg IH]; intros [|p p1] [|k pos] Hp Hb Hl; simpl in *; try easy.
  - split; [constructor|reflexivity].
  - inversion Hp; subst. destruct Hb as [Hk Hb]. destruct (IH p1 pos) as [I1 I2]; auto.
    split; [|lia]. constructor; auto. rewrite axis_limits_eq by auto. simpl.
    apply start_mono; auto; lia.
Qed.

Lemma cover gs p1 x : gok gs -> Forall (fun q => 0 < q) p1 -> length p1 = length gs ->
  in_box (map gx_0 gs) (map gx_1 gs) x ->
  exists pos, in_box (map (fun _ => 0) p1) p1 pos /\
    in_box (map l_x0 (zip_limits gs p1 pos)) (map l_x1 (zip_limits gs p1 pos)) x.
Proof.
  intros Hg; revert p1 x; induction Hg as [|g gs Hg0 Hg IH]; intros [|p p1] [|c x] Hp Hl Hx; simpl in *; try easy.
  - exists []. easy.
  - inversion Hp; subst. destruct Hx as [Hc Hx]. destruct (IH p1 x) as (pos & P1 & P2); auto.
    destruct (start_find g p c) as (k & K1 & K2); auto.
    exists (k :: pos). simpl. rewrite axis_limits_eq by auto. simpl. auto.
Qed.

Lemma exclusive gs p1 pos pos' x : gok gs -> Forall (fun q => 0 < q) p1 -> length p1 = length gs ->
  in_box (map (fun _ => 0) p1) p1 pos -> in_box (map (fun _ => 0) p1) p1 pos' ->
  in_box (map l_x0 (zip_limits gs p1 pos)) (map l_x1 (zip_limits gs p1 pos)) x ->
  in_box (map l_x0 (zip_limits gs p1 pos')) (map l_x1 (zip_limits gs p1 pos')) x -> pos = pos'.
Proof.
  intros Hg; revert p1 pos pos' x; induction Hg as [|g gs Hg0 Hg IH];
    intros [|p p1] [|k pos] [|k' pos'] [|c x] Hp Hl; simpl in *; try easy.
  inversion Hp; subst. intros [K1 K2] [K1' K2']. rewrite !axis_limits_eq by auto. simpl.
  intros [C1 C2] [C1' C2']. f_equal; [eapply start_unique; eauto|eapply IH; eauto].
Qed.

Lemma inside gs p1 pos x : gok gs -> Forall (fun q => 0 < q) p1 -> length p1 = length gs ->
  in_box (map (fun _ => 0) p1) p1 pos ->
  in_box (map l_x0 (zip_limits gs p1 pos)) (map l_x1 (zip_limits gs p1 pos)) x ->
  in_box (map gx_0 gs) (map gx_1 gs) x.
Proof.
  intros Hg; revert p1 pos x; induction Hg as [|g gs Hg0 Hg IH];
    intros [|p p1] [|k pos] [|c x] Hp Hl; simpl in *; try easy.
  inversion Hp; subst. intros [K1 K2]. rewrite !axis_limits_eq by auto. simpl.
  intros [C1 C2]. split; [|eapply IH; eauto].
  rewrite <- (start_0 g p), <- (start_p g p) by auto.
  pose proof (start_mono g p 0 k ltac:(auto) Hg0 ltac:(lia)).
  pose proof (start_mono g p (k + 1) p ltac:(auto) Hg0 ltac:(lia)). lia.
Qed.

Lemma setup_eq np gs gh r : 0 < np -> gs <> [] -> gok gs -> 0 <= r < np ->
  exists p1, choose_p1 np gs = Some p1 /\ procgrid np (length gs) p1 /\
    let pos := rank_pos (slices p1) r in
    in_box (map (fun _ => 0) p1) p1 pos /\ dotZ (slices p1) pos = r /\
    setup_mpi np gs gh r = Some (mkGeom (lay gh (zip_limits gs p1 pos)) gh p1 (slices p1) pos
       (map (neighbor_below p1 (slices p1) pos) (seq 0 (length gs)))
       (map (neighbor_above p1 (slices p1) pos) (seq 0 (length gs)))).
Proof.
  intros Hnp Hne Hg Hr. destruct (choose_p1_ok np gs Hnp Hne Hg) as (p & P1 & P2 & _).
  exists p. split; [auto|]. split; [auto|]. destruct P2 as (L & Q & E).
  destruct (rank_pos_spec p r Q ltac:(lia)) as [R1 R2]. simpl. split; [auto|]. split; [auto|].
  unfold setup_mpi. rewrite P1. reflexivity.
Qed.

Theorem partition np gs gh x : 0 < np -> gs <> [] -> gok gs ->
  in_box (map gx_0 gs) (map gx_1 gs) x ->
  exists r ge, 0 <= r < np /\ setup_mpi np gs gh r = Some ge /\ owns ge x /\
    (forall r' ge', 0 <= r' < np -> setup_mpi np gs gh r' = Some ge' -> owns ge' x -> r' = r).
Proof.
  intros Hnp Hne Hg Hx.
  destruct (choose_p1_ok np gs Hnp Hne Hg) as (p & P1 & (L & Q & E) & _).
  destruct (cover gs p x Hg Q L Hx) as (pos & C1 & C2).
  pose proof (rank_of_pos_bounds p pos Q C1) as B.
  exists (dotZ (slices p) pos).
  destruct (setup_eq np gs gh (dotZ (slices p) pos) Hnp Hne Hg ltac:(lia)) as (p' & P1' & _ & S2 & S3 & S4).
  rewrite P1 in P1'. inversion P1'; subst p'. rewrite pos_of_rank in S4 by auto.
  eexists. split; [lia|]. split; [exact S4|]. split.
  - unfold owns; simpl. now rewrite map_x0_lay, map_x1_lay.
  - intros r' ge' Hr' Hs Ho.
    destruct (setup_eq np gs gh r' Hnp Hne Hg Hr') as (p' & P1'' & _ & T2 & T3 & T4).
    rewrite P1 in P1''. inversion P1''; subst p'. rewrite T4 in Hs. inversion Hs; subst ge'.
    unfold owns in Ho; simpl in Ho. rewrite map_x0_lay, map_x1_lay in Ho.
    rewrite <- T3. f_equal. eapply exclusive; eauto.
Qed.

Theorem owned_inside np gs gh r ge x : 0 < np -> gs <> [] -> gok gs -> 0 <= r < np ->
  setup_mpi np gs gh r = Some ge -> owns ge x -> in_box (map gx_0 gs) (map gx_1 gs) x.
Proof.
  intros Hnp Hne Hg Hr Hs Ho.
  destruct (setup_eq np gs gh r Hnp Hne Hg Hr) as (p & P1 & (L & Q & E) & S2 & S3 & S4).
  rewrite S4 in Hs. inversion Hs; subst ge. unfold owns in Ho; simpl in Ho.
  rewrite map_x0_lay, map_x1_lay in Ho. eapply inside; eauto.
Qed.

(* ---------- per-axis access to the result ---------- *)
Lemma zip_nth gs p1 pos i : length p1 = length gs -> length pos = length gs -> (i < length gs)%nat ->
  exists g p k, nth_error gs i = Some g /\ nth_error p1 i = Some p /\ nth_error pos i = Some k /\
    nth_error (zip_limits gs p1 pos) i = Some (axis_limits g p k).
Proof.
  revert p1 pos i; induction gs as [|g gs IH]; intros [|p p1] [|k pos] [|i] H1 H2 H3; simpl in *; try lia.
  - exists g, p, k. auto.
  - apply IH; lia.
Qed.

Lemma nth_error_lay gh ls i l : nth_error ls i = Some l ->
  exists a, nth_error (lay gh ls) i = Some a /\ a_g0 a = l_g0 l /\ a_g1 a = l_g1 l /\ a_x0 a = l_x0 l /\
    a_x1 a = l_x1 l /\ a_b0 a = l_b0 l /\ a_b1 a = l_b1 l.
Proof.
  revert i; induction ls as [|m ls IH]; intros [|i]; simpl; intros H; try discriminate.
  - inversion H; subst. eexists; split; [reflexivity|]. repeat split.
  - apply IH; auto.
Qed.

Lemma in_box_nth lo hi x i l h c : in_box lo hi x -> nth_error lo i = Some l -> nth_error hi i = Some h ->
  nth_error x i = Some c -> l <= c < h.
Proof.
  revert hi x i; induction lo as [|l0 lo IH]; intros [|h0 hi] [|c0 x] [|i]; simpl; try easy.
  - intros [H _] E1 E2 E3. inversion E1; inversion E2; inversion E3; subst. auto.
  - intros [_ H]. apply IH; auto.
Qed.

Lemma pos_nth p1 pos i p k : in_box (map (fun _ => 0) p1) p1 pos ->
  nth_error p1 i = Some p -> nth_error pos i = Some k -> 0 <= k < p.
Proof.
  intros B E1 E2. eapply in_box_nth; eauto. rewrite nth_error_map, E1. reflexivity.
Qed.

Lemma axis_at np gs gh r ge i : 0 < np -> gs <> [] -> gok gs -> 0 <= r < np ->
  setup_mpi np gs gh r = Some ge -> (i < length gs)%nat ->
  exists g p k a, nth_error gs i = Some g /\ nth_error (ge_p1 ge) i = Some p /\
    nth_error (ge_pos ge) i = Some k /\ nth_error (ge_axes ge) i = Some a /\
    0 <= k < p /\ gx_0 g <= gx_1 g /\
    a_g0 a = gx_0 g /\ a_g1 a = gx_1 g /\ a_x0 a = start g p k /\ a_x1 a = start g p (k + 1) /\
    a_b0 a = (if start g p k =? gx_0 g then periodic else parallel) /\
    a_b1 a = (if start g p (k + 1) =? gx_1 g then periodic else parallel).
Proof.
  intros Hnp Hne Hg Hr Hs Hi.
  destruct (setup_eq np gs gh r Hnp Hne Hg Hr) as (p1 & P1 & (L & Q & E) & S2 & S3 & S4).
  rewrite S4 in Hs. inversion Hs; subst ge; clear Hs. simpl.
  pose proof (in_box_length _ _ _ S2) as [Lp _]. rewrite map_length in Lp.
  destruct (zip_nth gs p1 (rank_pos (slices p1) r) i L ltac:(congruence) Hi) as (g & p & k & N1 & N2 & N3 & N4).
  pose proof (pos_nth _ _ _ _ _ S2 N2 N3) as Hk.
  assert (gx_0 g <= gx_1 g) as Hg0.
  { unfold gok in Hg; rewrite Forall_forall in Hg. apply Hg. eapply nth_error_In; eauto. }
  destruct (nth_error_lay gh _ i _ N4) as (a & A0 & A1 & A2 & A3 & A4 & A5 & A6).
  rewrite axis_limits_eq in * by (auto; lia). simpl in *.
  exists g, p, k, a. repeat (split; [assumption|]). assumption.
Qed.

Theorem balanced np gs gh r r' ge ge' i a a' :
  0 < np -> gs <> [] -> gok gs -> 0 <= r < np -> 0 <= r' < np ->
  setup_mpi np gs gh r = Some ge -> setup_mpi np gs gh r' = Some ge' ->
  nth_error (ge_axes ge) i = Some a -> nth_error (ge_axes ge') i = Some a' ->
  Z.abs ((a_x1 a - a_x0 a) - (a_x1 a' - a_x0 a')) <= 1 /\
  a_x0 a <= a_x1 a /\
  (a_x0 a = a_x1 a -> exists p, nth_error (ge_p1 ge) i = Some p /\ a_g1 a - a_g0 a < p).
Proof.
  intros Hnp Hne Hg Hr Hr' Hs Hs' Ha Ha'.
  assert (i < length gs)%nat as Hi.
  { destruct (setup_eq np gs gh r Hnp Hne Hg Hr) as (p1 & P1 & (L & Q & E) & S2 & S3 & S4).
    rewrite S4 in Hs. inversion Hs; subst ge. simpl in Ha.
    destruct (zip_limits_ok gs p1 _ Hg Q S2 L) as [_ Z2].
    rewrite <- Z2, <- (length_lay gh). apply nth_error_Some. congruence. }
  assert (ge_p1 ge = ge_p1 ge') as Ep.
  { unfold setup_mpi in Hs, Hs'. destruct (choose_p1 np gs); [|discriminate]. simpl in *.
    inversion Hs; inversion Hs'; reflexivity. }
  destruct (axis_at np gs gh r ge i Hnp Hne Hg Hr Hs Hi) as (g & p & k & b & B1 & B2 & B3 & B4 & B5 & B6 & B7 & B8 & B9 & B10 & _).
  destruct (axis_at np gs gh r' ge' i Hnp Hne Hg Hr' Hs' Hi) as (g' & p' & k' & b' & C1 & C2 & C3 & C4 & C5 & C6 & C7 & C8 & C9 & C10 & _).
  rewrite Ha in B4; inversion B4; subst b. rewrite Ha' in C4; inversion C4; subst b'.
  rewrite B1 in C1; inversion C1; subst g'. rewrite <- Ep, B2 in C2; inversion C2; subst p'.
  pose proof (start_step g p k ltac:(lia) B6). pose proof (start_step g p k' ltac:(lia) B6).
  assert (0 <= glen g / p) by (apply Z.div_pos; unfold glen; lia).
  split; [lia|]. split; [lia|]. intros Hz. exists p. split; [auto|]. rewrite B7, B8.
  assert (glen g / p = 0) as Hd by lia. apply Z.div_small_iff in Hd; unfold glen in *; lia.
Qed.

Theorem flags np gs gh r ge i a :
  0 < np -> gs <> [] -> gok gs -> 0 <= r < np ->
  setup_mpi np gs gh r = Some ge -> nth_error (ge_axes ge) i = Some a ->
  (a_b0 a = parallel <-> a_x0 a <> a_g0 a) /\ (a_b0 a = periodic <-> a_x0 a = a_g0 a) /\
  (a_b1 a = parallel <-> a_x1 a <> a_g1 a) /\ (a_b1 a = periodic <-> a_x1 a = a_g1 a).
Proof.
  intros Hnp Hne Hg Hr Hs Ha.
  assert (i < length gs)%nat as Hi.
  { destruct (setup_eq np gs gh r Hnp Hne Hg Hr) as (p1 & P1 & (L & Q & E) & S2 & S3 & S4).
    rewrite S4 in Hs. inversion Hs; subst ge. simpl in Ha.
    destruct (zip_limits_ok gs p1 _ Hg Q S2 L) as [_ Z2].
    rewrite <- Z2, <- (length_lay gh). apply nth_error_Some. congruence. }
  destruct (axis_at np gs gh r ge i Hnp Hne Hg Hr Hs Hi) as (g & p & k & b & B1 & B2 & B3 & B4 & B5 & B6 & B7 & B8 & B9 & B10 & B11 & B12).
  rewrite Ha in B4; inversion B4; subst b. rewrite B11, B12, B7, B8, B9, B10. unfold periodic, parallel.
  destruct (Z.eqb_spec (start g p k) (gx_0 g)), (Z.eqb_spec (start g p (k + 1)) (gx_1 g)); lia.
Qed.

(* ---------- neighbours ---------- *)
Lemma in_box_set lo hi x i l h v : in_box lo hi x -> nth_error lo i = Some l -> nth_error hi i = Some h ->
  l <= v < h -> in_box lo hi (set_nth i x v).
Proof.
  revert hi x i; induction lo as [|l0 lo IH]; intros [|h0 hi] [|c0 x] [|i]; simpl; try easy.
  - intros [_ H] E1 E2. inversion E1; inversion E2; subst. auto.
  - intros [H0 H] E1 E2 Hv. split; [auto|]. eapply IH; eauto.
Qed.

Lemma set_nth_set_nth {A} i (l : list A) a b : set_nth i (set_nth i l a) b = set_nth i l b.
Proof. revert i; induction l as [|x l IH]; intros [|i]; simpl; auto. now rewrite IH. Qed.
Lemma set_nth_same {A} i (l : list A) a : nth_error l i = Some a -> set_nth i l a = l.
Proof.
  revert i; induction l as [|x l IH]; intros [|i]; simpl; intros H; try discriminate.
  - congruence.
  - now rewrite IH.
Qed.

Lemma nth_of_nth_error {A} (l : list A) i a d : nth_error l i = Some a -> nth i l d = a.
Proof. intros H. now apply nth_error_nth. Qed.

Lemma nth_error_seq0 n i : (i < n)%nat -> nth_error (seq 0 n) i = Some i.
Proof. intros. rewrite (nth_error_nth' _ O) by (rewrite seq_length; lia). now rewrite seq_nth. Qed.

Lemma nbr_pos p1 pos i p k v : Forall (fun q => 0 < q) p1 -> in_box (map (fun _ => 0) p1) p1 pos ->
  nth_error p1 i = Some p -> nth_error pos i = Some k -> 0 <= v < p ->
  let r := dotZ (slices p1) (set_nth i pos v) in
  0 <= r < prodZ p1 /\ rank_pos (slices p1) r = set_nth i pos v.
Proof.
  intros Q B E1 E2 Hv r.
  assert (in_box (map (fun _ => 0) p1) p1 (set_nth i pos v)) as B'.
  { eapply in_box_set; eauto. rewrite nth_error_map, E1; reflexivity. }
  split; [now apply rank_of_pos_bounds|]. subst r. now apply pos_of_rank.
Qed.

Lemma rem_up k p : 0 <= k < p -> Z.rem (k + 1) p = if k + 1 =? p then 0 else k + 1.
Proof.
  intros H. destruct (Z.eqb_spec (k + 1) p) as [->|]; [apply Z.rem_same; lia|apply Z.rem_small; lia].
Qed.
Lemma rem_down k p : 0 <= k < p -> Z.rem (k - 1 + p) p = if k =? 0 then p - 1 else k - 1.
Proof.
  intros H. destruct (Z.eqb_spec k 0) as [->|]; [rewrite Z.rem_small; lia|].
  rewrite Z.rem_mod_nonneg by lia. replace (k - 1 + p) with (k - 1 + 1 * p) by lia. rewrite Z_mod_plus_full. apply Z.mod_small; lia.
Qed.

(* the neighbour on axis i in direction up/down of a rank with position pos *)
Theorem neighbours np gs gh r ge i : 0 < np -> gs <> [] -> gok gs -> 0 <= r < np ->
  setup_mpi np gs gh r = Some ge -> (i < length gs)%nat ->
  exists up down geu ged,
    nth_error (ge_n1 ge) i = Some up /\ nth_error (ge_n0 ge) i = Some down /\
    0 <= up < np /\ 0 <= down < np /\
    setup_mpi np gs gh up = Some geu /\ setup_mpi np gs gh down = Some ged /\
    nth_error (ge_n0 geu) i = Some r /\ nth_error (ge_n1 ged) i = Some r /\
    (forall j, j <> i -> nth_error (ge_axes geu) j = None /\ nth_error (ge_axes ge) j = None \/
       exists a au ad, nth_error (ge_axes ge) j = Some a /\ nth_error (ge_axes geu) j = Some au /\
         nth_error (ge_axes ged) j = Some ad /\
         a_x0 au = a_x0 a /\ a_x1 au = a_x1 a /\ a_x0 ad = a_x0 a /\ a_x1 ad = a_x1 a) /\
    (exists a au ad, nth_error (ge_axes ge) i = Some a /\ nth_error (ge_axes geu) i = Some au /\
       nth_error (ge_axes ged) i = Some ad /\
       (a_x0 au = a_x1 a /\ a_x1 a <= a_g1 a \/ a_x1 a = a_g1 a /\ a_x0 au = a_g0 a) /\
       (a_x1 ad = a_x0 a \/ a_x0 a = a_g0 a /\ a_x1 ad = a_g1 a)).
Proof.
  intros Hnp Hne Hg Hr Hs Hi.
  destruct (setup_eq np gs gh r Hnp Hne Hg Hr) as (p1 & P1 & (L & Q & E) & S2 & S3 & S4).
  set (pos := rank_pos (slices p1) r) in *.
  pose proof Hs as Hs0. rewrite S4 in Hs. inversion Hs; subst ge; clear Hs.
  pose proof (in_box_length _ _ _ S2) as [Lp _]. rewrite map_length in Lp.
  destruct (zip_nth gs p1 pos i L ltac:(congruence) Hi) as (g & p & k & N1 & N2 & N3 & N4).
  pose proof (pos_nth _ _ _ _ _ S2 N2 N3) as Hk.
  assert (gx_0 g <= gx_1 g) as Hg0.
  { unfold gok in Hg; rewrite Forall_forall in Hg. apply Hg. eapply nth_error_In; eauto. }
  set (ku := if k + 1 =? p then 0 else k + 1). set (kd := if k =? 0 then p - 1 else k - 1).
  assert (0 <= ku < p) as Hku by (subst ku; destruct (Z.eqb_spec (k + 1) p); lia).
  assert (0 <= kd < p) as Hkd by (subst kd; destruct (Z.eqb_spec k 0); lia).
  assert (forall q v, nth_error pos i = Some v -> nth i pos q = v) as Dn.
  { intros q v Hv. now apply nth_of_nth_error. }
  assert (neighbor_above p1 (slices p1) pos i = dotZ (slices p1) (set_nth i pos ku)) as Eu.
  { unfold neighbor_above. rewrite (Dn 0 k N3), (nth_of_nth_error p1 i p 0 N2), rem_up by lia. reflexivity. }
  assert (neighbor_below p1 (slices p1) pos i = dotZ (slices p1) (set_nth i pos kd)) as Ed.
  { unfold neighbor_below. rewrite (Dn 0 k N3), (nth_of_nth_error p1 i p 0 N2), rem_down by lia. reflexivity. }
  destruct (nbr_pos p1 pos i p k ku Q S2 N2 N3 Hku) as [U1 U2].
  destruct (nbr_pos p1 pos i p k kd Q S2 N2 N3 Hkd) as [D1 D2].
  set (up := dotZ (slices p1) (set_nth i pos ku)) in *.
  set (dn := dotZ (slices p1) (set_nth i pos kd)) in *.
  destruct (setup_eq np gs gh up Hnp Hne Hg ltac:(lia)) as (p1' & P1' & _ & _ & _ & Su).
  rewrite P1 in P1'; inversion P1'; subst p1'; clear P1'. rewrite U2 in Su.
  destruct (setup_eq np gs gh dn Hnp Hne Hg ltac:(lia)) as (p1' & P1' & _ & _ & _ & Sd).
  rewrite P1 in P1'; inversion P1'; subst p1'; clear P1'. rewrite D2 in Sd.
  assert (i < length pos)%nat as Hip by congruence.
  exists up, dn. do 2 eexists.
  split. { simpl. rewrite nth_error_map, nth_error_seq0 by auto. simpl. now rewrite Eu. }
  split. { simpl. rewrite nth_error_map, nth_error_seq0 by auto. simpl. now rewrite Ed. }
  split; [lia|]. split; [lia|]. split; [exact Su|]. split; [exact Sd|].
  split. { simpl. rewrite nth_error_map, nth_error_seq0 by auto. simpl. f_equal.
    unfold neighbor_below. rewrite nth_set_nth_eq by auto. rewrite (nth_of_nth_error p1 i p 0 N2), rem_down by lia.
    rewrite set_nth_set_nth. replace (if ku =? 0 then p - 1 else ku - 1) with k.
    - now rewrite set_nth_same.
    - subst ku. destruct (Z.eqb_spec (k + 1) p); simpl; [lia|]. destruct (Z.eqb_spec (k + 1) 0); lia. }
  split. { simpl. rewrite nth_error_map, nth_error_seq0 by auto. simpl. f_equal.
    unfold neighbor_above. rewrite nth_set_nth_eq by auto. rewrite (nth_of_nth_error p1 i p 0 N2), rem_up by lia.
    rewrite set_nth_set_nth. replace (if kd + 1 =? p then 0 else kd + 1) with k.
    - now rewrite set_nth_same.
    - subst kd. destruct (Z.eqb_spec k 0); [destruct (Z.eqb_spec (p - 1 + 1) p); lia|].
      destruct (Z.eqb_spec (k - 1 + 1) p); lia. }
  simpl ge_axes.
  split.
  { intros j Hj. destruct (Nat.lt_ge_cases j (length gs)) as [Lj|Lj].
    - right. destruct (zip_nth gs p1 pos j L ltac:(congruence) Lj) as (g' & p' & k' & M1 & M2 & M3 & M4).
      destruct (zip_nth gs p1 (set_nth i pos ku) j L ltac:(rewrite length_set_nth; congruence) Lj)
        as (gu & pu & k'' & MU1 & MU2 & MU3 & MU4).
      destruct (zip_nth gs p1 (set_nth i pos kd) j L ltac:(rewrite length_set_nth; congruence) Lj)
        as (gd & pd & k''' & MD1 & MD2 & MD3 & MD4).
      rewrite nth_error_set_nth_ne in MU3, MD3 by auto.
      assert (gu = g' /\ pu = p' /\ k'' = k' /\ gd = g' /\ pd = p' /\ k''' = k') as (-> & -> & -> & -> & -> & ->)
        by (repeat split; congruence).
      destruct (nth_error_lay gh _ j _ M4) as (a & A0 & _ & _ & A3 & A4 & _).
      destruct (nth_error_lay gh _ j _ MU4) as (au & AU0 & _ & _ & AU3 & AU4 & _).
      destruct (nth_error_lay gh _ j _ MD4) as (ad & AD0 & _ & _ & AD3 & AD4 & _).
      exists a, au, ad. repeat (split; [congruence|]). congruence.
    - left. destruct (zip_limits_ok gs p1 pos Hg Q S2 L) as [_ Z2].
      assert (in_box (map (fun _ => 0) p1) p1 (set_nth i pos ku)) as B'.
      { eapply in_box_set; eauto. rewrite nth_error_map, N2; reflexivity. }
      destruct (zip_limits_ok gs p1 _ Hg Q B' L) as [_ Z3].
      split; apply nth_error_None; rewrite length_lay; lia. }
  destruct (zip_nth gs p1 (set_nth i pos ku) i L ltac:(rewrite length_set_nth; congruence) Hi)
    as (gu & pu & k'' & MU1 & MU2 & MU3 & MU4).
  destruct (zip_nth gs p1 (set_nth i pos kd) i L ltac:(rewrite length_set_nth; congruence) Hi)
    as (gd & pd & k''' & MD1 & MD2 & MD3 & MD4).
  rewrite nth_error_set_nth_eq in MU3, MD3 by auto.
  assert (gu = g /\ pu = p /\ k'' = ku /\ gd = g /\ pd = p /\ k''' = kd) as (-> & -> & -> & -> & -> & ->)
        by (repeat split; congruence).
  destruct (nth_error_lay gh _ i _ N4) as (a & A0 & A1 & A2 & A3 & A4 & _).
  destruct (nth_error_lay gh _ i _ MU4) as (au & AU0 & _ & _ & AU3 & AU4 & _).
  destruct (nth_error_lay gh _ i _ MD4) as (ad & AD0 & _ & _ & AD3 & AD4 & _).
  rewrite axis_limits_eq in A1, A2, A3, A4, AU3, AU4, AD3, AD4 by (auto; lia). simpl in *.
  exists a, au, ad. repeat (split; [assumption|]).
  rewrite A1, A2, A3, A4, AU3, AD4.
  pose proof (start_mono g p (k + 1) p ltac:(lia) Hg0 ltac:(lia)) as Mo. rewrite start_p in Mo by lia.
  split.
  - subst ku. destruct (Z.eqb_spec (k + 1) p) as [Ek|Ek].
    + right. rewrite Ek, start_p, start_0 by lia. auto.
    + left. split; [reflexivity|exact Mo].
  - subst kd. destruct (Z.eqb_spec k 0) as [Ek|Ek].
    + right. rewrite Ek. replace (p - 1 + 1) with p by lia. rewrite start_p, start_0 by lia. auto.
    + left. now replace (k - 1 + 1) with k by lia.
Qed.
