From Coq Require Import String.
From Verif Require Import Model.Base Model.Num Model.Setup Model.Grainsize Spec.Box Spec.Sparse Spec.Grainsize Proof.BaseL.
Local Open Scope Z_scope.

Section Labels.
Context {T : Type} (N : num T) (L : num_laws N).
Notation gt a b := (n_gt N a b = true).
Lemma ngt_trans a b c : n_gt N b a = false -> gt c a -> n_gt N b c = false.
Proof. intros H1 H2. destruct (n_gt N b c) eqn:E; [|auto]. rewrite (gt_trans N L b c a E H2) in H1. discriminate. Qed.
Lemma gt_through a b c : n_gt N b a = false -> gt c a -> gt c b.
Proof. intros H1 H2. destruct (n_gt N a b) eqn:E; [eapply gt_trans; eauto|]. now rewrite (gt_total N L b a H1 E). Qed.

(* state of the search after the first m elements *)
Definition best (v : list T) (m : Z) (k : Z) (a : T) : Prop :=
  k < m /\ get v k = Some a /\ forall j b, j < m -> get v j = Some b -> n_gt N b a = false /\ (j < k -> gt a b).
Lemma best_first v k a : best v (zlen v) k a -> first_largest N v k.
Proof. intros (Hk & Ha & H). exists a. split; [auto|]. intros j b Hb. apply H; [|auto]. apply get_some_iff in Hb. lia. Qed.
Lemma best_step v m k a w : best v m k a -> get v m = Some w ->
  (gt w a -> best v (m + 1) m w) /\ (n_gt N w a = false -> best v (m + 1) k a).
Proof.
  intros (Hk & Ha & H) Hw. split; intros G.
  - split; [lia|]. split; [auto|]. intros j b Hj Hb. destruct (Z.eq_dec j m) as [->|].
    + rewrite Hw in Hb. inversion Hb. split; [apply (gt_irr N L)|lia].
    + destruct (H j b ltac:(lia) Hb) as [H1 H2]. split; [eapply ngt_trans; eauto|]. intros _. eapply gt_through; eauto.
  - split; [lia|]. split; [auto|]. intros j b Hj Hb. destruct (Z.eq_dec j m) as [->|].
    + rewrite Hw in Hb. inversion Hb; subst. split; [auto|lia].
    + apply H; [lia|auto].
Qed.
Lemma first_unique v k k' : first_largest N v k -> first_largest N v k' -> k = k'.
Proof.
  intros (a & A1 & A2) (b & B1 & B2). destruct (Z.lt_trichotomy k k') as [H|[H|H]]; [|auto|].
  - destruct (A2 _ _ B1) as [X _]. destruct (B2 _ _ A1) as [_ Y]. rewrite (Y H) in X. discriminate.
  - destruct (B2 _ _ A1) as [X _]. destruct (A2 _ _ B1) as [_ Y]. rewrite (Y H) in X. discriminate.
Qed.

Lemma label_vector_spec v : v <> [] -> exists k, label_vector N v = Some (Some k) /\ 0 <= k < zlen v /\ first_largest N v k.
Proof.
  intros Hv. destruct v as [|v0 v']; [congruence|]. set (v := v0 :: v') in *. unfold label_vector. change (get v 0) with (Some v0). cbn [bind].
  assert (0 < zlen v) as P by (unfold v; rewrite zlen_cons; pose proof (zlen_nonneg v'); lia).
  assert (forall n k a, best v (zlen v - Z.of_nat n) k a -> 1 <= zlen v - Z.of_nat n -> exists k' a', fold_opt (fun '(index, value) j => do w <- get v j; Some (if n_gt N w value then (j, w) else (index, value))) (zrange (zlen v - Z.of_nat n) (zlen v)) (k, a) = Some (k', a') /\ best v (zlen v) k' a') as X.
  { induction n as [|n IH]; intros k a B Hn.
    - rewrite zrange_nil by lia. exists k, a. split; [reflexivity|]. now rewrite Z.sub_0_r in B.
    - rewrite zrange_cons by lia. cbn [fold_opt]. destruct (get_ok v (zlen v - Z.of_nat (S n)) ltac:(lia)) as [w Ew]. rewrite Ew. cbn [bind].
      replace (zlen v - Z.of_nat (S n) + 1) with (zlen v - Z.of_nat n) by lia. destruct (best_step v _ k a w B Ew) as [S1 S2].
      replace (zlen v - Z.of_nat (S n) + 1) with (zlen v - Z.of_nat n) in S1, S2 by lia.
      destruct (n_gt N w a) eqn:G; apply IH; auto; lia. }
  destruct (X (Z.to_nat (zlen v - 1)) 0 v0) as (k & a & E & B).
  - replace (zlen v - Z.of_nat (Z.to_nat (zlen v - 1))) with 1 by lia. split; [lia|]. split; [reflexivity|]. intros j b Hj Hb. pose proof (get_some_iff _ _ _ Hb). assert (j = 0) as -> by lia. change (get v 0) with (Some v0) in Hb. inversion Hb. split; [apply (gt_irr N L)|lia].
  - lia.
  - replace (zlen v - Z.of_nat (Z.to_nat (zlen v - 1))) with 1 in E by lia. rewrite E. cbn [bind fst]. exists k. split; [reflexivity|]. split; [|now apply (best_first v k a)]. destruct B as (B1 & B2 & _). apply get_some_iff in B2. lia.
Qed.

(* sparse: until a positive value appears the state is (0, 0) *)
Lemma label_sparse_spec v : (exists j b, In (j, b) v /\ gt b (n_zero N)) ->
  exists k, label_sparse N v = Some (Some k) /\ In k (map fst v) /\ dominant N v k.
Proof.
  intros (j0 & b0 & I0 & G0). unfold label_sparse.
  assert (0 < zlen v) as P. { destruct v; [destruct I0|]. rewrite zlen_cons. pose proof (zlen_nonneg v). lia. }
  destruct (Z.ltb_spec 0 (zlen v)); [|lia].
  set (inv := fun m k a => (a = n_zero N /\ forall j b, j < m -> get (map snd v) j = Some b -> n_gt N b a = false) \/
                           (exists i, best (map snd v) m i a /\ get (map fst v) i = Some k /\ gt a (n_zero N))).
  assert (forall m it, get v m = Some it -> get (map snd v) m = Some (snd it) /\ get (map fst v) m = Some (fst it)) as GM.
  { intros m it. unfold get. destruct (m <? 0); [discriminate|]. rewrite !nth_error_map. intros ->. split; reflexivity. }
  assert (forall n k a, inv (zlen v - Z.of_nat n) k a -> 0 <= zlen v - Z.of_nat n -> exists k' a', fold_opt (fun '(index, value) j => do it <- get v j; Some (if n_gt N (snd it) value then it else (index, value))) (zrange (zlen v - Z.of_nat n) (zlen v)) (k, a) = Some (k', a') /\ inv (zlen v) k' a') as X.
  { induction n as [|n IH]; intros k a B Hn.
    - rewrite zrange_nil by lia. exists k, a. split; [reflexivity|]. now rewrite Z.sub_0_r in B.
    - rewrite zrange_cons by lia. cbn [fold_opt]. destruct (get_ok v (zlen v - Z.of_nat (S n)) ltac:(lia)) as [[wk w] Ew]. rewrite Ew. cbn [bind fst snd].
      destruct (GM _ _ Ew) as [Es Ef]. cbn [fst snd] in Es, Ef.
      assert (inv (zlen v - Z.of_nat (S n) + 1) (if n_gt N w a then wk else k) (if n_gt N w a then w else a)) as B'.
      { destruct B as [[-> B]|(i & B & Bi & Ba)].
        - destruct (n_gt N w (n_zero N)) eqn:G.
          + right. exists (zlen v - Z.of_nat (S n)). split; [|auto]. split; [lia|]. split; [auto|]. intros j b Hj Hb. destruct (Z.eq_dec j (zlen v - Z.of_nat (S n))) as [->|].
            * rewrite Es in Hb. inversion Hb. split; [apply (gt_irr N L)|lia].
            * specialize (B j b ltac:(lia) Hb). split; [eapply ngt_trans; eauto|intros _; eapply gt_through; eauto].
          + left. split; [auto|]. intros j b Hj Hb. destruct (Z.eq_dec j (zlen v - Z.of_nat (S n))) as [->|]; [congruence|]. apply (B j); [lia|auto].
        - right. destruct (best_step _ _ i a w B Es) as [S1 S2]. destruct (n_gt N w a) eqn:G.
          + exists (zlen v - Z.of_nat (S n)). split; [auto|]. split; [auto|]. eapply gt_trans; eauto.
          + exists i. auto. }
      replace (zlen v - Z.of_nat (S n) + 1) with (zlen v - Z.of_nat n) in * by lia.
      destruct (n_gt N w a); apply IH; auto; lia. }
  destruct (X (Z.to_nat (zlen v)) 0 (n_zero N)) as (k & a & E & B).
  - left. split; [auto|]. intros j b Hj Hb. apply get_some_iff in Hb. lia.
  - lia.
  - replace (zlen v - Z.of_nat (Z.to_nat (zlen v))) with 0 in E by lia. rewrite E. cbn [bind fst]. exists k. split; [reflexivity|].
    destruct B as [[-> B]|(i & B & Bi & Ba)].
    + exfalso. apply In_nth_error in I0 as [n En]. assert (get v (Z.of_nat n) = Some (j0, b0)) as Eg by (unfold get; destruct (Z.ltb_spec (Z.of_nat n) 0); [lia|now rewrite Nat2Z.id]).
      destruct (GM _ _ Eg) as [Gs _]. specialize (B (Z.of_nat n) b0). apply get_some_iff in Eg. rewrite B in G0; [discriminate|lia|exact Gs].
    + split.
      * unfold get in Bi. destruct (i <? 0); [discriminate|]. now apply nth_error_In in Bi.
      * exists i. split; [|auto]. apply (best_first _ _ a). rewrite BaseL.zlen_map. exact B.
Qed.
Lemma dominant_unique v k k' : dominant N v k -> dominant N v k' -> k = k'.
Proof. intros (i & A & B) (j & C & D). rewrite (first_unique _ _ _ A C) in B. congruence. Qed.
End Labels.

Lemma population_ext gs (P Q : list Z -> Prop) n : (forall x, in_box (map gx_0 gs) (map gx_1 gs) x -> P x <-> Q x) -> population gs P n -> population gs Q n.
Proof. intros E (xs & N & M & Z0). exists xs. split; [auto|split; [|auto]]. intros x. rewrite M. specialize (E x). tauto. Qed.
Lemma grain_sizes_ext gs P Q l : (forall x k, in_box (map gx_0 gs) (map gx_1 gs) x -> P x k <-> Q x k) -> grain_sizes gs P l -> grain_sizes gs Q l.
Proof.
  intros E (A & B & D). split; [auto|]. split.
  - intros k n. rewrite B. apply and_iff_compat_l. split; apply population_ext; intros x Hx; specialize (E x k Hx); tauto.
  - eapply population_ext; [|exact D]. intros x Hx. split; intros [k Hk]; exists k; apply E; auto.
Qed.
