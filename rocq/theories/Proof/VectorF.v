From Verif Require Import Model.Base Model.Num Model.Vector Spec.Sparse Spec.Vector Proof.BaseL Proof.SparseL Proof.VectorL.

Section Vector.
Context {T : Type} (N : num T).

Lemma map2_pointwise f (x y : list T) : length x = length y -> pointwise f x y (map2 f x y).
Proof.
  intros L. split; [now apply length_map2|]. clear L. revert y; induction x; intros [|b y] [|i]; simpl; intros; try discriminate; [congruence|].
  now apply IHx.
Qed.
Lemma map_pointwise (g : T -> T) (x : list T) : length (map g x) = length x /\ forall i a, nth_error x i = Some a -> nth_error (map g x) i = Some (g a).
Proof. split; [apply map_length|]. intros i a H. now rewrite nth_error_map, H. Qed.
Lemma binary_pointwise f (x y : list T) : length x = length y -> exists z, vbinary f (elements x) (elements y) = Some (elements z) /\ pointwise f x y z.
Proof. intros L. exists (map2 f x y). split; [now apply binary_spec|now apply map2_pointwise]. Qed.
Lemma accum_pointwise f (st : vstore T) x y lx ly : get st x = Some (elements lx) -> get st y = Some (elements ly) -> length lx = length ly ->
  exists st' lz, vaccum f st x y = Some st' /\ get st' x = Some (elements lz) /\ pointwise f lx ly lz /\ forall z, z <> x -> get st' z = get st z.
Proof.
  intros Gx Gy L. destruct (accum_spec f st x y lx ly Gx Gy L) as (st' & E & G & _ & O).
  exists st', (map2 f lx ly). repeat split; auto; now apply map2_pointwise.
Qed.
Lemma sum_products_fold (x y : list T) : forall acc, sum_products N acc x y = fold_left (fun z p => n_add N z (n_mul N (fst p) (snd p))) (combine x y) acc.
Proof. revert y; induction x; intros [|b y]; simpl; auto. Qed.
Lemma dot_sum (x y : list T) : vdot N (elements x) (elements y) = Some (sum_products N (n_zero N) x y).
Proof. unfold elements. rewrite vdot_spec. unfold dotl. now rewrite sum_products_fold. Qed.

Context (R : ring_laws N).
Notation "a + b" := (n_add N a b). Notation "a * b" := (n_mul N a b). Notation "0" := (n_zero N).
Lemma sp_acc (x y : list T) : forall acc, sum_products N acc x y = acc + sum_products N 0 x y.
Proof.
  revert y; induction x as [|a x IH]; intros [|b y] acc; simpl; try (now rewrite (r_add_comm N R), (r_add_0_l N R)).
  rewrite (IH y (acc + a * b)), (IH y (0 + a * b)), (r_add_0_l N R). now rewrite (r_add_assoc N R).
Qed.
Lemma sp_sym (x y : list T) : forall acc, sum_products N acc x y = sum_products N acc y x.
Proof. revert y; induction x as [|a x IH]; intros [|b y] acc; simpl; auto. rewrite IH. now rewrite (r_mul_comm N R). Qed.
Lemma sp_add x x' y z : pointwise (n_add N) x x' z -> length x = length x' ->
  sum_products N 0 z y = sum_products N 0 x y + sum_products N 0 x' y.
Proof.
  revert x x' y. induction z as [|c z IH]; intros x x' y [L P] L'.
  - destruct x; [|discriminate]. destruct x'; [|discriminate]. simpl. now rewrite (r_add_0_l N R).
  - destruct x as [|a x]; [discriminate|]. destruct x' as [|a' x']; [discriminate|].
    assert (c = a + a') as -> by (pose proof (P O a a' eq_refl eq_refl) as E; simpl in E; congruence).
    destruct y as [|b y]; simpl; [now rewrite (r_add_0_l N R)|].
    rewrite sp_acc, (sp_acc x), (sp_acc x'), (IH x x' y).
    + rewrite !(r_add_0_l N R), (r_distr N R).
      set (p := a * b). set (q := a' * b). set (s := sum_products N 0 x y). set (t := sum_products N 0 x' y).
      rewrite <- (r_add_assoc N R p q), <- (r_add_assoc N R p s). f_equal.
      rewrite (r_add_assoc N R q), (r_add_comm N R q s), (r_add_assoc N R s). reflexivity.
    + split; [simpl in L; congruence|]. intros i. exact (P (S i)).
    + simpl in L'. congruence.
Qed.
Lemma sp_scale c x y z : length z = length x -> (forall i a, nth_error x i = Some a -> nth_error z i = Some (c * a)) ->
  sum_products N 0 z y = c * sum_products N 0 x y.
Proof.
  revert x y. induction z as [|d z IH]; intros x y L P.
  - destruct x; [|discriminate]. simpl. now rewrite (r_mul_0_r N R).
  - destruct x as [|a x]; [discriminate|].
    assert (d = c * a) as -> by (pose proof (P O a eq_refl) as E; simpl in E; congruence).
    destruct y as [|b y]; simpl; [now rewrite (r_mul_0_r N R)|].
    rewrite sp_acc, (sp_acc x), (IH x y).
    + rewrite !(r_add_0_l N R), <- (r_mul_assoc N R), (r_mul_comm N R c (a * b + _)), (r_distr N R).
      now rewrite (r_mul_comm N R c (a * b)), (r_mul_comm N R c (sum_products N 0 x y)).
    + simpl in L. congruence.
    + intros i. exact (P (S i)).
Qed.
End Vector.
