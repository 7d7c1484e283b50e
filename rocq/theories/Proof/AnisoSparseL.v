From Coq Require Import QArith.QArith QArith.Qcanon.
From Verif Require Import Model.Base Model.Num Model.Boundary Model.Layout Model.Access Model.Sparse Model.Stencil Model.Evolve Model.AnisoSparse
  Spec.Box Spec.Access Spec.Sparse Spec.Stencil Spec.Evolve Spec.AnisoSparse Proof.BaseL Proof.LayoutL Proof.AccessL Proof.SparseL Proof.StencilL Proof.EvolveL Proof.EvolveF.
Local Open Scope Z_scope.
Local Open Scope list_scope.

(* ---- loops over the rest of a list ---- *)
Fixpoint fold_tails {A S} (f : S -> A -> list A -> option S) (l : list A) (s : S) : option S :=
  match l with [] => Some s | a :: r => do s <- f s a r; fold_tails f r s end.
Lemma fold_tails_eq {A S} (g : S -> Z -> option S) (f : S -> A -> list A -> option S) (l : list A) :
  (forall s d a r, l = d ++ a :: r -> g s (zlen d) = f s a r) ->
  forall r d s, l = d ++ r -> fold_opt g (zrange (zlen d) (zlen l)) s = fold_tails f r s.
Proof.
  intros H. induction r as [|a r IH]; intros d s E.
  - rewrite app_nil_r in E. subst. rewrite zrange_nil by lia. reflexivity.
  - assert (zlen d < zlen l) as L by (rewrite E, zlen_app, zlen_cons; pose proof (zlen_nonneg r); lia).
    rewrite zrange_cons by lia. cbn [fold_opt fold_tails]. rewrite (H s d a r E). destruct (f s a r) as [s'|]; [|reflexivity]. cbn [bind].
    replace (zlen d + 1) with (zlen (d ++ [a])) by (rewrite zlen_app; reflexivity). apply IH. now rewrite <- app_assoc.
Qed.

(* a step that adds c k to every field k *)
Definition adds (f : sobj Qc -> option (sobj Qc)) (c : Z -> Qc) : Prop :=
  forall l, nd l -> exists l', f (map Some l) = Some (map Some l') /\ nd l' /\ forall k, at_index l' k = (at_index l k + c k)%Qc.
Definition unit_at (a : Z) (v : Qc) (k : Z) : Qc := if k =? a then v else 0%Qc.
Lemma at_aset l k f k' : at_index (aset num_Qc l k f) k' = if k' =? k then f (at_index l k) else at_index l k'.
Proof. rewrite !at_index_aval. unfold aval at 1. rewrite lookup_aset. destruct (k' =? k); reflexivity. Qed.
Lemma adds_set a v f : (forall q, f q = q + v)%Qc -> adds (fun d => sset_op num_Qc d a f) (unit_at a v).
Proof.
  intros H l N. rewrite sset_op_map. eexists. split; [reflexivity|]. split; [now apply NoDup_aset|]. intros k. rewrite at_aset, H. unfold unit_at. destruct (Z.eqb_spec k a) as [->|]; [reflexivity|ring].
Qed.
Lemma adds_seq f g c d : adds f c -> adds g d -> adds (fun o => do o <- f o; g o) (fun k => c k + d k)%Qc.
Proof.
  intros A B l N. destruct (A l N) as (l1 & E1 & N1 & H1). destruct (B l1 N1) as (l2 & E2 & N2 & H2). exists l2. rewrite E1. cbn [bind]. split; [auto|]. split; [auto|]. intros k. rewrite H2, H1. ring.
Qed.
Lemma adds_ext f c d : (forall k, c k = d k) -> adds f c -> adds f d.
Proof. intros H A l N. destruct (A l N) as (l' & E & N' & H'). exists l'. split; [auto|]. split; [auto|]. intros k. now rewrite H', H. Qed.
Lemma adds_fun f g c : (forall o, f o = g o) -> adds f c -> adds g c.
Proof. intros H A l N. destruct (A l N) as (l' & E & N' & H'). exists l'. rewrite <- H. auto. Qed.
Lemma adds_nothing : adds Some (fun _ => 0%Qc).
Proof. intros l N. exists l. split; [auto|]. split; [auto|]. intros k. ring. Qed.
Fixpoint tails_sum {A} (c : A -> list A -> Z -> Qc) (l : list A) (k : Z) : Qc :=
  match l with [] => 0%Qc | a :: r => (c a r k + tails_sum c r k)%Qc end.
Lemma adds_tails {A} (f : sobj Qc -> A -> list A -> option (sobj Qc)) c (l : list A) :
  (forall d a r, l = d ++ a :: r -> adds (fun o => f o a r) (c a r)) -> adds (fold_tails f l) (tails_sum c l).
Proof.
  induction l as [|a l IH]; intros H; [exact adds_nothing|]. cbn [fold_tails tails_sum]. apply (adds_seq (fun o => f o a l) (fold_tails f l) (c a l)); [apply (H []); reflexivity|]. apply IH. intros d b r ->. apply (H (a :: d)). reflexivity.
Qed.
Lemma tails_ext {A} (c e : A -> list A -> Z -> Qc) l k : (forall a r, c a r k = e a r k) -> tails_sum c l k = tails_sum e l k.
Proof. intros H. induction l; simpl; [reflexivity|]. now rewrite H, IHl. Qed.

(* ---- algebra: loops over pairs and triples of distinct numbers ---- *)
Lemma others_absent l k : ~ In k l -> others l k = l.
Proof. induction l as [|a l IH]; simpl; intros H; [auto|]. destruct (Z.eqb_spec a k); [tauto|]. simpl. now rewrite IH by tauto. Qed.
Lemma in_others l k j : In j (others l k) <-> In j l /\ j <> k.
Proof. unfold others. rewrite filter_In. destruct (Z.eqb_spec j k); simpl; intuition congruence. Qed.
Lemma nd_others l k : NoDup l -> NoDup (others l k).
Proof. apply NoDup_filter. Qed.
Notation sum_over l f := (sumQ (map f l)).
Lemma sum_tails_one (f : Z -> Qc) (l : list Z) k : tails_sum (fun a _ => unit_at a (f a)) l k = sum_over (filter (Z.eqb k) l) f.
Proof. induction l as [|a l IH]; simpl; [reflexivity|]. rewrite IH. unfold unit_at. destruct (k =? a); simpl; [reflexivity|ring]. Qed.
(* every pair (a,b) gives A a b to a and A b a to b *)
Lemma pair_row (A : Z -> Z -> Qc) a r k : tails_sum (fun b _ k => unit_at a (A a b) k + unit_at b (A b a) k)%Qc r k =
  ((if k =? a then sum_over r (A a) else 0) + sum_over (filter (Z.eqb k) r) (fun b => A b a))%Qc.
Proof.
  induction r as [|b r IH]; simpl; [destruct (k =? a); ring|]. rewrite IH. unfold unit_at. destruct (k =? a), (k =? b); simpl; ring.
Qed.
Lemma filter_one l k : NoDup l -> filter (Z.eqb k) l = if in_dec Z.eq_dec k l then [k] else [].
Proof.
  induction 1 as [|a l H N IH]; simpl; [reflexivity|]. destruct (Z.eqb_spec k a) as [->|D].
  - rewrite IH. destruct (in_dec Z.eq_dec a l); [tauto|]. destruct (Z.eq_dec a a); [reflexivity|easy].
  - rewrite IH. destruct (Z.eq_dec a k); [congruence|]. destruct (in_dec Z.eq_dec k l); reflexivity.
Qed.
Lemma pair_sums (A : Z -> Z -> Qc) l k : NoDup l ->
  tails_sum (fun a r => tails_sum (fun b _ k => unit_at a (A a b) k + unit_at b (A b a) k)%Qc r) l k = if in_dec Z.eq_dec k l then sum_over (others l k) (A k) else 0%Qc.
Proof.
  induction 1 as [|a l H N IH]; [reflexivity|]. cbn [tails_sum]. rewrite pair_row, IH, filter_one by auto. cbn [others filter].
  destruct (Z.eqb_spec k a) as [->|D].
  - rewrite Z.eqb_refl. cbn [negb]. fold (others l a). destruct (in_dec Z.eq_dec a l) as [|_]; [contradiction|]. destruct (in_dec Z.eq_dec a (a :: l)) as [_|C]; [|simpl in C; tauto]. rewrite others_absent by auto. simpl. ring.
  - destruct (Z.eqb_spec a k); [congruence|]. cbn [negb]. fold (others l k). destruct (in_dec Z.eq_dec k l) as [I|I]; destruct (in_dec Z.eq_dec k (a :: l)) as [I'|I']; simpl in I'; try (exfalso; intuition congruence); simpl; ring.
Qed.
(* the sum of the products of two of the numbers *)
Fixpoint pair_products (p : Z -> Qc) (l : list Z) : Qc := match l with [] => 0%Qc | a :: r => (p a * sum_over r p + pair_products p r)%Qc end.
Lemma sum_others (p : Z -> Qc) l k : NoDup l -> In k l -> (sum_over (others l k) p + p k = sum_over l p)%Qc.
Proof.
  induction 1 as [|a l H N IH]; simpl; [tauto|]. intros [->|I].
  - rewrite Z.eqb_refl. cbn [negb]. fold (others l k). rewrite others_absent by auto. ring.
  - destruct (Z.eqb_spec a k) as [->|D]; [contradiction|]. cbn [negb map sumQ]. fold (others l k). rewrite <- IH by auto. ring.
Qed.
Lemma pair_products_double (p : Z -> Qc) l : NoDup l -> (Qc_of 2 * pair_products p l = sum_over l (fun i => sum_over (others l i) (fun j => p i * p j)))%Qc.
Proof.
  intros N. rewrite (sumQ_ext _ (fun i => p i * (sum_over l p - p i))%Qc).
  2:{ intros i Hi. rewrite sumQ_mul. f_equal. rewrite <- (sum_others p l i N Hi). ring. }
  assert (forall m, sum_over m (fun i => p i * (sum_over l p - p i)) = sum_over m p * sum_over l p - sum_over m (fun i => p i * p i))%Qc as X by (induction m as [|b m IHm]; simpl; [ring|rewrite IHm; ring]).
  rewrite X. clear X N. replace (Qc_of 2) with (1 + 1)%Qc by (apply Qc_is_canon; reflexivity). induction l as [|a l IH]; simpl; [ring|]. transitivity ((1 + 1) * (p a * sum_over l p) + (1 + 1) * pair_products p l)%Qc; [ring|]. rewrite IH. ring.
Qed.
(* every triple (a,b,c) gives p b * p c to a, and so on *)
Definition triple_at (p : Z -> Qc) (a b c k : Z) : Qc := (unit_at a (p b * p c) k + unit_at b (p c * p a) k + unit_at c (p a * p b) k)%Qc.
Lemma triple_inner p a b r k : tails_sum (fun c _ => triple_at p a b c) r k =
  (unit_at a (p b * sum_over r p) k + unit_at b (p a * sum_over r p) k + p a * p b * sum_over (filter (Z.eqb k) r) (fun _ => 1))%Qc.
Proof. induction r as [|c r IH]; simpl; [unfold unit_at; destruct (k =? a), (k =? b); ring|]. rewrite IH. unfold triple_at, unit_at. destruct (k =? a), (k =? b), (k =? c); simpl; ring. Qed.
Lemma triple_row p a l k : NoDup l -> k <> a -> tails_sum (fun b r => tails_sum (fun c _ => triple_at p a b c) r) l k = if in_dec Z.eq_dec k l then (p a * sum_over (others l k) p)%Qc else 0%Qc.
Proof.
  intros N D. induction N as [|b l H N IH]; [reflexivity|]. cbn [tails_sum]. rewrite triple_inner, IH, filter_one by auto. cbn [others filter]. unfold unit_at. destruct (Z.eqb_spec k a); [easy|]. destruct (Z.eqb_spec k b) as [->|Db].
  - rewrite Z.eqb_refl. cbn [negb]. fold (others l b). destruct (in_dec Z.eq_dec b l) as [|_]; [contradiction|]. destruct (in_dec Z.eq_dec b (b :: l)) as [_|C]; [|simpl in C; tauto]. rewrite others_absent by auto. simpl. ring.
  - destruct (Z.eqb_spec b k); [congruence|]. cbn [negb]. fold (others l k). destruct (in_dec Z.eq_dec k l) as [I|I]; destruct (in_dec Z.eq_dec k (b :: l)) as [I'|I']; simpl in I'; try (exfalso; intuition congruence); simpl; ring.
Qed.
Lemma triple_first p a l : ~ In a l -> tails_sum (fun b r => tails_sum (fun c _ => triple_at p a b c) r) l a = pair_products p l.
Proof.
  induction l as [|b l IH]; intros H; [reflexivity|]. cbn [tails_sum pair_products]. rewrite triple_inner, IH by (simpl in H; tauto). unfold unit_at. rewrite Z.eqb_refl. destruct (Z.eqb_spec a b); [subst; simpl in H; tauto|].
  assert (filter (Z.eqb a) l = []) as ->. { assert (~ In a l) as Na by (simpl in H; tauto). clear - Na. induction l as [|c l IH]; [reflexivity|]. cbn [filter]. destruct (Z.eqb_spec a c); [subst; simpl in Na; tauto|]. apply IH. simpl in Na. tauto. }
  simpl. ring.
Qed.
Lemma triple_sums p l k : NoDup l -> tails_sum (fun a r => tails_sum (fun b r => tails_sum (fun c _ => triple_at p a b c) r) r) l k = if in_dec Z.eq_dec k l then pair_products p (others l k) else 0%Qc.
Proof.
  induction 1 as [|a l H N IH]; [reflexivity|]. cbn [tails_sum]. rewrite IH. destruct (Z.eq_dec k a) as [->|D].
  - rewrite triple_first by auto. cbn [others filter]. rewrite Z.eqb_refl. cbn [negb]. fold (others l a). destruct (in_dec Z.eq_dec a l) as [|_]; [contradiction|]. destruct (in_dec Z.eq_dec a (a :: l)) as [_|C]; [|simpl in C; tauto]. rewrite others_absent by auto. ring.
  - rewrite triple_row by auto. cbn [others filter]. destruct (Z.eqb_spec a k); [congruence|]. cbn [negb]. fold (others l k). destruct (in_dec Z.eq_dec k l) as [I|I]; destruct (in_dec Z.eq_dec k (a :: l)) as [I'|I']; simpl in I'; try (exfalso; intuition congruence); [cbn [pair_products]; ring|ring].
Qed.
Lemma tails_add {A} (c e : A -> list A -> Z -> Qc) l k : tails_sum (fun a r k => c a r k + e a r k)%Qc l k = (tails_sum c l k + tails_sum e l k)%Qc.
Proof. induction l; simpl; [ring|]. rewrite IHl. ring. Qed.
Lemma tails_mul {A} (c : A -> list A -> Z -> Qc) q l k : tails_sum (fun a r k => q * c a r k)%Qc l k = (q * tails_sum c l k)%Qc.
Proof. induction l; simpl; [ring|]. rewrite IHl. ring. Qed.

(* ---- the loops of the programs ---- *)
Lemma tails_map {A B} (f : A -> B) (c : B -> list B -> Z -> Qc) l k : tails_sum c (map f l) k = tails_sum (fun a r => c (f a) (map f r)) l k.
Proof. induction l; simpl; [reflexivity|]. now rewrite IHl. Qed.
Lemma sindex_at {T} (d : list (Z * T)) a r : sindex (map Some (d ++ a :: r)) (zlen d) = Some (fst a).
Proof. unfold zlen. apply (sindex_map (d ++ a :: r) (length d) a). rewrite nth_error_app2, Nat.sub_diag by lia. reflexivity. Qed.
Lemma zlen_snoc {A} (d : list A) a : zlen d + 1 = zlen (d ++ [a]).
Proof. rewrite zlen_app. reflexivity. Qed.

Lemma pairs_adds (s : list (Z * Z)) (f : sobj Qc -> Z -> Z -> option (sobj Qc)) (A : Z -> Z -> Qc) : nd s ->
  (forall a b, adds (fun o => f o a b) (fun k => unit_at a (A a b) k + unit_at b (A b a) k)%Qc) ->
  exists l, pairs (map Some s) f = Some (map Some l) /\ nd l /\ forall k, at_index l k = if in_dec Z.eq_dec k (map fst s) then sum_over (others (map fst s) k) (A k) else 0%Qc.
Proof.
  intros N H. unfold pairs. rewrite BaseL.zlen_map.
  assert (adds (fold_tails (fun acc a r => fold_tails (fun acc b _ => f acc (fst a) (fst b)) r acc) s) (tails_sum (fun a r => tails_sum (fun b _ k => unit_at (fst a) (A (fst a) (fst b)) k + unit_at (fst b) (A (fst b) (fst a)) k)%Qc r) s)) as Ad.
  { apply adds_tails. intros d a r E. apply adds_tails. intros d' b r' E'. apply H. }
  destruct (Ad [] ltac:(constructor)) as (l & E & Nl & V). exists l. split; [|split; [auto|]].
  - rewrite <- E. change 0 with (zlen (@nil (Z * Z))). apply (fold_tails_eq _ (fun acc a r => fold_tails (fun acc b _ => f acc (fst a) (fst b)) r acc) s); [|reflexivity].
    intros o d a r Es. rewrite Es at 1. rewrite sindex_at. cbn [bind]. rewrite (zlen_snoc d a). apply (fold_tails_eq _ (fun acc b _ => f acc (fst a) (fst b)) s); [|now rewrite <- app_assoc].
    intros o' d' b r' Es'. rewrite Es', sindex_at. reflexivity.
  - intros k. rewrite V. unfold at_index at 1. cbn [find]. rewrite <- pair_sums by auto. rewrite tails_map. transitivity (tails_sum (fun a r => tails_sum (fun b _ k => unit_at (fst a) (A (fst a) (fst b)) k + unit_at (fst b) (A (fst b) (fst a)) k)%Qc r) s k); [ring|].
    apply tails_ext. intros a r. now rewrite (tails_map fst).
Qed.

Section Rules.
Context (energy eps mobility : Z -> Z -> Qc) (Se : symmetric energy) (Sp : symmetric eps) (Sm : symmetric mobility).
Definition grad_of (i j : Z) : Qc := (half * eps i j * eps i j)%Qc.
Definition barrier_of (i j : Z) : Qc := (q_of 4 * energy i j / q_of 8)%Qc.

Lemma force_eq gradient barrier triple phi lap ks k : NoDup ks ->
  force gradient barrier triple phi lap ks k = (sum_over (others ks k) (fun j => gradient k j * lap j + barrier k j * phi j) + triple * pair_products phi (others ks k))%Qc.
Proof.
  intros N. unfold force. f_equal. rewrite <- pair_products_double by now apply nd_others. field. intros E. discriminate E.
Qed.
Lemma aniso_derivatives_ok cell lap s : nd s -> exists d, aniso_derivatives energy eps (map Some cell) (map Some lap) (map Some s) = Some (map Some d) /\ nd d /\
  forall k, In k (map fst s) -> at_index d k = force grad_of barrier_of (q_of 3) (at_index cell) (at_index lap) (map fst s) k.
Proof.
  intros N. set (phi := at_index cell). set (A := fun i j => (grad_of i j * at_index lap j + barrier_of i j * phi j)%Qc).
  set (third := fun (hi ji : Z) (d : sobj Qc) (c : Z * Z) (_ : list (Z * Z)) =>
    do d <- sset_op num_Qc d hi (fun a => a + q_of 3 * phi ji * phi (fst c))%Qc; do d <- sset_op num_Qc d ji (fun a => a + q_of 3 * phi (fst c) * phi hi)%Qc; sset_op num_Qc d (fst c) (fun a => a + q_of 3 * phi hi * phi ji)%Qc).
  set (second := fun (hi : Z) (d : sobj Qc) (b : Z * Z) (r : list (Z * Z)) =>
    do d <- sset_op num_Qc d hi (fun a => a + (half * eps hi (fst b) * eps hi (fst b) * at_index lap (fst b) + q_of 4 * energy hi (fst b) / q_of 8 * phi (fst b)))%Qc;
    do d <- sset_op num_Qc d (fst b) (fun a => a + (half * eps hi (fst b) * eps hi (fst b) * at_index lap hi + q_of 4 * energy hi (fst b) / q_of 8 * phi hi))%Qc;
    fold_tails (third hi (fst b)) r d).
  assert (adds (fold_tails (fun d a r => fold_tails (second (fst a)) r d) s)
    (tails_sum (fun a r => tails_sum (fun b r k => (unit_at (fst a) (A (fst a) (fst b)) k + unit_at (fst b) (A (fst b) (fst a)) k) + q_of 3 * tails_sum (fun c _ => triple_at phi (fst a) (fst b) (fst c)) r k)%Qc r) s)) as Ad.
  { apply adds_tails. intros _ a r _. apply adds_tails. intros _ b r' _. unfold second.
    eapply adds_ext; [|apply (adds_seq _ _ (unit_at (fst a) (A (fst a) (fst b))) (fun k => unit_at (fst b) (A (fst b) (fst a)) k + q_of 3 * tails_sum (fun c _ => triple_at phi (fst a) (fst b) (fst c)) r' k)%Qc)].
    - intros k. cbv beta. ring.
    - apply adds_set. intros q. reflexivity.
    - apply (adds_seq (fun d => sset_op num_Qc d (fst b) _) (fold_tails (third (fst a) (fst b)) r')).
      + apply adds_set. intros q. unfold A, grad_of, barrier_of. rewrite (Se (fst b)), (Sp (fst b)). reflexivity.
      + eapply adds_ext; [intros k; apply tails_mul|]. apply adds_tails. intros d3 c r3 _. unfold third, triple_at.
        eapply adds_ext; [|apply (adds_seq _ _ (unit_at (fst a) (q_of 3 * phi (fst b) * phi (fst c))%Qc) (fun k => unit_at (fst b) (q_of 3 * phi (fst c) * phi (fst a)) k + unit_at (fst c) (q_of 3 * phi (fst a) * phi (fst b)) k)%Qc)].
        * intros k. unfold unit_at. destruct (k =? fst a), (k =? fst b), (k =? fst c); ring.
        * apply adds_set. reflexivity.
        * apply (adds_seq (fun d => sset_op num_Qc d (fst b) _) (fun d => sset_op num_Qc d (fst c) _)); apply adds_set; reflexivity. }
  destruct (Ad [] ltac:(constructor)) as (d & E & Nd & V). exists d. split; [|split; [auto|]].
  - rewrite <- E. unfold aniso_derivatives. rewrite BaseL.zlen_map. change 0 with (zlen (@nil (Z * Z))). apply (fold_tails_eq _ (fun d a r => fold_tails (second (fst a)) r d) s); [|reflexivity].
    intros o d1 a r Es. rewrite Es at 1. rewrite sindex_at. cbn [bind]. rewrite (zlen_snoc d1 a). apply (fold_tails_eq _ (second (fst a)) s); [|now rewrite <- app_assoc].
    intros o' d2 b r' Es'. rewrite Es' at 1. rewrite sindex_at. cbn [bind]. rewrite !sread_map. cbn [bind]. rewrite <- !at_index_aval. unfold second. fold phi.
    destruct (sset_op num_Qc o' (fst a) _) as [o1|]; [|reflexivity]. cbn [bind]. destruct (sset_op num_Qc o1 (fst b) _) as [o2|]; [|reflexivity]. cbn [bind].
    rewrite (zlen_snoc d2 b). apply (fold_tails_eq _ (third (fst a) (fst b)) s); [|now rewrite <- app_assoc].
    intros o3 d3 c r3 Es3. rewrite Es3, sindex_at. cbn [bind]. rewrite sread_map. cbn [bind]. rewrite <- at_index_aval. reflexivity.
  - intros k Hk. rewrite V. unfold at_index at 1. cbn [find]. rewrite force_eq by auto. fold phi.
    pose proof (pair_sums A (map fst s) k N) as P1. pose proof (triple_sums phi (map fst s) k N) as P2. destruct (in_dec Z.eq_dec k (map fst s)) as [_|]; [|contradiction]. unfold A in P1 at 3. rewrite <- P1, <- P2.
    rewrite !(tails_map fst). rewrite <- tails_mul, Qcplus_0_l, <- tails_add. apply tails_ext. intros a r. rewrite !(tails_map fst), <- tails_mul, <- tails_add. apply tails_ext. intros b r'. now rewrite (tails_map fst).
Qed.
Lemma aniso_rates_ok pinned f s (g : Z -> Qc) : nd s -> (forall k, In k (map fst s) -> at_index f k = g k) -> exists d, aniso_rates mobility pinned (map Some f) (map Some s) = Some (map Some d) /\ nd d /\
  forall k, In k (map fst s) -> at_index d k = (- sum_over (others (map fst s) k) (fun j => pin pinned mobility k j * (g k - g j)))%Qc.
Proof.
  intros N G. unfold aniso_rates. destruct (pairs_adds s (fun r hi ji => do fh <- sread num_Qc (map Some f) hi; do fj <- sread num_Qc (map Some f) ji;
    do r <- sset_op num_Qc r hi (fun a => a - pin pinned mobility hi ji * (fh - fj))%Qc; sset_op num_Qc r ji (fun a => a - pin pinned mobility hi ji * (fj - fh))%Qc) (fun i j => - (pin pinned mobility i j * (at_index f i - at_index f j)))%Qc N) as (l & E & Nl & V).
  { intros a b. apply (adds_fun (fun r => do r <- sset_op num_Qc r a (fun q => q - pin pinned mobility a b * (at_index f a - at_index f b))%Qc; sset_op num_Qc r b (fun q => q - pin pinned mobility a b * (at_index f b - at_index f a))%Qc)).
    - intros o. rewrite !sread_map. cbn [bind]. now rewrite <- !at_index_aval.
    - apply (adds_seq (fun r => sset_op num_Qc r a _) (fun r => sset_op num_Qc r b _)); apply adds_set; intros q; [ring|]. unfold pin. rewrite (Sm b a), (orb_comm (b =? 0)). destruct (pinned && _); ring. }
  exists l. split; [exact E|]. split; [auto|]. intros k Hk. rewrite V. destruct (in_dec Z.eq_dec k (map fst s)) as [_|]; [|contradiction].
  rewrite <- (Qcopp_involutive (sum_over _ (fun j => (- (pin pinned mobility k j * _))%Qc))). f_equal.
  assert (forall m, (forall j, In j m -> In j (map fst s)) -> (- sum_over m (fun j => - (pin pinned mobility k j * (at_index f k - at_index f j))) = sum_over m (fun j => pin pinned mobility k j * (g k - g j)))%Qc) as X.
  { induction m as [|j m IHm]; intros Hm; simpl; [ring|]. rewrite <- IHm by (intros; apply Hm; simpl; auto). rewrite (G k Hk), (G j) by (apply Hm; simpl; auto). ring. }
  apply X. intros j Hj. now apply in_others in Hj.
Qed.
End Rules.
