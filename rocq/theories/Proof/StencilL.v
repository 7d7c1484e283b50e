From Coq Require Import QArith.QArith QArith.Qcanon.
From Verif Require Import Model.Base Model.Boundary Model.Layout Model.Access Model.Stencil Spec.Box Spec.Access Spec.Stencil
  Proof.BaseL Proof.LayoutL Proof.AccessL.
Local Open Scope list_scope.

(* ---- arithmetic ---- *)
Lemma qc_this_eq a b : (this a == this b)%Q -> a = b.
Proof. intros H. apply Qc_is_canon. exact H. Qed.
Lemma Qc_of_add a b : Qc_of (a + b) = (Qc_of a + Qc_of b)%Qc.
Proof. apply qc_this_eq. unfold Qc_of, Qcplus, Q2Qc. cbn [this]. rewrite !Qred_correct, inject_Z_plus. reflexivity. Qed.
Lemma Qc_of_0 : Qc_of 0 = 0%Qc.
Proof. reflexivity. Qed.
Lemma Qc_of_1 : Qc_of 1 = 1%Qc.
Proof. reflexivity. Qed.
Lemma Qc_of_m1 : Qc_of (-1) = (- (1))%Qc.
Proof. apply qc_this_eq. reflexivity. Qed.
Lemma c2_eq : c2 = (1 + 1)%Qc.
Proof. apply qc_this_eq. reflexivity. Qed.
Lemma c2_nz : c2 <> 0%Qc.
Proof. intros H. apply (f_equal this) in H. discriminate. Qed.

Lemma sumQ_app l m : sumQ (l ++ m) = (sumQ l + sumQ m)%Qc.
Proof. induction l as [|a l IH]; simpl; [ring|]. rewrite IH. ring. Qed.
Lemma sumQ_ext {A} (f g : A -> Qc) l : (forall a, In a l -> f a = g a) -> sumQ (map f l) = sumQ (map g l).
Proof. intros H. f_equal. apply map_ext_in, H. Qed.
Lemma sumQ_add {A} (f g : A -> Qc) l : sumQ (map (fun a => f a + g a)%Qc l) = (sumQ (map f l) + sumQ (map g l))%Qc.
Proof. induction l as [|a l IH]; simpl; [ring|]. rewrite IH. ring. Qed.
Lemma sumQ_sub {A} (f g : A -> Qc) l : sumQ (map (fun a => f a - g a)%Qc l) = (sumQ (map f l) - sumQ (map g l))%Qc.
Proof. induction l as [|a l IH]; simpl; [ring|]. rewrite IH. ring. Qed.
Lemma sumQ_mul {A} (f : A -> Qc) k l : sumQ (map (fun a => k * f a)%Qc l) = (k * sumQ (map f l))%Qc.
Proof. induction l as [|a l IH]; simpl; [ring|]. rewrite IH. ring. Qed.
Lemma sumQ_zero {A} (l : list A) : sumQ (map (fun _ => 0%Qc) l) = 0%Qc.
Proof. induction l as [|a l IH]; simpl; [ring|]. rewrite IH. ring. Qed.
Lemma sumQ_swap {A B} (f : A -> B -> Qc) l m : sumQ (map (fun a => sumQ (map (f a) m)) l) = sumQ (map (fun b => sumQ (map (fun a => f a b) l)) m).
Proof. induction l as [|a l IH]; simpl; [now rewrite sumQ_zero|]. rewrite IH, <- sumQ_add. reflexivity. Qed.

(* ---- neighbours ---- *)
Lemma set_nth_set {A} n (a : list A) u v : set_nth n (set_nth n a u) v = set_nth n a v.
Proof. revert a; induction n; intros [|h t]; simpl; f_equal; auto. Qed.
Lemma set_nth_same {A} n (a : list A) d : set_nth n a (nth n a d) = a.
Proof. revert a; induction n; intros [|h t]; simpl; f_equal; auto. Qed.
Lemma nth_set_nth {A} n (a : list A) v d : (n < length a)%nat -> nth n (set_nth n a v) d = v.
Proof. intros. now apply nth_set_nth_eq. Qed.
Lemma nb_0 x i : nb x i 0 = x.
Proof. unfold nb. rewrite Z.add_0_r. apply set_nth_same. Qed.
Lemma nb_nb x i d e : 0 <= i < zlen x -> nb (nb x i d) i e = nb x i (d + e).
Proof. intros H. unfold nb. unfold zlen in H. rewrite nth_set_nth by lia. rewrite set_nth_set. f_equal. lia. Qed.
Lemma nb_len x i d : length (nb x i d) = length x.
Proof. apply length_set_nth. Qed.
Lemma nb_zlen x i d : zlen (nb x i d) = zlen x.
Proof. unfold zlen. now rewrite nb_len. Qed.

Lemma shift_eq s i d : 0 <= i < zlen s -> shift s i d = Some (nb s i d).
Proof.
  intros H. unfold shift. rewrite (get_nth s i 0) by auto. cbn [bind]. unfold put. unfold zlen in H.
  destruct (Z.ltb_spec i 0); [lia|]. destruct (Z.leb_spec (Z.of_nat (length s)) i); [lia|]. reflexivity.
Qed.
Lemma probe_eq {T} mpi axs (data : list T) x i h l : 0 <= i < zlen x ->
  grid_read mpi axs data (nb x i 1) = Some h -> grid_read mpi axs data (nb x i (-1)) = Some l ->
  probe mpi axs data x i = Some (x, h, l).
Proof.
  intros H Rh Rl. unfold probe. rewrite shift_eq by auto. cbn [bind]. rewrite Rh. cbn [bind].
  rewrite shift_eq by (rewrite nb_zlen; auto). cbn [bind]. rewrite nb_nb by auto. change (1 + -2) with (-1). rewrite Rl. cbn [bind].
  rewrite shift_eq by (rewrite nb_zlen; auto). cbn [bind]. rewrite nb_nb by auto. change (-1 + 1) with 0. now rewrite nb_0.
Qed.

Lemma fold_sum {S} (f : S * Qc -> Z -> option (S * Qc)) (t : Z -> Qc) s l a :
  (forall i a, In i l -> f (s, a) i = Some (s, (a + t i)%Qc)) -> fold_opt f l (s, a) = Some (s, (a + sumQ (map t l))%Qc).
Proof.
  revert a; induction l as [|i l IH]; intros a H; cbn [fold_opt map sumQ].
  - f_equal. f_equal. ring.
  - rewrite H by now left. cbn [bind]. rewrite IH by (intros; apply H; now right). f_equal. f_equal. ring.
Qed.

Lemma recip_eq v : v <> 0%Qc -> recip v = Some (/ v)%Qc.
Proof. intros H. unfold recip. destruct (Qc_eq_dec v 0); [contradiction|reflexivity]. Qed.
Lemma sq_nz h : h <> 0%Qc -> (h * h)%Qc <> 0%Qc.
Proof. intros H E. apply Qcmult_integral in E. tauto. Qed.
Lemma dbl_nz h : h <> 0%Qc -> (c2 * h)%Qc <> 0%Qc.
Proof. intros H E. apply Qcmult_integral in E. pose proof c2_nz. tauto. Qed.

Lemma spacing_get dx i : 0 <= i < zlen dx -> get dx i = Some (spacing dx i).
Proof. intros. now apply get_nth. Qed.
Lemma spacing_nz dx i : Forall (fun h => h <> 0%Qc) dx -> 0 <= i < zlen dx -> spacing dx i <> 0%Qc.
Proof. intros F H. rewrite Forall_forall in F. apply F. apply nth_In. unfold zlen in H. lia. Qed.

Lemma laplacian_eq mpi axs dx data x f : length x = length axs -> length dx = length axs -> Forall (fun h => h <> 0%Qc) dx ->
  star mpi axs data x f ->
  laplacian mpi axs dx data x = Some (sumQ (map (fun i => second_difference f x i (spacing dx i)) (zrange 0 (zlen axs)))).
Proof.
  intros Lx Ld F [R0 R]. unfold laplacian. rewrite R0. cbn [bind].
  assert (zlen x = zlen axs /\ zlen dx = zlen axs) as [Zx Zd] by (unfold zlen; lia).
  rewrite (fold_sum _ (fun i => second_difference f x i (spacing dx i))).
  - cbn [bind snd]. f_equal. ring.
  - intros i a Hi. apply in_zrange in Hi. destruct (R i Hi) as [Rh Rl]. rewrite (probe_eq mpi axs data x i (f (nb x i 1)) (f (nb x i (-1)))) by (auto; lia).
    cbn [bind]. rewrite spacing_get by lia. cbn [bind]. pose proof (spacing_nz dx i F ltac:(lia)).
    rewrite recip_eq by now apply sq_nz. cbn [bind]. f_equal. f_equal. unfold second_difference. fold c2. field. auto.
Qed.

Lemma divergence_eq mpi axs dx data x f : length x = length axs -> length dx = length axs -> Forall (fun h => h <> 0%Qc) dx ->
  star mpi axs data x f ->
  divergence mpi axs dx data x = Some (sumQ (map (fun i => first_difference f x i (spacing dx i)) (zrange 0 (zlen axs)))).
Proof.
  intros Lx Ld F [R0 R]. unfold divergence. assert (zlen x = zlen axs /\ zlen dx = zlen axs) as [Zx Zd] by (unfold zlen; lia).
  rewrite (fold_sum _ (fun i => first_difference f x i (spacing dx i))).
  - cbn [bind snd]. f_equal. ring.
  - intros i a Hi. apply in_zrange in Hi. destruct (R i Hi) as [Rh Rl]. rewrite (probe_eq mpi axs data x i (f (nb x i 1)) (f (nb x i (-1)))) by (auto; lia).
    cbn [bind]. rewrite spacing_get by lia. cbn [bind]. pose proof (spacing_nz dx i F ltac:(lia)).
    rewrite recip_eq by now apply dbl_nz. cbn [bind]. f_equal. f_equal. unfold first_difference. fold c2. field. split; auto. apply c2_nz.
Qed.

Lemma set_nth_mid {A} (pre : list A) a r v : set_nth (length pre) (pre ++ a :: r) v = pre ++ v :: r.
Proof. induction pre; simpl; f_equal; auto. Qed.
(* a loop that fills an array *)
Lemma fold_fill {S} (f : S * list Qc -> Z -> option (S * list Qc)) (t : Z -> Qc) s n :
  (forall i v, 0 <= i < n -> zlen v = n -> exists v', put v i (t i) = Some v' /\ f (s, v) i = Some (s, v')) ->
  forall v, zlen v = n -> fold_opt f (zrange 0 n) (s, v) = Some (s, map t (zrange 0 n)).
Proof.
  intros H v Lv. assert (0 <= n) as Hn by (rewrite <- Lv; apply zlen_nonneg).
  assert (forall k, 0 <= k <= n -> fold_opt f (zrange 0 k) (s, v) = Some (s, map t (zrange 0 k) ++ skipn (Z.to_nat k) v)) as A.
  { intros k Hk0. pose proof (proj1 Hk0) as Hk1. revert Hk0. apply (natlike_ind (fun k => 0 <= k <= n -> fold_opt f (zrange 0 k) (s, v) = Some (s, map t (zrange 0 k) ++ skipn (Z.to_nat k) v))).
    - intros _. rewrite zrange_nil by lia. reflexivity.
    - intros k' Hk IH Hk'. rewrite <- Z.add_1_r in *. rewrite zrange_snoc by lia. rewrite fold_opt_app, IH by lia. cbn [bind].
      assert (zlen (map t (zrange 0 k') ++ skipn (Z.to_nat k') v) = n) as L.
      { rewrite zlen_app, zlen_map, zlen_zrange by lia. unfold zlen in *. rewrite skipn_length. lia. }
      destruct (H k' _ ltac:(lia) L) as (v' & P & E). cbn [fold_opt]. rewrite E. cbn [bind]. f_equal. f_equal.
      unfold put in P. destruct (Z.ltb_spec k' 0); [lia|]. cbn [orb] in P. fold (zlen (map t (zrange 0 k') ++ skipn (Z.to_nat k') v)) in P. rewrite L in P.
      destruct (Z.leb_spec n k'); [lia|]. injection P as <-. rewrite map_app, <- app_assoc. cbn [map app].
      assert (skipn (Z.to_nat k') v = nth (Z.to_nat k') v 0%Qc :: skipn (Z.to_nat (k' + 1)) v) as Es.
      { replace (Z.to_nat (k' + 1)) with (Datatypes.S (Z.to_nat k')) by lia. assert (Z.to_nat k' < length v)%nat as Lt by (unfold zlen in Lv; lia).
        clear -Lt. revert v Lt. induction (Z.to_nat k') as [|m IHm]; intros [|a v] Lt; simpl in *; try lia; auto. apply IHm. lia. }
      rewrite Es. replace (Z.to_nat k') with (length (map t (zrange 0 k'))) at 1 by (rewrite map_length, length_zrange; lia). apply set_nth_mid.
    - lia. }
  rewrite A by lia. f_equal. f_equal. rewrite skipn_all2; [apply app_nil_r|]. unfold zlen in Lv. lia.
Qed.

Lemma gradient_eq mpi axs dx data x f : length x = length axs -> length dx = length axs -> Forall (fun h => h <> 0%Qc) dx ->
  star mpi axs data x f ->
  gradient mpi axs dx data x = Some (map (fun i => first_difference f x i (spacing dx i)) (zrange 0 (zlen axs))).
Proof.
  intros Lx Ld F [R0 R]. unfold gradient. assert (zlen x = zlen axs /\ zlen dx = zlen axs) as [Zx Zd] by (unfold zlen; lia).
  rewrite (fold_fill _ (fun i => first_difference f x i (spacing dx i))); [reflexivity| |].
  - intros i v Hi Lv. destruct (R i Hi) as [Rh Rl]. rewrite (probe_eq mpi axs data x i (f (nb x i 1)) (f (nb x i (-1)))) by (auto; lia).
    cbn [bind]. rewrite spacing_get by lia. cbn [bind]. pose proof (spacing_nz dx i F ltac:(lia)).
    rewrite recip_eq by now apply dbl_nz. cbn [bind]. pose proof (put_ok v i (first_difference f x i (spacing dx i)) ltac:(lia)) as P.
    eexists. split; [exact P|]. unfold first_difference in P. fold c2 in P.
    replace (/ (c2 * spacing dx i) * (f (nb x i 1) - f (nb x i (-1))))%Qc with ((f (nb x i 1) - f (nb x i (-1))) / (c2 * spacing dx i))%Qc by (field; split; auto; apply c2_nz).
    rewrite P. reflexivity.
  - unfold zlen. rewrite repeat_length. reflexivity.
Qed.
