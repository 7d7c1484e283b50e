(* affine and quadratic fields; vector-valued grids *)
From Coq Require Import QArith.QArith QArith.Qcanon.
From Verif Require Import Model.Base Model.Boundary Model.Layout Model.Access Model.Stencil Spec.Box Spec.Access Spec.Stencil
  Proof.BaseL Proof.LayoutL Proof.AccessL Proof.StencilL Proof.StencilS.
Local Open Scope list_scope.

Definition nthq (i : nat) (v : list Qc) : Qc := nth i v 0%Qc.
Definition addq (i : nat) (v : list Qc) (t : Qc) : list Qc := set_nth i v (nthq i v + t)%Qc.

Lemma dot_comm u v : dot u v = dot v u.
Proof. revert v; induction u as [|a u IH]; intros [|b v]; simpl; auto. rewrite IH. ring. Qed.
Lemma dot_addq u v i t : (i < length v)%nat -> dot u (addq i v t) = (dot u v + nthq i u * t)%Qc.
Proof.
  unfold addq, nthq. revert v i; induction u as [|a u IH]; intros [|b v] [|i] H; simpl in *; try lia; try ring.
  rewrite IH by lia. ring.
Qed.
Lemma dot_map_add {A} u (f g : A -> Qc) (l : list A) t : dot u (map (fun r => f r + g r * t)%Qc l) = (dot u (map f l) + dot u (map g l) * t)%Qc.
Proof. revert u; induction l as [|r l IH]; intros [|a u]; simpl; try ring. rewrite IH. ring. Qed.
Lemma phys_nb h x i d : length h = length x -> 0 <= i < zlen x -> phys h (nb x i d) = addq (Z.to_nat i) (phys h x) (nthq (Z.to_nat i) h * Qc_of d)%Qc.
Proof.
  unfold nb, addq, nthq, zlen. intros L H. assert (Z.to_nat i < length x)%nat as Hi by lia. clear H. revert h x L Hi.
  induction (Z.to_nat i) as [|m IH]; intros [|a h] [|c x] L Hi; simpl in *; try lia; f_equal.
  - rewrite Qc_of_add. ring.
  - apply IH; lia.
Qed.
Lemma phys_len h x : length h = length x -> length (phys h x) = length x.
Proof. revert x; induction h as [|a h IH]; intros [|c x] L; simpl in *; try lia. rewrite IH; lia. Qed.
Lemma nthq_map {A} (f : A -> Qc) i l d : (i < length l)%nat -> nthq i (map f l) = f (nth i l d).
Proof. intros. unfold nthq. rewrite (nth_indep _ 0%Qc (f d)) by (rewrite map_length; auto). apply map_nth. Qed.

Lemma quad_addq a b q X i t : (i < length X)%nat -> length q = length X ->
  quadratic a b q (addq i X t) =
  (quadratic a b q X + t * (nthq i b + dot X (map (nthq i) q) + dot (nth i q []) X) + t * t * nthq i (nth i q []))%Qc.
Proof.
  intros Hi Hq. unfold quadratic. rewrite (dot_addq b) by auto.
  rewrite (map_ext (fun row => dot row (addq i X t)) (fun row => dot row X + nthq i row * t)%Qc) by (intros; now apply dot_addq).
  rewrite dot_map_add. rewrite (dot_comm (addq i X t)), dot_addq by auto. rewrite (dot_comm (addq i X t) (map (nthq i) q)), dot_addq by auto.
  rewrite (nthq_map _ i q []) by lia. rewrite (nthq_map _ i q []) by lia. rewrite (dot_comm (map _ q) X), (dot_comm (map (nthq i) q) X). ring.
Qed.
Lemma quad_second a b q h x i : length h = length x -> length q = length x -> 0 <= i < zlen x -> spacing h i <> 0%Qc ->
  second_difference (fun y => quadratic a b q (phys h y)) x i (spacing h i) = (c2 * nthq (Z.to_nat i) (nth (Z.to_nat i) q []))%Qc.
Proof.
  intros L Lq H Nz. unfold second_difference. fold c2. pose proof H as H'. unfold zlen in H'.
  rewrite !phys_nb by auto. rewrite !quad_addq by (rewrite phys_len; lia). rewrite Qc_of_1, Qc_of_m1, c2_eq. unfold spacing in *. fold (nthq (Z.to_nat i) h) in *. field. auto.
Qed.
Lemma affine_first a b h x i : length h = length x -> 0 <= i < zlen x -> spacing h i <> 0%Qc ->
  first_difference (fun y => affine a b (phys h y)) x i (spacing h i) = nthq (Z.to_nat i) b.
Proof.
  intros L H Nz. unfold first_difference, affine. fold c2. pose proof H as H'. unfold zlen in H'.
  rewrite !phys_nb by auto. rewrite !dot_addq by (rewrite phys_len; lia). rewrite Qc_of_1, Qc_of_m1. unfold spacing in *. fold (nthq (Z.to_nat i) h) in *.
  pose proof c2_nz. rewrite c2_eq in *. field. auto.
Qed.
Lemma affine_nb a b h x i d : length h = length x -> 0 <= i < zlen x ->
  affine a b (phys h (nb x i d)) = (affine a b (phys h x) + nthq (Z.to_nat i) b * (nthq (Z.to_nat i) h * Qc_of d))%Qc.
Proof. intros L H. unfold affine. pose proof H as H'. unfold zlen in H'. rewrite phys_nb by auto. rewrite dot_addq by (rewrite phys_len; lia). ring. Qed.

(* ---- vector-valued grids ---- *)
Lemma fold_tabs {S} (f : S * list Qc -> Z -> option (S * list Qc)) s n (t : Z -> Z -> Qc) l F :
  (forall i G, In i l -> f (s, tab n G) i = Some (s, tab n (fun j => G j + t i j)%Qc)) ->
  fold_opt f l (s, tab n F) = Some (s, tab n (fun j => F j + sumQ (map (fun i => t i j) l))%Qc).
Proof.
  revert F; induction l as [|i l IH]; intros F H; cbn [fold_opt map sumQ].
  - f_equal. f_equal. apply tab_ext. intros. ring.
  - rewrite H by now left. cbn [bind]. rewrite IH by (intros; apply H; now right). f_equal. f_equal. apply tab_ext. intros. ring.
Qed.

Definition comp (j : Z) (v : list Qc) : Qc := nth (Z.to_nat j) v 0%Qc.
Lemma comp_get v j : 0 <= j < zlen v -> get v j = Some (comp j v).
Proof. intros. now apply get_nth. Qed.

Lemma vlaplacian_eq mpi axs dx n data x f : length x = length axs -> length dx = length axs -> Forall (fun h => h <> 0%Qc) dx -> 0 <= n ->
  star mpi axs data x f -> (forall y, zlen (f y) = n) ->
  vlaplacian mpi axs dx n data x =
  Some (tab n (fun j => sumQ (map (fun i => second_difference (fun y => comp j (f y)) x i (spacing dx i)) (zrange 0 (zlen axs))))).
Proof.
  intros Lx Ld F Hn [R0 R] Lf. unfold vlaplacian. rewrite R0. cbn [bind]. assert (zlen x = zlen axs /\ zlen dx = zlen axs) as [Zx Zd] by (unfold zlen; lia).
  rewrite repeat_tab. rewrite (fold_tabs _ _ _ (fun i j => second_difference (fun y => comp j (f y)) x i (spacing dx i))).
  - cbn [bind snd]. f_equal. apply tab_ext. intros. ring.
  - intros i G Hi. apply in_zrange in Hi. destruct (R i Hi) as [Rh Rl]. rewrite (probe_eq mpi axs data x i (f (nb x i 1)) (f (nb x i (-1)))) by (auto; lia).
    cbn [bind]. rewrite spacing_get by lia. cbn [bind]. pose proof (spacing_nz dx i F ltac:(lia)) as Nz.
    rewrite recip_eq by now apply sq_nz. cbn [bind].
    rewrite (fold_tab _ n n (fun j l => l + second_difference (fun y => comp j (f y)) x i (spacing dx i))%Qc).
    + cbn [bind]. f_equal. f_equal. apply tab_ext. intros j Hj. destruct (Z.ltb_spec j n); [auto|lia].
    + lia.
    + intros j H0 Hj. rewrite !comp_get by (rewrite Lf; lia). cbn [bind]. rewrite get_tab by auto. cbn [bind]. f_equal. unfold second_difference. fold c2. field. auto.
Qed.
Lemma flaplacian_eq mpi axs dx n data x f j : length x = length axs -> length dx = length axs -> Forall (fun h => h <> 0%Qc) dx -> 0 <= j < n ->
  star mpi axs data x f -> (forall y, zlen (f y) = n) ->
  flaplacian mpi axs dx data x j = Some (sumQ (map (fun i => second_difference (fun y => comp j (f y)) x i (spacing dx i)) (zrange 0 (zlen axs)))).
Proof.
  intros Lx Ld F Hj [R0 R] Lf. unfold flaplacian. rewrite R0. cbn [bind]. assert (zlen x = zlen axs /\ zlen dx = zlen axs) as [Zx Zd] by (unfold zlen; lia).
  rewrite comp_get by (rewrite Lf; lia). cbn [bind].
  rewrite (fold_sum _ (fun i => second_difference (fun y => comp j (f y)) x i (spacing dx i))).
  - cbn [bind snd]. f_equal. ring.
  - intros i a Hi. apply in_zrange in Hi. destruct (R i Hi) as [Rh Rl]. rewrite (probe_eq mpi axs data x i (f (nb x i 1)) (f (nb x i (-1)))) by (auto; lia).
    cbn [bind]. rewrite !comp_get by (rewrite Lf; lia). cbn [bind]. rewrite spacing_get by lia. cbn [bind]. pose proof (spacing_nz dx i F ltac:(lia)).
    rewrite recip_eq by now apply sq_nz. cbn [bind]. f_equal. f_equal. unfold second_difference. fold c2. field. auto.
Qed.
Lemma fgradient_eq mpi axs dx n data x f j : length x = length axs -> length dx = length axs -> Forall (fun h => h <> 0%Qc) dx -> 0 <= j < n ->
  star mpi axs data x f -> (forall y, zlen (f y) = n) ->
  fgradient mpi axs dx data x j = Some (map (fun i => first_difference (fun y => comp j (f y)) x i (spacing dx i)) (zrange 0 (zlen axs))).
Proof.
  intros Lx Ld F Hj [R0 R] Lf. unfold fgradient. assert (zlen x = zlen axs /\ zlen dx = zlen axs) as [Zx Zd] by (unfold zlen; lia).
  rewrite (fold_fill _ (fun i => first_difference (fun y => comp j (f y)) x i (spacing dx i))); [reflexivity| |].
  - intros i v Hi Lv. destruct (R i Hi) as [Rh Rl]. rewrite (probe_eq mpi axs data x i (f (nb x i 1)) (f (nb x i (-1)))) by (auto; lia).
    cbn [bind]. rewrite !comp_get by (rewrite Lf; lia). cbn [bind]. rewrite spacing_get by lia. cbn [bind]. pose proof (spacing_nz dx i F ltac:(lia)) as Nz.
    rewrite recip_eq by now apply dbl_nz. cbn [bind]. pose proof (put_ok v i (first_difference (fun y => comp j (f y)) x i (spacing dx i)) ltac:(lia)) as P.
    eexists. split; [exact P|]. unfold first_difference in P. fold c2 in P.
    replace (/ (c2 * spacing dx i) * (comp j (f (nb x i 1)) - comp j (f (nb x i (-1)))))%Qc with ((comp j (f (nb x i 1)) - comp j (f (nb x i (-1)))) / (c2 * spacing dx i))%Qc by (field; split; auto; apply c2_nz).
    rewrite P. reflexivity.
  - unfold zlen. rewrite repeat_length. reflexivity.
Qed.

Lemma fold_fail {S A} (f : S -> A -> option S) a l s : f s a = None -> fold_opt f (a :: l) s = None.
Proof. intros H. cbn [fold_opt]. now rewrite H. Qed.
Lemma vdivergence_eq mpi axs dx n data x f : length x = length axs -> length dx = length axs -> Forall (fun h => h <> 0%Qc) dx -> 0 <= n ->
  star mpi axs data x f -> (forall y, zlen (f y) = n) ->
  vdivergence mpi axs dx data x =
  if (n <=? zlen axs) || (zlen axs =? 0) then
    Some (tab (zlen axs) (fun j => if j <? n then sumQ (map (fun i => first_difference (fun y => comp j (f y)) x i (spacing dx i)) (zrange 0 (zlen axs))) else 0%Qc))
  else None.
Proof.
  intros Lx Ld F Hn [R0 R] Lf. unfold vdivergence. rewrite R0. cbn [bind]. assert (zlen x = zlen axs /\ zlen dx = zlen axs) as [Zx Zd] by (unfold zlen; lia).
  pose proof (zlen_nonneg axs) as Hd. replace (length axs) with (Z.to_nat (zlen axs)) by (unfold zlen; lia). rewrite repeat_tab. rewrite Lf.
  assert (forall i, 0 <= i < zlen axs -> forall s, s = x -> probe mpi axs data s i = Some (x, f (nb x i 1), f (nb x i (-1)))) as Pr.
  { intros i Hi s ->. destruct (R i Hi). apply probe_eq; auto. lia. }
  destruct (Z.leb_spec n (zlen axs)) as [Le|Gt]; cbn [orb].
  - rewrite (fold_tabs _ _ _ (fun i j => if j <? n then first_difference (fun y => comp j (f y)) x i (spacing dx i) else 0%Qc)).
    + cbn [bind snd]. f_equal. apply tab_ext. intros j Hj. destruct (j <? n); [ring|]. rewrite sumQ_zero. ring.
    + intros i G Hi. apply in_zrange in Hi. rewrite Pr by auto. cbn [bind]. rewrite spacing_get by lia. cbn [bind]. pose proof (spacing_nz dx i F ltac:(lia)) as Nz.
      rewrite recip_eq by now apply dbl_nz. cbn [bind].
      rewrite (fold_tab _ (zlen axs) n (fun j l => l + first_difference (fun y => comp j (f y)) x i (spacing dx i))%Qc).
      * cbn [bind]. f_equal. f_equal. apply tab_ext. intros j Hj. destruct (Z.ltb_spec j n); [auto|ring].
      * lia.
      * intros j H0 Hj. rewrite !comp_get by (rewrite Lf; lia). cbn [bind]. rewrite get_tab by lia. cbn [bind]. f_equal. unfold first_difference. fold c2. field. split; auto. apply c2_nz.
  - destruct (Z.eqb_spec (zlen axs) 0) as [E|E].
    + rewrite E. rewrite (zrange_nil 0 0) by lia. reflexivity.
    + rewrite (zrange_cons 0 (zlen axs)) by lia. rewrite fold_fail; [reflexivity|]. rewrite Pr by (auto; lia). cbn [bind]. rewrite spacing_get by lia. cbn [bind]. pose proof (spacing_nz dx 0 F ltac:(lia)) as Nz.
      rewrite recip_eq by now apply dbl_nz. cbn [bind].
      rewrite (zrange_app 0 (zlen axs) n) by lia. rewrite fold_opt_app.
      rewrite (fold_tab _ (zlen axs) (zlen axs) (fun j l => l + first_difference (fun y => comp j (f y)) x 0 (spacing dx 0))%Qc); [|lia|].
      2:{ intros j H0 Hj. rewrite !comp_get by (rewrite Lf; lia). cbn [bind]. rewrite get_tab by lia. cbn [bind]. f_equal. unfold first_difference. fold c2. field. split; auto. apply c2_nz. }
      cbn [bind]. rewrite (zrange_cons (zlen axs) n) by lia. cbn [fold_opt]. rewrite (comp_get (f (nb x 0 1))), (comp_get (f (nb x 0 (-1)))) by (rewrite Lf; lia). cbn [bind].
      rewrite get_none; [reflexivity|]. rewrite tab_len by lia. lia.
Qed.
