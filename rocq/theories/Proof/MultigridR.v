(* Interpolation is exact on polynomials. *)
From Coq Require Import QArith.QArith QArith.Qcanon Lqa.
From Verif Require Import Model.Base Model.Boundary Model.Layout Model.Access Model.Stencil Model.Evolve Model.Multigrid Spec.Box Spec.Stencil Spec.Multigrid
  Proof.BaseL Proof.LayoutL Proof.AccessL Proof.StencilL Proof.StencilS Proof.StencilM Proof.MultigridL Proof.MultigridS Proof.MultigridG.
Local Open Scope Z_scope.

Section Exact.
Context (ls : list limits) (Hl : Forall (fun l => l_x0 l = 0 /\ 1 < l_x1 l) ls) (Hdim : (2 <= length ls)%nat) (s : Z) (Hs : 0 < s) (Hd : divides ls s) (g : list Z -> Qc).
Notation axs := (lay 0 ls).
Notation val := (value ls).
Notation dims := (zrange 0 (zlen ls)).

(* the nodes already interpolated before the pass along axis i *)
Definition ready (i : Z) (x : list Z) : Prop := lattice ls s x /\ (~ inside ls s x \/ forall j, i <= j < zlen ls -> (2 * s | nth (Z.to_nat j) x 0)).
Lemma refine_exact m u :
  (forall i x v, 0 <= i < zlen ls -> mid ls s i x -> sized ls v -> (forall y, ready i y -> val v y = g y) -> m s i v x = Some (g x)) ->
  sized ls u -> (forall y, ready 0 y -> val u y = g y) ->
  exists r, refine axs m s u = Some r /\ sized ls r /\ forall x, lattice ls s x -> val r x = g x.
Proof.
  intros Hm Su Hu.
  assert (forall k, (k <= length ls)%nat -> exists r, fold_opt (fun u i => do xs <- between axs s i; assign axs xs (m s i) u) (zrange 0 (Z.of_nat k)) u = Some r /\ sized ls r /\ forall y, ready (Z.of_nat k) y -> val r y = g y) as A.
  { induction k as [|k IH]; intros Hk; [exists u; auto|]. destruct IH as (v & E & Sv & Hv); [lia|]. rewrite Nat2Z.inj_succ, <- Z.add_1_r, zrange_snoc, fold_opt_app, E by lia. cbn [bind fold_opt].
    assert (0 <= Z.of_nat k < zlen ls) as Hi by (unfold zlen; lia). destruct (between_ok ls s (Z.of_nat k) Hs Hi) as (xs & -> & I). cbn [bind].
    destruct (assign_done ls (fun pre w => sized ls w /\ (forall y, ready (Z.of_nat k) y -> val w y = g y) /\ forall y, In y pre -> val w y = g y) xs (m s (Z.of_nat k))) with (u := v) as (r & -> & Sr & R1 & R2).
    - intros w pre x post Ex (Sw & W1 & W2). assert (mid ls s (Z.of_nat k) x) as Hx by (apply I; rewrite Ex, in_app_iff; cbn; auto). rewrite (Hm _ _ _ Hi Hx Sw W1).
      destruct (wr_value ls Hl w x (g x) Sw) as (w' & Ew & Sw' & Vx & G & _); [eapply inside_node; [auto| |apply Hx]; auto|]. exists (g x), w'. split; [auto|]. split; [auto|]. split; [auto|].
      assert (forall y, node ls y -> val w y = g y -> val w' y = g y) as K. { intros y Ny Vy. destruct (list_eq_dec Z.eq_dec y x) as [->|Ne]; [auto|]. now rewrite G. }
      split.
      + intros y Hy. apply K; [apply Hy|auto].
      + intros y Hy. apply in_app_iff in Hy as [Hy|[<-|[]]]; [|auto]. apply K; [|auto]. assert (In y xs) as Iy by (rewrite Ex, in_app_iff; auto). apply I in Iy. eapply inside_node; [auto| |apply Iy]; auto.
    - repeat split; auto. intros ? [].
    - cbn [bind]. exists r. split; [auto|]. split; [auto|]. intros y (Ly & Hy).
      assert (s | nth k y 0) as Dk. { destruct Ly as (_ & F). destruct (nth_in_or_default k y 0) as [H| ->]; [|apply Z.divide_0_r]. rewrite Forall_forall in F. auto. }
      destruct (Znumtheory.Zdivide_dec (2 * s) (nth k y 0)) as [D|D].
      + apply R1. split; [auto|]. destruct Hy as [Hy|Hy]; [auto|]. right. intros j Hj. destruct (Z.eq_dec j (Z.of_nat k)) as [->|Ne]; [now rewrite Nat2Z.id|]. apply Hy. lia.
      + destruct (inside_dec ls s y) as [Iy|Ny]; [|apply R1; split; auto]. apply R2, I. split; [auto|]. destruct Hy as [Hy|Hy]; [contradiction|]. split; [|intros j Hj; apply Hy; lia].
        rewrite Nat2Z.id. destruct Dk as (q & Eq). destruct (Z.Even_or_Odd q) as [(z & Ez)|(z & Ez)]; [exfalso; apply D; exists z; rewrite Eq, Ez; ring|]. exists z. rewrite Eq, Ez. ring. }
  destruct (A (length ls) ltac:(lia)) as (r & E & Sr & R). exists r. split; [|split; [auto|]].
  - unfold refine. rewrite zlen_axs. fold (zlen ls) in E. rewrite <- E. clear -Hdim. destruct ls as [|l1 [|l2 m']]; [cbn in Hdim; lia|cbn in Hdim; lia|reflexivity].
  - intros x Hx. apply R. split; [auto|]. right. intros j Hj. fold (zlen ls) in Hj. lia.
Qed.
Lemma ready_step i x k q : 0 <= i < zlen ls -> mid ls s i x -> k = (2 * q + 1) * s -> node ls (nb x i k) -> ready i (nb x i k).
Proof.
  intros Hi (Hx & (z & Ez) & Hj) -> N. pose proof (inside_len ls s x Hx) as Lx. unfold zlen in Hi. split; [split; [auto|]|].
  - rewrite nb_set. apply Forall_forall. intros c Hc. apply (In_nth _ _ 0) in Hc as (n & Hn & <-). rewrite length_set_nth in Hn. destruct (Nat.eq_dec n (Z.to_nat i)) as [->|Ne].
    + rewrite nth_set_nth_eq by lia. exists (2 * z + 1 + 2 * q + 1). lia.
    + rewrite nth_set_nth_ne by auto. apply (Forall2_nth _ _ _ n lim0 0 Hx). lia.
  - right. intros j Hj'. rewrite nb_set. destruct (Z.eq_dec j i) as [->|Ne].
    + rewrite nth_set_nth_eq by lia. exists (z + q + 1). lia.
    + rewrite nth_set_nth_ne by lia. apply Hj. lia.
Qed.
Lemma along_nb x i k : g (nb x i k) = g (along x i (nth (Z.to_nat i) x 0 + k)).
Proof. reflexivity. Qed.
Lemma along_same x i : g x = g (along x i (nth (Z.to_nat i) x 0)).
Proof. unfold along. now rewrite set_nth_same. Qed.
Lemma num_eq a b : (Qc_of b <> 0)%Qc -> num a b = (Qc_of a / Qc_of b)%Qc.
Proof. reflexivity. Qed.
Lemma Qc_of_mul a b : Qc_of (a * b) = (Qc_of a * Qc_of b)%Qc.
Proof.
  apply Qc_is_canon. rewrite this_mul. unfold Qc_of. cbn [this Q2Qc]. rewrite !Qred_correct, inject_Z_mult. reflexivity.
Qed.
Lemma two_nz : (Qc_of 2 <> 0)%Qc. Proof. intros C. apply (f_equal this) in C. discriminate. Qed.
Lemma midpoint_exact u : affine_along (zlen ls) g -> sized ls u -> (forall y, ready 0 y -> val u y = g y) ->
  exists r, refine axs (midpoint axs) s u = Some r /\ sized ls r /\ forall x, lattice ls s x -> val r x = g x.
Proof.
  intros Hg. apply refine_exact. intros i x v Hi Hm Sv Hv. pose proof Hm as (Hx & _). pose proof (inside_len ls s x Hx) as Lx. rewrite (midpoint_eq ls Hl) by auto. f_equal.
  rewrite (Hv (nb x i s)) by (apply (ready_step i x s 0); [auto|auto|ring|apply (near ls Hl s); auto]). rewrite (Hv (nb x i (- s))) by (apply (ready_step i x (- s) (-1)); [auto|auto|ring|apply (near ls Hl s); auto]).
  destruct (Hg x i Hi ltac:(unfold zlen; lia)) as (a & b & E). rewrite !along_nb, (along_same x i). rewrite !E, !Qc_of_add. unfold num. change q_of with Qc_of.
  assert (Qc_of (- s) = - Qc_of s)%Qc as -> by (replace (- s) with (-1 * s) by ring; rewrite Qc_of_mul; change (Qc_of (-1)) with (- (1))%Qc; ring).
  change (Qc_of 1) with 1%Qc. replace (Qc_of 2) with (1 + 1)%Qc by (apply Qc_is_canon; reflexivity). field. apply two_nz.
Qed.
Lemma cubic_exact u : eight ls s -> cubic_along (zlen ls) g -> sized ls u -> (forall y, ready 0 y -> val u y = g y) ->
  exists r, refine axs (cubic axs) s u = Some r /\ sized ls r /\ forall x, lattice ls s x -> val r x = g x.
Proof.
  intros H8 Hg. apply refine_exact. intros i x v Hi Hm Sv Hv. pose proof Hm as (Hx & _). pose proof (inside_len ls s x Hx) as Lx. rewrite (cubic_eq ls Hl) by auto. f_equal.
  rewrite (sumQ_ext _ (fun q => fst q * g (nb x i (snd q * s)))%Qc).
  - destruct (Hg x i Hi ltac:(unfold zlen; lia)) as (a & b & c & d & E). rewrite (along_same x i). rewrite E.
    unfold cub. destruct (nth (Z.to_nat i) x 0 =? s); [|destruct (nth (Z.to_nat i) x 0 =? l_x1 (nth (Z.to_nat i) ls lim0) - 1 - s)]; cbn [map fst snd sumQ];
      rewrite !along_nb, !E, !Qc_of_add, !Qc_of_mul; generalize (Qc_of (nth (Z.to_nat i) x 0)), (Qc_of s); intros t h; unfold num; change q_of with Qc_of;
      repeat match goal with |- context [Qc_of ?z] => let v := eval vm_compute in (this (Qc_of z)) in change (Qc_of z) with (Q2Qc v) end; apply Qc_is_canon;
      repeat (rewrite ?this_sub, ?this_mul, ?this_add, ?this_opp || unfold Qcdiv); rewrite ?this_inv; cbn [this Q2Qc]; rewrite ?Qred_correct;
      generalize (this a), (this b), (this c), (this d), (this t), (this h); intros; field.
  - intros q Hq. f_equal. apply Hv. pose proof (cub_node ls Hl s i x q Hs H8 Hi Hm Hq) as N.
    assert (exists z, snd q = 2 * z + 1) as (z & Ez). { unfold cub in Hq. destruct (nth (Z.to_nat i) x 0 =? s); [|destruct (nth (Z.to_nat i) x 0 =? l_x1 (nth (Z.to_nat i) ls lim0) - 1 - s)];
      repeat (destruct Hq as [<-|Hq]; [cbn [snd]; match goal with |- exists z, ?k = _ => exists ((k - 1) / 2); reflexivity end|]); destruct Hq. }
    apply (ready_step i x (snd q * s) z); auto. now rewrite Ez.
Qed.
End Exact.

Section Coarsen.
Context (ls : list limits) (Hl : Forall (fun l => l_x0 l = 0 /\ 1 < l_x1 l) ls) (Hdim : (length ls = 2 \/ length ls = 3)%nat) (s : Z) (Hs : 0 < s) (Hd : divides ls (2 * s)) (g : list Z -> Qc) (Hg : affine_along (zlen ls) g).
Notation axs := (lay 0 ls).
Notation val := (value ls).
Lemma affine_pair x i c : 0 <= i < zlen ls -> zlen x = zlen ls -> (g (along x i (c + s)) = (1 + 1) * g (along x i c) - g (along x i (c - s)))%Qc.
Proof.
  intros Hi Lx. destruct (Hg x i Hi Lx) as (a & b & E). rewrite !E. replace (c + s) with (c - s + (s + s)) by ring. replace c with (c - s + s) at 2 by ring. rewrite !Qc_of_add. ring.
Qed.
Lemma combo_exact x : length x = length ls -> combo s (full_for ls) g x = g x.
Proof.
  intros Lx. unfold full_for. destruct Hdim as [D|D]; rewrite D in *; cbn [Nat.eqb].
  - destruct x as [|p [|q [|? ?]]]; try discriminate. unfold combo, full2, off. cbn [map combine fst snd sumQ].
    replace (p + s * 0) with p by ring. replace (q + s * 0) with q by ring. replace (p + s * 1) with (p + s) by ring. replace (q + s * 1) with (q + s) by ring. replace (p + s * -1) with (p - s) by ring. replace (q + s * -1) with (q - s) by ring.
    assert (forall q : Z, g [p + s; q]%Z = (1 + 1) * g [p; q]%Z - g [p - s; q]%Z)%Qc as A. { intros r. apply (affine_pair [p; r] 0 p); unfold zlen; rewrite ?D; cbn; lia. }
    assert (forall p : Z, g [p; q + s]%Z = (1 + 1) * g [p; q]%Z - g [p; q - s]%Z)%Qc as B. { intros r. apply (affine_pair [r; q] 1 q); unfold zlen; rewrite ?D; cbn; lia. }
    rewrite !A, !B. generalize (g [p; q]) (g [p - s; q]) (g [p; q - s]) (g [p - s; q - s]). intros. unfold num. change q_of with Qc_of.
    repeat match goal with |- context [Qc_of ?z] => let v := eval vm_compute in (this (Qc_of z)) in change (Qc_of z) with (Q2Qc v) end; apply Qc_is_canon;
      repeat (rewrite ?this_sub, ?this_mul, ?this_add, ?this_opp || unfold Qcdiv); rewrite ?this_inv; cbn [this Q2Qc]; rewrite ?Qred_correct. repeat match goal with |- context [this ?z] => generalize (this z) end. intros; field.
  - destruct x as [|p [|q [|r [|? ?]]]]; try discriminate. unfold combo, full3, off. cbn [map combine fst snd sumQ].
    replace (p + s * 0) with p by ring. replace (q + s * 0) with q by ring. replace (p + s * 1) with (p + s) by ring. replace (q + s * 1) with (q + s) by ring. replace (p + s * -1) with (p - s) by ring. replace (q + s * -1) with (q - s) by ring.
    replace (r + s * 0) with r by ring. replace (r + s * 1) with (r + s) by ring. replace (r + s * -1) with (r - s) by ring.
    assert (forall q r : Z, g [p + s; q; r]%Z = (1 + 1) * g [p; q; r]%Z - g [p - s; q; r]%Z)%Qc as A. { intros y z. apply (affine_pair [p; y; z] 0 p); unfold zlen; rewrite ?D; cbn; lia. }
    assert (forall p r : Z, g [p; q + s; r]%Z = (1 + 1) * g [p; q; r]%Z - g [p; q - s; r]%Z)%Qc as B. { intros y z. apply (affine_pair [y; q; z] 1 q); unfold zlen; rewrite ?D; cbn; lia. }
    assert (forall p q : Z, g [p; q; r + s]%Z = (1 + 1) * g [p; q; r]%Z - g [p; q; r - s]%Z)%Qc as C. { intros y z. apply (affine_pair [y; z; r] 2 r); unfold zlen; rewrite ?D; cbn; lia. }
    rewrite !A, !B, !C. unfold num. change q_of with Qc_of.
    repeat match goal with |- context [Qc_of ?z] => let v := eval vm_compute in (this (Qc_of z)) in change (Qc_of z) with (Q2Qc v) end; apply Qc_is_canon;
      repeat (rewrite ?this_sub, ?this_mul, ?this_add, ?this_opp || unfold Qcdiv); rewrite ?this_inv; cbn [this Q2Qc]; rewrite ?Qred_correct. repeat match goal with |- context [this (g ?z)] => generalize (this (g z)) end. intros; field.
Qed.
Lemma coarsen_exact d : sized ls d -> (forall x, inside ls s x -> val d x = g x) -> exists r, coarsen axs s d = Some r /\ sized ls r /\ forall x, inside ls s x -> val r x = g x.
Proof.
  intros Sd Vd. rewrite coarsen_as. assert (((length ls =? 2) || (length ls =? 3))%nat%bool = true) as -> by (destruct Hdim as [-> | ->]; reflexivity).
  destruct (coarse_loops ls s Hs) as (rs & -> & I). cbn [bind]. apply (assign_ind ls (fun v => sized ls v /\ forall x, inside ls s x -> val v x = g x)); [|auto].
  intros v x Hx (Sv & V). apply I in Hx. pose proof (inside_len ls _ x Hx) as Lx.
  assert (forall gr o, In gr (full_for ls) -> In o (snd gr) -> inside ls s (off s x o)) as HO. { intros gr o H1 H2. destruct (full_small ls gr o Hdim H1 H2). apply off_inside; auto. }
  rewrite (combination_eq ls Hl) by (auto; intros; eapply inside_node; eauto).
  assert (combo s (full_for ls) (val v) x = g x) as E.
  { rewrite <- (combo_exact x) by auto. unfold combo. apply sumQ_ext. intros gr H1. f_equal. apply sumQ_ext. intros o H2. apply V. eauto. }
  rewrite E. destruct (wr_value ls Hl v x (g x) Sv) as (v' & W & Sv' & Vx & G & _); [apply (inside_node ls Hl (2 * s)); auto; lia|]. exists (g x), v'. repeat split; auto.
  intros y Hy. destruct (list_eq_dec Z.eq_dec y x) as [->|Ne]; [auto|]. rewrite G; auto. eapply inside_node; eauto.
Qed.
End Coarsen.
