From Coq Require Import QArith.QArith QArith.Qcanon Permutation.
From Verif Require Import Model.Base Model.Num Model.Boundary Model.Layout Model.Access Model.Setup Model.Codec Model.MPI Model.Ghostswap Model.Sparse Model.Stencil Model.Evolve Model.Simulate Model.Dynamics
  Model.AnisoSparse Model.Zener Model.Stages Model.Program
  Spec.Box Spec.Access Spec.Bytes Spec.Decomp Spec.Schedule Spec.Stencil
  Proof.BaseL Proof.LayoutL Proof.AccessL Proof.StencilL Proof.SimulateL Proof.StagesL Proof.ProgramL Proof.ProgramF.
Local Open Scope Z_scope.

Lemma fold_opt_rel {S A} (P : S -> Prop) (f g : S -> A -> option S) l : forall s, (forall a s, In a l -> P s -> f s a = g s a) -> (forall a s s', In a l -> P s -> g s a = Some s' -> P s') -> P s ->
  fold_opt f l s = fold_opt g l s.
Proof.
  induction l as [|a l IH]; intros s H K Ps; cbn [fold_opt]; [auto|]. rewrite (H a s) by (auto; now left). destruct (g s a) as [s'|] eqn:E; cbn [bind]; [|auto].
  apply IH; [intros; apply H; auto; now right|intros; eapply K; eauto; now right|eapply K; eauto; now left].
Qed.
Lemma fold_opt_end {S A} (P : S -> Prop) (g : S -> A -> option S) l : forall s s', (forall a s s', In a l -> P s -> g s a = Some s' -> P s') -> P s -> fold_opt g l s = Some s' -> P s'.
Proof.
  induction l as [|a l IH]; intros s s' K Ps E; cbn [fold_opt] in E; [now inversion E; subst|]. destruct (g s a) as [s1|] eqn:E1; cbn [bind] in E; [|discriminate].
  eapply IH; [|eapply (K a s s1); eauto; now left|exact E]. intros; eapply K; eauto; now right.
Qed.
Lemma probe_back {T} mpi axs (d : list T) x i s h l : 0 <= i < zlen x -> probe mpi axs d x i = Some (s, h, l) -> s = x.
Proof.
  intros Hi. unfold probe. rewrite shift_eq by auto. cbn [bind]. destruct (grid_read mpi axs d (nb x i 1)); cbn [bind]; [|discriminate].
  rewrite shift_eq by (rewrite nb_zlen; auto). cbn [bind]. rewrite nb_nb by auto. destruct (grid_read mpi axs d (nb x i (1 + -2))); cbn [bind]; [|discriminate].
  rewrite shift_eq by (rewrite nb_zlen; auto). cbn [bind]. rewrite nb_nb by auto. intros E. injection E as <- _ _. apply nb_0.
Qed.

Section Local.
Context {T : Type} (axs1 axs2 : list axis) (d1 d2 : list T) (x : list Z).
Context (L1 : length axs1 = length x) (L2 : length axs2 = length x) (A : alike axs1 d1 axs2 d2 x).
Lemma probe_alike i : 0 <= i < zlen x -> probe true axs1 d1 x i = probe false axs2 d2 x i.
Proof using All.
  intros Hi. unfold probe. rewrite shift_eq by auto. cbn [bind]. destruct A as [_ An]. destruct (An i Hi) as [U D]. rewrite U. destruct (grid_read false axs2 d2 (nb x i 1)); cbn [bind]; [|auto].
  rewrite shift_eq by (rewrite nb_zlen; auto). cbn [bind]. rewrite nb_nb by auto. change (1 + -2) with (-1). rewrite D. reflexivity.
Qed.
Lemma len1 : zlen axs1 = zlen x. Proof using All. unfold zlen. lia. Qed.
Lemma len2 : zlen axs2 = zlen x. Proof using All. unfold zlen. lia. Qed.
Lemma read_alike j k : 0 <= j < zlen x -> In k (zrange (-1) 2) -> grid_read true axs1 d1 (nb x j k) = grid_read false axs2 d2 (nb x j k).
Proof using All.
  intros Hj Hk. apply in_zrange in Hk. destruct A as [A0 An]. destruct (An j Hj). assert (k = -1 \/ k = 0 \/ k = 1) as [-> |[-> | ->]] by lia; auto. now rewrite nb_0.
Qed.
End Local.


Lemma laplacian_alike axs1 axs2 dx d1 d2 x : length axs1 = length x -> length axs2 = length x -> alike axs1 d1 axs2 d2 x -> laplacian true axs1 dx d1 x = laplacian false axs2 dx d2 x.
Proof.
  intros L1 L2 A. unfold laplacian. rewrite (proj1 A). destruct (grid_read false axs2 d2 x) as [y|]; cbn [bind]; [|auto]. rewrite (len1 axs1 axs2 d1 d2 x), (len2 axs1 axs2 d1 d2 x) by auto.
  f_equal. apply (fold_opt_rel (fun st => fst st = x)); [| |reflexivity].
  - intros i [s lp] Hi Es. cbn [fst] in Es. subst s. apply in_zrange in Hi. now rewrite (probe_alike axs1 axs2 d1 d2 x).
  - intros i [s lp] [s' lp'] Hi Es E. cbn [fst] in *. subst s. apply in_zrange in Hi. destruct (probe false axs2 d2 x i) as [[[s0 h] l]|] eqn:Ep; cbn [bind] in E; [|discriminate].
    apply probe_back in Ep; [|auto]. subst s0. destruct (get dx i); cbn [bind] in E; [|discriminate]. destruct (recip _); cbn [bind] in E; [|discriminate]. now inversion E.
Qed.
Lemma vlaplacian_alike axs1 axs2 dx fields d1 d2 x : length axs1 = length x -> length axs2 = length x -> alike axs1 d1 axs2 d2 x -> vlaplacian true axs1 dx fields d1 x = vlaplacian false axs2 dx fields d2 x.
Proof.
  intros L1 L2 A. unfold vlaplacian. rewrite (proj1 A). destruct (grid_read false axs2 d2 x) as [y|]; cbn [bind]; [|auto]. rewrite (len1 axs1 axs2 d1 d2 x), (len2 axs1 axs2 d1 d2 x) by auto.
  f_equal. apply (fold_opt_rel (fun st => fst st = x)); [| |reflexivity].
  - intros i [s lp] Hi Es. cbn [fst] in Es. subst s. apply in_zrange in Hi. now rewrite (probe_alike axs1 axs2 d1 d2 x).
  - intros i [s lp] [s' lp'] Hi Es E. cbn [fst] in *. subst s. apply in_zrange in Hi. destruct (probe false axs2 d2 x i) as [[[s0 h] l]|] eqn:Ep; cbn [bind] in E; [|discriminate].
    apply probe_back in Ep; [|auto]. subst s0. destruct (get dx i); cbn [bind] in E; [|discriminate]. destruct (recip _); cbn [bind] in E; [|discriminate].
    match type of E with context [fold_opt ?f ?l ?a] => destruct (fold_opt f l a) end; cbn [bind] in E; [|discriminate]. now inversion E.
Qed.
Lemma flaplacian_alike axs1 axs2 dx d1 d2 x k : length axs1 = length x -> length axs2 = length x -> alike axs1 d1 axs2 d2 x -> flaplacian true axs1 dx d1 x k = flaplacian false axs2 dx d2 x k.
Proof.
  intros L1 L2 A. unfold flaplacian. rewrite (proj1 A). destruct (grid_read false axs2 d2 x) as [v|]; cbn [bind]; [|auto]. destruct (get v k) as [y|]; cbn [bind]; [|auto].
  rewrite (len1 axs1 axs2 d1 d2 x), (len2 axs1 axs2 d1 d2 x) by auto.
  f_equal. apply (fold_opt_rel (fun st => fst st = x)); [| |reflexivity].
  - intros i [s lp] Hi Es. cbn [fst] in Es. subst s. apply in_zrange in Hi. now rewrite (probe_alike axs1 axs2 d1 d2 x).
  - intros i [s lp] [s' lp'] Hi Es E. cbn [fst] in *. subst s. apply in_zrange in Hi. destruct (probe false axs2 d2 x i) as [[[s0 h] l]|] eqn:Ep; cbn [bind] in E; [|discriminate].
    apply probe_back in Ep; [|auto]. subst s0. destruct (get h k); cbn [bind] in E; [|discriminate]. destruct (get l k); cbn [bind] in E; [|discriminate].
    destruct (get dx i); cbn [bind] in E; [|discriminate]. destruct (recip _); cbn [bind] in E; [|discriminate]. now inversion E.
Qed.
Lemma slaplacian_alike axs1 axs2 dx d1 d2 x : length axs1 = length x -> length axs2 = length x -> alike axs1 d1 axs2 d2 x -> slaplacian true axs1 dx d1 x = slaplacian false axs2 dx d2 x.
Proof.
  intros L1 L2 A. unfold slaplacian. rewrite (proj1 A). destruct (grid_read false axs2 d2 x) as [y|]; cbn [bind]; [|auto]. rewrite (len1 axs1 axs2 d1 d2 x), (len2 axs1 axs2 d1 d2 x) by auto.
  f_equal. apply (fold_opt_rel (fun st => fst st = x)); [| |reflexivity].
  - intros i [s lp] Hi Es. cbn [fst] in Es. subst s. apply in_zrange in Hi. now rewrite (probe_alike axs1 axs2 d1 d2 x).
  - intros i [s lp] [s' lp'] Hi Es E. cbn [fst] in *. subst s. apply in_zrange in Hi. destruct (probe false axs2 d2 x i) as [[[s0 h] l]|] eqn:Ep; cbn [bind] in E; [|discriminate].
    apply probe_back in Ep; [|auto]. subst s0.
    repeat match type of E with (do _ <- ?e; _) = _ => destruct e; cbn [bind] in E; [|discriminate] end. now inversion E.
Qed.
Lemma present_alike axs1 axs2 d1 d2 x h : length axs1 = length x -> length axs2 = length x -> alike axs1 d1 axs2 d2 x -> present true axs1 d1 x h = present false axs2 d2 x h.
Proof.
  intros L1 L2 A. unfold present. rewrite (len1 axs1 axs2 d1 d2 x), (len2 axs1 axs2 d1 d2 x) by auto. f_equal.
  assert (forall j, 0 <= j < zlen x -> forall k (s s' : list Z * bool), In k (zrange (-1) 2) -> fst s = x ->
    (let '(x, found) := s in if found then Some (x, found) else do x <- shift x j k; do cell <- grid_read false axs2 d2 x; do v <- get cell h; do x <- shift x j (- k); Some (x, qgt v 0)) = Some s' -> fst s' = x) as K.
  { intros j Hj k [s b] [s' b'] Hk Es E. cbn [fst] in *. subst s. destruct b; [now inversion E|]. rewrite shift_eq in E by auto. cbn [bind] in E.
    destruct (grid_read false axs2 d2 (nb x j k)); cbn [bind] in E; [|discriminate]. destruct (get l h); cbn [bind] in E; [|discriminate]. rewrite shift_eq in E by (rewrite nb_zlen; auto). cbn [bind] in E.
    rewrite nb_nb in E by auto. replace (k + - k) with 0 in E by lia. rewrite nb_0 in E. now inversion E. }
  apply (fold_opt_rel (fun st => fst st = x)); [| |reflexivity].
  - intros j [s b] Hj Es. cbn [fst] in Es. subst s. apply in_zrange in Hj. apply (fold_opt_rel (fun st => fst st = x)); [| |reflexivity].
    + intros k [s b'] Hk Es. cbn [fst] in Es. subst s. destruct b'; [auto|]. rewrite shift_eq by auto. cbn [bind]. now rewrite (read_alike axs1 axs2 d1 d2 x).
    + intros k [s b0] s' Hk Es E. exact (K j Hj k (s, b0) s' Hk Es E).
  - intros j [s b] [s' b'] Hj Es E. cbn [fst] in Es |- *. subst s. apply in_zrange in Hj.
    change (fst (s', b') = x). refine (fold_opt_end (fun st => fst st = x) _ _ (x, b) (s', b') _ eq_refl E). intros k [s0 b0] s0' Hk Es E0. exact (K j Hj k (s0, b0) s0' Hk Es E0).
Qed.
Lemma neighbourhood_alike axs1 axs2 d1 d2 x : length axs1 = length x -> length axs2 = length x -> alike axs1 d1 axs2 d2 x -> neighbourhood true axs1 d1 x = neighbourhood false axs2 d2 x.
Proof.
  intros L1 L2 A. unfold neighbourhood. rewrite (len1 axs1 axs2 d1 d2 x), (len2 axs1 axs2 d1 d2 x) by auto. f_equal.
  assert (forall j, 0 <= j < zlen x -> forall k (s s' : list Z * sobj Z), In k (zrange (-1) 2) -> fst s = x ->
    (let '(x, s) := s in do x <- shift x j k; do cell <- grid_read false axs2 d2 x; do s <- fold_opt (fun s h => do i <- sindex cell h; sset_op num_Z s i (fun _ => 1)) (zrange 0 (zlen cell)) s; do x <- shift x j (- k); Some (x, s)) = Some s' -> fst s' = x) as K.
  { intros j Hj k [s b] [s' b'] Hk Es E. cbn [fst] in *. subst s. rewrite shift_eq in E by auto. cbn [bind] in E.
    destruct (grid_read false axs2 d2 (nb x j k)); cbn [bind] in E; [|discriminate]. match type of E with context [fold_opt ?f ?l ?a] => destruct (fold_opt f l a) end; cbn [bind] in E; [|discriminate].
    rewrite shift_eq in E by (rewrite nb_zlen; auto). cbn [bind] in E.
    rewrite nb_nb in E by auto. replace (k + - k) with 0 in E by lia. rewrite nb_0 in E. now inversion E. }
  apply (fold_opt_rel (fun st => fst st = x)); [| |reflexivity].
  - intros j [s b] Hj Es. cbn [fst] in Es. subst s. apply in_zrange in Hj. apply (fold_opt_rel (fun st => fst st = x)); [| |reflexivity].
    + intros k [s b'] Hk Es. cbn [fst] in Es. subst s. rewrite shift_eq by auto. cbn [bind]. now rewrite (read_alike axs1 axs2 d1 d2 x).
    + intros k [s b0] s' Hk Es E. exact (K j Hj k (s, b0) s' Hk Es E).
  - intros j [s b] [s' b'] Hj Es E. cbn [fst] in Es |- *. subst s. apply in_zrange in Hj.
    change (fst (s', b') = x). refine (fold_opt_end (fun st => fst st = x) _ _ (x, b) (s', b') _ eq_refl E). intros k [s0 b0] s0' Hk Es E0. exact (K j Hj k (s0, b0) s0' Hk Es E0).
Qed.
