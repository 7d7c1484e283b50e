From Coq Require Import QArith.QArith QArith.Qcanon.
From Verif Require Import Model.Base Model.Num Model.Boundary Model.Layout Model.Access Model.Sparse Model.Stencil Model.Evolve
  Spec.Box Spec.Access Spec.Sparse Spec.Stencil Spec.Evolve Proof.BaseL Proof.LayoutL Proof.AccessL Proof.SparseL Proof.StencilL.
Local Open Scope Z_scope.
Local Open Scope list_scope.

Lemma fold_inv {A S} (f : S -> A -> option S) (I : S -> Prop) l : (forall s a, In a l -> I s -> exists s', f s a = Some s' /\ I s') ->
  forall s, I s -> exists s', fold_opt f l s = Some s' /\ I s'.
Proof.
  induction l as [|a l IH]; intros H s Hs; [exists s; auto|]. cbn [fold_opt]. destruct (H s a ltac:(simpl; auto) Hs) as (s1 & -> & H1). cbn [bind].
  apply IH; auto. intros s' b Hb. apply H. simpl; auto.
Qed.
(* with the part of the list already done *)
Lemma fold_inv_done {A S} (f : S -> A -> option S) (I : list A -> S -> Prop) l : (forall d s a, (exists r, l = d ++ a :: r) -> I d s -> exists s', f s a = Some s' /\ I (d ++ [a]) s') ->
  forall s, I [] s -> exists s', fold_opt f l s = Some s' /\ I l s'.
Proof.
  intros H s Hs. assert (forall r d s, l = d ++ r -> I d s -> exists s', fold_opt f r s = Some s' /\ I l s') as X.
  { induction r as [|a r IH]; intros d s' E Hd; [rewrite app_nil_r in E; subst; exists s'; auto|]. cbn [fold_opt].
    destruct (H d s' a ltac:(eauto) Hd) as (s1 & -> & H1). cbn [bind]. apply (IH (d ++ [a])); [now rewrite <- app_assoc|auto]. }
  apply (X l []); auto.
Qed.
(* a loop over the positions of a sparse object is a loop over its items *)
Lemma fold_items {A S} (f : S -> A -> option S) (g : S -> Z -> option S) (l : list A) :
  (forall s i a, nth_error l i = Some a -> g s (Z.of_nat i) = f s a) -> forall s, fold_opt g (zrange 0 (zlen l)) s = fold_opt f l s.
Proof.
  intros H. assert (forall r d s, l = d ++ r -> fold_opt g (zrange (zlen d) (zlen l)) s = fold_opt f r s) as X.
  { induction r as [|a r IH]; intros d s E.
    - rewrite app_nil_r in E. subst. rewrite zrange_nil by lia. reflexivity.
    - assert (zlen l = zlen d + 1 + zlen r) as L by (subst; rewrite zlen_app, zlen_cons; lia). pose proof (zlen_nonneg r).
      rewrite zrange_cons by lia. cbn [fold_opt]. unfold zlen at 1. rewrite (H s (length d) a).
      + destruct (f s a); cbn [bind]; [|reflexivity]. replace (zlen d + 1) with (zlen (d ++ [a])) by (rewrite zlen_app; reflexivity). apply IH. now rewrite <- app_assoc.
      + subst. rewrite nth_error_app2, Nat.sub_diag by lia. reflexivity. }
  intros s. apply (X l []). reflexivity.
Qed.

Lemma qgt_true a b : qgt a b = true <-> (b < a)%Qc.
Proof. unfold qgt. destruct (Qclt_le_dec b a) as [l|l]; [tauto|]. split; [discriminate|]. intros H. exfalso. exact (Qclt_not_le _ _ H l). Qed.
Lemma qgt_false a b : qgt a b = false <-> (a <= b)%Qc.
Proof. unfold qgt. destruct (Qclt_le_dec b a) as [l|l]; [split; [discriminate|]; intros H; exfalso; exact (Qclt_not_le _ _ l H)|tauto]. Qed.
Lemma at_index_aval l k : at_index l k = aval num_Qc l k.
Proof. unfold at_index, aval. induction l as [|[j v] l IH]; simpl; [reflexivity|]. destruct (j =? k); [reflexivity|exact IH]. Qed.

Notation nd l := (NoDup (map fst l)).
Lemma at_absent l k : ~ In k (map fst l) -> at_index l k = 0%Qc.
Proof. intros H. rewrite at_index_aval. unfold aval. apply lookup_none in H. rewrite H. reflexivity. Qed.
Lemma at_present (l : list (Z * Qc)) k v : nd l -> In (k, v) l -> at_index l k = v.
Proof. intros N I. rewrite at_index_aval. unfold aval. apply lookup_in in I; auto. now rewrite I. Qed.

Lemma at_fill g z x k : nd x -> at_index (fill num_Qc g z x) k = if in_dec Z.eq_dec k (map fst x) then g k (at_index z k) (at_index x k) else at_index z k.
Proof.
  intros N. rewrite !at_index_aval. unfold aval at 1. rewrite lookup_fill by auto. destruct (in_dec Z.eq_dec k (map fst x)) as [I|I].
  - unfold aval. destruct (lookup x k) eqn:E; [reflexivity|]. apply lookup_none in E. contradiction.
  - apply lookup_none in I. rewrite I. reflexivity.
Qed.

Lemma stimes_q c l : nd l -> exists r, stimes num_Qc c (map Some l) = Some (map Some r) /\ nd r /\ forall k, at_index r k = (c * at_index l k)%Qc.
Proof.
  intros N. exists (fill num_Qc (fun _ _ v => c * v)%Qc [] l). split; [|split].
  - unfold stimes. apply (sfill_map num_Qc _ (fun _ _ v => (c * v)%Qc) []). reflexivity.
  - apply NoDup_fill. constructor.
  - intros k. rewrite at_fill by auto. destruct (in_dec Z.eq_dec k (map fst l)) as [I|I]; [reflexivity|]. rewrite (at_absent l) by auto. unfold at_index. simpl. ring.
Qed.
Lemma splus_q a b : nd a -> nd b -> exists r, splus num_Qc (map Some a) (map Some b) = Some (map Some r) /\ nd r /\ forall k, at_index r k = (at_index a k + at_index b k)%Qc.
Proof.
  intros Na Nb. set (z := fill num_Qc (fun _ x v => x + v)%Qc [] a). exists (fill num_Qc (fun _ x v => x + v)%Qc z b).
  assert (nd z) as Nz by (apply NoDup_fill; constructor). split; [|split].
  - unfold splus. rewrite (sfill_map num_Qc _ (fun _ x v => (x + v)%Qc) [] a) by reflexivity. cbn [bind]. apply (sfill_map num_Qc _ (fun _ x v => (x + v)%Qc)). reflexivity.
  - now apply NoDup_fill.
  - intros k. rewrite at_fill by auto. unfold z. rewrite !at_fill by auto.
    destruct (in_dec Z.eq_dec k (map fst b)) as [I|I], (in_dec Z.eq_dec k (map fst a)) as [J|J]; rewrite ?(at_absent a k J), ?(at_absent b k I); unfold at_index at 1; simpl; ring.
Qed.
Lemma sminus_q a b : nd a -> nd b -> exists r, sminus num_Qc (map Some a) (map Some b) = Some (map Some r) /\ nd r /\ forall k, at_index r k = (at_index a k - at_index b k)%Qc.
Proof.
  intros Na Nb. set (z := fill num_Qc (fun _ x v => x + v)%Qc [] a). exists (fill num_Qc (fun _ x v => x - v)%Qc z b).
  assert (nd z) as Nz by (apply NoDup_fill; constructor). split; [|split].
  - unfold sminus. rewrite (sfill_map num_Qc _ (fun _ x v => (x + v)%Qc) [] a) by reflexivity. cbn [bind]. apply (sfill_map num_Qc _ (fun _ x v => (x - v)%Qc)). reflexivity.
  - now apply NoDup_fill.
  - intros k. rewrite at_fill by auto. unfold z. rewrite !at_fill by auto.
    destruct (in_dec Z.eq_dec k (map fst b)) as [I|I], (in_dec Z.eq_dec k (map fst a)) as [J|J]; rewrite ?(at_absent a k J), ?(at_absent b k I); unfold at_index at 1; simpl; ring.
Qed.
Lemma add_to_q a b : nd a -> nd b -> exists r, add_to (map Some a) (map Some b) = Some (map Some r) /\ nd r /\ forall k, at_index r k = (at_index a k + at_index b k)%Qc.
Proof.
  intros Na Nb. unfold add_to. destruct (saccum_distinct num_Qc Qcplus [map Some a; map Some b] 0 1 a b ltac:(lia) eq_refl eq_refl) as (st & E & A & _).
  exists (fill num_Qc (fun _ x v => x + v)%Qc a b). split; [transitivity (do st0 <- Some st; get st0 0); [now rewrite <- E|exact A]|]. split; [now apply NoDup_fill|].
  intros k. rewrite at_fill by auto. destruct (in_dec Z.eq_dec k (map fst b)) as [I|I]; [reflexivity|]. rewrite (at_absent b) by auto. ring.
Qed.

Section Node.
Context (mpi : bool) (axs : list axis) (dx : list Qc) (data : list (sobj Qc)) (x : list Z) (F : list Z -> list (Z * Qc)).
Context (Lx : length x = length axs) (Ld : length dx = length axs) (Fd : Forall (fun h => h <> 0%Qc) dx).
Context (St : star mpi axs data x (fun y => map Some (F y))) (Nd : forall y, nd (F y)).

Lemma zx : zlen axs = zlen x. Proof. clear Ld. unfold zlen. lia. Qed.
Lemma slaplacian_eq : exists l, slaplacian mpi axs dx data x = Some (map Some l) /\ nd l /\ forall k, at_index l k = field_laplacian F dx x k.
Proof.
  destruct St as [S0 S1]. unfold slaplacian. rewrite S0. cbn [bind].
  destruct (fold_inv_done (fun '(s, lap) i =>
      do p <- probe mpi axs data s i; let '(s, yh, yl) := p in do h <- get dx i; do weight <- recip (h * h)%Qc;
      do y2 <- stimes num_Qc c2 (map Some (F x)); do d <- sminus num_Qc yh y2; do d <- splus num_Qc d yl; do d <- stimes num_Qc weight d;
      do lap <- add_to lap d; Some (s, lap))
    (fun d st => exists l, st = (x, map Some l) /\ nd l /\ forall k, at_index l k = sumQ (map (fun i => second_difference (fun y => at_index (F y) k) x i (spacing dx i)) d))
    (zrange 0 (zlen axs))) with (s := (x, @nil (option (Z * Qc)))) as (s' & E & l & -> & Nl & Hl).
  - intros d s i (r & Er) (l & -> & Nl & Hl). assert (0 <= i < zlen axs) as Hi by (apply in_zrange; rewrite Er; apply in_or_app; simpl; auto).
    destruct (S1 i Hi) as [Sh Sl]. rewrite (probe_eq mpi axs data x i _ _ ltac:(rewrite <- zx; lia) Sh Sl). cbn [bind].
    assert (0 <= i < zlen dx) as Hd by (unfold zlen in *; lia). rewrite spacing_get by auto. cbn [bind].
    pose proof (spacing_nz dx i Fd Hd) as NZ. rewrite recip_eq by (now apply sq_nz). cbn [bind].
    destruct (stimes_q c2 (F x) (Nd x)) as (y2 & -> & N2 & H2). cbn [bind].
    destruct (sminus_q (F (nb x i 1)) y2 (Nd _) N2) as (d1 & -> & N3 & H3). cbn [bind].
    destruct (splus_q d1 (F (nb x i (-1))) N3 (Nd _)) as (d2 & -> & N4 & H4). cbn [bind].
    destruct (stimes_q (/ (spacing dx i * spacing dx i))%Qc d2 N4) as (d3 & -> & N5 & H5). cbn [bind].
    destruct (add_to_q l d3 Nl N5) as (l' & -> & N6 & H6). cbn [bind].
    eexists. split; [reflexivity|]. exists l'. split; [reflexivity|]. split; [auto|]. intros k. rewrite H6, Hl, map_app, sumQ_app. cbn [map sumQ].
    rewrite H5, H4, H3, H2. unfold second_difference, Qcdiv. change c2 with (Q2Qc (2 # 1)). ring.
  - exists []. split; [reflexivity|]. split; [constructor|]. reflexivity.
  - rewrite E. cbn [bind snd]. exists l. split; [reflexivity|]. split; [auto|]. intros k. rewrite Hl. unfold field_laplacian. now rewrite zx.
Qed.

Lemma sindex_map {T} (l : list (Z * T)) i a : nth_error l i = Some a -> sindex (map Some l) (Z.of_nat i) = Some (fst a).
Proof. intros H. unfold sindex. rewrite (sitem_map _ _ _ H). reflexivity. Qed.

Lemma collect_cell (cell : list (Z * Qc)) (s : list (Z * Z)) : nd s -> exists s',
  fold_opt (fun s h => do i <- sindex (map Some cell) h; sset_op num_Z s i (fun _ => 1)) (zrange 0 (zlen (map Some cell))) (map Some s) = Some (map Some s') /\
  nd s' /\ forall k, In k (map fst s') <-> In k (map fst s) \/ In k (map fst cell).
Proof.
  intros Ns. rewrite BaseL.zlen_map. rewrite (fold_items (fun s it => sset_op num_Z s (fst it) (fun _ => 1))) by (intros s0 i a Hi; now rewrite (sindex_map _ _ _ Hi)).
  revert s Ns. induction cell as [|it cell IH]; intros s Ns; cbn [fold_opt].
  - exists s. split; [reflexivity|]. split; [auto|]. simpl. tauto.
  - rewrite sset_op_map. cbn [bind]. destruct (IH (aset num_Z s (fst it) (fun _ => 1)) (NoDup_aset _ _ _ _ Ns)) as (s' & E & N' & H').
    exists s'. split; [exact E|]. split; [auto|]. intros k. rewrite H', keys_aset. simpl. intuition.
Qed.

Lemma neighbourhood_eq : axs <> [] -> exists s, neighbourhood mpi axs data x = Some (map Some s) /\ nd s /\ forall k, In k (map fst s) <-> near F x k.
Proof.
  intros Hne. destruct St as [S0 S1]. unfold neighbourhood.
  set (seen := fun (d : list Z) k => exists i, In i d /\ (In k (map fst (F (nb x i (-1)))) \/ In k (map fst (F x)) \/ In k (map fst (F (nb x i 1))))).
  destruct (fold_inv_done (fun '(x, s) j =>
      fold_opt (fun '(x, s) k =>
        do x <- shift x j k; do cell <- grid_read mpi axs data x;
        do s <- fold_opt (fun s h => do i <- sindex cell h; sset_op num_Z s i (fun _ => 1)) (zrange 0 (zlen cell)) s;
        do x <- shift x j (- k); Some (x, s)) (zrange (-1) 2) (x, s))
    (fun d st => exists s, st = (x, map Some s) /\ nd s /\ forall k, In k (map fst s) <-> seen d k)
    (zrange 0 (zlen axs))) with (s := (x, @nil (option (Z * Z)))) as (s' & E & s & -> & Ns & Hs).
  - intros d st j (r & Er) (s & -> & Ns & Hs). assert (0 <= j < zlen axs) as Hj by (apply in_zrange; rewrite Er; apply in_or_app; simpl; auto).
    destruct (S1 j Hj) as [Sh Sl]. assert (0 <= j < zlen x) as Hx by (rewrite <- zx; lia).
    change (zrange (-1) 2) with [-1; 0; 1]. cbn [fold_opt].
    rewrite (shift_eq x j (-1)) by auto. cbn [bind]. rewrite Sl. cbn [bind]. destruct (collect_cell (F (nb x j (-1))) s Ns) as (s1 & -> & N1 & H1). cbn [bind].
    rewrite shift_eq by (rewrite nb_zlen; auto). cbn [bind]. rewrite nb_nb by auto. replace (-1 + - -1) with 0 by lia. rewrite nb_0.
    rewrite (shift_eq x j 0) by auto. cbn [bind]. rewrite nb_0, S0. cbn [bind]. destruct (collect_cell (F x) s1 N1) as (s2 & -> & N2 & H2). cbn [bind].
    rewrite shift_eq by auto. cbn [bind]. replace (- 0) with 0 by lia. rewrite nb_0.
    rewrite (shift_eq x j 1) by auto. cbn [bind]. rewrite Sh. cbn [bind]. destruct (collect_cell (F (nb x j 1)) s2 N2) as (s3 & -> & N3 & H3). cbn [bind].
    rewrite shift_eq by (rewrite nb_zlen; auto). cbn [bind]. rewrite nb_nb by auto. replace (1 + - (1)) with 0 by lia. rewrite nb_0.
    eexists. split; [reflexivity|]. exists s3. split; [reflexivity|]. split; [auto|]. intros k. rewrite H3, H2, H1, Hs. unfold seen. split.
    + intros [[[(i & I & H)|H]|H]|H]; [exists i; split; [apply in_or_app; auto|auto]|exists j; split; [apply in_or_app; simpl; auto|auto]|exists j; split; [apply in_or_app; simpl; auto|auto]|exists j; split; [apply in_or_app; simpl; auto|auto]].
    + intros (i & I & H). apply in_app_or in I as [I|[<-|[]]]; [left; left; left; exists i; auto|tauto].
  - exists []. split; [reflexivity|]. split; [constructor|]. intros k. simpl. split; [tauto|]. intros (i & [] & _).
  - rewrite E. cbn [bind snd]. exists s. split; [reflexivity|]. split; [auto|]. intros k. rewrite Hs. unfold seen, near. split.
    + intros (i & I & H). apply in_zrange in I. rewrite zx in I. destruct H as [H|[H|H]]; [right; exists i; auto|left; auto|right; exists i; auto].
    + assert (0 < zlen axs) as P by (destruct axs; [congruence|rewrite zlen_cons; pose proof (zlen_nonneg l); lia]).
      intros [H|(i & I & [H|H])]; [exists 0; split; [apply in_zrange; lia|auto]| |]; exists i; (split; [apply in_zrange; rewrite zx; lia|auto]).
Qed.
End Node.

(* the double loops never fail *)
Lemma pairs_ok (s : list (Z * Z)) f : (forall l hi ji, nd l -> exists l', f (map Some l) hi ji = Some (map Some l') /\ nd l') ->
  exists l, pairs (map Some s) f = Some (map Some l) /\ nd l.
Proof.
  intros Hf. unfold pairs.
  assert (forall h, In h (zrange 0 (zlen (map Some s))) -> exists k, sindex (map Some s) h = Some k) as SI.
  { intros h Hh. apply in_zrange in Hh. rewrite BaseL.zlen_map in Hh. unfold zlen in Hh. destruct (nth_error s (Z.to_nat h)) as [a|] eqn:E; [|apply nth_error_None in E; lia].
    exists (fst a). rewrite <- (Z2Nat.id h) by lia. now apply sindex_map. }
  destruct (fold_inv (fun acc h => do hi <- sindex (map Some s) h; fold_opt (fun acc j => do ji <- sindex (map Some s) j; f acc hi ji) (zrange (h + 1) (zlen (map Some s))) acc)
    (fun o => exists l, o = map Some l /\ nd l) (zrange 0 (zlen (map Some s)))) with (s := @nil (option (Z * Qc))) as (o & E & l & -> & N).
  - intros o h Hh (l & -> & N). destruct (SI h Hh) as [hi Ehi]. rewrite Ehi. cbn [bind]. apply in_zrange in Hh.
    apply (fold_inv _ (fun o => exists l, o = map Some l /\ nd l)); [|exists l; auto].
    intros o j Hj (l0 & -> & N0). apply in_zrange in Hj. destruct (SI j ltac:(apply in_zrange; lia)) as [ji ->]. cbn [bind].
    destruct (Hf l0 hi ji N0) as (l1 & E1 & N1). exists (map Some l1). split; [exact E1|]. exists l1. auto.
  - exists []. split; [reflexivity|constructor].
  - exists l. auto.
Qed.
Lemma derivatives_ok epsilon w cell lap s : exists l, derivatives epsilon w (map Some cell) (map Some lap) (map Some s) = Some (map Some l) /\ nd l.
Proof.
  apply pairs_ok. intros l hi ji N. rewrite !sread_map. cbn [bind]. rewrite sset_op_map. cbn [bind]. rewrite sset_op_map. eexists. split; [reflexivity|]. repeat apply NoDup_aset. auto.
Qed.
Lemma rates_ok mu d s : exists l, rates mu (map Some d) (map Some s) = Some (map Some l) /\ nd l.
Proof.
  apply pairs_ok. intros l hi ji N. rewrite !sread_map. cbn [bind]. rewrite sset_op_map. cbn [bind]. rewrite sset_op_map. eexists. split; [reflexivity|]. repeat apply NoDup_aset. auto.
Qed.

Lemma cutoff_pos : (0 < cutoff)%Qc. Proof. reflexivity. Qed.
Lemma aset_new {T} (N : num T) l k f : ~ In k (map fst l) -> aset N l k f = l ++ [(k, f (n_zero N))].
Proof. induction l as [|[j v] l IH]; simpl; intros H; [reflexivity|]. destruct (Z.eqb_spec j k); [subst; tauto|]. rewrite IH by tauto. reflexivity. Qed.
Lemma at_snoc l k v : ~ In k (map fst l) -> at_index (l ++ [(k, v)]) k = v.
Proof. intros H. unfold at_index. induction l as [|[j w] l IH]; simpl in *; [now rewrite Z.eqb_refl|]. destruct (Z.eqb_spec j k); [subst; tauto|apply IH; tauto]. Qed.

Lemma nd_snoc (l : list (Z * Qc)) k v : ~ In k (map fst l) -> nd l -> nd (l ++ [(k, v)]).
Proof.
  intros H N. rewrite map_app. cbn [map fst]. induction l as [|[j w] l IH]; simpl in *; [constructor; [simpl; tauto|constructor]|].
  inversion N; subst. constructor; [|apply IH; tauto]. rewrite in_app_iff. simpl. intuition.
Qed.
(* evolvers.cpp:70-78 on an empty cell *)
Lemma new_values_ok dt cell dpdt s : nd s -> exists l sum, new_values dt (map Some cell) (map Some dpdt) (map Some s) [] = Some (map Some l, sum) /\
  nd l /\ Forall (fun it => 0 < snd it /\ snd it <= 1)%Qc l /\ sum = sumQ (map snd l).
Proof.
  intros Ns. unfold new_values. rewrite BaseL.zlen_map.
  set (val := fun k => let value := (at_index cell k + dt * (c2 / q_of (zlen s)) * at_index dpdt k)%Qc in
     let value := if qgt value 1 then 1%Qc else value in if qgt 0 value then 0%Qc else value).
  rewrite (fold_items (fun '(latter, sum) it => 
    do latter <- (if qgt (val (fst it)) cutoff then sset_op num_Qc latter (fst it) (fun _ => val (fst it)) else Some latter);
    do v <- sread num_Qc latter (fst it); Some (latter, (sum + v)%Qc))).
  2:{ intros [o sum] i a Hi. rewrite (sindex_map _ _ _ Hi). cbn [bind]. rewrite !sread_map. cbn [bind]. unfold val. now rewrite !at_index_aval. }
  destruct (fold_inv_done (fun '(latter, sum) it => 
    do latter <- (if qgt (val (fst it)) cutoff then sset_op num_Qc latter (fst it) (fun _ => val (fst it)) else Some latter);
    do v <- sread num_Qc latter (fst it); Some (latter, (sum + v)%Qc))
    (fun (d : list (Z * Z)) st => exists l, st = (map Some l, sumQ (map snd l)) /\ nd l /\ Forall (fun it => 0 < snd it /\ snd it <= 1)%Qc l /\ forall k, In k (map fst l) -> In k (map fst d)) s)
    with (s := (@nil (option (Z * Qc)), 0%Qc)) as (st & E & l & -> & Nl & Fl & _).
  - intros d st [k z] (r & Er) (l & -> & Nl & Fl & Il). cbn [fst].
    assert (~ In k (map fst l)) as Nk. { intros I. apply Il in I. rewrite Er, map_app in Ns. cbn [map fst] in Ns. apply NoDup_remove_2 in Ns. apply Ns. apply in_or_app. auto. }
    destruct (qgt (val k) cutoff) eqn:G.
    + rewrite sset_op_map. cbn [bind]. rewrite aset_new by auto. rewrite sread_map. cbn [bind]. rewrite <- at_index_aval, at_snoc by auto.
      eexists. split; [reflexivity|]. exists (l ++ [(k, val k)]). apply qgt_true in G. split; [|split; [|split]].
      * f_equal. rewrite map_app, sumQ_app. cbn [map sumQ snd]. ring.
      * now apply nd_snoc.
      * apply Forall_app. split; [auto|]. constructor; [|constructor]. cbn [snd]. split; [eapply Qclt_trans; [exact cutoff_pos|exact G]|].
        unfold val. set (v := (at_index cell k + _)%Qc). clearbody v. destruct (qgt v 1) eqn:G1.
        -- destruct (qgt 0 1); discriminate.
        -- apply qgt_false in G1. destruct (qgt 0 v); [discriminate|exact G1].
      * intros j Hj. rewrite map_app in *. apply in_app_or in Hj as [Hj|[<-|[]]]; apply in_or_app; simpl; auto.
    + cbn [bind]. rewrite sread_map. cbn [bind]. rewrite <- at_index_aval, at_absent by auto. eexists. split; [reflexivity|]. exists l.
      split; [f_equal; ring|]. split; [auto|]. split; [auto|]. intros j Hj. rewrite map_app. apply in_or_app. auto.
  - exists []. split; [reflexivity|]. split; [constructor|]. split; [constructor|]. simpl. tauto.
  - exists l, (sumQ (map snd l)). auto.
Qed.
