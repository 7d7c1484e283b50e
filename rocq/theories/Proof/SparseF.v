From Verif Require Import Model.Base Model.Num Model.Sparse Spec.Sparse Proof.BaseL Proof.SparseL.

Section Final.
Context {T : Type} (N : num T).
Notation alist := (list (Z * T)).

Lemma holds_intro (l : alist) : NoDup (map fst l) -> holds (map Some l) (lookup l).
Proof. intros H. apply holds_lookup. exists l. auto. Qed.
Lemma holds_ext (o : sobj T) m m' : holds o m -> (forall k, m k = m' k) -> holds o m'.
Proof. intros (l & E & ND & H) X. exists l. split; auto. split; auto. intros k v. rewrite H, X. tauto. Qed.
Lemma val_aval (l : alist) m k : (forall k, m k = lookup l k) -> val N m k = aval N l k.
Proof. intros H. unfold val, aval. now rewrite H. Qed.

Definition wf (st : sstore T) : Prop := Forall (fun o => exists m, holds o m) st.
Lemma wf_get st x o : wf st -> get st x = Some o -> exists l, o = map Some l /\ NoDup (map fst l).
Proof.
  unfold wf, get. rewrite Forall_forall. intros H E. destruct (x <? 0); [discriminate|].
  destruct (H o) as (m & l & -> & ND & _); [eapply nth_error_In; eauto|]. eauto.
Qed.
Lemma wf_iff st : wf st <-> forall x o, get st x = Some o -> exists l, o = map Some l /\ NoDup (map fst l).
Proof.
  split; [intros; eapply wf_get; eauto|]. intros H. apply Forall_forall. intros o Ho. apply In_nth_error in Ho as [n Hn].
  destruct (H (Z.of_nat n) o) as (l & -> & ND); [now rewrite get_nth|]. exists (lookup l). now apply holds_intro.
Qed.
Lemma wf_same st st' x l : wf st -> same_but st st' x -> at_ st' x l -> NoDup (map fst l) -> wf st'.
Proof.
  intros W [_ S] A ND. apply wf_iff. intros y o Hy. destruct (Z.eq_dec y x) as [->|Hn].
  - rewrite A in Hy. inversion Hy; subst. eauto.
  - rewrite S in Hy by auto. eapply wf_get; eauto.
Qed.
Lemma bind_some {X Y} (o : option X) (f : X -> option Y) y : bind o f = Some y -> exists x, o = Some x /\ f x = Some y.
Proof. destruct o; simpl; [eauto|discriminate]. Qed.
Lemma put_wf st x l st' : wf st -> put st x (map Some l) = Some st' -> NoDup (map fst l) -> wf st'.
Proof.
  intros W P ND. assert (exists o, get st x = Some o) as [o G].
  { unfold put in P. destruct (Z.ltb_spec x 0); simpl in P; [discriminate|].
    destruct (Z.leb_spec (Z.of_nat (length st)) x); [discriminate|]. unfold get.
    destruct (Z.ltb_spec x 0); [lia|]. destruct (nth_error st (Z.to_nat x)) eqn:E; [eauto|]. apply nth_error_None in E. lia. }
  destruct (put_at st x o (map Some l) G) as (st2 & P2 & G2 & B). rewrite P in P2. inversion P2; subst. eapply wf_same; eauto.
Qed.

(* *= with any reference *)
Lemma sscale_any l r : NoDup (map fst l) -> (match r with Outside _ => True | Inside p => 0 <= p < zlen l end) ->
  exists l', sscale N (map Some l) r = Some (map Some l') /\ map fst l' = map fst l.
Proof.
  intros ND Hr. unfold sscale. rewrite zlen_map. unfold zlen in *.
  destruct (fold_pos (fun ox i => do k <- sindex ox i; do c0 <- deref ox r; sset_op N ox k (fun a => n_mul N a c0))
    (fun i s => exists l', s = map Some l' /\ map fst l' = map fst l) (length l) (map Some l)) as (s' & E & l' & -> & H).
  - exists l; auto.
  - intros i s Hi (l' & -> & K). assert (length l' = length l) as L by (rewrite <- (map_length fst l'), K; apply map_length).
    destruct (nth_error l' i) as [[k v]|] eqn:Ei; [|apply nth_error_None in Ei; lia].
    unfold sindex. rewrite (sitem_map _ _ _ Ei). cbn [bind fst].
    assert (exists c, deref (map Some l') r = Some c) as [c ->].
    { destruct r as [c|p]; simpl; [eauto|]. unfold svalue.
      destruct (nth_error l' (Z.to_nat p)) as [it|] eqn:Ep; [|apply nth_error_None in Ep; lia].
      replace p with (Z.of_nat (Z.to_nat p)) by lia. rewrite (sitem_map _ _ _ Ep). simpl. eauto. }
    cbn [bind]. rewrite sset_op_map. eexists. split; [reflexivity|]. eexists. split; [reflexivity|].
    rewrite <- K. rewrite <- K in ND. pose proof (split_nth _ _ _ Ei) as Es. rewrite Es in ND |- *.
    rewrite aset_at by auto. rewrite !map_app. reflexivity.
  - eauto.
Qed.
Lemma sscale_bad l p : l <> [] -> ~ 0 <= p < zlen l -> sscale N (map Some l) (Inside p) = None.
Proof.
  intros Hl Hp. destruct l as [|it l]; [contradiction|]. unfold sscale. rewrite zlen_map.
  rewrite zrange_cons by (rewrite zlen_cons; pose proof (zlen_nonneg l); lia). apply fold_opt_none.
  unfold sindex, sitem. change (get (map Some (it :: l)) 0) with (Some (Some it)). cbn [bind deref].
  unfold svalue, sitem, get. destruct (Z.ltb_spec p 0); [reflexivity|].
  destruct (nth_error (map Some (it :: l)) (Z.to_nat p)) eqn:E; [|reflexivity].
  exfalso. assert (Z.to_nat p < length (map Some (it :: l)))%nat by (apply nth_error_Some; congruence).
  rewrite map_length in *. unfold zlen in *. lia.
Qed.

Lemma splus_map x y : splus N (map Some x) (map Some y) = Some (map Some (fill N (fun _ a v => n_add N a v) (fill N (fun _ a v => n_add N a v) [] x) y)).
Proof. unfold splus. rewrite (sfill_map N _ (fun _ a v => n_add N a v) [] x) by auto. cbn [bind]. now rewrite (sfill_map N _ (fun _ a v => n_add N a v)). Qed.
Lemma sminus_map x y : sminus N (map Some x) (map Some y) = Some (map Some (fill N (fun _ a v => n_sub N a v) (fill N (fun _ a v => n_add N a v) [] x) y)).
Proof. unfold sminus. rewrite (sfill_map N _ (fun _ a v => n_add N a v) [] x) by auto. cbn [bind]. now rewrite (sfill_map N _ (fun _ a v => n_sub N a v)). Qed.
Lemma stimes_map c x : stimes N c (map Some x) = Some (map Some (fill N (fun _ _ v => n_mul N c v) [] x)).
Proof. unfold stimes. now rewrite (sfill_map N _ (fun _ _ v => n_mul N c v) [] x) by auto. Qed.
Lemma smax_map x y : smax N (map Some x) (map Some y) =
  Some (map Some (fill N (fun k _ v => n_max N v (aval N x k)) (fill N (fun k _ v => n_max N v (aval N y k)) [] x) y)).
Proof.
  unfold smax. rewrite (sfill_map N _ (fun k _ v => n_max N v (aval N y k)) [] x) by (intros; now rewrite sread_map).
  cbn [bind]. now rewrite (sfill_map N _ (fun k _ v => n_max N v (aval N x k))) by (intros; now rewrite sread_map).
Qed.
Lemma smin_map x y : smin N (map Some x) (map Some y) =
  Some (map Some (fill N (fun k _ v => n_min N v (aval N x k)) (fill N (fun k _ v => n_min N v (aval N y k)) [] x) y)).
Proof.
  unfold smin. rewrite (sfill_map N _ (fun k _ v => n_min N v (aval N y k)) [] x) by (intros; now rewrite sread_map).
  cbn [bind]. now rewrite (sfill_map N _ (fun k _ v => n_min N v (aval N x k))) by (intros; now rewrite sread_map).
Qed.

Ltac dom := first [split; [congruence|intros [H|H]; congruence]
  | split; [intros _; first [left; congruence|right; congruence]|congruence]].
Ltac nd := repeat first [apply NoDup_fill | apply NoDup_aset | assumption | constructor].

Lemma sexec_wf st op st' : wf st -> sexec N st op = Some st' -> wf st'.
Proof.
  intros W. destruct op; simpl.
  - intros E. apply bind_some in E as (o & G & E). apply bind_some in E as (o' & E & P).
    destruct (wf_get _ _ _ W G) as (l & -> & ND). rewrite sset_op_map in E. inversion E; subst. eapply put_wf; eauto. nd.
  - intros E. pose proof E as E0. unfold sassign in E. apply bind_some in E as (oy & Gy & E). apply bind_some in E as (st1 & P & _).
    destruct (wf_get _ _ _ W Gy) as (ly & -> & NDy). 
    assert (exists ox, get st x = Some ox) as [ox Gx].
    { unfold put in P. destruct (Z.ltb_spec x 0); simpl in P; [discriminate|].
      destruct (Z.leb_spec (Z.of_nat (length st)) x); [discriminate|]. unfold get.
      destruct (Z.ltb_spec x 0); [lia|]. destruct (nth_error st (Z.to_nat x)) eqn:E; [eauto|]. apply nth_error_None in E. lia. }
    destruct (wf_get _ _ _ W Gx) as (lx & -> & NDx).
    destruct (Z.eq_dec x y) as [->|Hn].
    + destruct ly as [|it l]; [|rewrite (sassign_self _ _ _ _ Gy) in E0; discriminate].
      unfold sassign in E0. rewrite Gy in E0. cbn [bind] in E0. change (zlen (map Some (@nil (Z * T)))) with 0 in *. change (Z.to_nat 0) with O in *. cbn [repeat] in *. rewrite P in E0. simpl in E0. inversion E0; subst.
      eapply (put_wf st y []); eauto; constructor.
    + destruct (sassign_distinct _ _ _ _ _ Hn Gx Gy) as (st2 & E2 & A & S). rewrite E0 in E2. inversion E2; subst. eapply wf_same; eauto.
  - intros E. pose proof E as E0. unfold scopy in E. apply bind_some in E as (oy & Gy & E). apply bind_some in E as (st1 & P & _).
    destruct (wf_get _ _ _ W Gy) as (ly & -> & NDy).
    assert (exists ox, get st x = Some ox) as [ox Gx].
    { unfold put in P. destruct (Z.ltb_spec x 0); simpl in P; [discriminate|].
      destruct (Z.leb_spec (Z.of_nat (length st)) x); [discriminate|]. unfold get.
      destruct (Z.ltb_spec x 0); [lia|]. destruct (nth_error st (Z.to_nat x)) eqn:E; [eauto|]. apply nth_error_None in E. lia. }
    destruct (wf_get _ _ _ W Gx) as (lx & -> & NDx).
    destruct (Z.eq_dec x y) as [->|Hn].
    + destruct ly as [|it l]; [|rewrite (scopy_self _ _ _ _ Gy) in E0; discriminate].
      unfold scopy in E0. rewrite Gy in E0. cbn [bind map length repeat] in E0. simpl in P. rewrite P in E0. simpl in E0.
      destruct (get st1 y) eqn:G1; [|discriminate]. simpl in E0. apply bind_some in E0 as (its & M & P2).
      destruct (put_at st y _ [] Gy) as (st3 & P3 & G3 & B3). rewrite P in P3. inversion P3; subst.
      rewrite G3 in G1. inversion G1; subst. simpl in M. inversion M; subst.
      eapply (put_wf st3 y []); eauto; try constructor. eapply (put_wf st y []); eauto; constructor.
    + destruct (scopy_distinct _ _ _ _ _ Hn Gx Gy) as (st2 & E2 & A & S). rewrite E0 in E2. inversion E2; subst. eapply wf_same; eauto.
  - intros E. unfold sswap in E. apply bind_some in E as (ox & Gx & E). apply bind_some in E as (oy & Gy & E).
    apply bind_some in E as (st1 & P1 & P2). destruct (wf_get _ _ _ W Gx) as (lx & -> & NDx). destruct (wf_get _ _ _ W Gy) as (ly & -> & NDy).
    eapply put_wf; [|exact P2|auto]. eapply put_wf; eauto.
  - intros E. pose proof E as E0. unfold saccum in E. apply bind_some in E as (oy & Gy & E).
    destruct (wf_get _ _ _ W Gy) as (ly & -> & NDy).
    destruct (Z.eq_dec x y) as [->|Hn].
    + destruct (saccum_self N (n_add N) st y ly NDy Gy) as (st2 & E2 & A & S). rewrite E0 in E2. inversion E2; subst.
      eapply wf_same; eauto. now rewrite keys_amap.
    + destruct (get st x) as [ox|] eqn:Gx.
      * destruct (wf_get _ _ _ W Gx) as (lx & -> & NDx).
        destruct (saccum_distinct N (n_add N) st x y lx ly Hn Gx Gy) as (st2 & E2 & A & S). rewrite E0 in E2. inversion E2; subst.
        eapply wf_same; eauto. nd.
      * destruct ly as [|it ly]; [simpl in E; inversion E; subst; auto|]. exfalso. rewrite zlen_map in E.
        rewrite zrange_cons in E by (rewrite zlen_cons; pose proof (zlen_nonneg ly); lia).
        rewrite fold_opt_none in E; [discriminate|]. rewrite Gy. cbn [bind].
        change (sitem (map Some (it :: ly)) 0) with (Some it). cbn [bind]. now rewrite Gx.
  - intros E. pose proof E as E0. unfold saccum in E. apply bind_some in E as (oy & Gy & E).
    destruct (wf_get _ _ _ W Gy) as (ly & -> & NDy).
    destruct (Z.eq_dec x y) as [->|Hn].
    + destruct (saccum_self N (n_sub N) st y ly NDy Gy) as (st2 & E2 & A & S). rewrite E0 in E2. inversion E2; subst.
      eapply wf_same; eauto. now rewrite keys_amap.
    + destruct (get st x) as [ox|] eqn:Gx.
      * destruct (wf_get _ _ _ W Gx) as (lx & -> & NDx).
        destruct (saccum_distinct N (n_sub N) st x y lx ly Hn Gx Gy) as (st2 & E2 & A & S). rewrite E0 in E2. inversion E2; subst.
        eapply wf_same; eauto. nd.
      * destruct ly as [|it ly]; [simpl in E; inversion E; subst; auto|]. exfalso. rewrite zlen_map in E.
        rewrite zrange_cons in E by (rewrite zlen_cons; pose proof (zlen_nonneg ly); lia).
        rewrite fold_opt_none in E; [discriminate|]. rewrite Gy. cbn [bind].
        change (sitem (map Some (it :: ly)) 0) with (Some it). cbn [bind]. now rewrite Gx.
  - intros E. apply bind_some in E as (o & G & E). apply bind_some in E as (o' & E & P).
    destruct (wf_get _ _ _ W G) as (l & -> & ND).
    assert (l = [] \/ match r with Outside _ => True | Inside p => 0 <= p < zlen l end) as [->|Hr].
    { destruct r as [c|p]; [auto|]. destruct l as [|it l]; [auto|]. right.
      destruct (Z_le_dec 0 p), (Z_lt_dec p (zlen (it :: l))); try lia;
        rewrite sscale_bad in E by (try congruence; lia); discriminate. }
    + simpl in E. inversion E; subst. eapply (put_wf st x []); eauto.
    + destruct (sscale_any l r ND Hr) as (l' & E' & K). rewrite E' in E. inversion E; subst. eapply put_wf; eauto. now rewrite K.
  - intros E. apply bind_some in E as (ox & Gx & E). apply bind_some in E as (oy & Gy & E). apply bind_some in E as (r & F & P).
    destruct (wf_get _ _ _ W Gx) as (lx & -> & NDx). destruct (wf_get _ _ _ W Gy) as (ly & -> & NDy).
    rewrite splus_map in F. inversion F; subst. eapply put_wf; eauto. nd.
  - intros E. apply bind_some in E as (ox & Gx & E). apply bind_some in E as (oy & Gy & E). apply bind_some in E as (r & F & P).
    destruct (wf_get _ _ _ W Gx) as (lx & -> & NDx). destruct (wf_get _ _ _ W Gy) as (ly & -> & NDy).
    rewrite sminus_map in F. inversion F; subst. eapply put_wf; eauto. nd.
  - intros E. apply bind_some in E as (ox & Gx & E). apply bind_some in E as (oy & Gy & E). apply bind_some in E as (r & F & P).
    destruct (wf_get _ _ _ W Gx) as (lx & -> & NDx).
    rewrite stimes_map in F. inversion F; subst. eapply put_wf; eauto. nd.
  - intros E. apply bind_some in E as (ox & Gx & E). apply bind_some in E as (oy & Gy & E). apply bind_some in E as (r & F & P).
    destruct (wf_get _ _ _ W Gx) as (lx & -> & NDx). destruct (wf_get _ _ _ W Gy) as (ly & -> & NDy).
    rewrite smax_map in F. inversion F; subst. eapply put_wf; eauto. nd.
  - intros E. apply bind_some in E as (ox & Gx & E). apply bind_some in E as (oy & Gy & E). apply bind_some in E as (r & F & P).
    destruct (wf_get _ _ _ W Gx) as (lx & -> & NDx). destruct (wf_get _ _ _ W Gy) as (ly & -> & NDy).
    rewrite smin_map in F. inversion F; subst. eapply put_wf; eauto. nd.
Qed.

Theorem reachable_wf n ops st : sprogram N n ops = Some st -> wf st.
Proof.
  unfold sprogram. assert (wf (repeat [] n)) as W.
  { apply Forall_forall. intros o Ho. apply repeat_spec in Ho. subst. exists (fun _ => None). exists []. simpl. split; auto. split; [constructor|].
    intros k v. split; [tauto|discriminate]. }
  revert W. generalize (repeat (@nil (option (Z * T))) n). induction ops as [|op ops IH]; intros s W E; simpl in E.
  - inversion E; subst; auto.
  - apply bind_some in E as (s1 & E1 & E2). eapply IH; [|exact E2]. eapply sexec_wf; eauto.
Qed.

Definition in_range (st : sstore T) (x : Z) : Prop := 0 <= x < zlen st.
Lemma in_range_get st x : in_range st x -> exists o, get st x = Some o.
Proof.
  intros H. unfold get, in_range, zlen in *. destruct (Z.ltb_spec x 0); [lia|].
  destruct (nth_error st (Z.to_nat x)) eqn:E; [eauto|]. apply nth_error_None in E. lia.
Qed.

Theorem set_read st x k v : wf st -> in_range st x ->
  exists st' o o', sexec N st (SSet x k v) = Some st' /\ get st x = Some o /\ get st' x = Some o' /\
    sread N o' k = Some v /\ (forall k', k' <> k -> sread N o' k' = sread N o k') /\
    (forall y, y <> x -> get st' y = get st y).
Proof.
  intros W R. destruct (in_range_get _ _ R) as [o G]. destruct (wf_get _ _ _ W G) as (l & -> & ND).
  destruct (put_at st x _ (map Some (aset N l k (fun _ => v))) G) as (st' & P & G' & _ & B).
  exists st', (map Some l), (map Some (aset N l k (fun _ => v))).
  split; [simpl; rewrite G; cbn [bind]; rewrite sset_op_map; exact P|]. split; auto. split; auto.
  rewrite !sread_map. unfold aval. split; [now rewrite lookup_aset, Z.eqb_refl|]. split; auto.
  intros k' Hk. rewrite !sread_map. unfold aval. rewrite lookup_aset. destruct (Z.eqb_spec k' k); [contradiction|auto].
Qed.
Theorem read_val o m k : holds o m -> sread N o k = Some (val N m k).
Proof. intros H. apply holds_lookup in H as (l & -> & ND & H). rewrite sread_map. now rewrite (val_aval l m k H). Qed.

(* pointwise *)
Context (L : num_laws N).
Lemma fill2 g1 g2 x y k : NoDup (map fst x) -> NoDup (map fst y) ->
  lookup (fill N g2 (fill N g1 [] x) y) k =
  match lookup y k with
  | Some w => Some (g2 k (match lookup x k with Some v => g1 k (n_zero N) v | None => n_zero N end) w)
  | None => match lookup x k with Some v => Some (g1 k (n_zero N) v) | None => None end
  end.
Proof.
  intros Hx Hy. rewrite lookup_fill by auto. unfold aval. rewrite !lookup_fill by auto. 
  destruct (lookup y k), (lookup x k); reflexivity.
Qed.

Theorem plus_pointwise x y mx my : holds x mx -> holds y my ->
  exists z mz, splus N x y = Some z /\ holds z mz /\ (forall k, val N mz k = n_add N (val N mx k) (val N my k)) /\
    forall k, mz k <> None <-> mx k <> None \/ my k <> None.
Proof.
  intros Hx Hy. apply holds_lookup in Hx as (lx & -> & NDx & Hx). apply holds_lookup in Hy as (ly & -> & NDy & Hy).
  rewrite splus_map. eexists. eexists. split; [reflexivity|]. split; [apply holds_intro; nd|]. destruct L. split; intros k; unfold val; rewrite Hx, Hy, fill2 by auto;
    destruct (lookup ly k), (lookup lx k); rewrite ?add_0_l, ?add_0_r; auto; dom.
Qed.
Theorem minus_pointwise x y mx my : holds x mx -> holds y my ->
  exists z mz, sminus N x y = Some z /\ holds z mz /\ (forall k, val N mz k = n_sub N (val N mx k) (val N my k)) /\
    forall k, mz k <> None <-> mx k <> None \/ my k <> None.
Proof.
  intros Hx Hy. apply holds_lookup in Hx as (lx & -> & NDx & Hx). apply holds_lookup in Hy as (ly & -> & NDy & Hy).
  rewrite sminus_map. eexists. eexists. split; [reflexivity|]. split; [apply holds_intro; nd|]. destruct L. split; intros k; unfold val; rewrite Hx, Hy, fill2 by auto;
    destruct (lookup ly k), (lookup lx k); rewrite ?add_0_l, ?sub_0_r; auto; dom.
Qed.
Theorem times_pointwise c x mx : holds x mx ->
  exists z mz, stimes N c x = Some z /\ holds z mz /\ (forall k, val N mz k = n_mul N c (val N mx k)) /\
    forall k, mz k <> None <-> mx k <> None.
Proof.
  intros Hx. apply holds_lookup in Hx as (lx & -> & NDx & Hx).
  rewrite stimes_map. eexists. eexists. split; [reflexivity|]. split; [apply holds_intro; nd|]. destruct L.
  split; intros k; unfold val; rewrite Hx, lookup_fill by auto; destruct (lookup lx k); simpl; auto; split; congruence.
Qed.
Lemma max_comm a b : n_max N a b = n_max N b a.
Proof.
  unfold n_max. destruct (n_gt N a b) eqn:E1, (n_gt N b a) eqn:E2; auto.
  - exfalso. pose proof (gt_trans N L _ _ _ E1 E2). rewrite (gt_irr N L) in H. discriminate.
  - symmetry. eapply gt_total; eauto.
Qed.
Lemma min_comm a b : n_min N a b = n_min N b a.
Proof.
  unfold n_min. destruct (n_gt N a b) eqn:E1, (n_gt N b a) eqn:E2; auto.
  - exfalso. pose proof (gt_trans N L _ _ _ E1 E2). rewrite (gt_irr N L) in H. discriminate.
  - symmetry. eapply gt_total; eauto.
Qed.
Theorem max_pointwise x y mx my : holds x mx -> holds y my ->
  exists z mz, smax N x y = Some z /\ holds z mz /\ (forall k, val N mz k = n_max N (val N mx k) (val N my k)) /\
    forall k, mz k <> None <-> mx k <> None \/ my k <> None.
Proof.
  intros Hx Hy. apply holds_lookup in Hx as (lx & -> & NDx & Hx). apply holds_lookup in Hy as (ly & -> & NDy & Hy).
  rewrite smax_map. eexists. eexists. split; [reflexivity|]. split; [apply holds_intro; nd|]. split; intros k; unfold val, aval; rewrite Hx, Hy, fill2 by auto;
    unfold aval; destruct (lookup ly k) eqn:Ey, (lookup lx k) eqn:Ex; auto using max_comm; try dom.
  unfold n_max. destruct (n_gt N _ _); auto.
Qed.
Theorem min_pointwise x y mx my : holds x mx -> holds y my ->
  exists z mz, smin N x y = Some z /\ holds z mz /\ (forall k, val N mz k = n_min N (val N mx k) (val N my k)) /\
    forall k, mz k <> None <-> mx k <> None \/ my k <> None.
Proof.
  intros Hx Hy. apply holds_lookup in Hx as (lx & -> & NDx & Hx). apply holds_lookup in Hy as (ly & -> & NDy & Hy).
  rewrite smin_map. eexists. eexists. split; [reflexivity|]. split; [apply holds_intro; nd|]. split; intros k; unfold val, aval; rewrite Hx, Hy, fill2 by auto;
    unfold aval; destruct (lookup ly k) eqn:Ey, (lookup lx k) eqn:Ex; auto using min_comm; try dom.
  unfold n_min. destruct (n_gt N _ _); auto.
Qed.

Lemma accum_pointwise f st x y ox oy mx my : (forall a, f a (n_zero N) = a) -> 
  get st x = Some ox -> get st y = Some oy -> holds ox mx -> holds oy my ->
  exists st' oz mz, saccum N f st x y = Some st' /\ get st' x = Some oz /\ holds oz mz /\
    (forall k, val N mz k = f (val N mx k) (val N my k)) /\
    (forall z, z <> x -> get st' z = get st z).
Proof.
  intros Hf Gx Gy Hx Hy. apply holds_lookup in Hx as (lx & -> & NDx & Hx). apply holds_lookup in Hy as (ly & -> & NDy & Hy).
  destruct (Z.eq_dec x y) as [->|Hn].
  - rewrite Gx in Gy. inversion Gy as [E]. assert (lx = ly) as ->.
    { clear - E. revert ly E; induction lx; intros [|]; simpl; try discriminate; auto. intros E; inversion E; f_equal; auto. }
    destruct (saccum_self N f st y ly NDy Gx) as (st2 & E2 & A & _ & S). exists st2. eexists. eexists. split; [exact E2|]. split; [exact A|].
    split; [apply holds_intro; now rewrite keys_amap|]. split; [|auto]. intros k. unfold val. rewrite Hx, Hy, lookup_amap.
    destruct (lookup ly k); simpl; auto.
  - destruct (saccum_distinct N f st x y lx ly Hn Gx Gy) as (st2 & E2 & A & _ & S). exists st2. eexists. eexists. split; [exact E2|]. split; [exact A|].
    split; [apply holds_intro; nd|]. split; [|auto]. intros k. unfold val. rewrite Hx, Hy, lookup_fill by auto. unfold aval.
    destruct (lookup ly k), (lookup lx k); auto.
Qed.
Theorem scale_pointwise o m c : holds o m ->
  exists o' m', sscale N o (Outside c) = Some o' /\ holds o' m' /\ forall k, val N m' k = n_mul N (val N m k) c.
Proof.
  intros H. apply holds_lookup in H as (l & -> & ND & H). rewrite sscale_map by auto. eexists. eexists. split; [reflexivity|].
  split; [apply holds_intro; now rewrite keys_amap|]. intros k. unfold val. rewrite H, lookup_amap. destruct (lookup l k); simpl; auto.
  symmetry. apply (mul_0_l N L).
Qed.

(* equality *)
Lemma smatch_map l k v : smatch N (map Some l) k v = Some (match lookup l k with Some w => n_eq N v w | None => false end).
Proof. induction l as [|[j w] l IH]; simpl; auto. rewrite (Z.eqb_sym k j). destruct (j =? k); auto. Qed.
Theorem eq_same a b ma mb : holds a ma -> holds b mb ->
  exists r, seqb N a b = Some r /\ (r = true <-> forall k, ma k = mb k).
Proof.
  intros (la & -> & NDa & Ha) (lb & -> & NDb & Hb).
  assert (forall l, exists r, seq_loop N (map Some l) (map Some lb) = Some r /\ (r = true <-> forall k v, In (k, v) l -> In (k, v) lb)) as X.
  { induction l as [|[k v] l (r & E & I)]; simpl; [exists true; split; auto; split; auto; intros _ k v []|].
    rewrite smatch_map. cbn [bind]. destruct (lookup lb k) as [w|] eqn:Ek.
    - destruct (n_eq N v w) eqn:En.
      + exists r. split; auto. apply (eq_spec N L) in En. subst w. rewrite I. split; [|auto]. intros H k' v' [E'|I']; auto.
        inversion E'; subst. apply lookup_in; auto.
      + exists false. split; auto. split; [discriminate|]. intros H. specialize (H k v (or_introl eq_refl)).
        apply lookup_in in H; auto. rewrite Ek in H. inversion H; subst. assert (n_eq N v v = true) by (apply (eq_spec N L); auto). congruence.
    - exists false. split; auto. split; [discriminate|]. intros H. specialize (H k v (or_introl eq_refl)).
      apply lookup_in in H; auto. congruence. }
  unfold seqb. rewrite !zlen_map. destruct (X la) as (r & E & I). 
  assert (forall k, ma k = mb k <-> (forall v, In (k, v) la <-> In (k, v) lb)) as Y.
  { intros k. split; [intros Em v; rewrite Ha, Hb, Em; tauto|]. intros Hv. destruct (ma k) eqn:Em.
    - symmetry. apply Hb, Hv, Ha. auto.
    - destruct (mb k) eqn:Em2; auto. apply Hb, Hv, Ha in Em2. congruence. }
  destruct (Z.eqb_spec (zlen la) (zlen lb)) as [El|El].
  - exists r. split; auto. rewrite I. split.
    + intros H k. apply Y. intros v. split; [auto|].
      assert (incl lb la) as J.
      { apply NoDup_length_incl; [|unfold zlen in El; lia|intros [k' v'] ?; auto].
        eapply NoDup_map_inv; eauto. }
      intros Hv. apply J. exact Hv.
    + intros H k v Hv. apply Y; auto.
  - exists false. split; auto. split; [discriminate|]. intros H. exfalso. apply El.
    assert (incl la lb /\ incl lb la) as [J1 J2] by (split; intros [k v] Hv; apply (proj1 (Y k) (H k)); auto).
    apply NoDup_map_inv in NDa. apply NoDup_map_inv in NDb.
    pose proof (NoDup_incl_length NDa J1). pose proof (NoDup_incl_length NDb J2). unfold zlen. lia.
Qed.

(* grain_id *)
Definition best (l : alist) (s : Z * T) : Z * T :=
  fold_left (fun s it => if n_gt N (snd it) (snd s) then (fst it mod 2 ^ 32, snd it) else s) l s.
Lemma grain_fold l s : fold_opt (fun s (c : option (Z * T)) => do it <- c;
    Some (if n_gt N (snd it) (snd s) then (fst it mod 2 ^ 32, snd it) else s)) (map Some l) s = Some (best l s).
Proof. revert s; induction l; intros s; simpl; auto. Qed.
Lemma gt_neg a b c : n_gt N a c = true -> n_gt N b c = false -> n_gt N a b = true.
Proof.
  intros H1 H2. destruct (n_gt N a b) eqn:E; auto. exfalso.
  destruct (n_gt N b a) eqn:E2; [pose proof (gt_trans N L _ _ _ E2 H1); congruence|].
  assert (a = b) by (eapply gt_total; eauto). congruence.
Qed.
Lemma best_spec l s : best l s = s /\ (forall k v, In (k, v) l -> n_gt N v (snd s) = false) \/
  exists l1 k v l2, l = l1 ++ (k, v) :: l2 /\ best l s = (k mod 2 ^ 32, v) /\ n_gt N v (snd s) = true /\
    (forall k' v', In (k', v') l1 -> n_gt N v v' = true) /\ (forall k' v', In (k', v') l2 -> n_gt N v' v = false).
Proof.
  revert s; induction l as [|[k v] l IH]; intros s; [left; split; [auto|intros k v []]|]. unfold best. simpl. fold (best l).
  destruct (n_gt N v (snd s)) eqn:E.
  - destruct (IH (k mod 2 ^ 32, v)) as [[H1 H2]|(l1 & k1 & v1 & l2 & -> & H1 & H2 & H3 & H4)]; right.
    + exists [], k, v, l. simpl in *. split; [reflexivity|]. split; [exact H1|]. split; [exact E|]. split; [intros ? ? []|exact H2].
    + exists ((k, v) :: l1), k1, v1, l2. simpl in *. split; [reflexivity|]. split; [exact H1|]. split; [eapply gt_trans; eauto|]. split; [|auto].
      intros k' v' [E'|I]; [inversion E'; subst; auto|eauto].
  - destruct (IH s) as [[H1 H2]|(l1 & k1 & v1 & l2 & -> & H1 & H2 & H3 & H4)].
    + left. split; [exact H1|]. intros k' v' [E'|I]; [inversion E'; subst; auto|eauto].
    + right. exists ((k, v) :: l1), k1, v1, l2. simpl. split; [reflexivity|]. split; [exact H1|]. split; [exact H2|]. split; [|exact H4].
      intros k' v' [E'|I]; [|eauto]. inversion E'; subst. eapply gt_neg; eauto.
Qed.
Theorem grain_id_spec l : (forall k v, In (k, v) l -> 0 <= k < 2 ^ 31) ->
  (exists k v, In (k, v) l /\ n_gt N v (n_minus1 N) = true) ->
  exists l1 k v l2, l = l1 ++ (k, v) :: l2 /\ grain_id N (map Some l) = Some k /\
    (forall k' v', In (k', v') l1 -> n_gt N v v' = true) /\ (forall k' v', In (k', v') l2 -> n_gt N v' v = false).
Proof.
  intros Hk (k0 & v0 & I0 & G0). unfold grain_id. rewrite grain_fold. cbn [bind].
  destruct (best_spec l (0, n_minus1 N)) as [[H1 H2]|(l1 & k1 & v1 & l2 & -> & H1 & H2 & H3 & H4)].
  - simpl in H2. rewrite (H2 _ _ I0) in G0. discriminate G0.
  - exists l1, k1, v1, l2. split; auto. rewrite H1. cbn [fst snd].
    assert (0 <= k1 < 2 ^ 31) as R by (eapply Hk; apply in_or_app; right; left; reflexivity).
    change (2 ^ 31) with 2147483648 in R. change (2 ^ 32) with 4294967296.
    rewrite Z.mod_small by lia. split; [|auto]. unfold guard. destruct (Z.ltb_spec k1 (4294967296 - 1)); [reflexivity|lia].
Qed.
End Final.
