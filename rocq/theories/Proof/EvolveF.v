From Coq Require Import QArith.QArith QArith.Qcanon.
From Verif Require Import Model.Base Model.Num Model.Boundary Model.Layout Model.Access Model.Sparse Model.Stencil Model.Evolve
  Spec.Box Spec.Access Spec.Sparse Spec.Stencil Spec.Evolve Proof.BaseL Proof.LayoutL Proof.AccessL Proof.SparseL Proof.StencilL Proof.EvolveL.
Local Open Scope Z_scope.
Local Open Scope list_scope.
Notation nd l := (NoDup (map fst l)).

Lemma assign_ok (a b : list (Z * Qc)) : assign_from (map Some a) (map Some b) = Some (map Some b).
Proof.
  unfold assign_from. destruct (sassign_distinct [map Some a; map Some b] 0 1 a b ltac:(lia) eq_refl eq_refl) as (st & E & A & _).
  transitivity (do st0 <- Some st; get st0 0); [now rewrite <- E|exact A].
Qed.

(* a node function that computes the new cell from the old grid and the cell to be overwritten *)
Lemma node_write mpi g ls (former latter : list (sobj Qc)) node (F : list Z -> list (Z * Qc)) (f : sobj Qc -> sobj Qc -> option (sobj Qc)) mine result :
  0 <= g -> (mpi = false -> g = 0) -> lims_ok ls -> 0 <= node < nodes (lay g ls) -> zlen latter = cells (lay g ls) ->
  let x := position (lay g ls) node in
  grid_read mpi (lay g ls) former x = Some (map Some (F x)) -> grid_read mpi (lay g ls) latter x = Some mine -> f (map Some (F x)) mine = Some result ->
  exists latter', (do cell <- grid_read_int mpi (lay g ls) former node; do m <- grid_read_int mpi (lay g ls) latter node; do r <- f cell m; grid_write_int mpi (lay g ls) latter node r) = Some latter' /\
    zlen latter' = zlen latter /\ grid_read mpi (lay g ls) latter' x = Some result /\
    forall y, in_box (map l_x0 ls) (map l_x1 ls) y -> y <> x -> grid_read mpi (lay g ls) latter' y = grid_read mpi (lay g ls) latter y.
Proof.
  intros Hg Hm Hl Hi Hz x Hf Hn Hr.
  destruct (read_int_position mpi g ls former node Hg Hm Hl Hi) as [-> _]. fold x. rewrite Hf. cbn [bind].
  destruct (read_int_position mpi g ls latter node Hg Hm Hl Hi) as [-> HW]. fold x. rewrite Hn. cbn [bind]. rewrite Hr. cbn [bind]. rewrite HW. fold x.
  assert (in_box (map l_x0 ls) (map l_x1 ls) x) as B.
  { destruct (position_into g (lay g ls) node (wf_lay g ls Hl) Hi) as [B _]. now rewrite map_x0_lay, map_x1_lay in B. }
  destruct (inrange_access mpi g ls latter x result Hg Hl Hz B) as (l' & E & L & R & O). exists l'. split; [exact E|]. split; [exact L|]. split; [exact R|]. intros y By Ny. apply O; auto.
Qed.

Lemma near_few (s : list (Z * Z)) : nd s -> (zlen s < 2 <-> exists k, forall k', In k' (map fst s) -> k' = k).
Proof.
  intros N. split.
  - intros H. destruct s as [|[k z] [|b s]].
    + exists 0. simpl. tauto.
    + exists k. simpl. intuition.
    + rewrite !zlen_cons in H. pose proof (zlen_nonneg s). lia.
  - intros [k H]. destruct s as [|[a z] [|[b z'] s]]; try reflexivity. exfalso. simpl in *. inversion N; subst. apply H2. left. rewrite (H a), (H b); auto.
Qed.
Lemma sumQ_nonneg (l : list (Z * Qc)) : Forall (fun it => 0 < snd it /\ snd it <= 1)%Qc l -> (0 <= sumQ (map snd l))%Qc /\ (l <> [] -> (0 < sumQ (map snd l))%Qc).
Proof.
  induction 1 as [|[k v] l [H1 H2] _ [I1 I2]]; simpl in *; [split; [apply Qcle_refl|congruence]|].
  assert (0 < v + sumQ (map snd l))%Qc as P.
  { apply Qclt_le_trans with (v + 0)%Qc; [now rewrite Qcplus_0_r|]. apply Qcplus_le_compat; [apply Qcle_refl|auto]. }
  split; [now apply Qclt_le_weak|auto].
Qed.
Lemma le_sumQ (l : list (Z * Qc)) it : Forall (fun it => 0 < snd it /\ snd it <= 1)%Qc l -> In it l -> (snd it <= sumQ (map snd l))%Qc.
Proof.
  induction 1 as [|[k v] l [H1 H2] F IH]; simpl in *; [tauto|]. destruct (sumQ_nonneg l F) as [P _]. intros [<-|I].
  - simpl. apply Qcle_trans with (v + 0)%Qc; [rewrite Qcplus_0_r; apply Qcle_refl|]. apply Qcplus_le_compat; [apply Qcle_refl|auto].
  - apply Qcle_trans with (0 + sumQ (map snd l))%Qc; [rewrite Qcplus_0_l; auto|]. apply Qcplus_le_compat; [now apply Qclt_le_weak|apply Qcle_refl].
Qed.
Lemma inv_pos a : (0 < a)%Qc -> (0 < / a)%Qc.
Proof.
  intros H. destruct (Qclt_le_dec 0 (/ a)) as [|C]; [auto|]. exfalso.
  assert (a <> 0)%Qc as N by (intros ->; revert H; apply Qclt_not_eq || (intros H; apply Qclt_not_eq in H; congruence)).
  assert (a * / a <= a * 0)%Qc as Q by (rewrite !(Qcmult_comm a); apply Qcmult_le_compat_r; [auto|now apply Qclt_le_weak]).
  rewrite Qcmult_inv_r, Qcmult_0_r in Q by auto. now apply Q.
Qed.
Lemma scaled_simplex (l : list (Z * Qc)) : nd l -> Forall (fun it => 0 < snd it /\ snd it <= 1)%Qc l -> l <> [] ->
  on_simplex (amap (fun v => v * / sumQ (map snd l))%Qc l).
Proof.
  intros N F Hne. destruct (sumQ_nonneg l F) as [_ P]. specialize (P Hne). pose proof (inv_pos _ P) as I.
  assert (sumQ (map snd l) <> 0)%Qc as NZ by (intros E; rewrite E in P; apply Qclt_not_eq in P; congruence).
  split; [now rewrite keys_amap|]. split.
  - unfold amap. apply Forall_forall. intros it Hit. apply in_map_iff in Hit as ([k v] & <- & Hv). cbn [snd fst]. rewrite Forall_forall in F. destruct (F _ Hv) as [F1 F2]. cbn [snd] in *.
    split.
    + replace 0%Qc with (0 * / sumQ (map snd l))%Qc by ring. now apply Qcmult_lt_compat_r.
    + pose proof (le_sumQ l (k, v) ltac:(apply Forall_forall; auto) Hv) as Q. cbn [snd] in Q. rewrite <- (Qcmult_inv_r (sumQ (map snd l))) by auto. apply Qcmult_le_compat_r; [auto|now apply Qclt_le_weak].
  - unfold amap. rewrite map_map. cbn [snd]. rewrite <- (map_map snd (fun v => (v * / sumQ (map snd l))%Qc) l).
    set (c := (/ sumQ (map snd l))%Qc). assert (forall m, sumQ (map (fun v => v * c) m) = sumQ m * c)%Qc as X by (induction m; simpl; [ring|rewrite IHm; ring]).
    rewrite X. unfold c. now apply Qcmult_inv_r.
Qed.

Section Step.
Context (mpi : bool) (g : Z) (ls : list limits) (dx : list Qc) (former latter : list (sobj Qc)) (node : Z) (F : list Z -> list (Z * Qc)).
Notation axs := (lay g ls).
Notation x := (position axs node).
Context (Hg : 0 <= g) (Hm : mpi = false -> g = 0) (Hne : ls <> []) (Hl : lims_ok ls) (Hi : 0 <= node < nodes axs) (Hz : zlen latter = cells axs).
Context (Ld : length dx = length ls) (Fd : Forall (fun h => h <> 0%Qc) dx).
Context (St : star mpi axs former x (fun y => map Some (F y))) (Nd : forall y, nd (F y)).
Context (Emp : grid_read mpi axs latter x = Some []).

Lemma xbox : in_box (map l_x0 ls) (map l_x1 ls) x.
Proof. destruct (position_into g axs node (wf_lay g ls Hl) Hi) as [B _]. now rewrite map_x0_lay, map_x1_lay in B. Qed.
Lemma xlen : length x = length axs.
Proof. rewrite length_lay. apply (local_len ls). exact xbox. Qed.

Lemma evolve_node dt epsilon w mu : exists latter' l, evolve mpi axs dx dt epsilon w mu former latter node = Some latter' /\
  zlen latter' = zlen latter /\ grid_read mpi axs latter' x = Some (map Some l) /\
  (forall y, in_box (map l_x0 ls) (map l_x1 ls) y -> y <> x -> grid_read mpi axs latter' y = grid_read mpi axs latter y) /\
  ((exists k, forall k', near F x k' -> k' = k) -> l = F x) /\
  (~ (exists k, forall k', near F x k' -> k' = k) -> l = [] \/ on_simplex l).
Proof.
  destruct (neighbourhood_eq mpi axs dx former x F xlen ltac:(rewrite length_lay; auto) St Nd) as (s & Es & Ns & Hs). { destruct ls; [congruence|discriminate]. }
  pose proof (near_few s Ns) as NF.
  assert ((exists k, forall k', near F x k' -> k' = k) <-> zlen s < 2) as NF'.
  { rewrite NF. split; intros [k H]; exists k; intros k' Hk; apply H; now apply Hs. }
  unfold evolve. rewrite Es. cbn [bind]. rewrite BaseL.zlen_map. destruct (Z.ltb_spec (zlen s) 2) as [S2|S2].
  - destruct (node_write mpi g ls former latter node F (fun cell m => assign_from m cell) [] (map Some (F x)) Hg Hm Hl Hi Hz ltac:(apply St) Emp ltac:(apply (assign_ok [] (F x)))) as (l' & E & L & R & O).
    exists l', (F x). split; [exact E|]. split; [exact L|]. split; [exact R|]. split; [exact O|]. split; [auto|]. intros C. exfalso. apply C. apply NF'. auto.
  - destruct (slaplacian_eq mpi axs dx former x F xlen ltac:(rewrite length_lay; auto) Fd St Nd) as (lap & El & Nl & _). rewrite El. cbn [bind].
    destruct (derivatives_ok epsilon w (F x) lap s) as (d & Ed & _). destruct (rates_ok mu d s) as (r & Er & _).
    destruct (new_values_ok dt (F x) r s Ns) as (l & sum & En & Nn & Fn & Hsum).
    set (rsum := if Qc_eq_dec sum 0 then 0%Qc else (/ sum)%Qc). set (l1 := amap (fun v => v * rsum)%Qc l).
    destruct (node_write mpi g ls former latter node F (fun cell m => do dFdp <- derivatives epsilon w cell (map Some lap) (map Some s); do dpdt <- rates mu dFdp (map Some s); do r <- new_values dt cell dpdt (map Some s) m;
       let rsum := if Qc_eq_dec (snd r) 0 then 0%Qc else (/ snd r)%Qc in sscale num_Qc (fst r) (Outside rsum)) [] (map Some l1) Hg Hm Hl Hi Hz ltac:(apply St) Emp) as (l' & E & L & R & O).
    { rewrite Ed. cbn [bind]. rewrite Er. cbn [bind]. rewrite En. cbn [bind fst snd]. fold rsum. rewrite sscale_map by auto. reflexivity. }
    exists l', l1. split; [exact E|]. split; [exact L|]. split; [exact R|]. split; [exact O|]. split; [intros C; apply NF' in C; lia|].
    intros _. destruct l as [|it l]; [left; reflexivity|]. right. unfold l1, rsum. destruct (sumQ_nonneg _ Fn) as [_ P]. specialize (P ltac:(discriminate)). rewrite <- Hsum in P.
    destruct (Qc_eq_dec sum 0) as [e|e]; [rewrite e in P; apply Qclt_not_eq in P; congruence|]. rewrite Hsum. apply scaled_simplex; auto. discriminate.
Qed.

Lemma grow_node : exists latter' l, grow mpi axs dx former latter node = Some latter' /\
  zlen latter' = zlen latter /\ grid_read mpi axs latter' x = Some (map Some l) /\
  (forall y, in_box (map l_x0 ls) (map l_x1 ls) y -> y <> x -> grid_read mpi axs latter' y = grid_read mpi axs latter y) /\
  ((exists k, forall k', near F x k' -> k' = k) -> l = F x) /\
  (~ (exists k, forall k', near F x k' -> k' = k) -> nd l /\ forall k v, In (k, v) l <-> near F x k /\ v = grown F dx x k /\ (cutoff < v)%Qc).
Proof.
  destruct (neighbourhood_eq mpi axs dx former x F xlen ltac:(rewrite length_lay; auto) St Nd) as (s & Es & Ns & Hs). { destruct ls; [congruence|discriminate]. }
  pose proof (near_few s Ns) as NF.
  assert ((exists k, forall k', near F x k' -> k' = k) <-> zlen s < 2) as NF'.
  { rewrite NF. split; intros [k H]; exists k; intros k' Hk; apply H; now apply Hs. }
  unfold grow. rewrite Es. cbn [bind]. rewrite BaseL.zlen_map. destruct (Z.ltb_spec (zlen s) 2) as [S2|S2].
  - destruct (node_write mpi g ls former latter node F (fun cell m => assign_from m cell) [] (map Some (F x)) Hg Hm Hl Hi Hz ltac:(apply St) Emp ltac:(apply (assign_ok [] (F x)))) as (l' & E & L & R & O).
    exists l', (F x). split; [exact E|]. split; [exact L|]. split; [exact R|]. split; [exact O|]. split; [auto|]. intros C. exfalso. apply C. apply NF'. auto.
  - destruct (slaplacian_eq mpi axs dx former x F xlen ltac:(rewrite length_lay; auto) Fd St Nd) as (lap & El & Nl & Hlap). rewrite El. cbn [bind].
    set (sum := sumQ (map (fun it => snd it * snd it)%Qc (F x))).
    assert (fold_opt (fun sum j => do phi <- svalue (map Some (F x)) j; Some (sum + phi * phi)%Qc) (zrange 0 (zlen (map Some (F x)))) 0%Qc = Some sum) as Esum.
    { rewrite BaseL.zlen_map. rewrite (fold_items (fun sum it => Some (sum + snd it * snd it)%Qc)).
      - unfold sum. assert (forall m a, fold_opt (fun sum it => Some (sum + snd it * snd it)%Qc) m a = Some (a + sumQ (map (fun it : Z * Qc => snd it * snd it) m))%Qc) as X.
        { induction m as [|it m IH]; intros a; simpl; [f_equal; ring|]. rewrite IH. f_equal. ring. }
        rewrite X. f_equal. ring.
      - intros t i a Ha. unfold svalue. rewrite (sitem_map _ _ _ Ha). reflexivity. }
    set (step := fun (mine : sobj Qc) (it : Z * Z) => if qgt (grown F dx x (fst it)) cutoff then sset_op num_Qc mine (fst it) (fun _ => grown F dx x (fst it)) else Some mine).
    destruct (fold_inv_done step (fun d o => exists l, o = map Some l /\ nd l /\ forall k v, In (k, v) l <-> In k (map fst d) /\ v = grown F dx x k /\ (cutoff < v)%Qc) s) with (s := @nil (option (Z * Qc))) as (o & Eo & l & -> & Nn & Hn).
    { intros d o [k z] (r & Er) (l & -> & Nn & Hn). unfold step. cbn [fst].
      assert (~ In k (map fst d)) as Nk. { intros I. rewrite Er, map_app in Ns. cbn [map fst] in Ns. apply NoDup_remove_2 in Ns. apply Ns. apply in_or_app. auto. }
      assert (~ In k (map fst l)) as Nkl. { intros I. apply in_map_iff in I as ([k' v] & E & I). simpl in E. subst k'. apply Hn in I. tauto. }
      destruct (qgt (grown F dx x k) cutoff) eqn:G.
      - rewrite sset_op_map, aset_new by auto. eexists. split; [reflexivity|]. eexists. split; [reflexivity|]. split; [now apply nd_snoc|]. apply qgt_true in G.
        intros k' v. rewrite in_app_iff, Hn, map_app, in_app_iff. cbn [map In fst]. split.
        + intros [(I & H)|[[= <- <-]|[]]]; [tauto|]. split; [auto|]. split; [reflexivity|exact G].
        + intros ([I|[<-|[]]] & -> & C); [left; auto|right; left; reflexivity].
      - eexists. split; [reflexivity|]. exists l. split; [reflexivity|]. split; [auto|]. intros k' v. rewrite Hn, map_app, in_app_iff. cbn [map In fst]. apply qgt_false in G. split; [tauto|].
        intros ([I|[<-|[]]] & -> & C); [auto|]. exfalso. exact (Qclt_not_le _ _ C G). }
    { exists []. split; [reflexivity|]. split; [constructor|]. simpl. tauto. }
    destruct (node_write mpi g ls former latter node F (fun cell m =>
       do sum <- fold_opt (fun sum j => do phi <- svalue cell j; Some (sum + phi * phi)%Qc) (zrange 0 (zlen cell)) 0%Qc;
       fold_opt (fun mine j => do i <- sindex (map Some s) j; do phi <- sread num_Qc cell i; do l <- sread num_Qc (map Some lap) i;
         let value := (phi - hundredth * (- phi - phi * phi * phi + c2 * (phi * sum - l)))%Qc in
         if qgt value cutoff then sset_op num_Qc mine i (fun _ => value) else Some mine) (zrange 0 (zlen s)) m) [] (map Some l) Hg Hm Hl Hi Hz ltac:(apply St) Emp) as (l' & E & L & R & O).
    { rewrite Esum. cbn [bind]. rewrite <- Eo. apply fold_items. intros o i a Ha. rewrite (sindex_map _ _ _ Ha). cbn [bind]. rewrite !sread_map. cbn [bind]. rewrite <- !at_index_aval, Hlap. reflexivity. }
    exists l', l. split; [exact E|]. split; [exact L|]. split; [exact R|]. split; [exact O|]. split; [intros C; apply NF' in C; lia|].
    intros _. split; [auto|]. intros k v. rewrite Hn. now rewrite Hs.
Qed.
End Step.
