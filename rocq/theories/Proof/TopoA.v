From Coq Require Import QArith.QArith QArith.Qcanon Sorting.Sorted.
From Verif Require Import Model.Base Model.Num Model.Layout Model.Access Model.Sparse Model.Evolve Model.Stencil Model.Spin Model.Topology Model.Tessellate Model.Topo
  Spec.Box Spec.Stencil Spec.Evolve Spec.Sparse Spec.Spin Spec.Topology Spec.Table Spec.Topo
  Proof.BaseL Proof.LayoutL Proof.AccessL Proof.SparseL Proof.SparseF Proof.EvolveL Proof.SpinL Proof.TopologyL Proof.TopologyF Proof.CentroidL Proof.TableL Proof.TopoL Proof.TopoF.
Local Open Scope Z_scope.

(* ---- microstructures exist ---- *)
Lemma in_boxb_iff ls x : in_boxb ls x = true <-> in_box (map l_x0 ls) (map l_x1 ls) x.
Proof.
  revert x. induction ls as [|l ls IH]; intros [|c x]; cbn [in_boxb map in_box]; try (split; [discriminate|tauto]); [tauto|].
  rewrite !andb_true_iff, IH, Z.leb_le, Z.ltb_lt. tauto.
Qed.
Definition found_around (ls : list limits) (G : list Z -> Z) (x : list Z) : list Z :=
  idset_of (filter (fun b => negb (b =? G x)) (map G (filter (in_boxb ls) (map (vadd x)
    (filter (fun o => negb (forallb (fun e => e =? 0) o) && ((zlen ls =? 2) || negb (forallb (fun e => negb (e =? 0)) o))) (offsets (length ls))))))).
Lemma idset_sorted l : inc Z.ltb (idset_of l) /\ forall b, In b (idset_of l) <-> In b l.
Proof.
  unfold idset_of. assert (forall l s, inc Z.ltb s -> inc Z.ltb (fold_left (fun s x => oinsert Z.ltb x s) l s) /\ forall b, In b (fold_left (fun s x => oinsert Z.ltb x s) l s) <-> In b s \/ In b l) as X.
  { clear l. induction l as [|a l IH]; intros s I; cbn [fold_left In]; [split; [auto|tauto]|]. destruct (IH (oinsert Z.ltb a s)) as [I' M]; [apply inc_oinsert; auto using order_Z|]. split; [auto|].
    intros b. rewrite M, in_oinsert by apply order_Z. intuition congruence. }
  destruct (X l [] ltac:(constructor)) as [I M]. split; [exact I|]. intros b. rewrite M. cbn. tauto.
Qed.
Lemma micro_exists ls F : length ls = 2%nat \/ length ls = 3%nat -> (forall x, in_box (map l_x0 ls) (map l_x1 ls) x -> cell_ok (F x)) -> exists G A, microstructure ls F G A.
Proof.
  intros Hd C. set (G := fun x => match grain_id num_Qc (map Some (F x)) with Some k => k | None => 0 end). exists G, (found_around ls G). intros x B. split; [now apply C|]. split.
  - destruct (C x B) as (N & R & X). rewrite Forall_forall in R. destruct (grain_id_spec num_Qc Qc_laws (F x)) as (l1 & k & v & l2 & E & Gi & H1 & H2).
    + intros k v H. apply R in H. cbn in H. change (2 ^ 31) with 2147483648. lia.
    + apply Exists_exists in X as ([k v] & H & Hv). exists k, v. split; [exact H|]. now apply qgt_true.
    + unfold G. rewrite Gi. exists l1, v, l2. split; [exact E|]. split; apply Forall_forall; intros [k' v'] Hk.
      * apply H1 in Hk. now apply qgt_true in Hk.
      * apply H2 in Hk. now apply qgt_false in Hk.
  - assert (length x = length ls) as Lx by now apply local_len. unfold found_around. destruct (idset_sorted (filter (fun b => negb (b =? G x)) (map G (filter (in_boxb ls) (map (vadd x)
      (filter (fun o => negb (forallb (fun e => e =? 0) o) && ((zlen ls =? 2) || negb (forallb (fun e => negb (e =? 0)) o))) (offsets (length ls)))))))) as [I M].
    split; [now apply sorted_of_inc|]. intros b. rewrite M, filter_In, in_map_iff. setoid_rewrite filter_In. setoid_rewrite in_map_iff. setoid_rewrite filter_In. split.
    + intros ((y & Gy & ((o & <- & Ho & K) & By)) & Nb). apply andb_prop in K as [K1 K2]. apply negb_true_iff in K1. apply negb_true_iff, Z.eqb_neq in Nb.
      assert (length o = length ls) as Lo by (rewrite offsets_cube in Ho; apply in_cube in Ho as [L _]; lia). exists (vadd x o). split; [now apply in_boxb_iff|]. split; [|auto]. split.
      * intros E. apply vadd_zero in E; [congruence|lia].
      * split; [apply (around_iff x _ (length ls)); eauto|]. intros L3. apply orb_prop in K2 as [K2|K2]; [apply Z.eqb_eq in K2; unfold zlen in K2; lia|]. apply negb_true_iff in K2.
        apply (vadd_corner x) in K2; [|lia]. now rewrite L3 in K2.
    + intros (y & By & (Ny & T & Cn) & Gb & Nb). split; [|now apply negb_true_iff, Z.eqb_neq]. apply (around_iff x y (length ls)) in T as (o & Ho & ->); [|auto].
      assert (length o = length ls) as Lo by (rewrite offsets_cube in Ho; apply in_cube in Ho as [L _]; lia).
      exists (vadd x o). split; [exact Gb|]. split; [|now apply in_boxb_iff]. exists o. split; [reflexivity|]. split; [exact Ho|]. apply andb_true_iff. split.
      * apply negb_true_iff. destruct (forallb _ o) eqn:E; [|reflexivity]. apply (vadd_zero x) in E; [congruence|lia].
      * apply orb_true_iff. destruct Hd as [D|D]; [left; apply Z.eqb_eq; unfold zlen; lia|right]. apply negb_true_iff. apply (vadd_corner x); [lia|]. rewrite Lx, D. apply Cn. lia.
Qed.

(* ---- analysis ---- *)
Definition flagged (g : grain) : grain := if num_edges g =? 0 then set_exclusion true g else g.
Lemma analyse_fold axs m : forall done p0 n0 m' p n,
  fold_opt (fun '(done, maxp, maxN) it =>
    do r <- compute_topology (dimension axs) (snd it);
    let '(g, stats) := r in
    do s0 <- get stats 0; do s2 <- get stats 2; do s3 <- get stats 3;
    let g := if s0 =? -1 then set_exclusion true g else g in
    let g := if num_edges g =? 0 then set_exclusion true g else g in
    Some (done ++ [(fst it, g)], if maxp <? s2 then s2 else maxp, if maxN <? s3 then s3 else maxN)) m (done, p0, n0) = Some (m', p, n) ->
  p0 <= p /\ n0 <= n /\ (forall B, p0 <= B -> (forall it g st, In it m -> compute_topology (dimension axs) (snd it) = Some (g, st) -> nth 2 st 0 <= B) -> p <= B) /\
  (forall B, n0 <= B -> (forall it g st, In it m -> compute_topology (dimension axs) (snd it) = Some (g, st) -> nth 3 st 0 <= B) -> n <= B) /\ exists l, m' = done ++ l /\
    Forall2 (fun (it : Z * grain) (it' : Z * grain) => fst it' = fst it /\ exists g a1 a2, compute_topology (dimension axs) (snd it) = Some (g, [0; a1; a2; num_faces g]) /\
       snd it' = flagged g /\ a2 <= p /\ num_faces g <= n) m l.
Proof.
  induction m as [|it m IH]; intros done p0 n0 m' p n E; cbn [fold_opt] in E.
  - injection E as -> -> ->. do 2 (split; [lia|]). do 2 (split; [auto|]). exists []. rewrite app_nil_r. split; [reflexivity|constructor].
  - destruct (compute_topology (dimension axs) (snd it)) as [[g st]|] eqn:C; cbn [bind] in E; [|discriminate].
    assert (exists a1 a2, st = [0; a1; a2; num_faces g]) as (a1 & a2 & ->).
    { rewrite compute_split in C. destruct (infer_vertices _ _) as [[g1 a1]|]; cbn [bind] in C; [|discriminate]. destruct (make_pvector _ g1) as [[g2 a2]|]; cbn [bind] in C; [|discriminate].
      injection C as <- <-. eauto. }
    match type of E with bind ?x _ = _ => assert (x = Some (done ++ [(fst it, flagged g)], if p0 <? a2 then a2 else p0, if n0 <? num_faces g then num_faces g else n0)) as X by reflexivity; rewrite X in E; clear X end. cbn [bind] in E. apply IH in E as (P & N & PB & NB & l & -> & Fl).
    assert (p0 <= (if p0 <? a2 then a2 else p0) /\ a2 <= (if p0 <? a2 then a2 else p0)) as [] by (destruct (Z.ltb_spec p0 a2); lia).
    assert (n0 <= (if n0 <? num_faces g then num_faces g else n0) /\ num_faces g <= (if n0 <? num_faces g then num_faces g else n0)) as [] by (destruct (Z.ltb_spec n0 (num_faces g)); lia).
    split; [lia|]. split; [lia|].
    split; [intros B HB HA; apply PB; [pose proof (HA it g _ (or_introl eq_refl) C) as K; cbn in K; destruct (p0 <? a2); lia|intros it' g' st' I'; apply HA; now right]|].
    split; [intros B HB HA; apply NB; [pose proof (HA it g _ (or_introl eq_refl) C) as K; cbn in K; destruct (n0 <? num_faces g); lia|intros it' g' st' I'; apply HA; now right]|].
    exists ((fst it, flagged g) :: l). split; [now rewrite <- app_assoc|]. constructor; [|exact Fl]. split; [reflexivity|]. exists g, a1, a2. repeat split; auto; lia.
Qed.
Lemma analyse_ok axs m m' p n : analyse axs m = Some (m', p, n) -> 0 <= p /\ 0 <= n /\
  (forall B, 0 <= B -> (forall it g st, In it m -> compute_topology (dimension axs) (snd it) = Some (g, st) -> nth 2 st 0 <= B) -> p <= B) /\
  (forall B, 0 <= B -> (forall it g st, In it m -> compute_topology (dimension axs) (snd it) = Some (g, st) -> nth 3 st 0 <= B) -> n <= B) /\
  Forall2 (fun (it : Z * grain) (it' : Z * grain) => fst it' = fst it /\ exists g a1 a2, compute_topology (dimension axs) (snd it) = Some (g, [0; a1; a2; num_faces g]) /\
       snd it' = flagged g /\ a2 <= p /\ num_faces g <= n) m m'.
Proof. intros E. apply analyse_fold in E as (P & N & PB & NB & l & -> & Fl). auto. Qed.

(* ---- rows ---- *)
Lemma map_opt_len {X Y} (f : X -> option Y) l r : map_opt f l = Some r -> length r = length l.
Proof. revert r. induction l as [|a l IH]; intros r; cbn; [intros E; now injection E as <-|]. destruct (f a); cbn; [|discriminate]. destruct (map_opt f l); cbn; [|discriminate]. intros E. injection E as <-. cbn. f_equal. auto. Qed.
Lemma centre_len g x : length (centroid g) = 3%nat -> centre g = Some x -> length x = 3%nat.
Proof.
  intros L. unfold centre, get_centroid. destruct (Stencil.recip (volume g)); cbn [bind]; [|discriminate]. intros E. apply map_opt_len in E. rewrite map_length in E. congruence.
Qed.
Lemma zlen_zrange a b : zlen (zrange a b) = Z.max 0 (b - a).
Proof. unfold zlen, zrange. rewrite map_length, seq_length. lia. Qed.
Lemma titles_len p n : zlen (titles p n) = 9 + Z.max 0 (p - 2) + Z.max 0 n.
Proof. unfold titles. rewrite !zlen_app, !BaseL.zlen_map, !zlen_zrange. lia. Qed.
Lemma zlen_skipn2 {X} (l : list X) : 2 <= zlen l -> zlen (skipn 2 l) = zlen l - 2.
Proof. unfold zlen. rewrite skipn_length. lia. Qed.
Lemma zlen_firstn {X} k (l : list X) : (k <= length l)%nat -> zlen (firstn k l) = Z.of_nat k.
Proof. unfold zlen. rewrite firstn_length. lia. Qed.

Lemma row3_len axs g p n rows row : dimension axs = 3 -> length (centroid g) = 3%nat -> zlen (pvector g) <= p -> num_faces g <= n ->
  print_csv axs g p n = Some rows -> In row rows -> zlen row = zlen (titles p n).
Proof.
  intros D L P N E I. unfold print_csv in E. rewrite D in E. change (3 =? 2) with false in E. cbv iota zeta in E. rewrite titles_len.
  assert (0 <= num_faces g) by (unfold num_faces, zlen; lia).
  destruct (_ && _).
  - destruct (centre g) as [x|] eqn:C; cbn [bind] in E; [|discriminate]. apply centre_len in C; auto. destruct (Z.ltb_spec 1 (zlen (pvector g))) as [Lp|]; cbn [guard bind] in E; [|discriminate]. injection E as <-. destruct I as [<-|[]].
    cbn [app]. repeat first [rewrite zlen_cons | rewrite zlen_app | rewrite BaseL.zlen_map | rewrite zlen_zrange | rewrite zlen_firstn by lia]. unfold num_faces in *. lia.
  - destruct (_ || _); [injection E as <-; destruct I|].
    destruct (centre g) as [x|] eqn:C; cbn [bind] in E; [|discriminate]. apply centre_len in C; auto. destruct (Z.ltb_spec 1 (zlen (pvector g))) as [Lp|]; cbn [guard bind] in E; [|discriminate]. injection E as <-. destruct I as [<-|[]].
    cbn [app]. repeat first [rewrite zlen_cons | rewrite zlen_app | rewrite BaseL.zlen_map | rewrite zlen_zrange | rewrite zlen_firstn by lia | rewrite zlen_skipn2 by lia]. unfold num_faces in *. lia.
Qed.
Lemma row2_len axs g p n rows row : dimension axs = 2 -> length (centroid g) = 3%nat -> zlen (pvector g) = 3 -> p = 3 -> n = 0 ->
  print_csv axs g p n = Some rows -> In row rows ->
  zlen row = zlen (titles p n) + num_edges g - (if excluded g then 1 else 0) /\ (excluded g = false -> 2 <= num_edges g).
Proof.
  intros D L P -> -> E I. unfold print_csv in E. rewrite D in E. change (2 =? 2) with true in E. cbv iota zeta in E. rewrite titles_len.
  assert (0 <= num_edges g) by (unfold num_edges, zlen; lia). rewrite P in E. change (guard (1 <? 3)) with (Some tt) in E. cbn [bind] in E.
  destruct (excluded g).
  - destruct (centre g) as [x|] eqn:C; cbn [bind] in E; [|discriminate]. apply centre_len in C; auto. destruct (map_opt _ (edges g)) as [es|] eqn:Es; cbn [bind] in E; [|discriminate]. apply map_opt_len in Es. injection E as <-. destruct I as [<-|[]].
    split; [|discriminate]. cbn [app]. repeat first [rewrite zlen_cons | rewrite zlen_app | rewrite BaseL.zlen_map | rewrite zlen_zrange | rewrite zlen_firstn by lia]. unfold num_edges, zlen in *. lia.
  - destruct (Z.ltb_spec (num_verts g) 1); cbn [orb] in E; [injection E as <-; destruct I|]. destruct (Z.ltb_spec (num_edges g) 2); [injection E as <-; destruct I|].
    destruct (centre g) as [x|] eqn:C; cbn [bind] in E; [|discriminate]. apply centre_len in C; auto. destruct (map_opt _ (edges g)) as [es|] eqn:Es; cbn [bind] in E; [|discriminate]. apply map_opt_len in Es. injection E as <-. destruct I as [<-|[]].
    split; [|lia]. cbn [app]. repeat first [rewrite zlen_cons | rewrite zlen_app | rewrite BaseL.zlen_map | rewrite zlen_zrange | rewrite zlen_firstn by lia | rewrite zlen_skipn2 by lia]. unfold num_edges, zlen in *. lia.
Qed.
