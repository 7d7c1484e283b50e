From Coq Require Import Permutation.
From Verif Require Import Model.Base Model.Boundary Model.Layout Model.Access Model.Setup Model.Num Model.Sparse Model.Codec Model.MPI Model.Ghostswap Model.Simulate Model.Tessellate Model.FastMarch
  Spec.Box Spec.Access Spec.Tessellate Proof.BaseL Proof.LayoutL Proof.AccessL Proof.SetupL Proof.SparseL Proof.TessellateL Proof.TessellateF.

(* ---- heap operations permute the heap ---- *)
Definition qok (q : pqueue) : Prop := NoDup (q_heap q) /\ forall n, q_back q n <> None <-> In n (q_heap q).

Lemma get_nth_error {A} (l : list A) i v : get l i = Some v <-> 0 <= i /\ nth_error l (Z.to_nat i) = Some v.
Proof. unfold get. destruct (Z.ltb_spec i 0); split; try (intros; split; auto; lia); try tauto; try discriminate. intros [? _]. lia. Qed.
Lemma nth_error_set_nth {A} (l : list A) i j v : (i < length l)%nat -> nth_error (set_nth i l v) j = if Nat.eqb j i then Some v else nth_error l j.
Proof.
  revert i j. induction l as [|a l IH]; intros i j H; simpl in H; [lia|]. destruct i, j; simpl; auto. rewrite IH by lia. reflexivity.
Qed.
Lemma length_set_nth {A} (l : list A) i v : length (set_nth i l v) = length l.
Proof. revert i. induction l as [|a l IH]; intros [|i]; simpl; auto. Qed.
Lemma put_eq {A} (l : list A) i v l' : put l i v = Some l' -> 0 <= i < zlen l /\ l' = set_nth (Z.to_nat i) l v.
Proof. unfold put, zlen. destruct (Z.ltb_spec i 0); [discriminate|]. destruct (Z.leb_spec (Z.of_nat (length l)) i); simpl; [discriminate|]. intros E. inversion E. split; [lia|auto]. Qed.

Lemma swap_perm q i j q' : pq_swap q i j = Some q' -> Permutation (q_heap q) (q_heap q') /\
  (forall n, q_back q' n <> None <-> q_back q n <> None \/ (get (q_heap q) i = Some n \/ get (q_heap q) j = Some n)).
Proof.
  unfold pq_swap. destruct (get (q_heap q) j) as [t|] eqn:Et; [|discriminate]. destruct (get (q_heap q) i) as [s|] eqn:Es; [|discriminate]. cbn [bind].
  destruct (put (q_heap q) j s) as [h1|] eqn:E1; [|discriminate]. cbn [bind]. destruct (put h1 i t) as [h2|] eqn:E2; [|discriminate]. cbn [bind].
  apply put_eq in E1 as [Bj ->]. apply put_eq in E2 as [Bi ->]. rewrite get_nth_error in Et, Es. destruct Et as [_ Et], Es as [_ Es].
  unfold zlen in Bi, Bj. rewrite length_set_nth in Bi.
  set (h := q_heap q) in *. set (a := Z.to_nat i) in *. set (b := Z.to_nat j) in *.
  assert (forall n, nth_error (set_nth a (set_nth b h s) t) n = if Nat.eqb n a then Some t else if Nat.eqb n b then Some s else nth_error h n) as N.
  { intros n. rewrite nth_error_set_nth by (rewrite length_set_nth; lia). destruct (Nat.eqb n a); [auto|]. rewrite nth_error_set_nth by lia. auto. }
  assert (get (set_nth a (set_nth b h s) t) i = Some t) as -> by (apply get_nth_error; split; [lia|]; fold a; rewrite N, Nat.eqb_refl; auto).
  assert (get (set_nth a (set_nth b h s) t) j = Some s) as ->.
  { apply get_nth_error; split; [lia|]. fold b. rewrite N. destruct (Nat.eqb_spec b a) as [e|e]; [|now rewrite Nat.eqb_refl]. rewrite e in Et. congruence. }
  cbn [bind]. intros E. inversion E; subst q'. cbn [q_heap q_back]. split.
  - apply Permutation_nth_error. split; [now rewrite !length_set_nth|]. exists (fun n => if Nat.eqb n a then b else if Nat.eqb n b then a else n). split.
    + intros x y. destruct (Nat.eqb_spec x a), (Nat.eqb_spec x b), (Nat.eqb_spec y a), (Nat.eqb_spec y b); lia.
    + intros n. rewrite N. destruct (Nat.eqb n a); [auto|]. destruct (Nat.eqb n b); auto.
  - intros n. unfold upd. split.
    + destruct (Z.eqb_spec n s) as [->|]; [auto|]. destruct (Z.eqb_spec n t) as [->|]; auto.
    + destruct (Z.eqb_spec n s) as [->|]; [discriminate|]. destruct (Z.eqb_spec n t) as [->|]; [discriminate|].
      intros [H|[H|H]]; [auto|congruence|congruence].
Qed.
Lemma swap_ok q i j q' : qok q -> pq_swap q i j = Some q' -> qok q' /\ Permutation (q_heap q) (q_heap q').
Proof.
  intros [N B] E. destruct (swap_perm _ _ _ _ E) as [P K]. split; [|auto]. split; [eapply Permutation_NoDup; eauto|].
  intros n. rewrite K, B. split.
  - intros [H|[H|H]]; apply (Permutation_in _ P); auto; apply get_nth_error in H as [_ H]; eapply nth_error_In; eauto.
  - intros H. left. eapply Permutation_in; [symmetry; exact P|auto].
Qed.
Lemma up_ok vox fuel : forall q i q', qok q -> percolate_up vox fuel q i = Some q' -> qok q' /\ Permutation (q_heap q) (q_heap q').
Proof.
  induction fuel as [|f IH]; intros q i q' O E; [discriminate|]. cbn [percolate_up] in E. destruct (0 <? i); [|inversion E; subst; auto].
  destruct (get (q_heap q) i); [|discriminate]. cbn [bind] in E. destruct (get (q_heap q) _); [|discriminate]. cbn [bind] in E.
  destruct (value vox z); [|discriminate]. cbn [bind] in E. destruct (value vox z0); [|discriminate]. cbn [bind] in E.
  destruct (z1 <? z2); [|inversion E; subst; auto]. destruct (pq_swap q i _) as [q1|] eqn:Es; [|discriminate]. cbn [bind] in E.
  destruct (swap_ok _ _ _ _ O Es) as [O1 P1]. destruct (IH _ _ _ O1 E) as [O2 P2]. split; [auto|]. eapply Permutation_trans; eauto.
Qed.
Lemma down_ok vox fuel : forall q i q', qok q -> percolate_down vox fuel q i = Some q' -> qok q' /\ Permutation (q_heap q) (q_heap q').
Proof.
  induction fuel as [|f IH]; intros q i q' O E; [discriminate|]. cbn [percolate_down] in E. destruct (_ <? zlen (q_heap q)); [|inversion E; subst; auto].
  destruct (get (q_heap q) (2 * i + 1)) as [l|]; [|discriminate]. cbn [bind] in E. destruct (value vox l) as [vl|]; [|discriminate]. cbn [bind] in E.
  match type of E with bind ?e _ = _ => destruct e as [child|]; [|discriminate] end. cbn [bind] in E.
  destruct (get (q_heap q) child) as [c|]; [|discriminate]. cbn [bind] in E. destruct (value vox c) as [vc|]; [|discriminate]. cbn [bind] in E.
  destruct (get (q_heap q) i) as [a|]; [|discriminate]. cbn [bind] in E. destruct (value vox a) as [va|]; [|discriminate]. cbn [bind] in E.
  destruct (vc <? va); [|inversion E; subst; auto]. destruct (pq_swap q child i) as [q1|] eqn:Es; [|discriminate]. cbn [bind] in E.
  destruct (swap_ok _ _ _ _ O Es) as [O1 P1]. destruct (IH _ _ _ O1 E) as [O2 P2]. split; [auto|]. eapply Permutation_trans; eauto.
Qed.
Lemma push_ok vox q a q' : qok q -> pq_push vox q a = Some q' -> qok q' /\ Permutation (a :: q_heap q) (q_heap q').
Proof.
  intros [N B] E. unfold pq_push in E. destruct (q_back q a) eqn:Ea; [discriminate|]. cbn [guard bind] in E. apply up_ok in E as [O P].
  - split; [auto|]. cbn [q_heap] in P. eapply Permutation_trans; [|exact P]. apply Permutation_cons_append.
  - cbn [q_heap q_back]. split; cbn [q_heap q_back].
    + eapply Permutation_NoDup; [apply Permutation_cons_append|]. constructor; [|auto]. intros H. apply B in H. congruence.
    + intros n. unfold upd. rewrite in_app_iff. simpl. destruct (Z.eqb_spec n a) as [->|]; [split; [auto|discriminate]|]. rewrite B. split; [auto|]. intros [?|[?|[]]]; [auto|congruence].
Qed.
Lemma update_ok vox q a q' : qok q -> pq_update vox q a = Some q' -> qok q' /\ Permutation (q_heap q) (q_heap q').
Proof.
  intros O E. unfold pq_update in E. destruct (q_back q a) as [i|]; [|discriminate]. cbn [bind] in E. destruct (percolate_up vox _ q i) as [q1|] eqn:E1; [|discriminate]. cbn [bind] in E.
  destruct (q_back q1 a) as [j|]; [|discriminate]. cbn [bind] in E. destruct (up_ok _ _ _ _ _ O E1) as [O1 P1]. destruct (down_ok _ _ _ _ _ O1 E) as [O2 P2]. split; [auto|]. eapply Permutation_trans; eauto.
Qed.
Lemma pop_ok vox q a t q' : qok q -> q_heap q = a :: t -> pq_pop vox q = Some q' -> qok q' /\ Permutation t (q_heap q').
Proof.
  intros [N B] Eh E. unfold pq_pop in E. rewrite Eh in E. change (get (a :: t) 0) with (Some a) in E. cbn [bind] in E.
  destruct (q_back q a) as [i|]; [|discriminate]. cbn [guard bind] in E.
  destruct (get (a :: t) (zlen (a :: t) - 1)) as [b|] eqn:Eb; [|discriminate]. cbn [bind] in E. change (put (a :: t) 0 b) with (Some (b :: t)) in E. cbn [bind] in E.
  assert (Permutation t (removelast (b :: t))) as P.
  { destruct t as [|c t]; [constructor|]. change (removelast (b :: c :: t)) with (b :: removelast (c :: t)).
    destruct (@exists_last _ (c :: t) ltac:(discriminate)) as (t' & z & Et). rewrite Et in *. rewrite removelast_last.
    replace b with z. { symmetry. apply Permutation_cons_append. }
    rewrite get_nth_error in Eb. destruct Eb as [_ Eb]. unfold zlen in Eb. simpl length in Eb. rewrite app_length in Eb. simpl length in Eb.
    replace (Z.to_nat (Z.of_nat (S (length t' + 1)) - 1)) with (S (length t')) in Eb by lia. simpl in Eb. rewrite nth_error_app2, Nat.sub_diag in Eb by lia. simpl in Eb. congruence. }
  rewrite Eh in N, B. inversion N as [|? ? Na Nt]; subst. apply down_ok in E as [O P'].
  - split; [auto|]. eapply Permutation_trans; [exact P|exact P'].
  - split; cbn [q_heap q_back]; [eapply Permutation_NoDup; [exact P|exact Nt]|]. intros n. unfold upd.
    assert (In n t <-> In n (removelast (b :: t))) as <- by (split; apply Permutation_in; [|symmetry]; exact P).
    destruct (Z.eqb_spec n a) as [->|]; [split; [congruence|tauto]|]. rewrite B. simpl. split; [intros [?|?]; [congruence|auto]|auto].
Qed.

Definition wrap (g : gaxis) (c : Z) : Z := check_boundary false c (gx_0 g) (gx_1 g) periodic periodic.
Lemma wrap_spec g c : gx_0 g < gx_1 g -> gx_0 g - 1 <= c < gx_1 g + 1 -> gx_0 g <= wrap g c < gx_1 g.
Proof. intros H1 H2. unfold wrap, check_boundary, periodic, Neumann, Dirichlet, mirror. simpl. destruct (Z.ltb_spec c (gx_0 g)); [lia|]. destruct (Z.leb_spec (gx_1 g) c); lia. Qed.

Section March.
Context (gs : list gaxis) (Hg : Forall (fun g => gx_0 g < gx_1 g) gs) (n' : nat) (Hn : length gs = S n').
Let axs := distance_axes gs.
Let l := Z.of_nat n'.
Let Rm := sumZ (map (fun g => glen g ^ 2) gs).
Let lo := nth n' (map gx_0 gs) 0.
Let hi := nth n' (map gx_1 gs) 0.

(* last coordinate of the voxel at offset a *)
Definition lastc (a : Z) : Z := nth n' (position axs a) 0.
Definition val (vox : list voxel) (a : Z) : Z := match get vox a with Some v => v_val v | None => int_max end.
(* the voxels are in their places and the queue is consistent *)
Definition good (st : fm_state) : Prop :=
  zlen (fst st) = nodes axs /\ (forall a v, get (fst st) a = Some v -> v_pos v = position axs a /\ 0 <= v_val v) /\ qok (snd st) /\ (forall a, In a (q_heap (snd st)) -> 0 <= a < nodes axs).
(* values only fall, and a voxel whose value fell is in the queue *)
Definition rel (st st' : fm_state) : Prop :=
  good st -> good st' /\ (forall a, val (fst st') a <= val (fst st) a) /\
    (forall a, val (fst st') a < val (fst st) a -> In a (q_heap (snd st'))) /\
    (forall a, In a (q_heap (snd st)) -> In a (q_heap (snd st'))).

Lemma rel_refl st : rel st st.
Proof. intros G. split; [exact G|]. split; [intros; lia|]. split; [intros; lia|auto]. Qed.
Lemma rel_trans a b c : rel a b -> rel b c -> rel a c.
Proof.
  intros H1 H2 G. destruct (H1 G) as (G1 & A1 & A2 & A3). destruct (H2 G1) as (G2 & B1 & B2 & B3). split; [auto|]. split; [|split].
  - intros x. specialize (A1 x). specialize (B1 x). lia.
  - intros x Hx. destruct (Z.lt_ge_cases (val (fst c) x) (val (fst b) x)) as [L|L]; [auto|]. apply B3, A2. lia.
  - auto.
Qed.

Lemma axs_lay : axs = lay 0 (map serial_limits gs).
Proof. reflexivity. Qed.
Lemma lims : lims_ok (map serial_limits gs).
Proof. apply Forall_map. eapply Forall_impl; [|exact Hg]. simpl. lia. Qed.
Lemma wf : wf_axes 0 axs.
Proof. apply wf_lay. exact lims. Qed.
Lemma axs_x0 : map a_x0 axs = map gx_0 gs.
Proof. rewrite axs_lay, map_x0_lay, map_map. reflexivity. Qed.
Lemma axs_x1 : map a_x1 axs = map gx_1 gs.
Proof. rewrite axs_lay, map_x1_lay, map_map. reflexivity. Qed.
Lemma axs_len : length axs = S n'.
Proof. rewrite axs_lay, length_lay, map_length. auto. Qed.
Lemma nodes_cells : cells axs = nodes axs.
Proof. rewrite axs_lay, cells_lay, nodes_lay. f_equal. apply map_ext. intros. lia. Qed.
Lemma lohi : lo < hi.
Proof.
  unfold lo, hi. assert (n' < length gs)%nat as H by lia. clear - Hg H. revert H. generalize n'. induction Hg as [|g gs' Hg' _ IH]; intros n H; simpl in H; [lia|].
  destruct n; simpl; [auto|]. apply IH; [now inversion Hg|lia].
Qed.
Definition inb (p : list Z) : Prop := in_box (map gx_0 gs) (map gx_1 gs) p.
Lemma pos_in a : 0 <= a < nodes axs -> inb (position axs a).
Proof. intros H. destruct (position_spec _ _ _ wf H) as [P _]. now rewrite axs_x0, axs_x1 in P. Qed.
Lemma inb_last p : inb p -> lo <= nth n' p 0 < hi.
Proof.
  unfold inb, lo, hi. assert (n' < length gs)%nat as H by lia. clear - H. revert p n' H. induction gs as [|g gs' IH]; intros [|c p] n H; simpl in *; try easy; try lia.
  intros [A B]. destruct n; simpl; [auto|]. apply IH; auto. lia.
Qed.
Lemma addr_pos p : inb p -> exists a, addr_vec false axs p 0 = Some a /\ 0 <= a < nodes axs /\ position axs a = p.
Proof.
  intros H. pose proof (in_box_length _ _ _ H) as [L _]. rewrite map_length in L.
  assert (in_box (map a_x0 axs) (map a_x1 axs) p) as B by (rewrite axs_x0, axs_x1; exact H).
  rewrite addr_vec_encode by (rewrite axs_len; lia). rewrite adjust_in by auto. exists (index axs p).
  rewrite (encode_index_serial axs p wf). split; [f_equal; lia|]. split; [eapply index_bounds; eauto; apply wf|]. eapply position_index; eauto. apply wf.
Qed.
Lemma addr_self a : 0 <= a < nodes axs -> addr_vec false axs (position axs a) 0 = Some a.
Proof.
  intros H. destruct (addr_pos _ (pos_in a H)) as (b & E & B & P). rewrite E. f_equal. destruct (position_into 0 axs a wf H) as [_ I]. auto.
Qed.

(* coordinates at most one cell outside the box *)
Definition near (p : list Z) : Prop := in_box (map (fun g => gx_0 g - 1) gs) (map (fun g => gx_1 g + 1) gs) p.
Lemma near_wrap p : near p -> inb (zip_with wrap gs p).
Proof.
  unfold near, inb. clear - Hg. revert p. induction Hg as [|g gs' Hg' _ IH]; intros [|c p]; simpl; try easy. intros [A B]. split; [now apply wrap_spec|]. apply IH; [now inversion Hg|auto].
Qed.
Lemma inb_near p : inb p -> near p.
Proof. unfold near, inb. clear. revert p. induction gs as [|g gs' IH]; intros [|c p]; simpl; try easy. intros [A B]. split; [lia|auto]. Qed.
Lemma moved p : length p = S n' ->
  map_opt (fun d => do c <- get p d; do a <- get axs d; Some (check_boundary false c (a_x0 a) (a_x1 a) (a_b0 a) (a_b1 a))) (zrange 0 (zlen axs)) = Some (zip_with wrap gs p).
Proof.
  intros L. pose proof (map_opt_zip (fun (a : axis) c => check_boundary false c (a_x0 a) (a_x1 a) (a_b0 a) (a_b1 a)) axs p [] [] eq_refl ltac:(rewrite axs_len; lia)) as E.
  change (zlen []) with 0 in E. cbn [app] in E. change (0 + zlen axs) with (zlen axs) in E.
  transitivity (Some (zip_with (fun (a : axis) c => check_boundary false c (a_x0 a) (a_x1 a) (a_b0 a) (a_b1 a)) axs p)).
  - rewrite <- E. generalize (zrange 0 (zlen axs)). intros k. induction k as [|d k IH]; [reflexivity|]. cbn [map_opt]. rewrite IH. now destruct (get p d), (get axs d).
  - f_equal. rewrite axs_lay. rewrite <- Hn in L. clear - L. revert p L. induction gs as [|g gs' IH]; intros [|c p] L; simpl in *; try discriminate; auto. rewrite IH by lia. reflexivity.
Qed.
Lemma inside_spec p : length p = S n' ->
  exists b, map_opt (fun d => do c <- get p d; do a <- get axs d; Some ((a_x0 a <=? c) && (c <? a_x1 a))) (zrange 0 (zlen axs)) = Some b /\ (forallb (fun b => b) b = true <-> inb p).
Proof.
  intros L. destruct (is_local_spec axs p ltac:(rewrite axs_len; lia)) as (b & E & B). unfold is_local in E. rewrite firstn_all2 in B by (rewrite axs_len; lia). rewrite axs_x0, axs_x1 in B. fold (inb p) in B.
  match type of E with (do bs <- ?m; _) = _ => destruct m as [bs|] eqn:Em; [|discriminate] end. cbn [bind] in E. inversion E as [Eb]. exists bs. split; [reflexivity|rewrite Eb; exact B].
Qed.
Lemma zip_len p : length p = S n' -> length (zip_with wrap gs p) = S n'.
Proof. intros L. rewrite zip_with_length; lia. Qed.

(* one pass of the innermost body *)
Lemma relax_spec position cd cid p st z : 0 <= cd -> inb position -> length p = S n' -> relax axs position cd cid (p, st) = Some z ->
  length (fst z) = S n' /\ rel st (snd z) /\
  ((p = position /\ fst z = p) \/ (p <> position /\ fst z = zip_with wrap gs p /\
    (near p -> good st -> exists a, 0 <= a < nodes axs /\ lastc a = nth n' (fst z) 0 /\ val (fst (snd z)) a <= cd + Rm))).
Proof.
  intros Hcd Hp L E. unfold relax in E. destruct (list_eq_dec Z.eq_dec p position) as [->|Ne].
  - inversion E; subst z. cbn [fst snd]. split; [auto|]. split; [apply rel_refl|auto].
  - rewrite moved in E by auto. cbn [bind] in E. set (p' := zip_with wrap gs p) in *. pose proof (zip_len p L) as L'. fold p' in L'.
    destruct (inside_spec p' L') as (b & Eb & B). rewrite Eb in E. cbn [bind] in E.
    destruct (forallb (fun b => b) b) eqn:Ef; cbn [negb] in E.
    + assert (inb p') as Ip by now apply B. destruct (radiussq (length axs) position p') as [r|] eqn:Er; [|discriminate]. cbn [bind] in E.
      assert (0 <= r < Rm) as Hr.
      { unfold radiussq in Er. pose proof (in_box_length _ _ _ Hp) as [Lp _]. rewrite map_length in Lp. pose proof (square_sum_dist position p' ltac:(lia)) as Eq.
        replace (length axs) with (length position) in Er by (rewrite axs_len; lia). rewrite Eq in Er. cbn [bind] in Er. destruct (guard _); [|discriminate]. cbn [bind] in Er.
        assert (dist2 position p' = r) as <- by congruence. split; [apply dist2_nonneg|]. apply dist2_bound; [exact Hp| |]. { rewrite firstn_all2 by lia. exact Ip. } intros ->. simpl in Hn. lia. }
      destruct (guard (cd + r <=? int_max)); [|discriminate]. cbn [bind] in E. destruct st as [vox q].
      destruct (addr_pos p' Ip) as (a & Ea & Ba & Pa). rewrite Ea in E. cbn [bind] in E. destruct (get vox a) as [v|] eqn:Ev; [|discriminate]. cbn [bind] in E.
      destruct (Z.ltb_spec (cd + r) (v_val v)) as [Lt|Ge].
      * destruct (put vox a (mkV (v_pos v) cid (cd + r))) as [vox'|] eqn:Eput; [|discriminate]. cbn [bind] in E.
        match type of E with (do q <- ?m; _) = _ => destruct m as [q'|] eqn:Eq; [|discriminate] end. cbn [bind] in E. inversion E; subst z. cbn [fst snd].
        assert (forall x, val vox' x = if x =? a then cd + r else val vox x) as V.
        { intros x. unfold val. destruct (Z.eqb_spec x a) as [->|N].
          - rewrite (get_put_eq _ _ _ _ Eput). reflexivity.
          - rewrite (get_put_ne _ _ _ _ _ Eput) by auto. reflexivity. }
        assert (val vox a = v_val v) as Va by (unfold val; now rewrite Ev).
        split; [auto|]. split.
        { intros (Z1 & Z2 & Z3 & Z4). cbn [fst snd] in *.
          assert (qok q' /\ forall x, In x (q_heap q') <-> x = a \/ In x (q_heap q)) as [O I].
          { destruct (q_back q a) as [i|] eqn:Eb'.
            - destruct (update_ok _ _ _ _ Z3 Eq) as [O P]. split; [auto|]. intros x. split.
              + intros Hx. right. eapply Permutation_in; [symmetry; exact P|auto].
              + intros [->|Hx]; eapply Permutation_in; try exact P; auto. apply Z3. congruence.
            - destruct (push_ok _ _ _ _ Z3 Eq) as [O P]. split; [auto|]. intros x. split.
              + intros Hx. eapply Permutation_in in Hx; [|symmetry; exact P]. destruct Hx; auto.
              + intros Hx. eapply Permutation_in; [exact P|]. destruct Hx; simpl; auto. }
          split; [|cbn [fst snd]; split; [|split]].
          - split; [cbn [fst]; now rewrite (put_len _ _ _ _ Eput)|]. cbn [fst snd]. split; [|split; [auto|]].
            + intros x w Hx. destruct (Z.eq_dec x a) as [->|N].
              * rewrite (get_put_eq _ _ _ _ Eput) in Hx. inversion Hx. simpl. split; [now apply Z2|lia].
              * rewrite (get_put_ne _ _ _ _ _ Eput) in Hx by auto. now apply Z2.
            + intros x Hx. apply I in Hx as [->|Hx]; auto.
          - intros x. rewrite V. destruct (Z.eqb_spec x a) as [->|]; lia.
          - intros x. rewrite V. destruct (Z.eqb_spec x a) as [->|]; [intros _; apply I; auto|lia].
          - intros x Hx. apply I. auto. }
        right. split; [auto|]. split; [auto|]. intros _ _. exists a. split; [auto|]. split; [unfold lastc; now rewrite Pa|]. rewrite V, Z.eqb_refl. lia.
      * inversion E; subst z. cbn [fst snd]. split; [auto|]. split; [apply rel_refl|]. right. split; [auto|]. split; [auto|]. intros _ _. exists a. split; [auto|]. split; [unfold lastc; now rewrite Pa|].
        unfold val. rewrite Ev. lia.
    + inversion E; subst z. cbn [fst snd]. split; [auto|]. split; [apply rel_refl|]. right. split; [auto|]. split; [auto|]. intros Hnr. apply near_wrap in Hnr. fold p' in Hnr. apply B in Hnr. discriminate.
Qed.

(* ---- the loops ---- *)
Lemma get_k {A} (p : list A) k d : (k < length p)%nat -> get p (Z.of_nat k) = Some (nth k p d).
Proof. intros H. rewrite SparseL.get_nth. now apply nth_error_nth'. Qed.
Lemma put_k {A} (p : list A) k v : (k < length p)%nat -> put p (Z.of_nat k) v = Some (set_nth k p v).
Proof. intros H. unfold put. destruct (Z.ltb_spec (Z.of_nat k) 0); [lia|]. destruct (Z.leb_spec (Z.of_nat (length p)) (Z.of_nat k)); [lia|]. simpl. now rewrite Nat2Z.id. Qed.
Lemma nth_set {A} (p : list A) k v d : (k < length p)%nat -> nth k (set_nth k p v) d = v.
Proof. revert k. induction p as [|a p IH]; intros k H; simpl in H; [lia|]. destruct k; simpl; [auto|]. apply IH. lia. Qed.
Lemma near_len p : near p -> length p = S n'.
Proof. intros H. apply in_box_length in H as [H _]. rewrite map_length in H. congruence. Qed.
Lemma inb_len p : inb p -> length p = S n'.
Proof. intros H. apply near_len. now apply inb_near. Qed.
Lemma near_set p k v : (k < S n')%nat -> near p -> nth k (map gx_0 gs) 0 - 1 <= v < nth k (map gx_1 gs) 0 + 1 -> near (set_nth k p v).
Proof.
  rewrite <- Hn. unfold near. clear. revert p k. induction gs as [|g gs' IH]; intros [|c p] k; simpl; try easy. intros H [A B] Hv. destruct k; simpl in *; [split; [lia|auto]|]. split; [auto|]. apply IH; auto. lia.
Qed.
Lemma inb_nth p k : (k < S n')%nat -> inb p -> nth k (map gx_0 gs) 0 <= nth k p 0 < nth k (map gx_1 gs) 0.
Proof.
  rewrite <- Hn. unfold inb. clear. revert p k. induction gs as [|g gs' IH]; intros [|c p] k; simpl; try easy; try lia. intros H [A B]. destruct k; simpl in *; [auto|]. apply IH; auto. lia.
Qed.
Lemma nth_wrap p : length p = S n' -> nth n' (zip_with wrap gs p) 0 = check_boundary false (nth n' p 0) lo hi periodic periodic.
Proof.
  intros L. unfold lo, hi. assert (n' < length gs)%nat as H by lia. rewrite <- Hn in L. clear - L H. revert p L H. generalize n'. induction gs as [|g gs' IH]; intros n [|c p] L H; simpl in *; try lia.
  destruct n; simpl; [reflexivity|]. apply IH; lia.
Qed.

Definition state := (list Z * fm_state)%type.
Definition keeps (body : state -> outcome state) : Prop :=
  forall z z', length (fst z) = S n' -> body z = Done z' -> length (fst z') = S n' /\ rel (snd z) (snd z').
Lemma count_S fuel k bound body (z z' : state) : (k < S n')%nat -> length (fst z) = S n' -> count_loop fuel (Z.of_nat k) bound body z = Done z' ->
  (bound <= nth k (fst z) 0 /\ z' = z) \/
  exists f z1, fuel = S f /\ nth k (fst z) 0 < bound /\ body z = Done z1 /\
    (length (fst z1) = S n' -> count_loop f (Z.of_nat k) bound body (set_nth k (fst z1) (nth k (fst z1) 0 + 1), snd z1) = Done z').
Proof.
  intros Hk L E. destruct fuel as [|f]; [discriminate|]. cbn [count_loop] in E. rewrite (get_k _ _ 0) in E by lia. cbn [of_opt obind] in E.
  destruct (Z.ltb_spec (nth k (fst z) 0) bound) as [Lt|Ge]; [|left; split; [lia|congruence]].
  right. destruct (body z) as [z1| |] eqn:Eb; try discriminate. cbn [obind] in E. exists f, z1. split; [auto|]. split; [auto|]. split; [auto|]. intros L1.
  rewrite (get_k _ _ 0) in E by lia. cbn [bind] in E. rewrite put_k in E by lia. exact E.
Qed.
Lemma count_keeps k bound body : (k < S n')%nat -> keeps body -> forall fuel, keeps (count_loop fuel (Z.of_nat k) bound body).
Proof.
  intros Hk Hb. induction fuel as [|f IH]; intros z z' L E; [discriminate|]. apply count_S in E as [[_ ->]|(f' & z1 & Ef & _ & E1 & E2)]; auto; [split; [auto|apply rel_refl]|].
  inversion Ef; subst f'. destruct (Hb _ _ L E1) as [L1 R1]. specialize (E2 L1). assert (length (set_nth k (fst z1) (nth k (fst z1) 0 + 1)) = S n') as Ls by now rewrite length_set_nth. destruct (IH (_, snd z1) z' Ls E2) as [L2 R2]. split; [auto|]. eapply rel_trans; eauto.
Qed.
Lemma loops_keeps fuel position body : keeps body -> forall n k, (k + n = S n')%nat -> keeps (loops fuel position (Z.of_nat k) n body).
Proof.
  intros Hb. induction n as [|n IH]; intros k Hk z z' L E; [now apply Hb|]. cbn [loops] in E. destruct (get position (Z.of_nat k)) as [c|]; [|discriminate]. cbn [of_opt obind] in E.
  rewrite put_k in E by lia. cbn [of_opt obind] in E. replace (Z.of_nat k + 1) with (Z.of_nat (S k)) in E by lia. specialize (IH (S k) ltac:(lia)).
  apply (count_keeps k (c + 2) _ ltac:(lia) IH fuel) in E; [exact E|]. cbn [fst]. now rewrite length_set_nth.
Qed.

Section Core.
Context (position : list Z) (cd cid : Z) (Hcd : 0 <= cd) (Hp : inb position).
Let body : state -> outcome state := fun z => of_opt (relax axs position cd cid z).
Let c := nth n' position 0.
Definition wit (st : fm_state) : Prop := exists a, 0 <= a < nodes axs /\ c < lastc a /\ val (fst st) a <= cd + Rm.

Lemma wit_rel st st' : good st -> rel st st' -> wit st -> wit st'.
Proof. intros G R (a & A1 & A2 & A3). destruct (R G) as (_ & V & _). exists a. specialize (V a). repeat split; auto; lia. Qed.
Lemma body_spec p st z : length p = S n' -> body (p, st) = Done z ->
  length (fst z) = S n' /\ rel st (snd z) /\
  ((p = position /\ fst z = p) \/ (p <> position /\ fst z = zip_with wrap gs p /\
    (near p -> good st -> exists a, 0 <= a < nodes axs /\ lastc a = nth n' (fst z) 0 /\ val (fst (snd z)) a <= cd + Rm))).
Proof. intros L E. unfold body in E. destruct (relax axs position cd cid (p, st)) as [z0|] eqn:Er; [|discriminate]. cbn [of_opt] in E. inversion E; subst z0. now apply (relax_spec position cd cid). Qed.
Lemma body_keeps : keeps body.
Proof. intros [p st] z L E. apply body_spec in E as (A & B & _); auto. Qed.

Lemma stuck : c = hi - 1 -> forall fuel p st, length p = S n' -> lo - 1 <= nth n' p 0 <= hi -> forall z, count_loop fuel l (c + 2) body (p, st) <> Done z.
Proof.
  intros Hc. pose proof lohi as LH. induction fuel as [|f IH]; intros p st L Hr z E; [discriminate|].
  apply count_S in E as [[B _]|(f' & z1 & Ef & _ & E1 & E2)]; auto; [cbn [fst] in B; lia|].
  inversion Ef; subst f'. apply body_spec in E1 as (L1 & _ & C); auto. specialize (E2 L1).
  refine (IH _ _ _ _ z E2); [now rewrite length_set_nth|]. rewrite nth_set by lia.
  destruct C as [[-> ->]|(_ & -> & _)]; [fold c; lia|]. rewrite nth_wrap by auto. unfold check_boundary, periodic, Neumann, Dirichlet, mirror. simpl.
  destruct (Z.ltb_spec (nth n' p 0) lo); [lia|]. destruct (Z.leb_spec hi (nth n' p 0)); lia.
Qed.

Lemma innermost fuel p st z : near p -> nth n' p 0 = c - 1 -> good st -> count_loop fuel l (c + 2) body (p, st) = Done z -> c < hi - 1 /\ wit (snd z).
Proof.
  intros Np Ec G E. pose proof lohi as LH. pose proof (inb_last _ Hp) as Hc. fold c in Hc. pose proof (near_len _ Np) as L.
  destruct (Z.eq_dec c (hi - 1)) as [Ehi|Nhi]; [exfalso; eapply stuck; eauto; lia|]. split; [lia|].
  assert (forall x, lo <= x < hi -> check_boundary false x lo hi periodic periodic = x) as CB by (intros; now apply check_boundary_in).
  pose proof (count_keeps n' (c + 2) body ltac:(lia) body_keeps) as KP. fold l in KP.
  apply count_S in E as [[B _]|(f1 & z1 & _ & _ & E1 & E2)]; [cbn [fst] in B; lia| |lia|auto].
  apply body_spec in E1 as (L1 & R1 & C1); auto. specialize (E2 L1). destruct (R1 G) as (G1 & _).
  destruct C1 as [[-> _]|(_ & F1 & W1)]; [fold c in Ec; lia|]. specialize (W1 Np G). pose proof (near_wrap p Np) as I1. rewrite <- F1 in I1.
  pose proof (nth_wrap p L) as N1. rewrite <- F1, Ec in N1.
  destruct (Z.eq_dec c lo) as [Elo|Nlo].
  - assert (nth n' (fst z1) 0 = hi - 1) as N1'. { rewrite N1. unfold check_boundary, periodic, Neumann, Dirichlet, mirror. simpl. destruct (Z.ltb_spec (c - 1) lo); lia. }
    assert (wit (snd z1)) as W. { destruct W1 as (a & A1 & A2 & A3). exists a. repeat split; auto; lia. }
    eapply wit_rel; [exact G1| |exact W]. refine (proj2 (KP _ _ _ _ E2)). cbn [fst]. now rewrite length_set_nth.
  - rewrite CB in N1 by lia. set (p2 := set_nth n' (fst z1) (nth n' (fst z1) 0 + 1)) in *.
    assert (near p2) as Np2. { apply near_set; [lia|now apply inb_near|]. fold lo hi. lia. }
    assert (nth n' p2 0 = c) as Ec2. { unfold p2. rewrite nth_set by lia. lia. }
    pose proof (near_len _ Np2) as L2.
    apply count_S in E2 as [[B _]|(f2 & z2 & _ & _ & E3 & E4)]; [cbn [fst] in B; lia| |lia|auto].
    apply body_spec in E3 as (L3 & R3 & C3); auto. specialize (E4 L3). destruct (R3 G1) as (G3 & _).
    assert (near (fst z2) /\ nth n' (fst z2) 0 = c) as [Np3 Ec3].
    { destruct C3 as [[_ ->]|(_ & F3 & _)]; [auto|]. rewrite F3. split; [apply inb_near, near_wrap; auto|]. rewrite nth_wrap by auto. rewrite Ec2. apply CB. lia. }
    set (p4 := set_nth n' (fst z2) (nth n' (fst z2) 0 + 1)) in *.
    assert (near p4) as Np4. { apply near_set; [lia|auto|]. fold lo hi. lia. }
    assert (nth n' p4 0 = c + 1) as Ec4. { unfold p4. rewrite nth_set by lia. lia. }
    pose proof (near_len _ Np4) as L4.
    apply count_S in E4 as [[B _]|(f3 & z3 & _ & _ & E5 & E6)]; [cbn [fst] in B; lia| |lia|auto].
    apply body_spec in E5 as (L5 & R5 & C5); auto. specialize (E6 L5). destruct (R5 G3) as (G5 & _).
    destruct C5 as [[X _]|(_ & F5 & W5)]; [rewrite X in Ec4; fold c in Ec4; lia|]. specialize (W5 Np4 G3). pose proof (nth_wrap p4 L4) as N5. rewrite <- F5, Ec4, CB in N5 by lia.
    assert (wit (snd z3)) as W. { destruct W5 as (a & A1 & A2 & A3). exists a. repeat split; auto; lia. }
    eapply wit_rel; [exact G5| |exact W]. refine (proj2 (KP _ _ _ _ E6)). cbn [fst]. now rewrite length_set_nth.
Qed.

Lemma loops_S fuel k n z : loops fuel position (Z.of_nat k) (S n) body z =
  obind (of_opt (get position (Z.of_nat k))) (fun c => obind (of_opt (put (fst z) (Z.of_nat k) (c - 1))) (fun p =>
    count_loop fuel (Z.of_nat k) (c + 2) (loops fuel position (Z.of_nat (S k)) n body) (p, snd z))).
Proof. cbn [loops]. replace (Z.of_nat k + 1) with (Z.of_nat (S k)) by lia. reflexivity. Qed.
Lemma loops_wit fuel : forall n k z z', (k + S n = S n')%nat -> near (fst z) -> good (snd z) -> loops fuel position (Z.of_nat k) (S n) body z = Done z' -> c < hi - 1 /\ wit (snd z').
Proof.
  induction n as [|n IH]; intros k z z' Hk Np G E.
  - cbn [loops] in E. assert (k = n') as -> by lia. rewrite (get_k _ _ 0) in E by (rewrite (inb_len _ Hp); lia). cbn [of_opt obind] in E. pose proof (near_len _ Np) as L.
    rewrite put_k in E by lia. cbn [of_opt obind] in E. fold c l in E. pose proof (inb_last _ Hp) as Hc. fold c in Hc.
    eapply innermost; [| |exact G|exact E]; [|now rewrite nth_set by lia]. apply near_set; [lia|auto|]. fold lo hi. lia.
  - pose proof (near_len _ Np) as L. rewrite loops_S in E. rewrite (get_k _ _ 0) in E by (rewrite (inb_len _ Hp); lia). cbn [of_opt obind] in E. rewrite put_k in E by lia. cbn [of_opt obind] in E.
    pose proof (inb_nth _ k ltac:(lia) Hp) as Hc.
    assert (near (set_nth k (fst z) (nth k position 0 - 1))) as Np1 by (apply near_set; [lia|auto|lia]).
    pose proof (loops_keeps fuel position body body_keeps (S n) (S k) ltac:(lia)) as KB.
    apply count_S in E as [[B _]|(f1 & z1 & _ & _ & E1 & E2)]; [cbn [fst] in B; rewrite nth_set in B by lia; lia| |lia|cbn [fst]; rewrite length_set_nth; auto].
    assert (length (set_nth k (fst z) (nth k position 0 - 1)) = S n') as Ls by now rewrite length_set_nth. destruct (KB (_, snd z) z1 Ls E1) as [L1 R1]. specialize (E2 L1).
    destruct (R1 G) as (G1 & _). destruct (IH (S k) (_, snd z) z1 ltac:(lia) Np1 G E1) as [I1 I2]. split; [auto|].
    eapply wit_rel; [exact G1| |exact I2]. eapply (count_keeps k _ _ ltac:(lia) KB f1 (_, _)); [|exact E2]. cbn [fst]. now rewrite length_set_nth.
Qed.
End Core.

(* ---- propagate_distance ---- *)
Definition settled (st : fm_state) (a : Z) : Prop :=
  val (fst st) a + Rm <= int_max -> In a (q_heap (snd st)) \/ exists b, 0 <= b < nodes axs /\ lastc a < lastc b /\ val (fst st) b <= val (fst st) a + Rm.
Lemma propagate_spec fuel core st st' : 0 <= core < nodes axs -> good st -> (forall a, 0 <= a < nodes axs -> a <> core -> settled st a) ->
  propagate fuel axs core st = Done st' -> lastc core < hi - 1 /\ rel st st' /\ (forall a, 0 <= a < nodes axs -> settled st' a).
Proof.
  intros Hc G S E. unfold propagate in E. destruct (get (fst st) core) as [v|] eqn:Ev; [|discriminate]. cbn [of_opt obind] in E.
  destruct G as (G1 & G2 & G3 & G4). destruct (G2 _ _ Ev) as [Gp Gv]. rewrite Gp in E. rewrite addr_self in E by auto. cbn [bind] in E. rewrite Ev in E. cbn [of_opt obind] in E.
  match type of E with obind ?m _ = _ => destruct m as [z| |] eqn:El; try discriminate end. cbn [obind] in E. inversion E; subst st'.
  pose proof (pos_in _ Hc) as Ip. rewrite axs_len in El. assert (good st) as G by (split; [auto|split; [auto|split; auto]]).
  destruct (loops_wit _ (v_val v) (v_id v) Gv Ip fuel n' 0 (position axs core, st) z ltac:(lia) (inb_near _ Ip) G El) as [Lt W].
  split; [exact Lt|]. pose proof (loops_keeps fuel _ _ (body_keeps _ (v_val v) (v_id v) Gv Ip) (Datatypes.S n') 0%nat ltac:(lia) (position axs core, st) z (inb_len _ Ip) El) as [_ R]. cbn [snd] in R.
  split; [exact R|]. destruct (R G) as (G' & V & Lw & Hh). intros a Ha Hv.
  destruct (Z.eq_dec (val (fst (snd z)) a) (val (fst st) a)) as [Eq|Nq]; [|left; apply Lw; specialize (V a); lia].
  destruct (Z.eq_dec a core) as [->|Na].
  - right. destruct W as (b & B1 & B2 & B3). exists b. split; [auto|]. split; [exact B2|]. rewrite Eq. unfold val at 2. rewrite Ev. exact B3.
  - rewrite Eq in Hv. destruct (S a Ha Na Hv) as [I|(b & B1 & B2 & B3)]; [left; auto|]. right. exists b. split; [auto|]. split; [auto|]. specialize (V b). lia.
Qed.

Lemma rm_pos : 0 < Rm.
Proof.
  unfold Rm. destruct gs as [|g gs']; [simpl in Hn; lia|]. inversion Hg as [|? ? H1 H2]; subst. cbn [map]. 
  assert (0 <= sumZ (map (fun g => glen g ^ 2) gs')) as X. { clear. induction gs' as [|a t IH]; [reflexivity|]. cbn [map]. change (0 <= glen a ^ 2 + sumZ (map (fun g => glen g ^ 2) t)). nia. }
  change (0 < glen g ^ 2 + sumZ (map (fun g => glen g ^ 2) gs')). unfold glen in *. nia.
Qed.
Lemma march_spec fuel : forall st st', good st -> (forall a, 0 <= a < nodes axs -> settled st a) -> march fuel axs st = Done st' ->
  (forall a, val (fst st') a <= val (fst st) a) /\ (forall a, 0 <= a < nodes axs -> settled st' a) /\ q_heap (snd st') = [].
Proof.
  induction fuel as [|f IH]; intros st st' G S E; [discriminate|]. cbn [march] in E. destruct (q_heap (snd st)) as [|a t] eqn:Eh.
  - inversion E; subst. split; [intros; lia|]. auto.
  - destruct (pq_pop (fst st) (snd st)) as [q|] eqn:Ep; [|discriminate]. cbn [of_opt obind] in E.
    match type of E with obind ?m _ = _ => destruct m as [st1| |] eqn:E1; try discriminate end. cbn [obind] in E.
    destruct G as (G1 & G2 & G3 & G4). destruct (pop_ok _ _ _ _ _ G3 Eh Ep) as [O P].
    assert (good (fst st, q)) as Gq. { split; [auto|]. split; [auto|]. split; [auto|]. intros b Hb. apply G4. rewrite Eh. right. eapply Permutation_in; [symmetry; exact P|exact Hb]. }
    destruct (propagate_spec (Datatypes.S f) a (fst st, q) st1) as (_ & R1 & S1); auto.
    { apply G4. rewrite Eh. simpl. auto. }
    { intros b Hb Nb Hv. destruct (S b Hb Hv) as [I|I]; [|right; exact I]. left. cbn [snd]. rewrite Eh in I. destruct I as [->|I]; [congruence|]. eapply Permutation_in; [exact P|auto]. }
    destruct (R1 Gq) as (Ga & V1 & _). destruct (IH st1 st' Ga S1 E) as (V2 & S2 & S3). split; [|auto].
    intros x. specialize (V1 x). specialize (V2 x). cbn [fst] in V1. lia.
Qed.

Lemma seed_spec fuel i s st st' : good st -> (forall a, 0 <= a < nodes axs -> settled st a) -> enqueue_seed fuel axs i s st = Done st' ->
  good st' /\ (forall a, val (fst st') a <= Z.max 0 (val (fst st) a)) /\ (exists a, 0 <= a < nodes axs /\ val (fst st') a <= 0) /\ (forall a, 0 <= a < nodes axs -> settled st' a).
Proof.
  intros G S E. unfold enqueue_seed in E.
  match type of E with obind (of_opt ?m) _ = _ => destruct m as [[core st1]|] eqn:Em; [|discriminate] end. cbn [of_opt obind fst snd] in E.
  destruct (addr_vec false axs s 0) as [a0|] eqn:Ea; [|discriminate]. cbn [bind] in Em.
  destruct (map_opt _ (zrange 0 (zlen axs))) as [ins|] eqn:Ei; [|discriminate]. cbn [bind] in Em. destruct (forallb (fun b => b) ins) eqn:Ef; [|discriminate]. cbn [guard bind] in Em.
  destruct (get (fst st) a0) as [v|] eqn:Ev; [|discriminate]. cbn [bind] in Em. destruct (put (fst st) a0 (mkV (v_pos v) i 0)) as [vox|] eqn:Ep; [|discriminate]. cbn [bind] in Em.
  inversion Em; subst a0 st1. destruct G as (G1 & G2 & G3 & G4).
  assert (0 <= core < nodes axs) as Hc. { rewrite <- G1. eapply get_some_iff; eauto. }
  assert (forall x, val vox x = if x =? core then 0 else val (fst st) x) as V.
  { intros x. unfold val. destruct (Z.eqb_spec x core) as [->|N]; [rewrite (get_put_eq _ _ _ _ Ep); reflexivity|]. now rewrite (get_put_ne _ _ _ _ _ Ep) by auto. }
  assert (good (vox, snd st)) as Gv.
  { split; [cbn [fst]; now rewrite (put_len _ _ _ _ Ep)|]. split; [|split; [exact G3|exact G4]]. intros x w Hx. cbn [fst] in Hx. destruct (Z.eq_dec x core) as [->|N].
    - rewrite (get_put_eq _ _ _ _ Ep) in Hx. inversion Hx. simpl. split; [now apply (G2 core)|lia].
    - rewrite (get_put_ne _ _ _ _ _ Ep) in Hx by auto. now apply G2. }
  destruct (propagate_spec fuel core (vox, snd st) st' Hc Gv) as (_ & R & S'); [|exact E|].
  { intros a Ha Na. unfold settled. cbn [fst snd]. rewrite V. destruct (Z.eqb_spec a core); [congruence|]. intros Hv. destruct (S a Ha Hv) as [I|(b & B1 & B2 & B3)]; [auto|].
    right. exists b. split; [auto|]. split; [auto|]. rewrite V. destruct (Z.eqb_spec b core) as [->|]; [|auto].
    assert (0 <= val (fst st) a); [|pose proof rm_pos; lia]. unfold val. destruct (get (fst st) a) as [w|] eqn:Ew; [|vm_compute; discriminate]. apply (G2 _ _ Ew). }
  destruct (R Gv) as (G' & V' & _). split; [auto|]. split; [|split; [|auto]].
  - intros a. specialize (V' a). cbn [fst] in V'. rewrite V in V'. destruct (a =? core); lia.
  - exists core. split; [auto|]. specialize (V' core). cbn [fst] in V'. rewrite V, Z.eqb_refl in V'. lia.
Qed.

Lemma seeds_spec fuel : forall seeds i st st', good st -> (forall a, 0 <= a < nodes axs -> settled st a) -> enqueue_seeds fuel axs i seeds st = Done st' ->
  good st' /\ (forall a, 0 <= a < nodes axs -> settled st' a) /\ (seeds <> [] \/ (exists a, 0 <= a < nodes axs /\ val (fst st) a <= 0) -> exists a, 0 <= a < nodes axs /\ val (fst st') a <= 0).
Proof.
  induction seeds as [|s t IH]; intros i st st' G S E.
  - inversion E; subst. split; [auto|]. split; [auto|]. intros [X|X]; [congruence|auto].
  - cbn [enqueue_seeds] in E. destruct (enqueue_seed fuel axs i s st) as [st1| |] eqn:E1; try discriminate. cbn [obind] in E.
    destruct (seed_spec _ _ _ _ _ G S E1) as (G1 & V1 & W1 & S1). destruct (IH _ _ _ G1 S1 E) as (G2 & S2 & W2). split; [auto|]. split; [auto|]. auto.
Qed.

Lemma chain st : (forall a, 0 <= a < nodes axs -> settled st a) -> q_heap (snd st) = [] -> (exists a, 0 <= a < nodes axs /\ val (fst st) a <= 0) ->
  forall k : nat, (Z.of_nat k) * Rm <= int_max -> exists a, 0 <= a < nodes axs /\ val (fst st) a <= Z.of_nat k * Rm /\ lo + Z.of_nat k <= lastc a.
Proof.
  intros S Q (a0 & A0 & A1). pose proof rm_pos as RP. induction k as [|k IH]; intros Hk.
  - exists a0. split; [auto|]. split; [lia|]. pose proof (inb_last _ (pos_in _ A0)). unfold lastc. lia.
  - rewrite Nat2Z.inj_succ, <- Z.add_1_r in *. destruct IH as (a & B0 & B1 & B2); [nia|]. destruct (S a B0) as [I|(b & C0 & C1 & C2)]; [nia|rewrite Q in I; destruct I|].
    exists b. split; [auto|]. split; nia.
Qed.

Theorem never_done {T} (N : num T) one fuel seeds data : seeds <> [] -> (hi - lo) * Rm <= int_max -> forall r, approximate_voronoi N one fuel gs seeds data <> Done r.
Proof.
  intros Hs Hb r E. unfold approximate_voronoi in E. destruct (_ || _); [|discriminate].
  match type of E with obind ?m _ = _ => destruct m as [st1| |] eqn:E1; try discriminate end. cbn [obind] in E. fold axs in E, E1.
  match type of E with obind ?m _ = _ => destruct m as [st2| |] eqn:E2; try discriminate end. clear E.
  pose proof rm_pos as RP. pose proof (nodes_nonneg _ _ wf) as NN.
  assert (forall a, 0 <= a < nodes axs -> get (blank_voxels axs) a = Some (mkV (position axs a) 0 int_max)) as GB.
  { intros a Ha. unfold blank_voxels. apply get_nth_error. split; [lia|]. rewrite nodes_cells. rewrite nth_error_map, nth_error_zrange by lia. cbn [option_map]. replace (0 + Z.of_nat (Z.to_nat a)) with a by lia. reflexivity. }
  assert (zlen (blank_voxels axs) = nodes axs) as ZB. { unfold blank_voxels. rewrite BaseL.zlen_map, nodes_cells, zlen_zrange by lia. lia. }
  edestruct seeds_spec with (3 := E1) as (G1 & S1 & W1).
  { split; [exact ZB|]. split; [|split; [split; [constructor|]|]]; cbn [fst snd q_heap q_back].
    - intros a v Hv. assert (0 <= a < nodes axs) as Ha by (rewrite <- ZB; eapply get_some_iff; eauto). rewrite GB in Hv by auto. inversion Hv. simpl. split; [auto|]. vm_compute. discriminate.
    - simpl. tauto.
    - simpl. tauto. }
  { intros a Ha Hv. unfold val in Hv. cbn [fst] in Hv. rewrite GB in Hv by auto. simpl in Hv. lia. }
  destruct (march_spec _ _ _ G1 S1 E2) as (V2 & S2 & Q2). destruct W1 as (a & A1 & A2); [auto|].
  pose proof lohi. destruct (chain st2 S2 Q2) with (k := Z.to_nat (hi - lo)) as (b & B1 & B2 & B3).
  { exists a. split; [auto|]. specialize (V2 a). lia. }
  { rewrite Z2Nat.id; lia. }
  pose proof (inb_last _ (pos_in _ B1)). unfold lastc in B3. lia.
Qed.
End March.
