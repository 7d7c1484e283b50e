From Coq Require Import Permutation.
From Verif Require Import Model.Base Model.Boundary Model.Layout Model.Access Model.Setup Model.Num Model.Sparse Model.Codec Model.MPI Model.Ghostswap Model.Simulate Model.Tessellate Model.FastMarch Model.Generators
  Spec.Box Spec.Access Spec.Tessellate Spec.Generators Proof.BaseL Proof.LayoutL Proof.AccessL Proof.SetupL Proof.SparseL Proof.TessellateL Proof.TessellateF Proof.FastMarchL Proof.HeapL Proof.GeneratorsL Proof.GeneratorsM Proof.GlobalL.

(* the neighbours of a seed, across the sides too, are not apart from it *)
Lemma close_axis x0 x1 c d w : x0 < x1 -> c - 1 <= d <= c + 1 -> (w = d \/ w = d + (x1 - x0) \/ w = d - (x1 - x0)) -> Z.min ((w - c) mod (x1 - x0)) ((c - w) mod (x1 - x0)) <= 1.
Proof.
  intros H1 H2 H3. set (L := x1 - x0) in *. assert (0 < L) as HL by (unfold L; lia).
  assert ((w - c) mod L = (d - c) mod L /\ (c - w) mod L = (c - d) mod L) as [-> ->].
  { destruct H3 as [->|[->| ->]]; [auto| |].
    - replace (d + L - c) with ((d - c) + 1 * L) by ring. replace (c - (d + L)) with ((c - d) + (-1) * L) by ring. now rewrite !Z_mod_plus_full.
    - replace (d - L - c) with ((d - c) + (-1) * L) by ring. replace (c - (d - L)) with ((c - d) + 1 * L) by ring. now rewrite !Z_mod_plus_full. }
  destruct (Z_le_gt_dec 0 (d - c)).
  - pose proof (Z.mod_le (d - c) L ltac:(lia) HL). lia.
  - pose proof (Z.mod_le (c - d) L ltac:(lia) HL). lia.
Qed.
Lemma wrap_cases g d : wrap g d = d \/ wrap g d = d + (gx_1 g - gx_0 g) \/ wrap g d = d - (gx_1 g - gx_0 g).
Proof. unfold wrap, check_boundary, periodic, Neumann, Dirichlet, mirror. simpl. destruct (d <? gx_0 g); [lia|]. destruct (gx_1 g <=? d); lia. Qed.
Lemma neighbours_close : forall gs t p s, Forall (fun g => gx_0 g < gx_1 g) gs -> Forall2 (fun c d => c - 1 <= d <= c + 1) (firstn (length gs) t) p -> firstn (length gs) s = zip_with wrap gs p -> ~ apart (map glen gs) s t.
Proof.
  induction gs as [|g gs IH]; intros t p s Hg F E A; [exact A|]. destruct s as [|a s], t as [|b t]; simpl in A; try tauto. inversion Hg as [|? ? H1 H2]; subst.
  cbn [firstn length] in F, E. inversion F as [|? d ? p' Hd Fp]; subst. cbn [zip_with] in E. injection E as Ea Es. destruct A as [A|A]; [|eapply IH; eauto].
  rewrite Ea in A. unfold glen in A. pose proof (close_axis (gx_0 g) (gx_1 g) b d (wrap g d) H1 Hd (wrap_cases g d)). lia.
Qed.

Section Sow.
Context (gs : list gaxis) (Hg2 : Forall (fun g => gx_0 g + 2 <= gx_1 g) gs) (n' : nat) (Hn : length gs = S n').
Notation axs := (distance_axes gs).
Notation good := (good gs).
Notation inb := (inb gs).
Context (S0 : list seed) (HS : Forall (fun s => (length gs <= length s)%nat) S0) (HD : Forall (fun s => inb (firstn (length gs) s)) S0).
Context (HA : forall i j s t, 0 <= i < j -> get S0 i = Some s -> get S0 j = Some t -> apart (map glen gs) t s).
Let Hg := Hg gs Hg2 n' Hn.

Definition sow (i : Z) (st : fm_state) : Prop :=
  good st /\ hord (fst st) (q_heap (snd st)) /\ ex 0 (snd st) /\
  (forall a, 0 <= a < nodes axs -> ~ In a (q_heap (snd st)) -> val (fst st) a < int_max -> val (fst st) a <= 0) /\
  (forall x, In x (q_heap (snd st)) -> exists j s p, 0 <= j < i /\ get S0 j = Some s /\ In p (around (firstn (length gs) s)) /\ position axs x = zip_with wrap gs p) /\
  (0 < i -> exists s0, 0 <= s0 < nodes axs /\ ~ In s0 (q_heap (snd st)) /\ val (fst st) s0 <= 0).

Lemma sow_propagate core v (st : fm_state) : R2 gs <= int_max -> 0 <= core < nodes axs -> get (fst st) core = Some v -> v_val v = 0 -> good st -> hord (fst st) (q_heap (snd st)) -> ex 0 (snd st) ->
  exists st', gen_propagate axs core st = Some st' /\ good st' /\ hord (fst st') (q_heap (snd st')) /\ ex 0 (snd st') /\
    (forall x, ~ In x (q_heap (snd st')) -> ~ In x (q_heap (snd st)) /\ val (fst st') x = val (fst st) x) /\
    (forall x, In x (q_heap (snd st')) -> In x (q_heap (snd st)) \/ exists p, In p (around (position axs core)) /\ position axs x = zip_with wrap gs p) /\
    (forall x, ~ In x (q_heap (snd st)) -> val (fst st) x <= 0 -> ~ In x (q_heap (snd st'))).
Proof.
  intros Hb Hc Ev Evv G H X. unfold gen_propagate. rewrite Ev. cbn [bind]. pose proof G as (_ & G2 & _). rewrite (proj1 (G2 _ _ Ev)), (addr_self gs Hg n' Hn core Hc). cbn [bind]. rewrite Ev. cbn [bind]. rewrite Evv.
  assert (forall p, In p (around (position axs core)) -> In p (around (position axs core))) as Hl by auto. revert Hl. generalize (around (position axs core)) at 1 3. intros l. revert st Ev G H X G2.
  induction l as [|p l IH]; intros st Ev G H X _ Hl.
  - exists st. split; [reflexivity|]. split; [auto|]. split; [auto|]. split; [auto|]. split; [auto|]. split; [auto|]. auto.
  - cbn [fold_opt]. pose proof (pos_in gs Hg n' Hn core Hc) as Ip. pose proof (around_near gs _ p Ip (Hl p (or_introl eq_refl))) as Hnr.
    destruct (relax_runs gs Hg2 n' Hn 0 (position axs core) 0 (v_id v) p st ltac:(lia) Ip Hnr G H X ltac:(lia)) as (z & Ez & Hz & Xz & Iz & Lz).
    { intros b Ib _ _. apply in_get in Ib as [i Gi]. exists i. split; [apply X; [apply (get_range _ _ _ Gi)|auto]|auto]. }
    rewrite Ez. cbn [bind]. destruct (relax_full gs Hg n' Hn (position axs core) 0 _ _ _ _ ltac:(lia) Ip Hnr G Ez) as (R & _ & CC & DD). destruct (R G) as (Gz & Vz & Lw & Hh).
    assert (get (fst (snd z)) core = Some v) as Evz.
    { destruct (list_eq_dec Z.eq_dec p (position axs core)) as [->|Np]; [rewrite DD; auto|].
      destruct (CC Np) as (b & Hb' & Pb & [[-> _]|(Lt & Gb & Go)]); [auto|]. destruct (Z.eq_dec core b) as [<-|Nb]; [|now rewrite Go]. rewrite dist2_self in Lt. unfold val in Lt. rewrite Ev in Lt. lia. }
    destruct (IH (snd z) Evz Gz Hz Xz ltac:(apply Gz) (fun p' Hp' => Hl p' (or_intror Hp'))) as (st' & E' & G' & H' & X' & A1 & A2 & A3).
    exists st'. split; [auto|]. split; [auto|]. split; [auto|]. split; [auto|]. split; [|split].
    + intros x Nx. destruct (A1 x Nx) as [Nz Vx]. split; [intros I; apply Nz, Hh, I|]. rewrite Vx. specialize (Vz x). destruct (Z.eq_dec (val (fst (snd z)) x) (val (fst st) x)); [auto|]. exfalso. apply Nz, Lw. lia.
    + intros x Ix. destruct (A2 x Ix) as [Ix'|(p' & Hp' & Px)]; [|right; exists p'; auto]. destruct (Iz x Ix') as [I|(_ & Px & _)]; [auto|]. right. exists p. split; [|auto]. apply Hl. simpl. auto.
    + intros x Nx Vx. apply A3.
      * intros I. destruct (Iz x I) as [I'|(_ & _ & I')]; [auto|]. specialize (Lz x I'). pose proof (dist2_nonneg (position axs core) (position axs x)). lia.
      * specialize (Vz x). lia.
Qed.

Lemma sow_seed i s st : R2 gs <= int_max -> 0 <= i -> get S0 i = Some s -> sow i st -> exists st', gen_enqueue axs i s st = Some st' /\ sow (i + 1) st'.
Proof.
  intros Hb Hi Es (G & H & X & P1 & P2 & _). pose proof (seed_len gs S0 HS s _ Es) as Ls. assert (inb (firstn (length gs) s)) as Is. { rewrite Forall_forall in HD. apply HD. eapply get_in; eauto. }
  pose proof (axs_len gs n' Hn) as La. destruct (addr_pos gs Hg n' Hn _ Is) as (core & Ec & Hc & Pc). unfold gen_enqueue.
  assert (addr_vec false axs s 0 = Some core) as ->. { rewrite <- Ec, Hn, <- La. clear. generalize 0. revert s. induction axs as [|a t IH]; intros [|c s] q; simpl; auto. }
  cbn [bind]. destruct (is_local_spec axs s ltac:(lia)) as (b & Eb & B). rewrite (axs_x0 gs), (axs_x1 gs) in B. unfold is_local in Eb.
  match type of Eb with (do bs <- ?m; _) = _ => destruct m as [bs|] eqn:Em; [|discriminate] end. cbn [bind] in Eb. injection Eb as Eb.
  assert (map_opt (fun d => do c <- get s d; do x <- get axs d; Some ((c <? a_x1 x) && (a_x0 x <=? c))) (zrange 0 (zlen axs)) = Some bs) as ->.
  { rewrite <- Em. generalize (zrange 0 (zlen axs)). intros k. induction k as [|d k IH]; [reflexivity|]. cbn [map_opt]. rewrite IH. destruct (get s d), (get axs d); cbn [bind]; try reflexivity. now rewrite andb_comm. }
  cbn [bind]. rewrite Eb. assert (b = true) as -> by (apply B; rewrite La, <- Hn; exact Is). cbn [guard bind].
  destruct (in_vox gs st core G Hc) as [v Ev]. rewrite Ev. cbn [bind]. destruct (put_range (fst st) core (mkV (v_pos v) i 0) (get_range _ _ _ Ev)) as [vox Ep]. rewrite Ep. cbn [bind].
  destruct G as (G1 & G2 & G3 & G4).
  assert (~ In core (q_heap (snd st))) as Nc.
  { intros I. destruct (P2 core I) as (j & t & p & Hj & Ej & Hp & Ew). rewrite Pc in Ew. apply (neighbours_close gs t p s Hg); [now apply around_in|exact Ew|]. eapply HA; eauto. }
  assert (forall x, x <> core -> val vox x = val (fst st) x) as Vo by (intros x N; unfold val; now rewrite (get_put_ne _ _ _ _ _ Ep) by auto).
  assert (good (vox, snd st)) as Gv.
  { split; [cbn [fst]; now rewrite (put_len _ _ _ _ Ep)|]. split; [|split; [exact G3|exact G4]]. intros x w Hx. cbn [fst] in Hx. destruct (Z.eq_dec x core) as [->|N].
    - rewrite (get_put_eq _ _ _ _ Ep) in Hx. inversion Hx. simpl. split; [now apply (G2 core)|lia].
    - rewrite (get_put_ne _ _ _ _ _ Ep) in Hx by auto. now apply G2. }
  destruct (sow_propagate core (mkV (v_pos v) i 0) (vox, snd st)) as (st' & E' & G' & H' & X' & A1 & A2 & A3); auto.
  { apply (get_put_eq _ _ _ _ Ep). }
  { cbn [fst snd]. eapply hord_out; [|exact H]. intros x Hx. apply (get_put_ne _ _ _ _ _ Ep). intros ->. auto. }
  exists st'. split; [auto|]. split; [auto|]. split; [auto|]. split; [auto|]. cbn [fst snd] in *. split; [|split].
  - intros x Hx Nx Fx. destruct (A1 x Nx) as [Nx' Vx]. rewrite Vx in *. destruct (Z.eq_dec x core) as [->|N]; [unfold val; rewrite (get_put_eq _ _ _ _ Ep); simpl; lia|]. rewrite Vo in * by auto. auto.
  - intros x Ix. destruct (A2 x Ix) as [Ix'|(p & Hp & Px)].
    + destruct (P2 x Ix') as (j & t & p & Hj & Y). exists j, t, p. split; [lia|auto].
    + exists i, s, p. split; [lia|]. split; [auto|]. split; [|auto]. now rewrite <- Pc.
  - intros _. exists core. split; [auto|]. assert (val vox core <= 0) as V0 by (unfold val; rewrite (get_put_eq _ _ _ _ Ep); simpl; lia). assert (~ In core (q_heap (snd st'))) as N' by (apply A3; auto). split; [auto|].
    destruct (A1 core N') as [_ ->]. auto.
Qed.
Lemma sow_seeds : R2 gs <= int_max -> forall seeds pre st, S0 = pre ++ seeds -> sow (zlen pre) st -> exists st', gen_enqueues axs (zlen pre) seeds st = Some st' /\ sow (zlen S0) st'.
Proof.
  intros Hb. induction seeds as [|s t IH]; intros pre st Sk Sw; cbn [gen_enqueues].
  - exists st. split; [reflexivity|]. rewrite Sk, app_nil_r. exact Sw.
  - assert (get S0 (zlen pre) = Some s) as Hs. { unfold zlen. rewrite SparseL.get_nth, Sk, nth_error_app2, Nat.sub_diag by lia. reflexivity. }
    destruct (sow_seed (zlen pre) s st Hb ltac:(unfold zlen; lia) Hs Sw) as (st1 & E1 & Sw1). rewrite E1. cbn [bind].
    assert (zlen pre + 1 = zlen (pre ++ [s])) as Z1 by (unfold zlen; rewrite app_length; simpl; lia). rewrite Z1 in *. apply IH; [now rewrite <- app_assoc|auto].
Qed.

Lemma march_runs s0 : (2 <= length gs)%nat -> sumZ (map glen gs) + R2 gs <= int_max -> sumZ (map glen gs) + 1 < int_max ->
  forall fuel cd st, 0 <= cd -> idle gs cd s0 st -> ready gs S0 st -> gen_march fuel axs st <> Undefined.
Proof.
  intros Hd Hs Hs1. induction fuel as [|f IH]; intros cd st Hcd I Rd; [discriminate|]. cbn [gen_march]. destruct (q_heap (snd st)) as [|a t] eqn:Eh; [discriminate|].
  destruct (idle_step gs Hg2 n' Hn S0 HS cd s0 st a t Hd Hs Hs1 Hcd I Rd Eh) as (st' & E' & I' & R' & V'). rewrite E'. cbn [of_opt obind]. eapply IH; eauto.
Qed.

Lemma sow_idle st : S0 <> [] -> sow (zlen S0) st -> ready gs S0 st -> exists s0, idle gs 0 s0 st.
Proof.
  intros Ne (G & H & X & P1 & P2 & P3) (_ & _ & Rx). destruct P3 as (s0 & S1 & S2 & S3); [destruct S0; [congruence|unfold zlen; simpl length; lia]|].
  exists s0. split; [auto|]. split; [auto|]. split; [intros i a Hi; apply X; lia|]. split; [auto|]. split; [auto|]. split; [|auto].
  intros a Ia. destruct G as (_ & G2 & _ & G4). unfold val. destruct (get (fst st) a) as [w|] eqn:Ew; [apply (G2 _ _ Ew)|vm_compute; discriminate].
Qed.
End Sow.

Lemma sow_blank gs n' S0 : Forall (fun g => gx_0 g + 2 <= gx_1 g) gs -> length gs = S n' -> Forall (fun s : seed => (length gs <= length s)%nat) S0 -> sow gs S0 0 (blank_voxels (distance_axes gs), mkQ [] (fun _ => None)).
Proof.
  intros Hg2 Hn HS. pose proof (Hg gs Hg2 n' Hn) as Hg. destruct (blank_ready gs Hg n' Hn S0) as [(G & L & _) _]. split; [exact G|]. split; [|split; [|split; [|split]]]; cbn [fst snd q_heap].
  - intros p c K Lc. change (zlen []) with 0 in Lc. unfold kid in K. lia.
  - intros i a _ E. cbn [q_heap] in E. unfold get in E. destruct (i <? 0); [discriminate|]. destruct (Z.to_nat i); discriminate.
  - intros a Ha _ V. exfalso. destruct (in_vox gs (blank_voxels (distance_axes gs), mkQ [] (fun _ => None)) a G Ha) as [v Ev]. cbn [fst] in Ev.
    assert (v_val v = int_max) as E. { unfold blank_voxels in Ev. apply get_in in Ev. apply in_map_iff in Ev as (i & <- & _). reflexivity. }
    unfold val in V. rewrite Ev in V. lia.
  - intros x [].
  - lia.
Qed.

(* ---- the copy to the grid ---- *)
Section Copy.
Context {T : Type} (N : num T) (one : T) (gs : list gaxis) (Hg : Forall (fun g => gx_0 g < gx_1 g) gs) (n' : nat) (Hn : length gs = S n').
Notation axs := (distance_axes gs).
Lemma copy_labels vox data : zlen vox = nodes axs -> zlen data = nodes axs -> Forall (fun o : sobj T => o = []) data ->
  exists data', fold_opt (fun data n =>
      do v <- grid_read_int false axs vox n;
      do cell <- grid_read_int false axs data n;
      do cell <- sset_op N cell (v_id v) (fun _ => one);
      grid_write_int false axs data n cell) (zrange 0 (nodes axs)) data = Some data' /\
    forall i v, 0 <= i < nodes axs -> get vox i = Some v -> grid_read false axs data' (position axs i) = Some [Some (v_id v, one)].
Proof.
  intros Lv Ld Hd. set (kk := fun i => match get vox i with Some v => v_id v | None => 0 end).
  destruct (rmw_fold (fun i c => do v <- get vox i; sset_op N c (v_id v) (fun _ => one)) (fun i => [Some (kk i, one)]) (addr_int false axs) (nodes axs) data) as (d' & E & L & G & _).
  - eapply nodes_nonneg. apply (wf gs Hg n' Hn).
  - intros i Hi. rewrite Ld. exact Hi.
  - intros i c Hi Gc. rewrite Forall_forall in Hd. rewrite (Hd c) by (eapply get_in; eauto). destruct (get_in_range vox i ltac:(lia)) as [v Ev]. unfold kk. rewrite Ev. cbn [bind]. change (@nil (option (Z * T))) with (map (@Some (Z * T)) []). rewrite sset_op_map. reflexivity.
  - intros i j Hi Hj Eij. exact Eij.
  - exists d'. split.
    + rewrite <- E. apply fold_opt_ext. intros d i. unfold grid_read_int, grid_write_int, addr_int. destruct (get vox i); cbn [bind]; [reflexivity|]. now destruct (get d i).
    + intros i v Hi Ev. unfold grid_read. rewrite (addr_self gs Hg n' Hn i Hi). cbn [bind]. specialize (G i Hi). unfold addr_int in G. rewrite G. unfold kk. now rewrite Ev.
Qed.
End Copy.

Section Final.
Context {T : Type} (N : num T) (one : T) (gs : list gaxis) (seeds : list seed) (data : list (sobj T)).
Notation axs := (distance_axes gs).

Lemma seeds_long : (length gs <= 3)%nat -> Forall (domain_seed gs) seeds -> Forall (fun s : seed => (length gs <= length s)%nat) seeds.
Proof. intros H F. eapply Forall_impl; [|exact F]. intros s (L & _). lia. Qed.
Lemma long_seeds n' i : length gs = S n' -> forall st st', gen_enqueues axs i seeds st = Some st' -> Forall (fun s : seed => (length gs <= length s)%nat) seeds.
Proof.
  intros Hn. revert i. induction seeds as [|s t IH]; intros i st st' E; [constructor|]. cbn [gen_enqueues] in E. destruct (gen_enqueue axs i s st) as [st1|] eqn:E1; [|discriminate]. cbn [bind] in E.
  constructor; [|eauto]. unfold gen_enqueue in E1. destruct (addr_vec false axs s 0) as [a|] eqn:Ea; [|discriminate]. rewrite Hn, <- (axs_len gs n' Hn). clear - Ea. revert Ea. generalize 0. revert s. induction axs as [|x ax IH]; intros s p E; simpl; [lia|].
  destruct s as [|c s]; [discriminate|]. simpl in *. apply IH in E. lia.
Qed.

(* the march stops, whatever the seeds *)
Theorem march_terminates fuel : gs <> [] -> Forall (fun g => gx_0 g < gx_1 g) gs -> 2 * nodes axs * int_max < Z.of_nat fuel -> gen_voronoi N one fuel gs seeds data <> Unfinished.
Proof.
  intros Ng Hg Hf. destruct (length gs) as [|n'] eqn:Hn; [destruct gs; [congruence|discriminate]|]. unfold gen_voronoi. destruct (_ || _); [|discriminate].
  destruct (gen_enqueues _ 0 seeds _) as [st|] eqn:E1; [|discriminate]. cbn [of_opt obind]. pose proof (long_seeds n' 0 Hn _ _ E1) as HS.
  destruct (blank_ready gs Hg n' Hn seeds) as [R0 M0]. destruct (enqueues_full gs Hg n' Hn seeds HS seeds [] _ st eq_refl R0 ltac:(intros j s Hj; unfold zlen in Hj; simpl in Hj; lia) E1) as (R1 & _ & M1).
  pose proof (march_ends gs Hg n' Hn seeds HS fuel st R1 ltac:(lia)) as Ne. destruct (gen_march fuel axs st) as [st2| |]; [|discriminate|congruence]. cbn [obind]. destruct (fold_opt _ _ _); discriminate.
Qed.

(* if the program ends without undefined behaviour, every node is labelled by a seed nearest in the Manhattan metric *)
Theorem march_labels fuel data' : gs <> [] -> Forall (fun g => gx_0 g < gx_1 g) gs -> sumZ (map glen gs) <= int_max -> seeds <> [] -> zlen data = nodes axs -> Forall (fun o => o = []) data ->
  gen_voronoi N one fuel gs seeds data = Done data' ->
  forall x, in_box (map gx_0 gs) (map gx_1 gs) x -> exists k s, grid_read false axs data' x = Some [Some (k, one)] /\ get seeds k = Some s /\ forall t, In t seeds -> manh x s <= manh x t.
Proof.
  intros Ng Hg Hsum Nes Ld Hd E x Hx. destruct (length gs) as [|n'] eqn:Hn; [destruct gs; [congruence|discriminate]|]. unfold gen_voronoi in E. destruct (_ || _); [|discriminate].
  destruct (gen_enqueues _ 0 seeds _) as [st|] eqn:E1; [|discriminate]. cbn [of_opt obind] in E. pose proof (long_seeds n' 0 Hn _ _ E1) as HS.
  destruct (blank_ready gs Hg n' Hn seeds) as [R0 M0]. destruct (enqueues_full gs Hg n' Hn seeds HS seeds [] _ st eq_refl R0 ltac:(intros j s Hj; unfold zlen in Hj; simpl in Hj; lia) E1) as (R1 & Sw & M1).
  destruct (gen_march fuel axs st) as [st2| |] eqn:E2; [|discriminate|discriminate]. cbn [obind] in E. destruct (march_done gs Hg n' Hn seeds HS fuel st st2 R1 E2) as (Rd & Q & V).
  assert (sown gs seeds (fst st2) (zlen seeds)) as Sw2. { intros j s Hj Es. destruct (Sw j s Hj Es) as [I1 I2]. split; [auto|]. intros a Ha Pa. specialize (I2 a Ha Pa). specialize (V a). lia. }
  pose proof Rd as ((G1 & _) & _). destruct (copy_labels N one gs Hg n' Hn (fst st2) data G1 Ld Hd) as (d' & Ed & Rl). rewrite Ed in E. injection E as <-.
  destruct (addr_pos gs Hg n' Hn x Hx) as (a & _ & Ha & Pa). destruct (get_in_range (fst st2) a ltac:(lia)) as [v Ev].
  destruct (final_labels gs Hg n' Hn seeds st2 Hsum Rd Q Sw2 Nes a v Ha Ev) as (s & Es & Ms). rewrite Pa in Ms. exists (v_id v), s. split; [rewrite <- Pa; auto|]. auto.
Qed.

(* with two or more cells along each axis and seeds that are not neighbours, it does end *)
Theorem march_defined fuel : (length gs = 2 \/ length gs = 3)%nat -> Forall (fun g => gx_0 g + 2 <= gx_1 g) gs -> sumZ (map glen gs) + sumZ (map (fun g => glen g ^ 2) gs) <= int_max -> seeds <> [] -> Forall (domain_seed gs) seeds ->
  (forall i j s t, 0 <= i < j -> get seeds i = Some s -> get seeds j = Some t -> apart (map glen gs) t s) -> zlen data = nodes axs -> Forall (fun o => o = []) data ->
  2 * nodes axs * int_max < Z.of_nat fuel -> exists data', gen_voronoi N one fuel gs seeds data = Done data'.
Proof.
  intros Hl Hg2 Hsum Nes HD HA Ld Hd Hf. assert (exists n', length gs = S n') as [n' Hn] by (destruct Hl as [-> | ->]; eauto). pose proof (Hg gs Hg2 n' Hn) as Hg.
  pose proof (march_terminates fuel) as MT. assert (gs <> []) as Ng by (intros ->; simpl in Hl; lia). specialize (MT Ng Hg Hf).
  pose proof (seeds_long ltac:(lia) HD) as HS. assert (Forall (fun s => FastMarchL.inb gs (firstn (length gs) s)) seeds) as HI. { eapply Forall_impl; [|exact HD]. intros s (_ & _ & B). exact B. }
  assert (0 < sumZ (map glen gs)) as Sp. { clear - Ng Hg. destruct gs as [|g gs']; [congruence|]. inversion Hg as [|? ? H1 H2]; subst. cbn [map]. change (0 < glen g + sumZ (map glen gs')). assert (0 <= sumZ (map glen gs')); [|unfold glen at 1; lia].
    clear - H2. induction H2 as [|a t H _ IH]; [reflexivity|]. cbn [map]. change (0 <= glen a + sumZ (map glen t)). unfold glen at 1. lia. }
  assert (2 <= sumZ (map (fun g => glen g ^ 2) gs)) as Sq. { clear - Ng Hg2. destruct gs as [|g gs']; [congruence|]. inversion Hg2 as [|? ? H1 H2]; subst. cbn [map]. change (2 <= glen g ^ 2 + sumZ (map (fun g => glen g ^ 2) gs')).
    assert (0 <= sumZ (map (fun g => glen g ^ 2) gs')); [|unfold glen at 1; nia]. clear. induction gs' as [|a t IH]; [reflexivity|]. cbn [map]. change (0 <= glen a ^ 2 + sumZ (map (fun g => glen g ^ 2) t)). nia. }
  unfold gen_voronoi in *. assert ((zlen gs =? 2) || (zlen gs =? 3) = true) as Ez. { unfold zlen. destruct Hl as [-> | ->]; reflexivity. } rewrite Ez in *.
  destruct (sow_seeds gs Hg2 n' Hn seeds HS HI HA ltac:(unfold R2; lia) seeds [] _ eq_refl (sow_blank gs n' seeds Hg2 Hn HS)) as (st & E1 & Sw). change (zlen []) with 0 in E1. rewrite E1 in *. cbn [of_opt obind] in *.
  destruct (blank_ready gs Hg n' Hn seeds) as [R0 M0]. destruct (enqueues_full gs Hg n' Hn seeds HS seeds [] _ st eq_refl R0 ltac:(intros j s Hj; unfold zlen in Hj; simpl in Hj; lia) E1) as (R1 & _ & M1).
  destruct (sow_idle gs n' Hn seeds HS HI HA st Nes Sw R1) as [s0 I0].
  pose proof (march_runs gs Hg2 n' Hn seeds HS s0 ltac:(lia) ltac:(unfold R2; lia) ltac:(lia) fuel 0 st ltac:(lia) I0 R1) as NU.
  destruct (gen_march fuel axs st) as [st2| |] eqn:E2; [|congruence|cbn [obind] in MT; congruence]. cbn [obind].
  destruct (march_done gs Hg n' Hn seeds HS fuel st st2 R1 E2) as (Rd & _). pose proof Rd as ((G1 & _) & _). destruct (copy_labels N one gs Hg n' Hn (fst st2) data G1 Ld Hd) as (d' & Ed & _). rewrite Ed. cbn [of_opt]. eauto.
Qed.
End Final.
