From Verif Require Import Model.Base Model.Boundary Model.Layout Model.Access Model.Setup Model.Codec Model.Region Model.MPI Model.Ghostswap Model.Spin Model.SpinRanks
  Spec.Box Spec.Access Spec.Bytes Spec.Decomp Spec.Schedule Spec.Stencil Spec.Spin Spec.SpinRanks
  Proof.BaseL Proof.LayoutL Proof.AccessL Proof.SetupL Proof.MPIL Proof.GhostL Proof.HaloL Proof.SimulateL Proof.StencilS Proof.SpinL Proof.SpinF Proof.McRanksF Proof.SpinRanksL.
Local Open Scope list_scope.
Local Open Scope Z_scope.
Ltac Zify.zify_post_hook ::= idtac.

(* ---- counts of exchanges ---- *)
Lemma rem_mod h g : 0 <= h -> 0 < g -> Z.rem h g = h mod g.
Proof. intros. apply Z.rem_mod_nonneg; lia. Qed.
Lemma marks_ok axs g s : 0 < g -> map (exchanges g) (passes axs s) = marks (nodes axs) g s.
Proof.
  intros Hg. unfold passes, marks. induction (zrange 0 s) as [|a l IH]; [reflexivity|]. cbn [flat_map]. rewrite map_app, IH. f_equal.
  apply map_ext_in. intros h Hh. apply in_zrange in Hh. unfold exchanges. rewrite rem_mod by lia. reflexivity.
Qed.
Lemma count_map {A} (p : A -> bool) l : length (filter (fun b : bool => b) (map p l)) = length (filter p l).
Proof. induction l as [|a l IH]; [reflexivity|]. cbn. destruct (p a); cbn; auto. Qed.
Lemma count_passes axs g s : 0 < g -> 0 <= s -> Z.of_nat (length (filter (exchanges g) (passes axs s))) = s * swaps_per_step (nodes axs) g.
Proof.
  intros Hg Hs. rewrite <- count_map, marks_ok by auto. unfold marks, swaps_per_step, zlen. assert (Z.of_nat (length (zrange 0 s)) = s) as Es by (change (zlen (zrange 0 s) = s); rewrite zlen_zrange; lia).
  rewrite <- (count_map (fun h => h mod g =? 0)). generalize (map (fun h => h mod g =? 0) (zrange 0 (nodes axs))). intros m. rewrite <- Es at 2. clear. induction (zrange 0 s) as [|a l IH]; [reflexivity|].
  cbn [flat_map length]. rewrite List.filter_app, app_length. lia.
Qed.

Theorem hang {T} trial (c : codec T) every np gs rnd s D r q ger geq : 0 < np -> gs <> [] -> Forall (fun g => gx_0 g <= gx_1 g) gs ->
  0 <= r < np -> 0 <= q < np -> setup_mpi np gs 1 r = Some ger -> setup_mpi np gs 1 q = Some geq -> 0 < every (ge_axes ger) -> 0 < every (ge_axes geq) -> 0 < s ->
  swaps_per_step (nodes (ge_axes ger)) (every (ge_axes ger)) <> swaps_per_step (nodes (ge_axes geq)) (every (ge_axes geq)) ->
  forall k f D', steps k (ranks np (rank_spins trial c every np gs rnd s D), no_chans) f -> ~ finished np D' f.
Proof.
  intros Hnp Hne Hg Hr Hq Er Eq Pr Pq Hs N k f D' St F. eapply (apart_end r q); [|exact F]. eapply apart_steps; [exact St|]. cbn [fst].
  destruct (rank_shape np gs r ger Hnp Hne Hg Hr Er) as (lr & Ar & Lr & _), (rank_shape np gs q geq Hnp Hne Hg Hq Eq) as (lq & Aq & Lq & _).
  assert (length (ge_axes ger) = length gs) as Gr by (rewrite Ar, length_lay; auto). assert (length (ge_axes geq) = length gs) as Gq by (rewrite Aq, length_lay; auto).
  assert (forall i ge, 0 <= i < np -> setup_mpi np gs 1 i = Some ge -> length (ge_axes ge) = length gs ->
    get (ranks np (rank_spins trial c every np gs rnd s D)) i = Some (rank_spins trial c every np gs rnd s D i) /\
    colls ((4 * length gs + 2) * S (length (filter (exchanges (every (ge_axes ge))) (passes (ge_axes ge) s)))) (rank_spins trial c every np gs rnd s D i)) as X.
  { intros i ge Hi E L. split; [unfold ranks; now rewrite ConvertL.get_map_zrange|]. unfold rank_spins. rewrite E. cbn [lift]. rewrite <- L, Nat.mul_succ_r, Nat.add_comm. apply colls_swap. intros d. apply colls_visits. }
  destruct (X r ger Hr Er Gr) as [X1 X2], (X q geq Hq Eq Gq) as [X3 X4]. do 4 eexists. repeat split; [exact X1|exact X3|exact X2|exact X4|].
  pose proof (count_passes (ge_axes ger) (every (ge_axes ger)) s Pr ltac:(lia)) as C1. pose proof (count_passes (ge_axes geq) (every (ge_axes geq)) s Pq ltac:(lia)) as C2. intros E. apply Nat.mul_cancel_l in E; [|lia]. injection E as E.
  rewrite E, C2 in C1. apply Z.mul_cancel_l in C1; [|lia]. now apply N.
Qed.

(* ---- the lists of marks ---- *)
Lemma mark_first l : forall j, length (filter (fun b : bool => b) l) <> 0%nat ->
  exists a b, l = repeat false a ++ true :: b /\ before_each j l = S (j + a) :: before_each 0 b /\ after_last j l = after_last 0 b.
Proof.
  induction l as [|[] l IH]; intros j N; [now cbn in N| |].
  - exists 0%nat, l. cbn. now rewrite Nat.add_0_r.
  - cbn in N. destruct (IH (S j) N) as (a & b & -> & E1 & E2). exists (S a), b. cbn. rewrite E1, E2. repeat split. f_equal. lia.
Qed.
Lemma mark_none l : forall j, length (filter (fun b : bool => b) l) = 0%nat -> l = repeat false (length l) /\ before_each j l = [] /\ after_last j l = (j + length l)%nat.
Proof.
  induction l as [|[] l IH]; intros j N; [cbn; rewrite Nat.add_0_r; auto|discriminate|]. cbn in N. destruct (IH (S j) N) as (E1 & E2 & E3). cbn. rewrite E2, E3. repeat split; [congruence|lia].
Qed.

Section Ranks.
Context {T : Type} (trial : (list Z -> option T) -> (nat -> Z) -> option (T * nat)) (c : codec T) (valid : T -> Prop) (np : Z) (gs : list gaxis) (G : Z -> geom) (B : Z) (rnd : Z -> nat -> Z).
Context (Hnp : 0 < np) (DC : deco np 1 gs G) (Sc : serialises c valid) (HB : forall v, valid v -> c_size c v <= B) (B0 : 0 <= B).
Context (HI : forall r, 0 <= r < np -> cells (ge_axes (G r)) * B <= int_max).
Context (Hne : gs <> []) (ES : forall r, 0 <= r < np -> setup_mpi np gs 1 r = Some (G r)).
Context (Hg : Forall (fun g => gx_0 g < gx_1 g) gs) (H1 : forall r, 0 <= r < np -> Forall (fun a => a_x0 a < a_x1 a) (ge_axes (G r))).
Context (HT : local_trial valid (length gs) trial) (R : forall r k, 0 <= rnd r k).
Notation w := (map serial_limits gs).
Notation ax r := (ge_axes (G r)).
Notation storage r := (in_box (map a_s0 (ax r)) (map a_s1 (ax r))).
Notation held := (held valid np G).
Notation trials := (trials trial gs G rnd).

Lemma Hok : gok gs.
Proof using All. unfold gok. eapply Forall_impl; [|exact Hg]. cbn. lia. Qed.
Lemma axlen r : 0 <= r < np -> length (ax r) = length gs.
Proof using All. intros Hr. apply (dc_len _ _ _ _ DC r Hr). Qed.
Lemma wide1 : wide np 1 gs G.
Proof using All. intros r j Hr Hj. pose proof (H1 r Hr) as X. rewrite Forall_forall in X. specialize (X (nth j (ax r) dax)). cbn in X. assert (In (nth j (ax r) dax) (ax r)) as I by (apply nth_In; now rewrite axlen). specialize (X I). lia. Qed.
Lemma g_len j : (j < length gs)%nat -> 0 < glen (nth j gs (mkG 0 0)).
Proof using All. intros Hj. pose proof Hg as X. rewrite Forall_forall in X. specialize (X _ (nth_In _ (mkG 0 0) Hj)). unfold glen. lia. Qed.
Lemma wrap_in y : length y = length gs -> in_box (map gx_0 gs) (map gx_1 gs) (wrap gs y).
Proof using All.
  intros L. rewrite in_box_iff, !map_length. rewrite length_wrap by auto. split; [auto|]. split; [auto|]. intros j Hj. rewrite (nth_map_eq gx_0 _ j 0 (mkG 0 0)), (nth_map_eq gx_1 _ j 0 (mkG 0 0)) by auto.
  rewrite (nth_wrap gs y j (mkG 0 0)) by auto. pose proof (g_len j Hj) as P. pose proof (Z.mod_pos_bound (nth j y 0 - gx_0 (nth j gs (mkG 0 0))) _ P). unfold glen in *. lia.
Qed.
Lemma owner y : length y = length gs -> exists q, 0 <= q < np /\ owns (G q) (wrap gs y) /\ forall q', 0 <= q' < np -> owns (G q') (wrap gs y) -> q' = q.
Proof using All.
  intros L. destruct (partition np gs 1 _ Hnp Hne Hok (wrap_in y L)) as (q & ge & Hq & E & O & U). rewrite (ES q Hq) in E. injection E as <-. exists q. split; [auto|]. split; [auto|]. intros q' Hq' O'. apply (U q' (G q') Hq' (ES q' Hq') O').
Qed.
Lemma owner_unique q q' y : 0 <= q < np -> 0 <= q' < np -> owns (G q) y -> owns (G q') y -> q = q'.
Proof using All.
  intros Hq Hq' O O'. assert (length y = length gs) as L by (now apply (owns_iff np 1 gs G DC q y Hq) in O). destruct (owner y L) as (p & _ & _ & U).
  rewrite (owned_wrap np 1 gs G DC q y Hq O) in U. rewrite (U q Hq O), (U q' Hq' O'). reflexivity.
Qed.
Lemma owned_ok r y : 0 <= r < np -> is_own (G r) y = true <-> owns (G r) y.
Proof using All.
  intros Hr. unfold is_own, owns, zlen. generalize (ax r). intros axs. revert y. induction axs as [|a axs IH]; intros [|x y]; cbn; try tauto; try (split; [discriminate|tauto]).
  rewrite <- (IH y). rewrite !andb_true_iff, !Z.eqb_eq, Z.leb_le, Z.ltb_lt. split; intros; (split; [|split]) || split; try lia; intuition lia.
Qed.
Lemma owned_storage r y : 0 <= r < np -> owns (G r) y -> storage r y.
Proof using All. intros Hr O. eapply (local_in_storage 1); [lia| |exact O]. apply (dc_wf _ _ _ _ DC r Hr). Qed.
Lemma read_storage r (d : list T) y : 0 <= r < np -> zlen d = cells (ax r) -> storage r y -> grid_read true (ax r) d y = get d (encode (ax r) y).
Proof using All. intros Hr L Hs. apply (storage_read np gs 1 r (G r) d y Hnp Hne Hok ltac:(lia) Hr (ES r Hr) (H1 r Hr) L Hs). Qed.

(* what rank r holds *)
Definition view (r : Z) (F L : list Z -> T) (data : list T) : Prop :=
  zlen data = cells (ax r) /\ Forall valid data /\ forall y, storage r y -> get data (encode (ax r) y) = Some (sees gs (G r) F L y).

Lemma near_in r x o : 0 <= r < np -> owns (G r) x -> near (length gs) o -> storage r (vadd x o).
Proof using All.
  intros Hr O [->|[Lo Fo]].
  - assert (vadd x [] = x) as -> by (destruct x; reflexivity). now apply owned_storage.
  - apply (owns_iff np 1 gs G DC r x Hr) in O as [L O]. apply (storage_iff np 1 gs G DC r _ Hr). assert (length (vadd x o) = length x) as Lv by (clear; revert o; induction x; intros [|? o]; cbn; auto). split; [congruence|].
    intros j Hj. specialize (O j Hj). assert (nth j (vadd x o) 0 = nth j x 0 + nth j o 0) as ->.
    { clear -L Lo Hj. revert o j Lo L Hj. generalize (length gs). intros n. revert x. induction n as [|n IH]; intros [|a x] [|b o] j Lo L Hj; cbn in *; try lia. destruct j; [reflexivity|]. apply IH; lia. }
    assert (-1 <= nth j o 0 <= 1) by (rewrite Forall_forall in Fo; apply Fo, nth_In; lia). lia.
Qed.

Lemma visit_view r F L k data : 0 <= r < np -> view r F L data ->
  exists v u data', let x := position (ax r) (rnd r k mod nodes (ax r)) in
    trial (fun o => Some (sees gs (G r) F L (vadd x o))) (fun j => rnd r (S k + j)%nat) = Some (v, u) /\
    visit_one trial true (ax r) (rnd r) (data, k) = Some (data', (S k + u)%nat) /\ view r F (write_node L x v) data'.
Proof using All.
  intros Hr (Ld & Vd & Sd). destruct (rank_shape np gs r (G r) Hnp Hne Hok Hr (ES r Hr)) as (ls & El & Ll & _). pose proof (dc_wf _ _ _ _ DC r Hr) as W.
  assert (lims_ok ls) as Ok. { pose proof (H1 r Hr) as X. rewrite El in X. clear -X. unfold lims_ok. induction ls; [constructor|]. cbn in X. inversion X; subst. constructor; [cbn in *; lia|auto]. }
  assert (0 < nodes (ax r)) as Pn. { pose proof (H1 r Hr) as X. clear -X W. destruct (ax r) as [|a t]; [cbn; lia|]. revert a X W. induction t as [|b t IH]; intros a X W; inversion X; subst; cbn in W |- *; destruct W as (_ & _ & _ & _ & Wx & Wt); rewrite Wx; cbn [nodes]; [lia|]. specialize (IH b H2 Wt). cbn [nodes] in IH. nia. }
  pose proof (Z.mod_pos_bound (rnd r k) _ Pn) as Hp. set (p := rnd r k mod nodes (ax r)) in *. destruct (position_spec 1 (ax r) p W Hp) as [Ox _]. set (x := position (ax r) p) in *. change (owns (G r) x) in Ox.
  assert (forall o, near (length gs) o -> grid_read true (ax r) data (vadd x o) = Some (sees gs (G r) F L (vadd x o))) as Rd by (intros o Ho; rewrite read_storage by (auto; now apply near_in); apply Sd; now apply near_in).
  destruct HT as [Ext Tot].
  destruct (Tot (fun o => Some (sees gs (G r) F L (vadd x o))) (fun j => rnd r (S k + j)%nat)) as (v & u & E & Vv); [auto| |].
  { intros o Ho. eexists. split; [reflexivity|]. pose proof (Sd _ (near_in r x o Hr Ox Ho)) as X. eapply McRanksF.Forall_get; [|exact X]. exact Vd. }
  assert (0 <= encode (ax r) x < zlen data) as Bx by (rewrite Ld; apply (encode_bounds 1); [auto|now apply owned_storage]).
  destruct (put data (encode (ax r) x) v) as [data'|] eqn:Pd; [|rewrite put_ok in Pd by exact Bx; discriminate]. exists v, u, data'. cbv zeta. split; [exact E|]. split.
  - unfold visit_one. assert (nodes (ax r) =? 0 = false) as -> by (apply Z.eqb_neq; lia). cbn [negb guard bind]. rewrite rem_mod by auto. fold p. fold x. rewrite (Ext _ (fun o => Some (sees gs (G r) F L (vadd x o))) _ Rd), E. cbn [bind fst snd].
    assert (addr_int true (ax r) p = encode (ax r) x) as Ea. { unfold x. pose proof Hp as Hp'. rewrite El in Hp' |- *. apply addr_int_encode; [lia|discriminate|exact Ok|exact Hp']. }
    unfold grid_write_int. rewrite Ea, Pd. reflexivity.
  - split; [|split].
    + rewrite (put_len _ _ _ _ Pd). exact Ld.
    + eapply Forall_put; eauto.
    + intros y Hy. unfold sees, write_node, same_node. destruct (list_eq_dec Z.eq_dec y x) as [->|N].
      * rewrite (get_put_eq _ _ _ _ Pd). rewrite (proj2 (owned_ok r x Hr) Ox). reflexivity.
      * rewrite (get_put_ne _ _ _ _ _ Pd); [now apply Sd|]. intros E'. apply N. symmetry. eapply (encode_inj 1); eauto. now apply owned_storage.
Qed.

(* ---- the passes of one rank up to its next exchange ---- *)
Lemma trials_app r F a : forall st st1, trials r F a st st1 -> forall b st2, trials r F b st1 st2 -> trials r F (a + b) st st2.
Proof using All. induction 1; intros b st2 H2; [exact H2|]. cbn. econstructor; [eassumption|]. now apply IHtrials. Qed.

Lemma run_quiet r F g a : 0 <= r < np -> g <> 0 -> forall hs L k data, map (exchanges g) hs = repeat false a -> view r F L data ->
  exists L' k' data', trials r F a (L, k) (L', k') /\ view r F L' data' /\
    forall tl, rank_visits trial c (G r) (rnd r) g (hs ++ tl) (data, k) = rank_visits trial c (G r) (rnd r) g tl (data', k').
Proof using All.
  intros Hr Hg0. induction a as [|a IH]; intros [|h hs] L k data E V; try discriminate.
  - exists L, k, data. split; [constructor|]. auto.
  - cbn in E. injection E as Eh E. destruct (visit_view r F L k data Hr V) as (v & u & d1 & E1 & E2 & V1). cbv zeta in *.
    destruct (IH hs _ (S k + u)%nat d1 E V1) as (L' & k' & d' & T1 & V' & E'). exists L', k', d'. split; [econstructor; eauto|]. split; [auto|]. intros tl. cbn [app rank_visits]. rewrite E2. cbn [lift].
    assert (g =? 0 = false) as -> by now apply Z.eqb_neq. rewrite Eh. apply E'.
Qed.
Lemma run_local r F g hs L k data : 0 <= r < np -> g <> 0 -> view r F L data -> length (filter (exchanges g) hs) <> 0%nat ->
  exists m hs' L' k' data', trials r F (S m) (L, k) (L', k') /\ view r F L' data' /\
    rank_visits trial c (G r) (rnd r) g hs (data, k) = ghostswap c (G r) data' (fun d => rank_visits trial c (G r) (rnd r) g hs' (d, k')) /\
    before_each 0 (map (exchanges g) hs) = S m :: before_each 0 (map (exchanges g) hs') /\ after_last 0 (map (exchanges g) hs) = after_last 0 (map (exchanges g) hs') /\
    length (filter (exchanges g) hs) = S (length (filter (exchanges g) hs')).
Proof using All.
  intros Hr Hg0 V N. rewrite <- count_map in N. destruct (mark_first _ 0%nat N) as (a & b & E & Eb & Ea).
  apply map_eq_app in E as (h1 & h2 & -> & E1 & E2). destruct h2 as [|h hs']; [discriminate|]. cbn in E2. injection E2 as Eh <-.
  destruct (run_quiet r F g a Hr Hg0 h1 L k data E1 V) as (L1 & k1 & d1 & T1 & V1 & X1). destruct (visit_view r F L1 k1 d1 Hr V1) as (v & u & d2 & F1 & F2 & V2). cbv zeta in *.
  exists a, hs', (write_node L1 (position (ax r) (rnd r k1 mod nodes (ax r))) v), (S k1 + u)%nat, d2. split; [|split; [exact V2|split; [|split; [exact Eb|split; [exact Ea|]]]]].
  - replace (S a) with (a + 1)%nat by lia. eapply trials_app; [exact T1|]. econstructor; [exact F1|]. constructor.
  - rewrite X1. cbn [rank_visits]. rewrite F2. cbn [lift]. assert (g =? 0 = false) as -> by now apply Z.eqb_neq. rewrite Eh. reflexivity.
  - rewrite List.filter_app, app_length. cbn [filter]. rewrite Eh. assert (length (filter (exchanges g) h1) = 0%nat) as ->; [|reflexivity]. rewrite <- count_map, E1. clear. induction a; auto.
Qed.

(* ---- all ranks ---- *)
Definition fused (L : Z -> list Z -> T) (F : list Z -> T) : list Z -> T := fun y => match find (fun q => is_own (G q) y) (zrange 0 np) with Some q => L q y | None => F y end.
Lemma fused_ok L F r y : 0 <= r < np -> owns (G r) y -> fused L F y = L r y.
Proof using All.
  intros Hr O. unfold fused. destruct (find _ _) as [q|] eqn:E.
  - apply find_some in E as [I E]. apply in_zrange in I. apply (owned_ok q y I) in E. now rewrite (owner_unique q r y I Hr E O).
  - pose proof (find_none _ _ E r ltac:(apply in_zrange; lia)) as X. cbn in X. rewrite (proj2 (owned_ok r y Hr) O) in X. discriminate.
Qed.
Lemma view_own r F L d : 0 <= r < np -> view r F L d -> zlen d = cells (ax r) /\ Forall valid d /\ forall y, owns (G r) y -> get d (encode (ax r) y) = Some (L y).
Proof using All.
  intros Hr (L1 & V1 & S1). split; [auto|]. split; [auto|]. intros y O. rewrite S1 by now apply owned_storage. unfold sees. now rewrite (proj2 (owned_ok r y Hr) O).
Qed.
Lemma swap_view F2 L d (K : Z -> list T -> proc (list T)) ch : quiet ch ->
  (forall r, 0 <= r < np -> zlen (d r) = cells (ax r) /\ Forall valid (d r) /\ forall y, owns (G r) y -> get (d r) (encode (ax r) y) = Some (L r y)) ->
  (forall r y, 0 <= r < np -> owns (G r) y -> F2 y = L r y) ->
  exists d' k ch', quiet ch' /\ (forall r, 0 <= r < np -> view r F2 F2 (d' r)) /\
    gsteps k (ranks np (fun r => ghostswap c (G r) (d r) (K r)), ch) (ranks np (fun r => K r (d' r)), ch').
Proof using All.
  intros Q V HF. assert (held d) as Hd by (intros r Hr; destruct (V r Hr) as (? & ? & _); auto).
  destruct (ghost_round c valid np 1 gs G B DC Sc HB B0 HI d K ch Hd Q) as (d' & k & ch' & Q' & Hd' & I & Gs). specialize (I wide1).
  exists d', k, ch'. split; [auto|]. split; [|exact Gs]. intros r Hr. destruct (Hd' r Hr) as [L' V']. split; [auto|]. split; [auto|]. intros y Hy.
  pose proof Hy as Ly. apply (storage_iff np 1 gs G DC r y Hr) in Ly as [Ly _]. destruct (owner y Ly) as (q & Hq & Oq & _).
  assert (get (d' r) (encode (ax r) y) = get (d q) (encode (ax q) (wrap gs y))) as -> by (apply (I r y Hr Hy); [lia|auto|auto]).
  destruct (V q Hq) as (_ & _ & Sq). rewrite Sq by auto. f_equal. rewrite <- (HF q) by auto.
  unfold sees. destruct (is_own (G r) y) eqn:E; [|reflexivity]. apply (owned_ok r y Hr) in E. now rewrite (owned_wrap np 1 gs G DC r y Hr E).
Qed.

Context (g : Z -> Z) (Hg0 : forall r, 0 <= r < np -> g r <> 0).
Lemma all_rounds n : forall F L d k hs ch, quiet ch -> (forall r, 0 <= r < np -> view r F (L r) (d r)) -> (forall r, 0 <= r < np -> length (filter (exchanges (g r)) (hs r)) = n) ->
  exists F' L' d' i ch', quiet ch' /\ (forall r, 0 <= r < np -> view r F' (L' r) (d' r)) /\
    rounds trial gs G rnd np n (fun r => before_each 0 (map (exchanges (g r)) (hs r))) (fun r => after_last 0 (map (exchanges (g r)) (hs r))) F (fun r => (L r, k r)) F' L' /\
    gsteps i (ranks np (fun r => rank_visits trial c (G r) (rnd r) (g r) (hs r) (d r, k r)), ch) (ranks np (fun r => Ret (d' r)), ch').
Proof using All.
  induction n as [|n IH]; intros F L d k hs ch Q V N.
  - destruct (choose_ranks (fun r (p : (list Z -> T) * nat * list T) => trials r F (length (hs r)) (L r, k r) (fst (fst p), snd (fst p)) /\ view r F (fst (fst p)) (snd p) /\
      rank_visits trial c (G r) (rnd r) (g r) (hs r) (d r, k r) = Ret (snd p)) np Hnp) as (p & Hp).
    { intros r Hr. pose proof (N r Hr) as Nr. rewrite <- count_map in Nr. apply (mark_none _ 0%nat) in Nr as (E & _). rewrite map_length in E.
      destruct (run_quiet r F (g r) _ Hr (Hg0 r Hr) (hs r) (L r) (k r) (d r) E (V r Hr)) as (L' & k' & d' & T1 & V1 & X). exists (L', k', d'). cbn. split; [auto|]. split; [auto|]. rewrite <- (app_nil_r (hs r)), X. reflexivity. }
    exists F, (fun r => fst (fst (p r))), (fun r => snd (p r)), 0%nat, ch. split; [auto|]. split; [intros r Hr; now apply Hp|]. split.
    + constructor. intros r Hr. pose proof (N r Hr) as Nr. rewrite <- count_map in Nr. apply (mark_none _ 0%nat) in Nr as (_ & -> & ->). split; [auto|]. rewrite map_length. exists (snd (fst (p r))). now apply Hp.
    + rewrite (ranks_ext np _ (fun r => Ret (snd (p r)))); [constructor|]. intros r Hr. now apply Hp.
  - destruct (choose_ranks (fun r (p : nat * list Z * (list Z -> T) * nat * list T) => let '(m, hs', L', k', d') := p in trials r F (S m) (L r, k r) (L', k') /\ view r F L' d' /\
      rank_visits trial c (G r) (rnd r) (g r) (hs r) (d r, k r) = ghostswap c (G r) d' (fun d => rank_visits trial c (G r) (rnd r) (g r) hs' (d, k')) /\
      before_each 0 (map (exchanges (g r)) (hs r)) = S m :: before_each 0 (map (exchanges (g r)) hs') /\ after_last 0 (map (exchanges (g r)) (hs r)) = after_last 0 (map (exchanges (g r)) hs') /\
      length (filter (exchanges (g r)) hs') = n) np Hnp) as (p & Hp).
    { intros r Hr. pose proof (N r Hr) as Nr. destruct (run_local r F (g r) (hs r) (L r) (k r) (d r) Hr (Hg0 r Hr) (V r Hr) ltac:(lia)) as (m & hs' & L' & k' & d' & X1 & X2 & X3 & X4 & X5 & X6). exists (m, hs', L', k', d'). repeat split; auto; try apply X2. lia. }
    set (m r := let '(m, _, _, _, _) := p r in m). set (hs' r := let '(_, h, _, _, _) := p r in h). set (L1 r := let '(_, _, l, _, _) := p r in l). set (k1 r := let '(_, _, _, k, _) := p r in k). set (d1 r := let '(_, _, _, _, d) := p r in d).
    assert (forall r, 0 <= r < np -> trials r F (S (m r)) (L r, k r) (L1 r, k1 r) /\ view r F (L1 r) (d1 r) /\
      rank_visits trial c (G r) (rnd r) (g r) (hs r) (d r, k r) = ghostswap c (G r) (d1 r) (fun d => rank_visits trial c (G r) (rnd r) (g r) (hs' r) (d, k1 r)) /\
      before_each 0 (map (exchanges (g r)) (hs r)) = S (m r) :: before_each 0 (map (exchanges (g r)) (hs' r)) /\ after_last 0 (map (exchanges (g r)) (hs r)) = after_last 0 (map (exchanges (g r)) (hs' r)) /\
      length (filter (exchanges (g r)) (hs' r)) = n) as Hq.
    { intros r Hr. specialize (Hp r Hr). unfold m, hs', L1, k1, d1. destruct (p r) as [[[[? ?] ?] ?] ?]. exact Hp. }
    clearbody m hs' L1 k1 d1. clear p Hp.
    destruct (swap_view (fused L1 F) L1 d1 (fun r d => rank_visits trial c (G r) (rnd r) (g r) (hs' r) (d, k1 r)) ch Q (fun r Hr => view_own r F (L1 r) (d1 r) Hr (proj1 (proj2 (Hq r Hr)))) (fun r y Hr O => fused_ok L1 F r y Hr O)) as (d2 & i & c1 & Q1 & V1 & G1).
    destruct (IH (fused L1 F) (fun _ => fused L1 F) d2 k1 hs' c1 Q1 V1) as (F' & L' & d' & i' & c2 & Q2 & V2 & Rn & G2); [intros r Hr; now apply Hq|].
    exists F', L', d', (i + i')%nat, c2. split; [auto|]. split; [auto|]. split.
    + eapply (rounds_next _ _ _ _ np n _ _ F _ (fun r => S (m r)) _ L1 k1 (fused L1 F)); [|intros r y Hr O; now apply fused_ok|].
      * intros r Hr. destruct (Hq r Hr) as (X1 & _ & _ & X4 & _). split; [exact X4|exact X1].
      * assert (forall F1 st F2 L2 n ms rest rest', (forall r, 0 <= r < np -> rest r = rest' r) -> rounds trial gs G rnd np n ms rest F1 st F2 L2 -> rounds trial gs G rnd np n ms rest' F1 st F2 L2) as Y.
        { clear -Hnp. intros F1 st F2 L2 n ms rest rest' E H. induction H as [ms rest F1 st L H|]; [|econstructor; eauto]. constructor. intros r Hr. rewrite <- E by auto. auto. }
        eapply Y; [|exact Rn]. intros r Hr. cbn. destruct (Hq r Hr) as (_ & _ & _ & _ & X5 & _). now rewrite X5.
    + eapply gsteps_app; [|exact G2]. rewrite (ranks_ext np _ (fun r => ghostswap c (G r) (d1 r) (fun d => rank_visits trial c (G r) (rnd r) (g r) (hs' r) (d, k1 r)))); [exact G1|]. intros r Hr. now apply Hq.
Qed.
End Ranks.

(* ---- the whole program ---- *)
Lemma rounds_ext {T} trial gs G rnd np n : forall ms ms' rest rest' (F1 : list Z -> T) st F2 L2, (forall r, 0 <= r < np -> ms r = ms' r /\ rest r = rest' r) ->
  rounds trial gs G rnd np n ms rest F1 st F2 L2 -> rounds trial gs G rnd np n ms' rest' F1 st F2 L2.
Proof.
  intros ms ms' rest rest' F1 st F2 L2 E H. revert ms' E. induction H as [ms rest F1 st L H|n ms rest F1 st m ms1 L k F' F'' L'' H1 H2 H3 IH]; intros ms' E.
  - constructor. intros r Hr. destruct (E r Hr) as [<- <-]. auto.
  - econstructor; [|exact H2|apply IH]; [intros r Hr; destruct (E r Hr) as [<- _]; apply H1; auto|]. intros r Hr. split; [auto|]. now apply E.
Qed.

Theorem ranks_rounds : forall (T : Type) trial (c : codec T) valid np gs B every rnd s (D : Z -> list T) F,
  serialises c valid -> 0 < np -> gs <> [] -> Forall (fun g => gx_0 g < gx_1 g) gs -> 0 <= B -> (forall v, valid v -> c_size c v <= B) ->
  local_trial valid (length gs) trial -> (forall r k, 0 <= rnd r k) -> 0 <= s ->
  (forall r ge, 0 <= r < np -> setup_mpi np gs 1 r = Some ge ->
     zlen (D r) = cells (ge_axes ge) /\ Forall valid (D r) /\ cells (ge_axes ge) * B <= int_max /\ Forall (fun a => a_x0 a < a_x1 a) (ge_axes ge) /\ 0 < every (ge_axes ge) /\
     (forall y, owns ge y -> grid_read true (ge_axes ge) (D r) y = Some (F y))) ->
  forall e, (forall r ge, 0 <= r < np -> setup_mpi np gs 1 r = Some ge -> swaps_per_step (nodes (ge_axes ge)) (every (ge_axes ge)) = e) ->
  exists G, (forall r, 0 <= r < np -> setup_mpi np gs 1 r = Some (G r)) /\
  let todo r := marks (nodes (ge_axes (G r))) (every (ge_axes (G r))) s in
  exists F' L' D' f, rounds trial gs G rnd np (Z.to_nat (s * e)) (fun r => before_each 0 (todo r)) (fun r => after_last 0 (todo r)) F (fun _ => (F, 0%nat)) F' L' /\
    finished np D' f /\ inevitable (ranks np (rank_spins trial c every np gs rnd s D), no_chans) f /\
    forall r y, 0 <= r < np -> in_box (map a_s0 (ge_axes (G r))) (map a_s1 (ge_axes (G r))) y ->
      grid_read true (ge_axes (G r)) (D' r) y = Some (sees gs (G r) F' (L' r) y).
Proof.
  intros T trial c valid np gs B every rnd s D F Sc Hnp Hn Hg B0 HB HT R Hs HD e He.
  assert (gok gs) as Hk by (unfold gok; eapply Forall_impl; [|exact Hg]; cbn; lia).
  pose proof (deco_setup np gs 1 Hnp Hn Hk ltac:(lia)) as DC. set (G r := match setup_mpi np gs 1 r with Some ge => ge | None => dgeom end) in *.
  assert (forall r, 0 <= r < np -> setup_mpi np gs 1 r = Some (G r)) as ES.
  { intros r Hr. destruct (setup_eq np gs 1 r Hnp Hn Hk Hr) as (p1 & _ & _ & _ & _ & E). unfold G. now rewrite E. }
  clearbody G. exists G. split; [auto|]. cbv zeta.
  assert (forall r, 0 <= r < np -> cells (ge_axes (G r)) * B <= int_max) as HI by (intros r Hr; now apply (HD r _ Hr (ES r Hr))).
  assert (forall r, 0 <= r < np -> Forall (fun a => a_x0 a < a_x1 a) (ge_axes (G r))) as H1 by (intros r Hr; now apply (HD r _ Hr (ES r Hr))).
  assert (forall r, 0 <= r < np -> 0 < every (ge_axes (G r))) as Hev by (intros r Hr; now apply (HD r _ Hr (ES r Hr))).
  assert (forall r, 0 <= r < np -> every (ge_axes (G r)) <> 0) as Hev0 by (intros r Hr; specialize (Hev r Hr); lia).
  set (K r data := rank_visits trial c (G r) (rnd r) (every (ge_axes (G r))) (passes (ge_axes (G r)) s) (data, 0%nat)).
  destruct (swap_view trial c valid np gs G B rnd Hnp DC Sc HB B0 HI Hn ES Hg H1 HT R F (fun _ => F) D K no_chans quiet_empty) as (d1 & k1 & c1 & Q1 & V1 & G1).
  { intros r Hr. destruct (HD r _ Hr (ES r Hr)) as (A1 & A2 & _ & _ & _ & A6). split; [auto|]. split; [auto|]. intros y O. rewrite <- (A6 y O). symmetry.
    eapply (read_storage trial c valid np gs G B rnd); eauto. eapply (owned_storage trial c valid np gs G B rnd); eauto. }
  { reflexivity. }
  destruct (all_rounds trial c valid np gs G B rnd Hnp DC Sc HB B0 HI Hn ES Hg H1 HT R (fun r => every (ge_axes (G r))) Hev0 (Z.to_nat (s * e)) F (fun _ => F) d1 (fun _ => 0%nat)
    (fun r => passes (ge_axes (G r)) s) c1 Q1 V1) as (F' & L' & D' & i & c2 & Q2 & V2 & Rn & G2).
  { intros r Hr. pose proof (count_passes (ge_axes (G r)) _ s (Hev r Hr) Hs) as X. rewrite (He r _ Hr (ES r Hr)) in X. lia. }
  destruct (conclude np (rank_spins trial c every np gs rnd s D) D' (k1 + i) no_chans c2 Hnp Q2) as (f & F1 & F2).
  { eapply gsteps_app; [|exact G2]. rewrite (ranks_ext np _ (fun r => ghostswap c (G r) (D r) (K r))); [exact G1|]. intros r Hr. unfold rank_spins. now rewrite (ES r Hr). }
  exists F', L', D', f. split; [|split; [exact F1|split; [exact F2|]]].
  - eapply rounds_ext; [|exact Rn]. intros r Hr. cbn. now rewrite marks_ok by auto.
  - intros r y Hr Hy. destruct (V2 r Hr) as (A1 & A2 & A3). rewrite <- (A3 y Hy). eapply (read_storage trial c valid np gs G B rnd); eauto.
Qed.
