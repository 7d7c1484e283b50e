From Coq Require Import Permutation.
From Verif Require Import Model.Base Model.Boundary Model.Layout Model.Access Model.Setup Model.Num Model.Sparse Model.Codec Model.MPI Model.Ghostswap Model.Simulate Model.Tessellate Model.FastMarch Model.Generators
  Spec.Box Spec.Access Spec.Tessellate Spec.Generators Proof.BaseL Proof.LayoutL Proof.AccessL Proof.SetupL Proof.SparseL Proof.TessellateL Proof.TessellateF Proof.FastMarchL.

(* ---- distances ---- *)
Lemma manh_nonneg x s : 0 <= manh x s.
Proof. revert s. induction x as [|a x IH]; intros [|b s]; simpl; [lia|lia|lia|]. specialize (IH s). lia. Qed.
Lemma manh_dist2 x y : manh x y <= dist2 x y.
Proof. revert y. induction x as [|a x IH]; intros [|b y]; simpl; [lia|lia|lia|]. specialize (IH y). assert (Z.abs (a - b) <= (a - b) ^ 2) by (destruct (Z.abs_spec (a - b)); nia). lia. Qed.
Lemma manh_tri : forall x y s, length x = length y -> (length x <= length s)%nat -> manh y s <= manh x s + dist2 x y.
Proof.
  induction x as [|a x IH]; intros [|b y] [|c s] H1 H2; simpl in *; try lia. specialize (IH y s ltac:(lia) ltac:(lia)).
  assert (Z.abs (b - c) <= Z.abs (a - c) + (a - b) ^ 2) by (pose proof (Z.square_nonneg (a - b)); destruct (Z.abs_spec (a - b)); [|]; nia). lia.
Qed.
Lemma manh_self x s : length x = length s -> x = s -> manh x s = 0.
Proof. intros _ ->. induction s; simpl; lia. Qed.
Lemma manh_firstn : forall n x s, length x = n -> manh x s = manh x (firstn n s).
Proof. induction n as [|n IH]; intros [|a x] [|b s] H; simpl in *; try discriminate; auto. rewrite <- IH by lia. reflexivity. Qed.

Lemma around_in : forall x y, In y (around x) <-> Forall2 (fun c d => c - 1 <= d <= c + 1) x y.
Proof.
  induction x as [|c x IH]; intros y; simpl.
  - split; [intros [<-|[]]; constructor|]. intros H. inversion H. auto.
  - rewrite !in_app_iff, !in_map_iff. split.
    + intros [(z & <- & H)|[(z & <- & H)|[(z & <- & H)|[]]]]; constructor; try lia; now apply IH.
    + intros H. inversion H as [|? d ? z Hd Hz]; subst. apply IH in Hz.
      assert (d = c - 1 \/ d = c \/ d = c + 1) as [-> |[-> | ->]] by lia; [left|right; left|right; right; left]; eauto.
Qed.

Lemma dist2_self x : dist2 x x = 0.
Proof. induction x; simpl; lia. Qed.
Lemma in_box_step : forall (g : list gaxis) x y, in_box (map gx_0 g) (map gx_1 g) x -> in_box (map gx_0 g) (map gx_1 g) y -> x <> y ->
  exists z, in_box (map gx_0 g) (map gx_1 g) z /\ manh z y = manh x y - 1 /\ dist2 z x = 1 /\ Forall2 (fun c d => c - 1 <= d <= c + 1) z x.
Proof.
  induction g as [|g gs' IH]; intros [|a x] [|b y] Hx Hy Ne; simpl in *; try easy. destruct Hx as [Hx1 Hx2], Hy as [Hy1 Hy2].
  assert (forall x : list Z, Forall2 (fun c d => c - 1 <= d <= c + 1) x x) as Refl by (induction x0; constructor; [lia|auto]).
  destruct (Z.eq_dec a b) as [->|Nab].
  - destruct (IH x y Hx2 Hy2) as (z & I & M & D & F); [congruence|]. exists (b :: z). split; [split; auto|]. simpl. split; [lia|]. split; [lia|]. constructor; [lia|auto].
  - exists ((if a <? b then a + 1 else a - 1) :: x). simpl. rewrite dist2_self. destruct (Z.ltb_spec a b).
    + split; [split; [lia|auto]|]. split; [lia|]. split; [lia|]. constructor; [lia|apply Refl].
    + split; [split; [lia|auto]|]. split; [lia|]. split; [lia|]. constructor; [lia|apply Refl].
Qed.

Definition total (vox : list voxel) : Z := sumZ (map v_val vox).
Lemma total_put : forall vox a v w vox', get vox a = Some v -> put vox a w = Some vox' -> total vox' = total vox - v_val v + v_val w.
Proof.
  intros vox a v w vox' G P. apply put_eq in P as [_ ->]. apply get_nth_error in G as [_ G]. revert G. generalize (Z.to_nat a). clear. unfold total.
  induction vox as [|u vox IH]; intros n G; [destruct n; discriminate|]. destruct n as [|n]; cbn [nth_error set_nth map] in *.
  - injection G as ->. change (sumZ (v_val w :: map v_val vox)) with (v_val w + sumZ (map v_val vox)). change (sumZ (v_val v :: map v_val vox)) with (v_val v + sumZ (map v_val vox)). lia.
  - specialize (IH n G). change (v_val u + sumZ (map v_val (set_nth n vox w)) = v_val u + sumZ (map v_val vox) - v_val v + v_val w). lia.
Qed.
Definition meas (st : fm_state) : Z := 2 * total (fst st) + zlen (q_heap (snd st)).

Section March.
Context (gs : list gaxis) (Hg : Forall (fun g => gx_0 g < gx_1 g) gs) (n' : nat) (Hn : length gs = S n').
Notation axs := (distance_axes gs).
Notation good := (good gs).
Notation rel := (rel gs).
Notation inb := (inb gs).
Notation near := (near gs).

Lemma pos_inj a b : 0 <= a < nodes axs -> 0 <= b < nodes axs -> position axs a = position axs b -> a = b.
Proof. intros Ha Hb E. destruct (position_into 0 axs b (wf gs Hg n' Hn) Hb) as [_ I]. now apply I. Qed.

(* one pass of the innermost body: nothing happens, or the voxel at the wrapped point gets the core's label and a smaller value and is queued *)
Lemma relax_full pos cd cid p st z : 0 <= cd -> inb pos -> near p -> good st -> relax axs pos cd cid (p, st) = Some z ->
  rel st (snd z) /\ meas (snd z) <= meas st /\
  (p <> pos -> exists b, 0 <= b < nodes axs /\ position axs b = zip_with wrap gs p /\
    ((snd z = st /\ val (fst st) b <= cd + dist2 pos (position axs b)) \/
     (cd + dist2 pos (position axs b) < val (fst st) b /\ get (fst (snd z)) b = Some (mkV (position axs b) cid (cd + dist2 pos (position axs b))) /\
      forall x, x <> b -> get (fst (snd z)) x = get (fst st) x))) /\
  (p = pos -> snd z = st).
Proof.
  intros Hcd Hp Hnr G E. pose proof (near_len gs n' Hn p Hnr) as L. destruct (relax_spec gs Hg n' Hn pos cd cid p st z Hcd Hp L E) as (_ & R & _). split; [exact R|].
  unfold relax in E. destruct (list_eq_dec Z.eq_dec p pos) as [->|Ne].
  - inversion E; subst z. cbn [snd]. split; [lia|]. split; [congruence|auto].
  - rewrite (moved gs n' Hn) in E by auto. cbn [bind] in E. set (p' := zip_with wrap gs p) in *. pose proof (zip_len gs n' Hn p L) as L'. fold p' in L'.
    destruct (inside_spec gs n' Hn p' L') as (b & Eb & B). rewrite Eb in E. cbn [bind] in E. pose proof (near_wrap gs Hg p Hnr) as Ip. fold p' in Ip.
    rewrite (proj2 B Ip) in E. cbn [negb] in E. destruct (radiussq (length axs) pos p') as [r|] eqn:Er; [|discriminate]. cbn [bind] in E.
    assert (r = dist2 pos p') as Hr.
    { unfold radiussq in Er. pose proof (inb_len gs n' Hn pos Hp) as Lp. pose proof (square_sum_dist pos p' ltac:(lia)) as Eq.
      replace (length axs) with (length pos) in Er by (rewrite (axs_len gs n' Hn); lia). rewrite Eq in Er. cbn [bind] in Er. destruct (guard _); [|discriminate]. cbn [bind] in Er. congruence. }
    destruct (guard (cd + r <=? int_max)); [|discriminate]. cbn [bind] in E. destruct st as [vox q].
    destruct (addr_pos gs Hg n' Hn p' Ip) as (a & Ea & Ba & Pa). rewrite Ea in E. cbn [bind] in E. destruct (get vox a) as [v|] eqn:Ev; [|discriminate]. cbn [bind] in E.
    assert (val vox a = v_val v) as Va by (unfold val; now rewrite Ev).
    destruct (Z.ltb_spec (cd + r) (v_val v)) as [Lt|Ge].
    + destruct (put vox a (mkV (v_pos v) cid (cd + r))) as [vox'|] eqn:Eput; [|discriminate]. cbn [bind] in E.
      match type of E with (do q <- ?m; _) = _ => destruct m as [q'|] eqn:Eq; [|discriminate] end. cbn [bind] in E. inversion E; subst z. cbn [fst snd].
      destruct G as (G1 & G2 & G3 & G4). cbn [fst snd] in *. split; [|split; [|congruence]].
      * unfold meas. cbn [fst snd]. rewrite (total_put _ _ _ _ _ Ev Eput). cbn [v_val].
        assert (zlen (q_heap q') <= zlen (q_heap q) + 1); [|lia]. unfold zlen. destruct (q_back q a) as [i|].
        -- destruct (update_ok _ _ _ _ G3 Eq) as [_ P]. apply Permutation_length in P. lia.
        -- destruct (push_ok _ _ _ _ G3 Eq) as [_ P]. apply Permutation_length in P. simpl in P. lia.
      * intros _. exists a. split; [auto|]. split; [auto|]. right. rewrite Pa, <- Hr, Va. split; [lia|]. destruct (G2 _ _ Ev) as [Gp _]. split.
        -- rewrite (get_put_eq _ _ _ _ Eput). now rewrite Gp, Pa.
        -- intros x Hx. now rewrite (get_put_ne _ _ _ _ _ Eput) by auto.
    + inversion E; subst z. cbn [fst snd]. split; [lia|]. split; [|congruence]. intros _. exists a. split; [auto|]. split; [auto|]. left. split; [auto|]. rewrite Pa, <- Hr. lia.
Qed.

Lemma around_near pos p : inb pos -> In p (around pos) -> near p.
Proof.
  rewrite around_in. unfold FastMarchL.inb, FastMarchL.near. clear. revert pos p. induction gs as [|g gs' IH]; intros [|c pos] p H; simpl in H; try easy; intros F; inversion F as [|? d ? t Hd Ht]; subst; simpl; [auto|].
  destruct H as [H1 H2]. split; [lia|]. eapply IH; eauto.
Qed.
Lemma wrap_in p : inb p -> zip_with wrap gs p = p.
Proof.
  unfold FastMarchL.inb. clear. revert p. induction gs as [|g gs' IH]; intros [|c p]; simpl; try easy. intros [A B]. rewrite IH by auto. f_equal.
  unfold wrap, check_boundary, periodic, Neumann, Dirichlet, mirror. simpl. destruct (Z.ltb_spec c (gx_0 g)); [lia|]. destruct (Z.leb_spec (gx_1 g) c); [lia|auto].
Qed.

(* the label of each voxel with a value is that of a seed at most that far away *)
Context (S0 : list seed) (HS : Forall (fun s => (length gs <= length s)%nat) S0).
Definition lab (vox : list voxel) : Prop := forall a v, get vox a = Some v -> v_val v <= int_max /\
  (v_val v = int_max \/ exists s, get S0 (v_id v) = Some s /\ manh (position axs a) s <= v_val v).
(* no neighbour of voxel a can be improved from it *)
Definition relaxed (vox : list voxel) (a : Z) : Prop := forall b, 0 <= b < nodes axs -> In (position axs b) (around (position axs a)) ->
  val vox b <= val vox a + dist2 (position axs a) (position axs b).

Lemma seed_len s k : get S0 k = Some s -> (length gs <= length s)%nat.
Proof. intros H. rewrite Forall_forall in HS. apply HS. apply get_nth_error in H as [_ H]. eapply nth_error_In; eauto. Qed.

Lemma propagate_fold core v st0 : 0 <= core < nodes axs -> get (fst st0) core = Some v -> good st0 -> lab (fst st0) ->
  forall l st st', (forall p, In p l -> In p (around (position axs core))) -> good st -> lab (fst st) -> get (fst st) core = Some v -> 
  fold_opt (fun st x => do z <- relax axs (position axs core) (v_val v) (v_id v) (x, st); Some (snd z)) l st = Some st' ->
  rel st st' /\ meas st' <= meas st /\ lab (fst st') /\ get (fst st') core = Some v /\
  (forall b, 0 <= b < nodes axs -> In (position axs b) l -> val (fst st') b <= v_val v + dist2 (position axs core) (position axs b)).
Proof.
  intros Hc Hv G0 L0. destruct G0 as (_ & G02 & _). destruct (G02 _ _ Hv) as [Gp Gv]. destruct (L0 _ _ Hv) as [Lv Ls]. pose proof (pos_in gs Hg n' Hn core Hc) as Ip.
  induction l as [|p l IH]; intros st st' Hl G L Hst E.
  - inversion E; subst. split; [apply (rel_refl gs n' Hn)|]. split; [lia|]. split; [auto|]. split; [auto|]. intros b _ [].
  - cbn [fold_opt] in E. destruct (relax axs (position axs core) (v_val v) (v_id v) (p, st)) as [z|] eqn:Ez; [|discriminate]. cbn [bind] in E.
    destruct (relax_full _ _ _ _ _ _ Gv Ip (around_near _ p Ip (Hl p (or_introl eq_refl))) G Ez) as (R & M & C & D). destruct (R G) as (G' & V' & _).
    assert (lab (fst (snd z)) /\ get (fst (snd z)) core = Some v /\ (forall b, 0 <= b < nodes axs -> position axs b = p -> val (fst (snd z)) b <= v_val v + dist2 (position axs core) (position axs b))) as (L' & K' & N').
    { destruct (list_eq_dec Z.eq_dec p (position axs core)) as [Ep|Np].
      - rewrite (D Ep). split; [auto|]. split; [auto|]. intros b Hb Eb. rewrite Ep in Eb. assert (b = core) as ->.
        { apply pos_inj; auto. }
        unfold val. rewrite Hst. pose proof (dist2_nonneg (position axs core) (position axs core)). lia.
      - destruct (C Np) as (b & Hb & Pb & CC). assert (b <> core \/ b = core) as Dec by lia.
        assert (get (fst (snd z)) core = Some v) as K'.
        { destruct CC as [[-> _]|(Lt & Gb & Go)]; [auto|]. destruct Dec as [Nb| ->]; [rewrite Go; auto|]. rewrite dist2_self in Lt. unfold val in Lt. rewrite Hst in Lt. lia. }
        split; [|split; [exact K'|]].
        + destruct CC as [[-> _]|(Lt & Gb & Go)]; [auto|]. intros x w Hx. destruct (Z.eq_dec x b) as [->|Nx]; [|rewrite Go in Hx by auto; now apply L].
          rewrite Gb in Hx. inversion Hx; subst w. cbn [v_val v_id]. assert (val (fst st) b <= int_max) as Vb. { unfold val. destruct (get (fst st) b) eqn:Eg; [apply (L _ _ Eg)|lia]. }
          split; [lia|]. right. pose proof (dist2_nonneg (position axs core) (position axs b)). destruct Ls as [Ls|(s & Es & Ms)]; [lia|]. exists s. split; [auto|].
          pose proof (inb_len gs n' Hn _ Ip). pose proof (inb_len gs n' Hn _ (pos_in gs Hg n' Hn b Hb)). pose proof (seed_len s _ Es).
          pose proof (manh_tri (position axs core) (position axs b) s ltac:(lia) ltac:(lia)). lia.
        + intros x Hx Ex. rewrite <- Ex, (wrap_in _ (pos_in gs Hg n' Hn x Hx)) in Pb. assert (b = x) as ->. { apply pos_inj; auto. }
          destruct CC as [[-> CC]|(Lt & Gb & Go)]; [exact CC|]. unfold val. rewrite Gb. cbn [v_val]. lia. }
    destruct (IH (snd z) st' (fun p' H => Hl p' (or_intror H)) G' L' K' E) as (R2 & M2 & L2 & K2 & N2). split; [eapply (rel_trans gs n' Hn); eauto|]. split; [lia|]. split; [auto|]. split; [auto|].
    intros b Hb [Ep|Hin]; [|auto]. specialize (N' b Hb (eq_sym Ep)). destruct (R2 G') as (_ & V2 & _). specialize (V2 b). lia.
Qed.

Lemma propagate_full core st st' : 0 <= core < nodes axs -> good st -> lab (fst st) -> (forall a, 0 <= a < nodes axs -> a <> core -> ~ In a (q_heap (snd st)) -> relaxed (fst st) a) ->
  gen_propagate axs core st = Some st' ->
  rel st st' /\ meas st' <= meas st /\ lab (fst st') /\ (forall a, 0 <= a < nodes axs -> ~ In a (q_heap (snd st')) -> relaxed (fst st') a).
Proof.
  intros Hc G L S E. unfold gen_propagate in E. destruct (get (fst st) core) as [v|] eqn:Ev; [|discriminate]. cbn [bind] in E.
  pose proof G as (G1 & G2 & G3 & G4). destruct (G2 _ _ Ev) as [Gp Gv]. rewrite Gp in E. rewrite (addr_self gs Hg n' Hn core Hc) in E. cbn [bind] in E. rewrite Ev in E. cbn [bind] in E.
  destruct (propagate_fold core v st Hc Ev G L _ st st' (fun p H => H) G L Ev E) as (R & M & L' & K & Nb). split; [exact R|]. split; [exact M|]. split; [exact L'|].
  destruct (R G) as (G' & V & Lw & Hh). intros a Ha Na b Hb Hin. destruct (Z.eq_dec a core) as [->|Nc].
  - unfold val at 2. rewrite K. now apply Nb.
  - assert (val (fst st') a = val (fst st) a) as ->. { specialize (V a). destruct (Z.eq_dec (val (fst st') a) (val (fst st) a)); [auto|]. exfalso. apply Na, Lw. lia. }
    specialize (S a Ha Nc (fun H => Na (Hh a H)) b Hb Hin). specialize (V b). lia.
Qed.

Definition ready (st : fm_state) : Prop := good st /\ lab (fst st) /\ (forall a, 0 <= a < nodes axs -> ~ In a (q_heap (snd st)) -> relaxed (fst st) a).
(* the values at the first k seeds are zero *)
Definition sown (vox : list voxel) (k : Z) : Prop := forall j s, 0 <= j < k -> get S0 j = Some s -> inb (firstn (length gs) s) /\ forall a, 0 <= a < nodes axs -> position axs a = firstn (length gs) s -> val vox a <= 0.

Lemma march_step st a t : ready st -> q_heap (snd st) = a :: t -> forall st', (do q <- pq_pop (fst st) (snd st); gen_propagate axs a (fst st, q)) = Some st' ->
  ready st' /\ meas st' < meas st /\ forall x, val (fst st') x <= val (fst st) x.
Proof.
  intros (G & L & S) Eh st' E. destruct (pq_pop (fst st) (snd st)) as [q|] eqn:Ep; [|discriminate]. cbn [bind] in E.
  destruct G as (G1 & G2 & G3 & G4). destruct (pop_ok _ _ _ _ _ G3 Eh Ep) as [O P].
  assert (good (fst st, q)) as Gq. { split; [auto|]. split; [auto|]. split; [auto|]. intros b Hb. apply G4. rewrite Eh. right. eapply Permutation_in; [symmetry; exact P|exact Hb]. }
  destruct (propagate_full a (fst st, q) st') as (R & M & L' & S'); auto.
  { apply G4. rewrite Eh. simpl. auto. }
  { cbn [fst snd]. intros b Hb Nb Hq. apply S; auto. rewrite Eh. intros [H|H]; [congruence|]. apply Hq. eapply Permutation_in; eauto. }
  destruct (R Gq) as (G' & V & _). split; [split; auto|]. split; [|exact V].
  unfold meas in *. cbn [fst snd] in M. rewrite Eh. apply Permutation_length in P. unfold zlen in *. simpl length. lia.
Qed.

Lemma total_nonneg st : good st -> 0 <= total (fst st).
Proof.
  intros (_ & G2 & _). unfold total. assert (Forall (fun v => 0 <= v_val v) (fst st)) as F.
  { apply Forall_forall. intros v Hv. apply In_nth_error in Hv as [k Hk]. apply (G2 (Z.of_nat k)). rewrite SparseL.get_nth. exact Hk. }
  clear G2. induction F as [|v t H _ IH]; [reflexivity|]. cbn [map]. change (0 <= v_val v + sumZ (map v_val t)). lia.
Qed.
Lemma meas_nonneg st : good st -> 0 <= meas st.
Proof. intros G. pose proof (total_nonneg st G). unfold meas, zlen. lia. Qed.

Lemma march_ends : forall fuel st, ready st -> meas st < Z.of_nat fuel -> gen_march fuel axs st <> Unfinished.
Proof.
  induction fuel as [|f IH]; intros st R M; [pose proof (meas_nonneg st (proj1 R)); lia|]. cbn [gen_march]. destruct (q_heap (snd st)) as [|a t] eqn:Eh; [discriminate|].
  destruct (do q <- pq_pop (fst st) (snd st); gen_propagate axs a (fst st, q)) as [st1|] eqn:E1; [|discriminate]. cbn [of_opt obind].
  destruct (march_step st a t R Eh st1 E1) as (R1 & M1 & _). apply IH; [auto|lia].
Qed.
Lemma march_done : forall fuel st st', ready st -> gen_march fuel axs st = Done st' -> ready st' /\ q_heap (snd st') = [] /\ forall x, val (fst st') x <= val (fst st) x.
Proof.
  induction fuel as [|f IH]; intros st st' R E; [discriminate|]. cbn [gen_march] in E. destruct (q_heap (snd st)) as [|a t] eqn:Eh.
  - inversion E; subst. split; [auto|]. split; [auto|]. intros; lia.
  - destruct (do q <- pq_pop (fst st) (snd st); gen_propagate axs a (fst st, q)) as [st1|] eqn:E1; [|discriminate]. cbn [of_opt obind] in E.
    destruct (march_step st a t R Eh st1 E1) as (R1 & M1 & V1). destruct (IH st1 st' R1 E) as (R2 & Q2 & V2). split; [auto|]. split; [auto|]. intros x. specialize (V1 x). specialize (V2 x). lia.
Qed.

Lemma enqueue_full i s st st' : ready st -> 0 <= i -> get S0 i = Some s -> sown (fst st) i -> gen_enqueue axs i s st = Some st' ->
  ready st' /\ sown (fst st') (i + 1) /\ meas st' <= meas st.
Proof.
  intros (G & L & S) Hi Hs Sw E. unfold gen_enqueue in E. destruct (addr_vec false axs s 0) as [core|] eqn:Ea; [|discriminate]. cbn [bind] in E.
  destruct (map_opt _ (zrange 0 (zlen axs))) as [ins|] eqn:Ei; [|discriminate]. cbn [bind] in E. destruct (forallb (fun b => b) ins) eqn:Ef; [|discriminate]. cbn [guard bind] in E.
  destruct (get (fst st) core) as [v|] eqn:Ev; [|discriminate]. cbn [bind] in E. destruct (put (fst st) core (mkV (v_pos v) i 0)) as [vox|] eqn:Ep; [|discriminate]. cbn [bind] in E.
  pose proof (seed_len s _ Hs) as Ls. pose proof (axs_len gs n' Hn) as La.
  assert (inb (firstn (length gs) s)) as Is.
  { destruct (is_local_spec axs s ltac:(lia)) as (b & Eb & B). rewrite (axs_x0 gs), (axs_x1 gs) in B. unfold is_local in Eb.
    match type of Eb with (do bs <- ?m; _) = _ => destruct m as [bs|] eqn:Em; [|discriminate] end. cbn [bind] in Eb. injection Eb as Eb. unfold FastMarchL.inb. rewrite Hn, <- La. apply B. rewrite <- Eb.
    assert (bs = ins) as ->; [|auto]. enough (Some bs = Some ins) by congruence. rewrite <- Em, <- Ei. generalize (zrange 0 (zlen axs)). intros k. induction k as [|d k IH]; [reflexivity|]. cbn [map_opt]. rewrite IH.
    destruct (get s d), (get axs d); cbn [bind]; try reflexivity. now rewrite andb_comm. }
  assert (addr_vec false axs (firstn (length gs) s) 0 = Some core) as Ea'.
  { rewrite <- Ea, Hn, <- La. clear. generalize 0. revert s. induction axs as [|a t IH]; intros [|c s] q; simpl; auto. }
  destruct (addr_pos gs Hg n' Hn _ Is) as (core' & Ec & Hc & Pc). rewrite Ea' in Ec. injection Ec as <-.
  destruct G as (G1 & G2 & G3 & G4).
  assert (forall x, val vox x = if x =? core then 0 else val (fst st) x) as V.
  { intros x. unfold val. destruct (Z.eqb_spec x core) as [->|N]; [rewrite (get_put_eq _ _ _ _ Ep); reflexivity|]. now rewrite (get_put_ne _ _ _ _ _ Ep) by auto. }
  assert (forall x, 0 <= val (fst st) x) as Vp. { intros x. unfold val. destruct (get (fst st) x) as [w|] eqn:Ew; [apply (G2 _ _ Ew)|vm_compute; discriminate]. }
  assert (good (vox, snd st)) as Gv.
  { split; [cbn [fst]; now rewrite (put_len _ _ _ _ Ep)|]. split; [|split; [exact G3|exact G4]]. intros x w Hx. cbn [fst] in Hx. destruct (Z.eq_dec x core) as [->|N].
    - rewrite (get_put_eq _ _ _ _ Ep) in Hx. inversion Hx. simpl. split; [now apply (G2 core)|lia].
    - rewrite (get_put_ne _ _ _ _ _ Ep) in Hx by auto. now apply G2. }
  destruct (propagate_full core (vox, snd st) st' Hc Gv) as (R & M & L' & S'); [| |exact E|].
  { cbn [fst]. intros x w Hx. destruct (Z.eq_dec x core) as [->|N].
    - rewrite (get_put_eq _ _ _ _ Ep) in Hx. inversion Hx. cbn [v_val v_id]. split; [vm_compute; discriminate|]. right. exists s. split; [auto|].
      rewrite (manh_firstn (length gs)) by (rewrite Pc, firstn_length; lia). rewrite Pc, manh_self; [lia|auto|auto].
    - rewrite (get_put_ne _ _ _ _ _ Ep) in Hx by auto. now apply L. }
  { cbn [fst snd]. intros a Ha Na Hq b Hb Hin. rewrite !V. destruct (Z.eqb_spec a core); [congruence|]. specialize (S a Ha Hq b Hb Hin). pose proof (dist2_nonneg (position axs a) (position axs b)). specialize (Vp a). destruct (b =? core); lia. }
  destruct (R Gv) as (G' & V' & _). cbn [fst] in V'. split; [split; auto|]. split.
  - intros j t Hj Ht. destruct (Z.eq_dec j i) as [->|Nj].
    + rewrite Hs in Ht. injection Ht as <-. split; [auto|]. intros a Ha Pa. rewrite <- Pc in Pa. assert (a = core) as ->. { apply pos_inj; auto. }
      specialize (V' core). rewrite V, Z.eqb_refl in V'. lia.
    + destruct (Sw j t ltac:(lia) Ht) as [I1 I2]. split; [auto|]. intros a Ha Pa. specialize (I2 a Ha Pa). specialize (V' a). rewrite V in V'. destruct (a =? core); lia.
  - transitivity (meas (vox, snd st)); [exact M|]. unfold meas. cbn [fst snd]. rewrite (total_put _ _ _ _ _ Ev Ep). cbn [v_val]. destruct (G2 _ _ Ev). lia.
Qed.

Lemma enqueues_full : forall seeds pre st st', S0 = pre ++ seeds -> ready st -> sown (fst st) (zlen pre) -> gen_enqueues axs (zlen pre) seeds st = Some st' ->
  ready st' /\ sown (fst st') (zlen S0) /\ meas st' <= meas st.
Proof.
  induction seeds as [|s t IH]; intros pre st st' Sk R Sw E; cbn [gen_enqueues] in E.
  - injection E as <-. split; [auto|]. split; [|lia]. rewrite Sk, app_nil_r. exact Sw.
  - destruct (gen_enqueue axs (zlen pre) s st) as [st1|] eqn:E1; [|discriminate]. cbn [bind] in E.
    assert (get S0 (zlen pre) = Some s) as Hs. { unfold zlen. rewrite SparseL.get_nth, Sk, nth_error_app2, Nat.sub_diag by lia. reflexivity. }
    destruct (enqueue_full (zlen pre) s st st1 R ltac:(unfold zlen; lia) Hs Sw E1) as (R1 & Sw1 & M1).
    assert (zlen pre + 1 = zlen (pre ++ [s])) as Z1 by (unfold zlen; rewrite app_length; simpl; lia). rewrite Z1 in E, Sw1.
    destruct (IH (pre ++ [s]) st1 st') as (R2 & Sw2 & M2); auto; [now rewrite <- app_assoc|]. split; [auto|]. split; [auto|]. lia.
Qed.

(* straight paths: from the seed to any node of the box, one step at a time *)
Lemma path_bound vox : (forall a, 0 <= a < nodes axs -> relaxed vox a) -> forall c, 0 <= c < nodes axs -> val vox c <= 0 ->
  forall k : nat, forall a, 0 <= a < nodes axs -> manh (position axs a) (position axs c) = Z.of_nat k -> val vox a <= Z.of_nat k.
Proof.
  intros Rx c Hc Vc. induction k as [|k IH]; intros a Ha M.
  - destruct (list_eq_dec Z.eq_dec (position axs a) (position axs c)) as [E|N].
    + assert (a = c) as ->. { apply pos_inj; auto. } lia.
    + destruct (in_box_step gs _ _ (pos_in gs Hg n' Hn a Ha) (pos_in gs Hg n' Hn c Hc) N) as (z & _ & Mz & _). pose proof (manh_nonneg z (position axs c)). lia.
  - destruct (list_eq_dec Z.eq_dec (position axs a) (position axs c)) as [E|N].
    + rewrite E, manh_self in M by auto. lia.
    + destruct (in_box_step gs _ _ (pos_in gs Hg n' Hn a Ha) (pos_in gs Hg n' Hn c Hc) N) as (z & Iz & Mz & Dz & Fz). destruct (addr_pos gs Hg n' Hn z Iz) as (b & _ & Hb & Pb).
      specialize (IH b Hb ltac:(rewrite Pb; lia)). specialize (Rx b Hb a Ha). rewrite Pb in Rx. specialize (Rx (proj2 (around_in _ _) Fz)). lia.
Qed.

(* values and labels at the end of the march *)
Lemma final_labels st : sumZ (map glen gs) <= int_max -> ready st -> q_heap (snd st) = [] -> sown (fst st) (zlen S0) -> S0 <> [] ->
  forall a v, 0 <= a < nodes axs -> get (fst st) a = Some v -> exists s, get S0 (v_id v) = Some s /\ forall t, In t S0 -> manh (position axs a) s <= manh (position axs a) t.
Proof.
  intros Hsum (G & L & S) Q Sw Ne a v Ha Hv. destruct (L _ _ Hv) as [_ Lv].
  assert (forall t, In t S0 -> v_val v <= manh (position axs a) t) as Up.
  { intros t Ht. apply In_nth_error in Ht as [k Hk]. assert (get S0 (Z.of_nat k) = Some t) as Gk by (now rewrite SparseL.get_nth).
    destruct (Sw (Z.of_nat k) t) as [It Vt]; [split; [lia|]; eapply get_some_iff; eauto|auto|]. destruct (addr_pos gs Hg n' Hn _ It) as (c & _ & Hc & Pc).
    pose proof (path_bound (fst st) (fun x Hx => S x Hx ltac:(rewrite Q; auto)) c Hc (Vt c Hc Pc) (Z.to_nat (manh (position axs a) (position axs c))) a Ha) as P.
    rewrite Z2Nat.id in P by apply manh_nonneg. specialize (P eq_refl). rewrite Pc in P. rewrite (manh_firstn (length gs)); [|rewrite (inb_len gs n' Hn _ (pos_in gs Hg n' Hn a Ha)); auto].
    unfold val in P. rewrite Hv in P. exact P. }
  destruct Lv as [Lv|(s & Es & Ms)].
  - exfalso. assert (exists t, get S0 0 = Some t /\ In t S0 /\ 0 < zlen S0) as (t & Gt & It' & Zt). { clear - Ne. destruct S0 as [|t S0']; [congruence|]. exists t. split; [reflexivity|]. split; [simpl; auto|]. unfold zlen. simpl length. lia. }
    specialize (Up t It'). destruct (Sw 0 t) as [It _]; [lia|auto|].
    rewrite (manh_firstn (length gs)) in Up by (rewrite (inb_len gs n' Hn _ (pos_in gs Hg n' Hn a Ha)); auto).
    assert (manh (position axs a) (firstn (length gs) t) < sumZ (map glen gs)); [|lia].
    pose proof (pos_in gs Hg n' Hn a Ha) as Ia. revert Ia It. unfold FastMarchL.inb. assert (gs <> []) as Ng by (intros X; rewrite X in Hn; discriminate).
    generalize (position axs a) (firstn (length gs) t). revert Ng. clear. induction gs as [|g gs' IH]; intros Ng x y Hx Hy; [congruence|]. destruct x as [|b x], y as [|c y]; simpl in Hx, Hy; try easy. cbn [map manh]. destruct Hx, Hy.
    change (Z.abs (b - c) + manh x y < glen g + sumZ (map glen gs')). unfold glen at 1. destruct gs' as [|g' gs''].
    + destruct x, y; simpl in *; try easy. change (sumZ []) with 0. lia.
    + specialize (IH ltac:(discriminate) x y ltac:(auto) ltac:(auto)). lia.
  - exists s. split; [auto|]. intros t Ht. specialize (Up t Ht). lia.
Qed.

Lemma blank_ready : ready (blank_voxels axs, mkQ [] (fun _ => None)) /\ meas (blank_voxels axs, mkQ [] (fun _ => None)) = 2 * nodes axs * int_max.
Proof.
  pose proof (nodes_nonneg _ _ (wf gs Hg n' Hn)) as NN. pose proof (nodes_cells gs n' Hn) as NC.
  assert (forall a, 0 <= a < nodes axs -> get (blank_voxels axs) a = Some (mkV (position axs a) 0 int_max)) as GB.
  { intros a Ha. unfold blank_voxels. apply get_nth_error. split; [lia|]. rewrite NC. rewrite nth_error_map, nth_error_zrange by lia. cbn [option_map]. replace (0 + Z.of_nat (Z.to_nat a)) with a by lia. reflexivity. }
  assert (zlen (blank_voxels axs) = nodes axs) as ZB. { unfold blank_voxels. rewrite BaseL.zlen_map, NC, zlen_zrange by lia. lia. }
  assert (forall a v, get (blank_voxels axs) a = Some v -> 0 <= a < nodes axs /\ v = mkV (position axs a) 0 int_max) as GV.
  { intros a v Hv. assert (0 <= a < nodes axs) as Ha by (rewrite <- ZB; eapply get_some_iff; eauto). split; [auto|]. rewrite GB in Hv by auto. congruence. }
  split; [split; [|split]|].
  - split; [exact ZB|]. split; [|split; [split; [constructor|]|]]; cbn [fst snd q_heap q_back].
    + intros a v Hv. destruct (GV _ _ Hv) as [_ ->]. cbn [v_pos v_val]. split; [auto|]. vm_compute. discriminate.
    + simpl. tauto.
    + simpl. tauto.
  - intros a v Hv. cbn [fst] in Hv. destruct (GV _ _ Hv) as [_ ->]. cbn [v_val]. split; [lia|auto].
  - intros a Ha _ b Hb _. cbn [fst]. unfold val. rewrite !GB by auto. cbn [v_val]. pose proof (dist2_nonneg (position axs a) (position axs b)). lia.
  - unfold meas, total. cbn [fst snd q_heap]. change (zlen []) with 0. unfold blank_voxels. rewrite map_map. cbn [v_val]. rewrite NC.
    enough (forall l, sumZ (map (fun _ : Z => int_max) l) = zlen l * int_max) as X by (rewrite X, zlen_zrange by lia; lia).
    clear. intros l. induction l as [|x l IH]; [reflexivity|]. cbn [map]. change (int_max + sumZ (map (fun _ => int_max) l) = zlen (x :: l) * int_max). rewrite IH. unfold zlen. simpl length. nia.
Qed.
End March.
