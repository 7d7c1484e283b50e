From Coq Require Import Permutation.
From Verif Require Import Model.Base Model.Boundary Model.Layout Model.Access Model.Setup Model.Num Model.Sparse Model.Codec Model.MPI Model.Ghostswap Model.Simulate Model.Tessellate Model.FastMarch Model.Generators
  Spec.Box Spec.Access Spec.Tessellate Spec.Generators Proof.BaseL Proof.LayoutL Proof.AccessL Proof.SetupL Proof.SparseL Proof.TessellateL Proof.TessellateF Proof.FastMarchL Proof.HeapL Proof.GeneratorsL.

(* ---- a box of two or more axes, each of two or more cells, stays connected when one cell is taken out ---- *)
Local Notation boxed g x := (in_box (map gx_0 g) (map gx_1 g) x).
Definition adj (x y : list Z) : Prop := Forall2 (fun c d => c - 1 <= d <= c + 1) x y /\ dist2 x y = 1.
Lemma near_refl : forall x : list Z, Forall2 (fun c d => c - 1 <= d <= c + 1) x x.
Proof. induction x; constructor; [lia|auto]. Qed.
Lemma adj_sym x y : adj x y -> adj y x.
Proof.
  intros [F D]. split.
  - clear D. induction F; constructor; [lia|auto].
  - rewrite <- D. clear D. induction F as [|a b x y H _ IH]; simpl; [auto|]. rewrite IH. replace ((b - a) ^ 2) with ((a - b) ^ 2) by ring. reflexivity.
Qed.
Lemma box_connected g (P : list Z -> Prop) s : boxed g s -> P s -> (forall x y, boxed g x -> boxed g y -> adj x y -> P x -> P y) -> forall y, boxed g y -> P y.
Proof.
  intros Bs Ps Hp. assert (forall n y, boxed g y -> manh y s = Z.of_nat n -> P y) as H.
  { induction n as [|n IH]; intros y By M; destruct (list_eq_dec Z.eq_dec y s) as [->|N]; auto; destruct (in_box_step g y s By Bs N) as (z & Bz & Mz & Dz & Fz).
    - pose proof (manh_nonneg z s). lia.
    - apply (Hp z y); auto; [split; auto|]. apply IH; auto. lia. }
  intros y By. apply (H (Z.to_nat (manh y s))); auto. pose proof (manh_nonneg y s). lia.
Qed.
Lemma other g (a : Z) : gx_0 g + 2 <= gx_1 g -> exists u, gx_0 g <= u < gx_1 g /\ u <> a.
Proof. intros H. destruct (Z.eq_dec a (gx_0 g)); [exists (gx_0 g + 1)|exists (gx_0 g)]; lia. Qed.
Lemma others g gs a : Forall (fun g => gx_0 g + 2 <= gx_1 g) (g :: gs) -> exists u, boxed (g :: gs) u /\ u <> a.
Proof.
  intros H. inversion H as [|? ? H1 H2]; subst. destruct (other g (hd 0 a) H1) as (u & Hu & Nu). exists (u :: map gx_0 gs). split; [|intros E; rewrite <- E in Nu; auto].
  split; [auto|]. clear H H1 Hu Nu. induction H2; simpl; [auto|]. split; [lia|auto].
Qed.
Lemma punctured g1 g2 gs (P : list Z -> Prop) a s : Forall (fun g => gx_0 g + 2 <= gx_1 g) (g1 :: g2 :: gs) -> boxed (g1 :: g2 :: gs) s -> s <> a -> P s ->
  (forall x y, boxed (g1 :: g2 :: gs) x -> boxed (g1 :: g2 :: gs) y -> x <> a -> y <> a -> adj x y -> P x -> P y) -> forall y, boxed (g1 :: g2 :: gs) y -> y <> a -> P y.
Proof.
  intros H Bs Ns Ps Hp. inversion H as [|? ? H1 H2]; subst. destruct (other g1 (hd 0 a) H1) as (u1 & B1 & N1). destruct (others g2 gs (tl a) H2) as (u2 & B2 & N2).
  set (R := g2 :: gs) in *.
  (* along a column away from a, and along a row away from a *)
  assert (forall c x y, gx_0 g1 <= c < gx_1 g1 -> boxed R x -> boxed R y -> c <> hd 0 a -> P (c :: x) -> P (c :: y)) as Col.
  { intros c x y Hc Bx By Nc Px. revert y By. apply (box_connected R (fun y => P (c :: y)) x Bx Px). intros v w Bv Bw [A1 A2] Pv. apply (Hp (c :: v)); auto.
    - split; auto.
    - split; auto.
    - intros E. rewrite <- E in Nc. auto.
    - intros E. rewrite <- E in Nc. auto.
    - split; [constructor; [lia|auto]|]. simpl. rewrite A2. lia. }
  assert (forall c d x, gx_0 g1 <= c < gx_1 g1 -> gx_0 g1 <= d < gx_1 g1 -> boxed R x -> x <> tl a -> P (c :: x) -> P (d :: x)) as Row.
  { intros c d x Hc Hd Bx Nx Px. assert (forall y, boxed [g1] y -> P (y ++ x)) as Y; [|apply (Y [d]); split; [auto|exact I]].
    apply (box_connected [g1] (fun y => P (y ++ x)) [c]); [split; [auto|exact I]|exact Px|]. intros v w Bv Bw [A1 A2] Pv. destruct v as [|v1 [|]]; simpl in Bv; try tauto. destruct w as [|w1 [|]]; simpl in Bw; try tauto.
    simpl in *. apply (Hp (v1 :: x)); auto.
    - split; [tauto|auto].
    - split; [tauto|auto].
    - intros E. rewrite <- E in Nx. auto.
    - intros E. rewrite <- E in Nx. auto.
    - split; [inversion A1; subst; constructor; [lia|apply near_refl]|]. simpl. rewrite dist2_self. lia. }
  assert (P (u1 :: u2)) as Pu.
  { destruct s as [|s1 s2]; simpl in Bs; [tauto|]. destruct Bs as [Bs1 Bs2]. destruct (Z.eq_dec s1 (hd 0 a)) as [E1|Ne1].
    - destruct (list_eq_dec Z.eq_dec s2 (tl a)) as [E2|Ne2].
      + (* a is then a proper cell, equal to s *) destruct a as [|a1 a2]; [|simpl in E1, E2; congruence]. simpl in E2. subst s2. simpl in Bs2. tauto.
      + apply (Col u1 s2); auto. apply (Row s1); auto.
    - apply (Row s1); auto. apply (Col s1 s2); auto. }
  intros y By Ny. destruct y as [|y1 y2]; simpl in By; [tauto|]. destruct By as [By1 By2]. destruct (Z.eq_dec y1 (hd 0 a)) as [E1|Ne1].
  - destruct (list_eq_dec Z.eq_dec y2 (tl a)) as [E2|Ne2].
    + destruct a as [|a1 a2]; [|simpl in E1, E2; congruence]. simpl in E2. subst y2. simpl in By2. tauto.
    + apply (Row u1); auto. apply (Col u1 u2); auto.
  - apply (Col y1 u2); auto. apply (Row u1); auto.
Qed.

Lemma punctured_box gs (P : list Z -> Prop) a s : (2 <= length gs)%nat -> Forall (fun g => gx_0 g + 2 <= gx_1 g) gs -> boxed gs s -> s <> a -> P s ->
  (forall x y, boxed gs x -> boxed gs y -> x <> a -> y <> a -> adj x y -> P x -> P y) -> forall y, boxed gs y -> y <> a -> P y.
Proof. destruct gs as [|g1 [|g2 gs]]; simpl length; [lia|lia|]. intros _. apply punctured. Qed.

(* ---- the queue never goes wrong ---- *)
Lemma hord_put vox vox' b h w v : put vox b w = Some vox' -> get vox b = Some v -> v_val w <= v_val v -> NoDup h -> hord vox h -> forall i, get h i = Some b -> hole_up vox' h i.
Proof.
  intros Ep Ev Lw N H i Gi.
  assert (forall n, n <> i -> key vox' h n = key vox h n) as K.
  { intros n Nn. unfold key. destruct (get h n) as [x|] eqn:Ex; [|auto]. unfold val. assert (x <> b) as Nx by (intros ->; apply Nn; eapply get_inj; eauto). now rewrite (get_put_ne _ _ _ _ _ Ep) by auto. }
  assert (key vox' h i = v_val w) as Ki by (unfold key, val; now rewrite Gi, (get_put_eq _ _ _ _ Ep)). assert (key vox h i = v_val v) as Ki' by (unfold key, val; now rewrite Gi, Ev).
  split.
  - intros p c Kpc Lc Nc. rewrite (K c Nc). destruct (Z.eq_dec p i) as [->|Np]; [specialize (H i c Kpc Lc); lia|]. rewrite K by auto. auto.
  - intros p c Kp Kc Lc. rewrite !K by (unfold kid in *; lia). transitivity (key vox h i); apply H; auto. unfold kid in *. lia.
Qed.
Lemma hord_out vox vox' h : (forall a, In a h -> get vox' a = get vox a) -> hord vox h -> hord vox' h.
Proof.
  intros E H p c K L. specialize (H p c K L). assert (forall n, key vox' h n = key vox h n) as Y; [|now rewrite !Y].
  intros n. unfold key. destruct (get h n) as [x|] eqn:Ex; [|auto]. unfold val. rewrite E; [auto|]. eapply get_in; eauto.
Qed.

Section March.
Context (gs : list gaxis) (Hg2 : Forall (fun g => gx_0 g + 2 <= gx_1 g) gs) (n' : nat) (Hn : length gs = S n').
Notation axs := (distance_axes gs).
Notation good := (good gs).
Notation inb := (inb gs).
Notation near := (near gs).
Notation relaxed := (relaxed gs).
Definition R2 := sumZ (map (fun g => glen g ^ 2) gs).
Lemma Hg : Forall (fun g => gx_0 g < gx_1 g) gs.
Proof. eapply Forall_impl; [|exact Hg2]. simpl. lia. Qed.

Lemma in_vox st a : good st -> 0 <= a < nodes axs -> exists v, get (fst st) a = Some v.
Proof. intros (G1 & _) Ha. apply get_in_range. now rewrite G1. Qed.

Lemma relax_runs lo pos cd cid p st : 0 <= cd -> inb pos -> near p -> good st -> hord (fst st) (q_heap (snd st)) -> ex lo (snd st) -> cd + R2 <= int_max ->
  (forall b, In b (q_heap (snd st)) -> position axs b = zip_with wrap gs p -> cd + dist2 pos (position axs b) < val (fst st) b -> right_ (snd st) b) ->
  exists z, relax axs pos cd cid (p, st) = Some z /\ hord (fst (snd z)) (q_heap (snd (snd z))) /\ ex lo (snd (snd z)) /\
    (forall x, In x (q_heap (snd (snd z))) -> In x (q_heap (snd st)) \/ (0 <= x < nodes axs /\ position axs x = zip_with wrap gs p /\ val (fst (snd z)) x < val (fst st) x)) /\
    (forall x, val (fst (snd z)) x < val (fst st) x -> val (fst (snd z)) x = cd + dist2 pos (position axs x)).
Proof.
  intros Hcd Hp Hnr G H X Hb Hst. pose proof Hg as Hg. unfold relax. destruct (list_eq_dec Z.eq_dec p pos) as [->|Ne].
  { eexists. split; [reflexivity|]. cbn [fst snd]. split; [auto|]. split; [auto|]. split; [auto|]. intros; lia. }
  pose proof (near_len gs n' Hn p Hnr) as L. rewrite (moved gs n' Hn) by auto. cbn [bind]. set (p' := zip_with wrap gs p) in *. pose proof (zip_len gs n' Hn p L) as L'. fold p' in L'.
  destruct (inside_spec gs n' Hn p' L') as (bl & Eb & B). rewrite Eb. cbn [bind]. pose proof (near_wrap gs Hg p Hnr) as Ip. fold p' in Ip. rewrite (proj2 B Ip). cbn [negb].
  pose proof (inb_len gs n' Hn pos Hp) as Lp. assert (0 <= dist2 pos p' < R2) as Hr.
  { split; [apply dist2_nonneg|]. apply dist2_bound; [exact Hp| |]; [rewrite firstn_all2 by lia; exact Ip|]. intros E. rewrite E in Hn. discriminate. }
  assert (radiussq (length axs) pos p' = Some (dist2 pos p')) as ->.
  { unfold radiussq. replace (length axs) with (length pos) by (rewrite (axs_len gs n' Hn); lia). rewrite square_sum_dist by lia. cbn [bind]. destruct (Z.leb_spec (dist2 pos p') int_max); [reflexivity|lia]. }
  cbn [bind]. destruct (Z.leb_spec (cd + dist2 pos p') int_max); [|lia]. cbn [guard bind]. destruct st as [vox q]. cbn [fst snd] in *.
  destruct (addr_pos gs Hg n' Hn p' Ip) as (a & Ea & Ba & Pa). rewrite Ea. cbn [bind]. destruct (in_vox (vox, q) a G Ba) as [v Ev]. cbn [fst] in Ev. rewrite Ev. cbn [bind].
  assert (val vox a = v_val v) as Va by (unfold val; now rewrite Ev).
  destruct (Z.ltb_spec (cd + dist2 pos p') (v_val v)) as [Lt|Ge].
  2:{ eexists. split; [reflexivity|]. cbn [fst snd]. split; [auto|]. split; [auto|]. split; [auto|]. intros; lia. }
  destruct G as (G1 & G2 & G3 & G4). cbn [fst snd] in *.
  destruct (put_range vox a (mkV (v_pos v) cid (cd + dist2 pos p')) (get_range _ _ _ Ev)) as [vox' Ep]. rewrite Ep. cbn [bind].
  assert (has vox' (a :: q_heap q)) as V'. { intros x Hx. apply get_in_range. rewrite (put_len _ _ _ _ Ep), G1. destruct Hx as [<-|Hx]; auto. }
  assert (forall x, x <> a -> val vox' x = val vox x) as Vo by (intros x Nx; unfold val; now rewrite (get_put_ne _ _ _ _ _ Ep) by auto).
  assert (val vox' a = cd + dist2 pos p') as Va' by (unfold val; now rewrite (get_put_eq _ _ _ _ Ep)).
  assert (exists q', match q_back q a with None => pq_push vox' q a | Some _ => pq_update vox' q a end = Some q' /\ hord vox' (q_heap q') /\ ex lo q' /\ forall x, In x (q_heap q') -> x = a \/ In x (q_heap q)) as (q' & Eq & Hq & Xq & Iq).
  { destruct (q_back q a) as [i|] eqn:Ei.
    - assert (In a (q_heap q)) as Ia by (apply G3; congruence). destruct (update_full vox' lo q a) as (q' & Eq & Hq & Xq); auto.
      + intros x Hx. apply V'. simpl. auto.
      + apply Hst; auto. rewrite Pa, Va. lia.
      + intros i' Gi'. eapply hord_put; eauto; [cbn [v_val]; lia|apply G3].
      + exists q'. split; [auto|]. split; [auto|]. split; [auto|]. intros x Hx. right. destruct (update_ok _ _ _ _ G3 Eq) as [_ P]. eapply Permutation_in; [symmetry; exact P|auto].
    - destruct (push_full vox' lo q a) as (q' & Eq & Hq & Xq); auto.
      + eapply hord_out; [|exact H]. intros x Hx. apply (get_put_ne _ _ _ _ _ Ep). intros ->. apply G3 in Hx. congruence.
      + exists q'. split; [auto|]. split; [auto|]. split; [auto|]. intros x Hx. destruct (push_ok _ _ _ _ G3 Eq) as [_ P]. eapply Permutation_in in Hx; [|symmetry; exact P]. destruct Hx; auto. }
  rewrite Eq. cbn [bind]. eexists. split; [reflexivity|]. cbn [fst snd]. split; [auto|]. split; [auto|]. split.
  - intros x Hx. destruct (Iq x Hx) as [->|Hx']; [|auto]. right. split; [auto|]. split; [auto|]. lia.
  - intros x Hx. destruct (Z.eq_dec x a) as [->|Nx]; [rewrite Pa; auto|]. rewrite Vo in Hx by auto. lia.
Qed.

(* marching from [core], of value cd: nothing outside the queue is farther than cd, nothing in it is nearer; s0 is a seed *)
Definition calm (core cd s0 : Z) (st : fm_state) : Prop :=
  good st /\ hord (fst st) (q_heap (snd st)) /\ ex 1 (snd st) /\
  (forall a, 0 <= a < nodes axs -> a <> core -> ~ In a (q_heap (snd st)) -> relaxed (fst st) a) /\
  (forall a, 0 <= a < nodes axs -> a <> core -> ~ In a (q_heap (snd st)) -> val (fst st) a < int_max -> val (fst st) a <= cd) /\
  (forall a, In a (q_heap (snd st)) -> cd <= val (fst st) a) /\
  (0 <= s0 < nodes axs /\ s0 <> core /\ ~ In s0 (q_heap (snd st)) /\ val (fst st) s0 <= 0).

Lemma frontier core cd s0 st : (2 <= length gs)%nat -> 0 <= core < nodes axs -> 0 <= cd -> cd + 1 < int_max -> calm core cd s0 st ->
  forall b, In b (q_heap (snd st)) -> b <> core -> exists x, In x (q_heap (snd st)) /\ val (fst st) x <= cd + 1.
Proof.
  intros Hd Hc Hcd Hm (G & H & X & Rx & P1 & P3 & S1 & S2 & S3 & S4) b Ib Nb. pose proof Hg as Hg.
  destruct (Exists_dec (fun x => val (fst st) x <= cd + 1) (q_heap (snd st)) (fun x => Z_le_dec _ _)) as [E|E]; [apply Exists_exists in E; exact E|]. exfalso.
  assert (forall x, In x (q_heap (snd st)) -> cd + 1 < val (fst st) x) as F. { intros x Hx. destruct (Z_le_dec (val (fst st) x) (cd + 1)) as [Le|]; [|lia]. exfalso. apply E. apply Exists_exists. eauto. }
  assert (forall y, boxed gs y -> y <> position axs core -> exists a, 0 <= a < nodes axs /\ position axs a = y /\ ~ In a (q_heap (snd st)) /\ val (fst st) a <= cd) as Y.
  { assert (boxed gs (position axs s0)) as Bs by (apply (pos_in gs Hg n' Hn); auto). assert (position axs s0 <> position axs core) as Ns by (intros Eq; apply S2; eapply pos_inj; eauto).
    apply (punctured_box gs (fun y => exists a, 0 <= a < nodes axs /\ position axs a = y /\ ~ In a (q_heap (snd st)) /\ val (fst st) a <= cd) (position axs core) (position axs s0) Hd Hg2 Bs Ns).
    - exists s0. repeat split; auto; lia.
    - intros x y Bx By Nx Ny [A1 A2] (a & A & Pa & Qa & Va). destruct (addr_pos gs Hg n' Hn y By) as (c & _ & C & Pc). exists c. split; [auto|]. split; [auto|].
      assert (a <> core) as Nac by congruence. assert (c <> core) as Ncc by congruence.
      assert (val (fst st) c <= cd + 1) as Vc. { specialize (Rx a A Nac Qa c C). rewrite Pa, Pc, A2 in Rx. specialize (Rx (proj2 (around_in _ _) A1)). lia. }
      assert (~ In c (q_heap (snd st))) as Qc by (intros I; specialize (F c I); lia). split; [auto|]. apply P1; auto. lia. }
  assert (0 <= b < nodes axs) as Bb by (destruct G as (_ & _ & _ & G4); auto).
  destruct (Y (position axs b)) as (a & A & Pa & Qa & _); [apply (pos_in gs Hg n' Hn); auto|intros Eq; apply Nb; eapply pos_inj; eauto|].
  apply Qa. replace a with b; [auto|]. symmetry. eapply pos_inj; eauto.
Qed.

Lemma calm_relax core cd cid s0 p (st : fm_state) v : (2 <= length gs)%nat -> 0 <= core < nodes axs -> 0 <= cd -> cd + R2 <= int_max -> cd + 1 < int_max -> In p (around (position axs core)) ->
  get (fst st) core = Some v -> v_val v = cd -> ~ In core (q_heap (snd st)) -> calm core cd s0 st ->
  exists z, relax axs (position axs core) cd cid (p, st) = Some z /\ calm core cd s0 (snd z) /\ ~ In core (q_heap (snd (snd z))) /\ get (fst (snd z)) core = Some v.
Proof.
  intros Hd Hc Hcd Hb Hm Hin Ev Evv Nc C. pose proof Hg as Hg. pose proof (pos_in gs Hg n' Hn core Hc) as Ip. pose proof (around_near gs _ p Ip Hin) as Hnr.
  pose proof C as (G & H & X & Rx & P1 & P3 & S1 & S2 & S3 & S4).
  destruct (relax_runs 1 (position axs core) cd cid p st Hcd Ip Hnr G H X Hb) as (z & Ez & Hz & Xz & Iz & Lz).
  { intros b Ib Pb Lt. assert (b <> core) as Nb by congruence. assert (0 <= b < nodes axs) as Bb by (destruct G as (_ & _ & _ & G4); auto).
    destruct (frontier core cd s0 st Hd Hc Hcd Hm C b Ib Nb) as (x & Ix & Vx). apply in_get in Ib as [i Gi]. apply in_get in Ix as [j Gj].
    assert (1 <= dist2 (position axs core) (position axs b)) as D1.
    { assert (position axs core <> position axs b) as Np by (intros Eq; apply Nb; symmetry; eapply pos_inj; eauto).
      pose proof (manh_dist2 (position axs core) (position axs b)) as M. pose proof (inb_len gs n' Hn _ Ip) as L1. pose proof (inb_len gs n' Hn _ (pos_in gs Hg n' Hn b Bb)) as L2. revert Np M L1 L2. clear.
      intros Np M L1 L2. destruct (Z.eq_dec (manh (position axs core) (position axs b)) 0) as [E|N]; [|pose proof (manh_nonneg (position axs core) (position axs b)); lia].
      exfalso. apply Np. assert (length (position axs core) = length (position axs b)) as L by lia. revert E L. generalize (position axs core) (position axs b). clear.
      induction l as [|a l IH]; intros [|b m] E L; simpl in *; try discriminate; auto. pose proof (manh_nonneg l m). f_equal; [lia|]. apply IH; lia. }
    destruct (Z.eq_dec i 0) as [->|Ni].
    - exfalso. pose proof (hord_min (fst st) (q_heap (snd st)) H j (get_range _ _ _ Gj)) as M. unfold key in M. rewrite Gi, Gj in M. lia.
    - exists i. split; [apply X; [pose proof (get_range _ _ _ Gi); lia|auto]|auto]. }
  destruct (relax_full gs Hg n' Hn _ _ _ _ _ _ Hcd Ip Hnr G Ez) as (R & _). destruct (R G) as (Gz & Vz & Lw & Hh).
  assert (forall x, ~ In x (q_heap (snd (snd z))) -> val (fst (snd z)) x = val (fst st) x) as Same. { intros x Nx. specialize (Vz x). destruct (Z.eq_dec (val (fst (snd z)) x) (val (fst st) x)); [auto|]. exfalso. apply Nx, Lw. lia. }
  assert (val (fst st) core = cd) as Vc by (unfold val; now rewrite Ev).
  assert (~ In core (q_heap (snd (snd z)))) as Nc'. { intros I. destruct (Iz core I) as [I'|(_ & _ & I')]; [auto|]. pose proof (Lz core I') as L. rewrite dist2_self in L. lia. }
  exists z. split; [auto|]. split; [|split; [auto|]].
  - split; [auto|]. split; [auto|]. split; [auto|]. split; [|split; [|split; [|split; [auto|split; [auto|]]]]].
    + intros a Ha Na Qa b Hb' Ib. rewrite (Same a Qa). specialize (Rx a Ha Na (fun I => Qa (Hh a I)) b Hb' Ib). specialize (Vz b). lia.
    + intros a Ha Na Qa. rewrite (Same a Qa). apply P1; auto.
    + intros a Ia. destruct (Z.eq_dec (val (fst (snd z)) a) (val (fst st) a)) as [Eq|Nq].
      * destruct (Iz a Ia) as [Ia'|(_ & _ & Ia')]; [rewrite Eq; auto|lia].
      * specialize (Vz a). rewrite (Lz a) by lia. pose proof (dist2_nonneg (position axs core) (position axs a)). lia.
    + assert (val (fst (snd z)) s0 = val (fst st) s0) as Es. { specialize (Vz s0). destruct (Z.eq_dec (val (fst (snd z)) s0) (val (fst st) s0)); [auto|]. pose proof (Lz s0 ltac:(lia)). pose proof (dist2_nonneg (position axs core) (position axs s0)). lia. }
      split; [|lia]. intros I. destruct (Iz s0 I) as [I'|(_ & _ & I')]; [auto|lia].
  - (* the core voxel itself is untouched *)
    pose proof (relax_full gs Hg n' Hn _ _ _ _ _ _ Hcd Ip Hnr G Ez) as (_ & _ & CC & DD). destruct (list_eq_dec Z.eq_dec p (position axs core)) as [->|Np]; [rewrite DD; auto|].
    destruct (CC Np) as (b & Hb' & Pb & [[-> _]|(Lt & Gb & Go)]); [auto|]. destruct (Z.eq_dec core b) as [<-|Nb]; [rewrite dist2_self in Lt; lia|]. now rewrite Go.
Qed.

Lemma calm_propagate core cd s0 (st : fm_state) v : (2 <= length gs)%nat -> 0 <= core < nodes axs -> 0 <= cd -> cd + R2 <= int_max -> cd + 1 < int_max ->
  get (fst st) core = Some v -> v_val v = cd -> ~ In core (q_heap (snd st)) -> calm core cd s0 st ->
  exists st', gen_propagate axs core st = Some st' /\ calm core cd s0 st' /\ ~ In core (q_heap (snd st')) /\ get (fst st') core = Some v.
Proof.
  intros Hd Hc Hcd Hb Hm Ev Evv Nc C. unfold gen_propagate. rewrite Ev. cbn [bind]. pose proof C as ((_ & G2 & _) & _). rewrite (proj1 (G2 _ _ Ev)), (addr_self gs Hg n' Hn core Hc). cbn [bind]. rewrite Ev. cbn [bind].
  rewrite Evv. assert (forall p, In p (around (position axs core)) -> In p (around (position axs core))) as Hl by auto. revert Hl. generalize (around (position axs core)) at 1 3. intros l. revert st Ev Nc C G2.
  induction l as [|p l IH]; intros st Ev Nc C _ Hl.
  - exists st. split; [reflexivity|]. auto.
  - cbn [fold_opt]. destruct (calm_relax core cd (v_id v) s0 p st v) as (z & Ez & Cz & Nz & Gz); auto; [apply Hl; simpl; auto|]. rewrite Ez. cbn [bind]. apply IH; auto; [apply Cz|]. intros p' Hp'. apply Hl. simpl. auto.
Qed.

Definition idle (cd s0 : Z) (st : fm_state) : Prop :=
  good st /\ hord (fst st) (q_heap (snd st)) /\ ex 1 (snd st) /\
  (forall a, 0 <= a < nodes axs -> ~ In a (q_heap (snd st)) -> relaxed (fst st) a) /\
  (forall a, 0 <= a < nodes axs -> ~ In a (q_heap (snd st)) -> val (fst st) a < int_max -> val (fst st) a <= cd) /\
  (forall a, In a (q_heap (snd st)) -> cd <= val (fst st) a) /\
  (0 <= s0 < nodes axs /\ ~ In s0 (q_heap (snd st)) /\ val (fst st) s0 <= 0).

Lemma idle_path cd s0 st : idle cd s0 st -> forall k : nat, forall a, 0 <= a < nodes axs -> manh (position axs a) (position axs s0) = Z.of_nat k ->
  val (fst st) a <= Z.of_nat k \/ exists y, In y (q_heap (snd st)) /\ val (fst st) y <= Z.of_nat k.
Proof.
  intros (G & H & X & Rx & P1 & P3 & S1 & S3 & S4). pose proof Hg as Hg. induction k as [|k IH]; intros a Ha M.
  - left. destruct (list_eq_dec Z.eq_dec (position axs a) (position axs s0)) as [E|N]; [assert (a = s0) as -> by (eapply pos_inj; eauto); lia|].
    destruct (in_box_step gs _ _ (pos_in gs Hg n' Hn a Ha) (pos_in gs Hg n' Hn s0 S1) N) as (z & _ & Mz & _). pose proof (manh_nonneg z (position axs s0)). lia.
  - destruct (list_eq_dec Z.eq_dec (position axs a) (position axs s0)) as [E|N]; [rewrite E, manh_self in M by auto; lia|].
    destruct (in_box_step gs _ _ (pos_in gs Hg n' Hn a Ha) (pos_in gs Hg n' Hn s0 S1) N) as (z & Iz & Mz & Dz & Fz). destruct (addr_pos gs Hg n' Hn z Iz) as (b & _ & Hb & Pb).
    destruct (IH b Hb ltac:(rewrite Pb; lia)) as [V|(y & Iy & Vy)]; [|right; exists y; split; [auto|lia]].
    destruct (in_dec Z.eq_dec b (q_heap (snd st))) as [Ib|Nb]; [right; exists b; split; [auto|lia]|]. left. specialize (Rx b Hb Nb a Ha). rewrite Pb in Rx. specialize (Rx (proj2 (around_in _ _) Fz)). lia.
Qed.
Lemma manh_box : forall (g : list gaxis) x y, in_box (map gx_0 g) (map gx_1 g) x -> in_box (map gx_0 g) (map gx_1 g) y -> manh x y <= sumZ (map glen g).
Proof.
  induction g as [|g gs' IH]; intros [|b x] [|c y] Hx Hy; simpl in Hx, Hy; try easy. cbn [map manh]. destruct Hx, Hy. specialize (IH x y ltac:(auto) ltac:(auto)).
  change (Z.abs (b - c) + manh x y <= glen g + sumZ (map glen gs')). unfold glen at 1. lia.
Qed.

Context (S0 : list seed) (HS : Forall (fun s => (length gs <= length s)%nat) S0).
Lemma idle_step cd s0 st a t : (2 <= length gs)%nat -> sumZ (map glen gs) + R2 <= int_max -> sumZ (map glen gs) + 1 < int_max -> 0 <= cd -> idle cd s0 st -> ready gs S0 st -> q_heap (snd st) = a :: t ->
  exists st', (do q <- pq_pop (fst st) (snd st); gen_propagate axs a (fst st, q)) = Some st' /\ idle (val (fst st) a) s0 st' /\ ready gs S0 st' /\ 0 <= val (fst st) a.
Proof.
  intros Hd Hs Hs1 Hcd I Rd Eh. pose proof I as (G & H & X & Rx & P1 & P3 & S1 & S3 & S4). pose proof Hg as Hg. pose proof G as (G1 & G2 & G3 & G4).
  assert (has (fst st) (q_heap (snd st))) as V by (intros x Hx; apply (in_vox st x G); auto).
  destruct (pop_full (fst st) (snd st) a t G3 V X H Eh) as (q & Ep & Hq & Xq). rewrite Ep. cbn [bind]. destruct (pop_ok _ _ _ _ _ G3 Eh Ep) as [O P].
  assert (0 <= a < nodes axs) as Ha by (apply G4; rewrite Eh; simpl; auto). assert (In a (q_heap (snd st))) as Ia by (rewrite Eh; simpl; auto).
  assert (forall x, In x (q_heap (snd st)) -> val (fst st) a <= val (fst st) x) as Min.
  { intros x Hx. apply in_get in Hx as [i Gi]. pose proof (hord_min (fst st) _ H i (get_range _ _ _ Gi)) as M. unfold key in M. rewrite Gi in M. rewrite Eh in M. change (get (a :: t) 0) with (Some a) in M. exact M. }
  assert (val (fst st) a <= sumZ (map glen gs)) as Bd.
  { pose proof (manh_box gs _ _ (pos_in gs Hg n' Hn a Ha) (pos_in gs Hg n' Hn s0 S1)) as MB. pose proof (manh_nonneg (position axs a) (position axs s0)).
    destruct (idle_path cd s0 st I (Z.to_nat (manh (position axs a) (position axs s0))) a Ha ltac:(lia)) as [V1|(y & Iy & Vy)]; [lia|]. specialize (Min y Iy). lia. }
  assert (forall x, In x q.(q_heap) <-> In x t) as It by (intros x; split; apply Permutation_in; [symmetry|]; exact P). assert (~ In a t) as Nat. { destruct G3 as [N _]. rewrite Eh in N. now inversion N. }
  destruct (in_vox st a G Ha) as [v Ev]. pose proof (P3 a Ia) as Pa.
  destruct (calm_propagate a (val (fst st) a) s0 (fst st, q) v) as (st' & E' & C' & N' & K'); auto; cbn [fst snd]; try lia.
  - unfold val. now rewrite Ev.
  - rewrite It. auto.
  - split; [|split; [auto|split; [auto|split; [|split; [|split; [|split; [auto|split; [|split]]]]]]]]; cbn [fst snd].
    + split; [auto|]. split; [auto|]. split; [auto|]. intros x Hx. apply G4. rewrite Eh. right. now apply It.
    + intros x Hx Nx Qx. apply Rx; auto. rewrite Eh. intros [|I']; [congruence|]. now apply Qx, It.
    + intros x Hx Nx Qx Fx. transitivity cd; [|auto]. apply P1; auto. rewrite Eh. intros [|I']; [congruence|]. now apply Qx, It.
    + intros x Hx. apply Min. rewrite Eh. right. now apply It.
    + intros ->. auto.
    + intros Q. apply S3. rewrite Eh. right. now apply It.
    + auto.
  - assert (ready gs S0 st') as Rd' by (apply (march_step gs Hg n' Hn S0 HS st a t Rd Eh st'); rewrite Ep; exact E').
    exists st'. split; [auto|]. split; [|split; [auto|lia]]. destruct C' as (G' & H' & X' & Rx' & P1' & P3' & S1' & S2' & S3' & S4').
    assert (val (fst st') a = val (fst st) a) as Va by (unfold val; now rewrite K', Ev).
    split; [auto|]. split; [auto|]. split; [auto|]. split; [apply Rd'|split; [|split; [auto|split; [auto|split; [auto|auto]]]]].
    + intros x Hx Qx Fx. destruct (Z.eq_dec x a) as [->|Nx]; [lia|auto].
Qed.
End March.
