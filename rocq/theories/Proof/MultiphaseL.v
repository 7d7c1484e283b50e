(* the anisotropic dense multiphase step *)
From Coq Require Import QArith.QArith QArith.Qcanon Lqa.
From Verif Require Import Model.Base Model.Boundary Model.Layout Model.Access Model.Stencil Model.Evolve Model.Dynamics Spec.Box Spec.Access Spec.Stencil Spec.Dynamics
  Proof.BaseL Proof.LayoutL Proof.AccessL Proof.StencilL Proof.StencilS Proof.StencilQ Proof.StencilM Proof.EndianF Proof.RandomL Proof.DynamicsL Proof.DynamicsF Proof.DynamicsB.
Local Open Scope list_scope.
Local Open Scope Z_scope.

Lemma sumQ_set l i q : (i < length l)%nat -> sumQ (set_nth i l q) = (sumQ l - nth i l 0 + q)%Qc.
Proof.
  revert i; induction l as [|a l IH]; intros [|i] H; simpl in H; try lia; cbn [set_nth sumQ nth]; [ring|]. rewrite IH by lia. ring.
Qed.
Lemma bump_ok v h q : 0 <= h < zlen v -> exists v', bump v h q = Some v' /\ zlen v' = zlen v /\ sumQ v' = (sumQ v + q)%Qc /\
  forall j, 0 <= j < zlen v -> comp j v' = if j =? h then (comp j v + q)%Qc else comp j v.
Proof.
  intros H. unfold bump. rewrite comp_get by auto. cbn [bind]. assert (put v h (comp h v + q)%Qc = Some (set_nth (Z.to_nat h) v (comp h v + q)%Qc)) as P by now apply put_ok.
  rewrite P. eexists. split; [reflexivity|]. split; [now apply put_len in P|]. split.
  - rewrite sumQ_set by (unfold zlen in H; lia). fold (comp h v). ring.
  - intros j Hj. destruct (Z.eqb_spec j h) as [->|Nj].
    + unfold comp. rewrite nth_set_nth by (unfold zlen in H; lia). reflexivity.
    + pose proof (get_put_ne _ _ _ j _ P ltac:(lia)) as G. rewrite !comp_get in G by (rewrite ?(put_len _ _ _ _ P); auto). congruence.
Qed.

Lemma fold_range_inv {S} (P : S -> Prop) (f : S -> Z -> option S) lo hi s : P s ->
  (forall i s, lo <= i < hi -> P s -> exists s', f s i = Some s' /\ P s') -> exists s', fold_opt f (zrange lo hi) s = Some s' /\ P s'.
Proof.
  intros P0 H. destruct (Z.le_gt_cases lo hi) as [Le|Gt].
  - apply (fold_inv (fun _ => P)); auto.
  - rewrite zrange_nil by lia. cbn [fold_opt]. eauto.
Qed.
Lemma vpairs_inv (P : list Qc -> Prop) s f start : P start ->
  (forall acc h j, 0 <= h < j -> j < zlen s -> get s h = Some true -> get s j = Some true -> P acc -> exists acc', f acc h j = Some acc' /\ P acc') ->
  exists r, vpairs s f start = Some r /\ P r.
Proof.
  intros P0 H. unfold vpairs. apply fold_range_inv; auto. intros h acc Hh Pa. destruct (get_ok s h Hh) as [sh Eh]. rewrite Eh. cbn [bind].
  destruct sh; [|eauto]. apply fold_range_inv; auto. intros j acc' Hj Pa'. destruct (get_ok s j ltac:(lia)) as [sj Ej]. rewrite Ej. cbn [bind].
  destruct sj; [|eauto]. apply H; auto; lia.
Qed.

Definition adds (v v' : list Qc) (q : Qc) : Prop := zlen v' = zlen v /\ sumQ v' = (sumQ v + q)%Qc.

Lemma variation_ok width energy eps cell l s : zlen cell = zlen s -> zlen l = zlen s ->
  exists d, variation width energy eps cell l s = Some d /\ zlen d = zlen s.
Proof.
  intros Lc Ll. unfold variation. apply (vpairs_inv (fun d => zlen d = zlen s)).
  - unfold zlen. now rewrite repeat_length.
  - intros d h j Hh Hj _ _ Ld. rewrite !comp_get by lia. cbn [bind].
    destruct (bump_ok d h (half * eps h j * eps h j * comp j l + c4 * energy h j / width * comp j cell)%Qc ltac:(lia)) as (d1 & -> & L1 & _). cbn [bind].
    destruct (bump_ok d1 j (half * eps h j * eps h j * comp h l + c4 * energy h j / width * comp h cell)%Qc ltac:(lia)) as (d2 & -> & L2 & _). cbn [bind].
    apply fold_range_inv; [lia|]. intros k e Hk Le. destruct (get_ok s k ltac:(lia)) as [sk Ek]. rewrite Ek. cbn [bind]. destruct sk; [|eauto].
    rewrite comp_get by lia. cbn [bind].
    destruct (bump_ok e h (c3 * comp j cell * comp k cell)%Qc ltac:(lia)) as (e1 & -> & M1 & _). cbn [bind].
    destruct (bump_ok e1 j (c3 * comp k cell * comp h cell)%Qc ltac:(lia)) as (e2 & -> & M2 & _). cbn [bind].
    destruct (bump_ok e2 k (c3 * comp h cell * comp j cell)%Qc ltac:(lia)) as (e3 & -> & M3 & _). exists e3. split; [reflexivity|lia].
Qed.
Lemma sumQ_repeat n : sumQ (repeat 0%Qc n) = 0%Qc.
Proof. induction n as [|n IH]; [reflexivity|]. cbn [repeat sumQ]. rewrite IH. ring. Qed.
Lemma velocity_ok mobility pinned dF s : zlen dF = zlen s ->
  exists d, velocity mobility pinned dF s = Some d /\ zlen d = zlen s /\ sumQ d = 0%Qc.
Proof.
  intros Lf. unfold velocity. apply (vpairs_inv (fun d => zlen d = zlen s /\ sumQ d = 0%Qc)).
  - split; [unfold zlen; now rewrite repeat_length|apply sumQ_repeat].
  - intros d h j Hh Hj _ _ (Ld & Sd). rewrite !comp_get by lia. cbn [bind]. set (mu := if pinned && ((h =? 0) || (j =? 0)) then 0%Qc else mobility h j).
    destruct (bump_ok d h (- (mu * (comp h dF - comp j dF)))%Qc ltac:(lia)) as (d1 & -> & L1 & S1 & _). cbn [bind].
    destruct (bump_ok d1 j (- (mu * (comp j dF - comp h dF)))%Qc ltac:(lia)) as (d2 & -> & L2 & S2 & _). exists d2. split; [reflexivity|]. split; [lia|].
    rewrite S2, S1, Sd. ring.
Qed.

Definition raw dt S (cell dpdt : list Qc) (h : Z) : Qc := (comp h cell + dt * (c2 / q_of S) * comp h dpdt)%Qc.
Definition settled dt S cell dpdt : list Qc :=
  let sum := sumQ (map (fun h => clamp (raw dt S cell dpdt h)) (zrange 0 (zlen cell))) in
  let rsum := if Qc_eq_dec sum 0 then 0%Qc else (/ sum)%Qc in tab (zlen cell) (fun h => clamp (raw dt S cell dpdt h) * rsum)%Qc.
Lemma settle_eq dt S cell dpdt cell' : zlen dpdt = zlen cell -> zlen cell' = zlen cell ->
  settle dt S cell dpdt cell' = Some (settled dt S cell dpdt).
Proof.
  intros Ld Lc. unfold settle. set (n := zlen cell) in *. assert (0 <= n) as Hn by apply zlen_nonneg. set (t := fun h => clamp (raw dt S cell dpdt h)).
  destruct (fold_inv (fun m st => fst st = tab n (fun h => if h <? m then t h else comp h cell') /\ snd st = sumQ (map t (zrange 0 m)))
    (fun '(cell', sum) h =>
      do p <- get cell h; do d <- get dpdt h;
      let value := clamp (p + dt * (c2 / q_of S) * d)%Qc in
      do cell' <- put cell' h value;
      Some (cell', sum + value)%Qc) 0 n (cell', 0%Qc)) as ([c' sm] & E & E1 & E2); auto.
  - split; [|now rewrite zrange_nil]. cbn [fst]. rewrite (list_tab cell') at 1. rewrite Lc. apply tab_ext. intros j Hj. destruct (Z.ltb_spec j 0); [lia|reflexivity].
  - intros h [c' sm] Hh (E1 & E2). cbn [fst snd] in *. subst c' sm. rewrite (comp_get cell) by (fold n; lia). cbn [bind]. rewrite comp_get by lia. cbn [bind]. fold (raw dt S cell dpdt h). fold (t h).
    rewrite put_tab by auto. cbn [bind]. eexists. split; [reflexivity|]. cbn [fst snd]. split.
    + apply tab_ext. intros j Hj. destruct (Z.eqb_spec j h) as [->|]; [destruct (Z.ltb_spec h (h + 1)); [reflexivity|lia]|]. destruct (Z.ltb_spec j h), (Z.ltb_spec j (h + 1)); auto; lia.
    + rewrite zrange_snoc by lia. rewrite map_app, sumQ_app. cbn [map sumQ]. ring.
  - cbn [fst snd] in *. subst c' sm. rewrite E. cbn [bind]. unfold settled. fold n. fold t. set (sum := sumQ _). set (rsum := if Qc_eq_dec sum 0 then 0%Qc else (/ sum)%Qc).
    rewrite (tab_ext n (fun h => if h <? n then t h else comp h cell') t) by (intros j Hj; destruct (Z.ltb_spec j n); [reflexivity|lia]).
    rewrite (fold_tab _ n n (fun _ v => v * rsum)%Qc) by (try lia; intros j G Hj; rewrite get_tab by auto; reflexivity).
    f_equal. apply tab_ext. intros j Hj. destruct (Z.ltb_spec j n); [reflexivity|lia].
Qed.

Lemma qgt_spec a b : qgt a b = true <-> (b < a)%Qc.
Proof. unfold qgt. destruct (Qclt_le_dec b a); split; intros; auto; try discriminate. exfalso. eapply Qclt_not_le; eauto. Qed.
Lemma clamp_range v : (0 <= clamp v <= 1)%Qc.
Proof.
  unfold clamp. destruct (qgt v 1) eqn:A.
  - destruct (qgt 0 1) eqn:B; [apply qgt_spec in B; discriminate|]. split; [discriminate|apply Qcle_refl].
  - assert (v <= 1)%Qc as V. { apply Qcnot_lt_le. intros H. apply qgt_spec in H. congruence. }
    destruct (qgt 0 v) eqn:B; [split; [apply Qcle_refl|discriminate]|]. split; [|auto]. apply Qcnot_lt_le. intros H. apply qgt_spec in H. congruence.
Qed.
Lemma clamp_le v : (v <= 1 -> v <= clamp v)%Qc.
Proof.
  intros V. unfold clamp. destruct (qgt v 1) eqn:A; [apply qgt_spec in A; exfalso; eapply Qclt_not_le; eauto|].
  destruct (qgt 0 v) eqn:B; [apply qgt_spec in B; now apply Qclt_le_weak|apply Qcle_refl].
Qed.
Lemma clamp_pos v : (0 < v -> 0 < clamp v)%Qc.
Proof.
  intros V. unfold clamp. destruct (qgt v 1) eqn:A.
  - destruct (qgt 0 1) eqn:B; [apply qgt_spec in B; discriminate|reflexivity].
  - destruct (qgt 0 v) eqn:B; [|auto]. apply qgt_spec in B. exfalso. eapply Qclt_not_le; eauto. now apply Qclt_le_weak.
Qed.

Lemma sumQ_pos_ex (f : Z -> Qc) l : (0 < sumQ (map f l))%Qc -> exists j, In j l /\ (0 < f j)%Qc.
Proof.
  induction l as [|a l IH]; intros H; [discriminate|]. destruct (Qclt_le_dec 0 (f a)) as [P|P]; [exists a; split; [now left|auto]|].
  destruct IH as (j & I & J); [|exists j; split; [now right|auto]]. cbn [map sumQ] in H. unfold Qclt, Qcle in *. rewrite this_add in H. change (this 0) with 0%Q in *. lra.
Qed.
Lemma comp_sum v : sumQ (map (fun h => comp h v) (zrange 0 (zlen v))) = sumQ v.
Proof. apply sum_list. Qed.

Lemma settled_simplex n dt S cell dpdt : on_simplex n cell -> zlen dpdt = n -> sumQ dpdt = 0%Qc -> on_simplex n (settled dt S cell dpdt).
Proof.
  intros (Lc & Nc & Sc) Ld Sd. unfold settled. rewrite Lc. set (t := fun h => clamp (raw dt S cell dpdt h)). set (sum := sumQ _).
  assert (0 <= n) as Hn by (rewrite <- Lc; apply zlen_nonneg).
  assert (sumQ (map (raw dt S cell dpdt) (zrange 0 n)) = 1%Qc) as Sr.
  { unfold raw. rewrite sumQ_add, sumQ_mul. rewrite <- Lc at 1. rewrite comp_sum, Sc. rewrite <- Ld. rewrite comp_sum, Sd. ring. }
  assert (0 < sum)%Qc as Ps.
  { destruct (sumQ_pos_ex (raw dt S cell dpdt) (zrange 0 n)) as (j & J & Pj); [rewrite Sr; reflexivity|]. apply in_zrange in J. apply clamp_pos in Pj. fold (t j) in Pj.
    eapply Qclt_le_trans; [exact Pj|]. apply (sumQ_ge_one t n); auto. intros. apply clamp_range. }
  destruct (Qc_eq_dec sum 0) as [E0|_]; [rewrite E0 in Ps; discriminate|].
  assert (sum <> 0)%Qc as Nz by (intros E; rewrite E in Ps; discriminate).
  assert (0 <= / sum)%Qc as Pi. { unfold Qclt, Qcle in *. rewrite this_inv. change (this 0) with 0%Q in *. apply Qlt_le_weak, Qinv_lt_0_compat. auto. }
  split; [apply tab_len; auto|]. split.
  - apply tab_forall. intros i Hi. destruct (clamp_range (raw dt S cell dpdt i)) as [P0 _]. fold (t i) in *. unfold Qcle in *. rewrite this_mul. change (this 0) with 0%Q in *. now apply Qmult_le_0_compat.
  - unfold tab. rewrite (map_ext _ (fun h => / sum * t h)%Qc) by (intros; unfold t; ring). rewrite sumQ_mul. fold sum. field. auto.
Qed.

Section Multi.
Context (ls : list limits) (dx : list Qc) (Hs : Forall serial_axis ls) (Hd : length dx = length ls) (Hz : Forall (fun h => h <> 0%Qc) dx).
Notation N := (nodes (lay 0 ls)).
Notation C := (cells (lay 0 ls)).

Lemma present_ok n old x h : zlen old = C -> Forall (fun c => zlen c = n) old -> box ls x -> 0 <= h < n -> exists b, present false (lay 0 ls) old x h = Some b.
Proof.
  intros L F B Hh. unfold present.
  pose proof (local_len ls x B) as Lx. assert (zlen x = zlen ls) as Zx by (unfold zlen; lia). rewrite (zlen_lay ls).
  destruct (fold_range_inv (fun st : list Z * bool => fst st = x) (fun '(x, found) j =>
      fold_opt (fun '(x, found) k =>
        if (found : bool) then Some (x, found) else
        do x <- shift x j k;
        do cell <- grid_read false (lay 0 ls) old x;
        do v <- get cell h;
        do x <- shift x j (- k);
        Some (x, qgt v 0)) (zrange (-1) 2) (x, found)) 0 (zlen ls) (x, false)) as ([y b] & E & _); [reflexivity| |rewrite E; cbn [bind snd]; eauto].
  intros j [y b] Hj Ey. cbn [fst] in Ey. subst y. apply (fold_range_inv (fun st : list Z * bool => fst st = x)); [reflexivity|].
  intros k [y b'] Hk Ey. cbn [fst] in Ey. subst y. destruct b'; [eauto|]. rewrite shift_eq by lia. cbn [bind].
  assert (exists c, grid_read false (lay 0 ls) old (nb x j k) = Some c /\ In c old) as (c & E & I).
  { assert (box ls (cbs ls (nb x j k))) as Bk. { assert (k = -1 \/ k = 0 \/ k = 1) as [->|[->| ->]] by lia; [apply nb_box; auto|rewrite nb_0, cbs_in; auto|apply nb_box; auto]. }
    rewrite read_idx by (rewrite nb_len; auto). pose proof (idx_bounds ls _ Hs Bk). destruct (get_ok old (idx ls (cbs ls (nb x j k)))) as [c E]; [lia|]. exists c. split; [auto|].
    unfold get in E. destruct (_ <? _); [discriminate|]. eapply nth_error_In; eauto. }
  rewrite E. cbn [bind]. rewrite Forall_forall in F. rewrite (comp_get' c h n) by auto. cbn [bind]. rewrite shift_eq by (rewrite nb_zlen; lia). cbn [bind].
  eexists. split; [reflexivity|]. cbn [fst]. rewrite nb_nb by lia. replace (k + - k) with 0 by lia. apply nb_0.
Qed.

Context (dt width : Qc) (energy eps mobility : Z -> Z -> Qc) (pinned : bool) (n : Z) (Hn : 0 <= n).

Definition node_f old i (cell' : list Qc) : option (list Qc) :=
    let x := position (lay 0 ls) i in
    do s <- map_opt (present false (lay 0 ls) old x) (zrange 0 n);
    let S := zlen (filter id s) in
    do cell <- grid_read_int false (lay 0 ls) old i;
    if S <? 2 then Some cell
    else
      do lap <- vlaplacian_at false (lay 0 ls) dx n old i;
      do dFdp <- variation width energy eps cell lap s;
      do dpdt <- velocity mobility pinned dFdp s;
      settle dt S cell dpdt cell'.
Lemma node_ok old i : vgrid ls n old -> 0 <= i < N ->
  exists c, (forall cell', zlen cell' = n -> node_f old i cell' = Some c) /\ zlen c = n /\ (on_simplex n (nth (Z.to_nat i) old []) -> on_simplex n c).
Proof.
  intros (L & F) Hi. unfold node_f. cbv zeta. pose proof (pos_box ls Hs i Hi) as B.
  destruct (map_opt_ok (present false (lay 0 ls) old (position (lay 0 ls) i)) (zrange 0 n)) as [s Es].
  { intros h Ih. apply in_zrange in Ih. eapply present_ok; eauto. }
  assert (zlen s = n) as Ls. { apply map_opt_some in Es. apply Forall2_len in Es. unfold zlen. rewrite <- Es, length_zrange. lia. }
  destruct (read_cell ls n old L F i Hi) as (c & E & Lc & Ec & _).
  destruct (Z.ltb_spec (zlen (filter id s)) 2) as [Two|Two].
  - exists c. split; [|split; [auto|now rewrite <- Ec]]. intros c' Lc'. rewrite Es. cbn [bind]. rewrite E. cbn [bind]. destruct (Z.ltb_spec (zlen (filter id s)) 2); [reflexivity|lia].
  - set (l := tab n (fun j => lap ls dx (field j old) (position (lay 0 ls) i))).
    assert (zlen l = n) as Ll by (apply tab_len; auto).
    destruct (variation_ok width energy eps c l s) as (dF & EdF & LdF); [lia|lia|].
    destruct (velocity_ok mobility pinned dF s LdF) as (d & Ed & Ld & Sd).
    exists (settled dt (zlen (filter id s)) c d). split; [|split].
    + intros c' Lc'. rewrite Es. cbn [bind]. rewrite E. cbn [bind]. destruct (Z.ltb_spec (zlen (filter id s)) 2); [lia|].
      rewrite (vlaplacian_at_serial ls dx Hs Hd Hz n Hn old L F i Hi). cbn [bind]. fold l. rewrite EdF. cbn [bind]. rewrite Ed. cbn [bind]. apply settle_eq; lia.
    + unfold settled. rewrite tab_len; [auto|apply zlen_nonneg].
    + intros Sx. rewrite <- Ec in Sx. apply settled_simplex; auto. lia.
Qed.
Definition next_M old : list (list Qc) :=
  map (fun i => match node_f old i (repeat 0%Qc (Z.to_nat n)) with Some c => c | None => [] end) (zrange 0 N).
Lemma zeros_len : zlen (repeat 0%Qc (Z.to_nat n)) = n.
Proof. unfold zlen. rewrite repeat_length. lia. Qed.
Lemma multiphase_eq old new : vgrid ls n old -> vgrid ls n new ->
  multiphase_step false (lay 0 ls) dx dt width energy eps mobility pinned n (old, new) = Some (next_M old, old) /\ vgrid ls n (next_M old) /\
  (Forall (on_simplex n) old -> Forall (on_simplex n) (next_M old)).
Proof.
  intros Go (Ln & Fn). split; [|split; [split|]].
  - unfold multiphase_step. rewrite (for_cells_eq ls _ (fun i => match node_f old i (repeat 0%Qc (Z.to_nat n)) with Some c => c | None => [] end)); [reflexivity|auto|].
    intros i c' Hi I. destruct (node_ok old i Go Hi) as (c & E & _). change (node_f old i c' = Some match node_f old i (repeat 0%Qc (Z.to_nat n)) with Some c => c | None => [] end).
    rewrite (E c') by (rewrite Forall_forall in Fn; auto). now rewrite (E _ zeros_len).
  - unfold next_M. rewrite zlen_map_range by (apply N_nonneg; auto). symmetry. apply cells_nodes_0.
  - unfold next_M. apply Forall_forall. intros c Ic. apply in_map_iff in Ic as (i & <- & Ii). apply in_zrange in Ii. destruct (node_ok old i Go Ii) as (c & E & Lc & _). now rewrite (E _ zeros_len).
  - intros Sx. unfold next_M. apply Forall_forall. intros c Ic. apply in_map_iff in Ic as (i & <- & Ii). apply in_zrange in Ii. destruct (node_ok old i Go Ii) as (c & E & _ & Sc). rewrite (E _ zeros_len).
    apply Sc. rewrite Forall_forall in Sx. apply Sx, nth_In. destruct Go as (L & _). rewrite cells_nodes_0 in L. unfold zlen in L. lia.
Qed.
End Multi.
