From Coq Require Import QArith.QArith QArith.Qcanon QArith.Qround.
From Verif Require Import Model.Base Model.Num Model.Boundary Model.Layout Model.Access Model.Sparse Model.File Model.Stencil Model.Evolve Model.Image Spec.Box Spec.Access Spec.Image
  Proof.BaseL Proof.LayoutL Proof.AccessL Proof.RegionL Proof.StencilL.
Local Open Scope list_scope.
Local Open Scope Z_scope.

(* ---- the range ---- *)
Lemma qgt_true a b : qgt a b = true <-> (b < a)%Qc.
Proof. unfold qgt. destruct (Qclt_le_dec b a) as [H|H]; split; intros G; auto; try discriminate. exfalso. now apply (Qclt_not_le _ _ G). Qed.
Lemma qgt_false a b : qgt a b = false <-> (a <= b)%Qc.
Proof. unfold qgt. destruct (Qclt_le_dec b a) as [H|H]; split; intros G; auto; try discriminate. exfalso. now apply (Qclt_not_le _ _ H). Qed.
Lemma scan_spec lo0 hi0 vals : (lo0 <= hi0)%Qc -> let r := scan lo0 hi0 vals in least lo0 vals (fst r) /\ greatest hi0 vals (snd r).
Proof.
  intros H0. unfold scan. rewrite <- (rev_involutive vals). set (l := rev vals). clearbody l. cbv zeta.
  induction l as [|v l IH]; [cbn; repeat split; auto; constructor; auto; apply Qcle_refl|]. cbn [rev]. rewrite fold_left_app. cbn [fold_left].
  destruct (fold_left widen (rev l) (lo0, hi0)) as [lo hi] eqn:E. cbn [fst snd] in IH. destruct IH as [[L1 L2] [G1 G2]].
  assert ((lo <= lo0)%Qc /\ (hi0 <= hi)%Qc) as [Hlo Hhi] by (inversion L2; inversion G2; auto).
  assert (lo <= hi)%Qc as LH by (eapply Qcle_trans; [exact Hlo|]; eapply Qcle_trans; eauto).
  assert (forall m (P : Qc -> Prop), Forall P (m :: rev l) -> P v -> Forall P (m :: rev l ++ [v])) as FA.
  { intros m P F V. inversion F; subst. constructor; auto. apply Forall_app; auto. }
  assert (forall m a, In m (a :: rev l) -> In m (a :: rev l ++ [v])) as IA by (intros m a [I|I]; [now left|right; apply in_app_iff; auto]).
  assert (In v (rev l ++ [v])) as IV by (apply in_app_iff; right; now left).
  unfold widen. destruct (qgt v hi) eqn:Q1; [apply qgt_true in Q1|apply qgt_false in Q1; destruct (qgt lo v) eqn:Q2; [apply qgt_true in Q2|apply qgt_false in Q2]]; cbn [fst snd].
  - split; split; [now apply IA|apply FA; auto; eapply Qcle_trans; [exact LH|]; now apply Qclt_le_weak|now right|].
    apply FA; [|apply Qcle_refl]. eapply Forall_impl; [|exact G2]. intros u U. eapply Qcle_trans; [exact U|]. now apply Qclt_le_weak.
  - split; split; [now right| |now apply IA|now apply FA]. apply FA; [|apply Qcle_refl]. eapply Forall_impl; [|exact L2]. intros u U. eapply Qcle_trans; [|exact U]. now apply Qclt_le_weak.
  - split; split; [now apply IA|now apply FA|now apply IA|now apply FA].
Qed.

(* ---- the shade ---- *)
Lemma int2q_le a b : (int2q a <= int2q b)%Qc <-> a <= b.
Proof. unfold int2q, Qcle, Q2Qc. cbn [this]. rewrite !Qred_correct. rewrite <- Zle_Qle. tauto. Qed.
Lemma Qclt_sub a b : (a < b)%Qc -> (0 < b - a)%Qc.
Proof. intros H. apply Qclt_minus_iff in H. exact H. Qed.
Lemma Qcle_sub a b : (a <= b)%Qc -> (0 <= b - a)%Qc.
Proof. intros H. apply Qcle_minus_iff in H. exact H. Qed.
Lemma trunc_floor (q : Qc) : (0 <= q)%Qc -> Z.quot (Qnum (this q)) (Zpos (Qden (this q))) = Qfloor (this q).
Proof.
  intros H. unfold Qfloor. destruct (this q) as [n d] eqn:E. cbn [Qnum Qden]. apply Z.quot_div_nonneg; [|lia].
  unfold Qcle in H. rewrite E in H. unfold Qle in H. change (Qnum (this 0%Qc)) with 0 in H. change (QDen (this 0%Qc)) with 1 in H. cbn [Qnum Qden] in H. lia.
Qed.
Lemma shade_ok lo hi v : (lo < hi)%Qc -> (lo <= v)%Qc -> (v <= hi)%Qc -> exists p, shade (lo, hi) v = Some p /\ intensity lo hi v p.
Proof.
  intros H L U. unfold shade. pose proof (Qclt_sub _ _ H) as D. assert (hi - lo <> 0)%Qc as NZ by (intros E; rewrite E in D; apply (Qclt_not_le _ _ D), Qcle_refl).
  rewrite recip_eq by auto. cbn [bind]. set (q := (int2q 255 * ((v - lo) * / (hi - lo)))%Qc).
  assert (0 <= / (hi - lo))%Qc as ID. { unfold Qcle, Qcinv, Q2Qc. cbn [this]. rewrite !Qred_correct. apply Qinv_le_0_compat. apply Qclt_le_weak in D. exact D. }
  assert (0 <= (v - lo) * / (hi - lo))%Qc as R0. { replace 0%Qc with (0 * / (hi - lo))%Qc by ring. apply Qcmult_le_compat_r; auto. now apply Qcle_sub. }
  assert ((v - lo) * / (hi - lo) <= 1)%Qc as R1. { replace 1%Qc with ((hi - lo) * / (hi - lo))%Qc by (now apply Qcmult_inv_r). apply Qcmult_le_compat_r; auto. apply Qcplus_le_compat; auto using Qcle_refl. }
  assert (0 <= q)%Qc as Q0. { unfold q. replace 0%Qc with (0 * ((v - lo) * / (hi - lo)))%Qc by ring. apply Qcmult_le_compat_r; auto. }
  assert (q <= int2q 255)%Qc as Q1. { unfold q. rewrite Qcmult_comm. replace (int2q 255) with (1 * int2q 255)%Qc at 2 by ring. apply Qcmult_le_compat_r; auto. }
  rewrite trunc_floor by auto.
  assert (0 <= Qfloor (this q)) as F0 by (rewrite <- (Qfloor_Z 0); apply Qfloor_resp_le; exact Q0).
  assert (Qfloor (this q) <= 255) as F1. { rewrite <- (Qfloor_Z 255). apply Qfloor_resp_le. unfold Qcle in Q1. eapply Qle_trans; [exact Q1|]. unfold int2q, Q2Qc. cbn [this]. now rewrite !Qred_correct. }
  replace (0 <=? Qfloor (this q)) with true by (symmetry; now apply Z.leb_le). replace (Qfloor (this q) <=? 255) with true by (symmetry; now apply Z.leb_le). cbn [andb guard bind].
  eexists. split; [reflexivity|]. unfold intensity. cbv zeta. fold (int2q 255). unfold Qcdiv. fold q. split; [lia|]. split; [|split; [|split]].
  - unfold Qcle, Q2Qc. cbn [this]. rewrite !Qred_correct. apply Qfloor_le.
  - unfold Qclt, Q2Qc. cbn [this]. rewrite !Qred_correct. apply Qlt_floor.
  - intros ->. assert (q = 0%Qc) as -> by (unfold q; ring). reflexivity.
  - intros ->. assert (q = int2q 255) as -> by (unfold q; rewrite Qcmult_inv_r by auto; ring). reflexivity.
Qed.

(* ---- the order of the nodes ---- *)
Lemma zrange_map a b : a <= b -> zrange a b = map (fun c => a + c) (zrange 0 (b - a)).
Proof.
  intros H. unfold zrange. rewrite map_map. replace (Z.to_nat (b - a - 0)) with (Z.to_nat (b - a)) by lia. apply map_ext. intros i. lia.
Qed.
Lemma zrange_rev a b : a <= b -> rev (zrange a b) = map (fun c => b - 1 - c) (zrange 0 (b - a)).
Proof.
  intros H. pattern b. apply Zlt_lower_bound_ind with (z := a); [|exact H]. clear b H. intros b IH H. destruct (Z.eq_dec a b) as [->|N]; [now rewrite Z.sub_diag, !zrange_nil by lia|].
  rewrite (zrange_cons 0 (b - a)) by lia. cbn [map]. replace b with (b - 1 + 1) at 1 by lia. rewrite zrange_snoc by lia. rewrite rev_unit. f_equal; [lia|]. rewrite (IH (b - 1)) by lia.
  rewrite (zrange_map (0 + 1) (b - a)) by lia. rewrite map_map. replace (b - a - (0 + 1)) with (b - 1 - a) by lia. apply map_ext. intros; lia.
Qed.
Lemma filter_flat_map {A B} (p : B -> bool) (f : A -> list B) l : filter p (flat_map f l) = flat_map (fun a => filter p (f a)) l.
Proof. induction l as [|a l IH]; [reflexivity|]. cbn [flat_map]. now rewrite filter_app, IH. Qed.
Lemma filter_map {A B} (p : B -> bool) (f : A -> B) l : filter p (map f l) = map f (filter (fun a => p (f a)) l).
Proof. induction l as [|a l IH]; [reflexivity|]. cbn. destruct (p (f a)); cbn; now rewrite IH. Qed.
Lemma filter_true {A} (p : A -> bool) l : (forall a, In a l -> p a = true) -> filter p l = l.
Proof. induction l as [|a l IH]; intros H; [reflexivity|]. cbn. rewrite H by now left. f_equal. apply IH. intros; apply H; now right. Qed.
Lemma filter_none {A} (p : A -> bool) l : (forall a, In a l -> p a = false) -> filter p l = [].
Proof. induction l as [|a l IH]; intros H; [reflexivity|]. cbn. rewrite H by now left. apply IH. intros; apply H; now right. Qed.
Lemma flat_map_hit {A B} (f : A -> list B) l a : NoDup l -> In a l -> (forall b, In b l -> b <> a -> f b = []) -> flat_map f l = f a.
Proof.
  induction 1 as [|b l N _ IH]; intros I H; [destruct I|]. cbn [flat_map]. destruct I as [->|I].
  - rewrite (flat_map_ext_in f (fun _ => [])), app_nil_end; [f_equal|]. { clear. induction l; auto. } intros b Hb. apply H; [now right|]. intros ->. auto.
  - rewrite H; [cbn; apply IH; auto; intros; apply H; auto; now right|now left|]. intros ->. auto.
Qed.
Lemma filter_hit l a : NoDup l -> In a l -> filter (fun b => b =? a) l = [a].
Proof.
  induction 1 as [|b l N _ IH]; intros I; [destruct I|]. cbn. destruct (Z.eqb_spec b a) as [->|E].
  - f_equal. apply filter_none. intros c Hc. apply Z.eqb_neq. intros ->. auto.
  - destruct I as [->|I]; [congruence|auto].
Qed.

Definition table {A} (w h : Z) (f : Z -> Z -> A) : list A := flat_map (fun r => map (fun c => f r c) (zrange 0 w)) (zrange 0 h).
Lemma drawn_table gs axis level : 1 <= zlen gs <= 3 -> Forall (fun g => fst g <= snd g) gs -> slice_of gs axis level ->
  drawn gs axis level = Some (table (fst (picture gs axis)) (snd (picture gs axis)) (node_at gs axis level)).
Proof.
  intros L F S. destruct gs as [|[a0 b0] [|[a1 b1] [|[a2 b2] [|? ?]]]]; [unfold zlen in L; cbn in L; lia| | | |unfold zlen in L; cbn [length] in L; lia];
    repeat match goal with H : Forall _ (_ :: _) |- _ => inversion H; clear H; subst end; cbn [fst snd] in *.
  - cbn [drawn picture node_at fst snd]. unfold table. f_equal. change (zrange 0 1) with [0]. cbn [flat_map]. rewrite app_nil_r, (zrange_map a0 b0) by auto. now rewrite map_map.
  - cbn [drawn picture node_at fst snd]. unfold table. f_equal. rewrite zrange_rev, (zrange_map a0 b0) by auto. rewrite flat_map_map. apply flat_map_ext. intros r. now rewrite map_map.
  - destruct S as [[S _]|(_ & S1 & S2)]; [unfold zlen in S; cbn in S; lia|]. cbn [drawn].
    replace ((0 <=? axis) && (axis <? 3)) with true by (symmetry; apply andb_true_intro; split; [apply Z.leb_le|apply Z.ltb_lt]; lia). cbn [guard bind]. f_equal.
    assert (axis = 0 \/ axis = 1 \/ axis = 2) as [-> | [-> | ->]] by lia; change (Z.to_nat 0) with 0%nat in *; change (Z.to_nat 1) with 1%nat in *; change (Z.to_nat 2) with 2%nat in *; cbn [nth fst snd] in S2; cbn [picture node_at]; rewrite ?Z.eqb_refl; cbn [Z.eqb Pos.eqb fst snd]; unfold table, extent; cbn [fst snd].
    + rewrite filter_flat_map, (zrange_map a2 b2) by auto. rewrite flat_map_map. apply flat_map_ext. intros r. rewrite filter_flat_map, zrange_rev by auto. rewrite flat_map_map.
      rewrite (flat_map_ext _ (fun c => [[level; b1 - 1 - c; a2 + r]])); [now rewrite <- flat_map_concat_map || (induction (zrange 0 (b1 - a1)) as [|c l IH]; [reflexivity|cbn; now rewrite IH])|].
      intros c. rewrite filter_map. cbn [nth]. rewrite filter_hit; [reflexivity|apply NoDup_zrange|apply in_zrange; lia].
    + rewrite filter_flat_map, (zrange_map a2 b2) by auto. rewrite flat_map_map. apply flat_map_ext. intros r. rewrite filter_flat_map. rewrite (flat_map_hit _ _ level); [|apply NoDup_rev, NoDup_zrange|apply in_rev; rewrite rev_involutive; apply in_zrange; lia|].
      * rewrite filter_true; [rewrite (zrange_map a0 b0) by auto; now rewrite map_map|]. intros x Hx. apply in_map_iff in Hx as (c & <- & _). cbn. apply Z.eqb_refl.
      * intros b _ N. apply filter_none. intros x Hx. apply in_map_iff in Hx as (c & <- & _). cbn. now apply Z.eqb_neq.
    + rewrite filter_flat_map. rewrite (flat_map_hit _ _ level); [|apply NoDup_zrange|apply in_zrange; lia|].
      * rewrite filter_true; [|intros x Hx; apply in_flat_map in Hx as (d & _ & Hx); apply in_map_iff in Hx as (c & <- & _); cbn; apply Z.eqb_refl].
        rewrite zrange_rev, (zrange_map a0 b0) by auto. rewrite flat_map_map. apply flat_map_ext. intros r. now rewrite map_map.
      * intros b _ N. apply filter_none. intros x Hx. apply in_flat_map in Hx as (d & _ & Hx); apply in_map_iff in Hx as (c & <- & _). cbn. now apply Z.eqb_neq.
Qed.
Lemma get_row {A} (f : Z -> Z -> A) w r c l : 0 <= c < w -> (r < length l)%nat ->
  get (flat_map (fun r => map (f r) (zrange 0 w)) l) (Z.of_nat r * w + c) = Some (f (nth r l 0) c).
Proof.
  intros Hc. revert l. induction r as [|r IH]; intros [|x l] Hr; cbn [length] in Hr; try lia; cbn [flat_map nth].
  - cbn [Z.of_nat]. rewrite Z.mul_0_l, Z.add_0_l. unfold get. replace (c <? 0) with false by (symmetry; apply Z.ltb_ge; lia).
    rewrite nth_error_app1 by (rewrite map_length; pose proof (zlen_zrange 0 w ltac:(lia)) as L; unfold zlen in L; lia).
    rewrite nth_error_map. pose proof (zlen_zrange 0 w ltac:(lia)) as L. unfold zlen in L.
    rewrite (nth_error_nth' _ 0) by lia. cbn [option_map]. unfold zrange. rewrite (nth_indep _ 0 (0 + Z.of_nat 0)%Z) by (rewrite map_length, seq_length; lia).
    rewrite (map_nth (fun i => 0 + Z.of_nat i)), seq_nth by lia. do 2 f_equal. lia.
  - pose proof (zlen_zrange 0 w ltac:(lia)) as L. unfold zlen in L. rewrite <- IH by lia. unfold get. rewrite Nat2Z.inj_succ, Z.mul_succ_l. assert (0 <= Z.of_nat r * w) by nia.
    replace (Z.of_nat r * w + w + c <? 0) with false by (symmetry; apply Z.ltb_ge; lia). replace (Z.of_nat r * w + c <? 0) with false by (symmetry; apply Z.ltb_ge; lia).
    rewrite nth_error_app2 by (rewrite map_length; lia). f_equal. rewrite map_length. lia.
Qed.
Lemma table_get {A} w h (f : Z -> Z -> A) r c : 0 <= r < h -> 0 <= c < w -> get (table w h f) (r * w + c) = Some (f r c).
Proof.
  intros Hr Hc. pose proof (zlen_zrange 0 h ltac:(lia)) as L. unfold zlen in L. unfold table. replace (r * w + c) with (Z.of_nat (Z.to_nat r) * w + c) by (rewrite Z2Nat.id; lia).
  rewrite get_row by lia. do 2 f_equal. unfold zrange. rewrite (nth_indep _ 0 (0 + Z.of_nat 0)%Z) by (rewrite map_length, seq_length; lia).
  rewrite (map_nth (fun i => 0 + Z.of_nat i)), seq_nth by lia. lia.
Qed.
Lemma table_len {A} w h (f : Z -> Z -> A) : 0 <= w -> 0 <= h -> zlen (table w h f) = w * h.
Proof.
  intros Hw Hh. unfold table. transitivity (w * zlen (zrange 0 h)); [|rewrite zlen_zrange by lia; lia].
  induction (zrange 0 h) as [|r l IH]; [unfold zlen; cbn; lia|]. cbn [flat_map]. rewrite zlen_app, zlen_cons, IH, BaseL.zlen_map, zlen_zrange by lia. lia.
Qed.
Lemma in_table {A} w h (f : Z -> Z -> A) x : In x (table w h f) <-> exists r c, 0 <= r < h /\ 0 <= c < w /\ x = f r c.
Proof.
  unfold table. rewrite in_flat_map. split.
  - intros (r & Hr & Hx). apply in_map_iff in Hx as (c & <- & Hc). apply in_zrange in Hr, Hc. eauto.
  - intros (r & c & Hr & Hc & ->). exists r. split; [now apply in_zrange|]. apply in_map_iff. exists c. split; [reflexivity|now apply in_zrange].
Qed.

(* ---- drawing ---- *)
Section Draw.
Context {T : Type} (scanv drawv : T -> option Qc) (over : T -> Z -> option Z) (ls : list limits) (data : list T).
Lemma draw_ok r bufsize xs n : n + zlen xs <= bufsize -> (forall x, In x xs -> exists p, pixel drawv over ls data r x = Some p) ->
  exists l, draw drawv over ls data r bufsize n xs = Done l /\ Forall2 (fun x p => pixel drawv over ls data r x = Some p) xs l.
Proof.
  revert n. induction xs as [|x xs IH]; intros n Hn H; cbn [draw]; [eexists; split; [reflexivity|constructor]|]. rewrite zlen_cons in Hn. pose proof (zlen_nonneg xs).
  replace (n <? bufsize) with true by (symmetry; apply Z.ltb_lt; lia). destruct (H x (or_introl eq_refl)) as (p & Hp). rewrite Hp. cbn [req obind].
  destruct (IH (n + 1)) as (l & -> & F); [lia|intros; apply H; now right|]. cbn [obind]. eexists. split; [reflexivity|]. now constructor.
Qed.
End Draw.
Lemma Forall2_at {A B} (P : A -> B -> Prop) l m i a : Forall2 P l m -> get l i = Some a -> exists b, get m i = Some b /\ P a b.
Proof.
  intros F. unfold get. destruct (i <? 0); [discriminate|]. generalize (Z.to_nat i). induction F as [|x y l m H _ IH]; intros [|n] G; cbn in *; try discriminate; [injection G as <-; eauto|auto].
Qed.

Lemma serial_lims ls : serial_box ls -> lims_ok ls /\ map l_x0 ls = map fst (glims ls) /\ map l_x1 ls = map snd (glims ls) /\ Forall (fun g => fst g <= snd g) (glims ls).
Proof.
  unfold glims. induction 1 as [|l ls (E0 & E1 & H) _ (IH1 & IH2 & IH3 & IH4)]; [repeat constructor|]. cbn [map fst snd]. rewrite IH2, IH3, E0, E1. repeat split; constructor; auto. lia.
Qed.
Lemma node_at_in gs axis level r c : 1 <= zlen gs <= 3 -> Forall (fun g => fst g <= snd g) gs -> slice_of gs axis level ->
  0 <= r < snd (picture gs axis) -> 0 <= c < fst (picture gs axis) -> in_box (map fst gs) (map snd gs) (node_at gs axis level r c).
Proof.
  intros L F S. destruct gs as [|[a0 b0] [|[a1 b1] [|[a2 b2] [|? ?]]]]; [unfold zlen in L; cbn in L; lia| | | |unfold zlen in L; cbn [length] in L; lia].
  - cbn. unfold extent. cbn [fst snd]. lia.
  - cbn. unfold extent. cbn [fst snd]. lia.
  - destruct S as [[S _]|(_ & S1 & S2)]; [unfold zlen in S; cbn in S; lia|].
    assert (axis = 0 \/ axis = 1 \/ axis = 2) as [-> | [-> | ->]] by lia; change (Z.to_nat 0) with 0%nat in *; change (Z.to_nat 1) with 1%nat in *; change (Z.to_nat 2) with 2%nat in *; cbn [nth fst snd] in S2;
      cbn; unfold extent; cbn [fst snd]; lia.
Qed.
Lemma picture_nonneg gs axis : 1 <= zlen gs <= 3 -> Forall (fun g => fst g <= snd g) gs -> 0 <= fst (picture gs axis) /\ 0 <= snd (picture gs axis).
Proof.
  intros L F. destruct gs as [|g0 [|g1 [|g2 [|? ?]]]]; [unfold zlen in L; cbn in L; lia| | | |unfold zlen in L; cbn [length] in L; lia];
    repeat match goal with H : Forall _ (_ :: _) |- _ => inversion H; clear H; subst end; cbn [picture]; unfold extent; try (destruct (axis =? 0); [|destruct (axis =? 1)]); cbn [fst snd]; lia.
Qed.
Lemma image_size_picture ls axis level : 1 <= zlen ls <= 3 -> slice_of (glims ls) axis level -> image_size ls axis = picture (glims ls) axis.
Proof.
  intros L S. assert (zlen (glims ls) = zlen ls) as E by (unfold glims; apply BaseL.zlen_map).
  destruct ls as [|l0 [|l1 [|l2 [|? ?]]]]; [unfold zlen in L; cbn in L; lia| | | |unfold zlen in L; cbn [length] in L; lia]; destruct S as [[S ->]|(S0 & S1 & _)]; try (unfold glims, zlen in S; cbn in S; lia); try (unfold glims, zlen in S0; cbn in S0; lia); try reflexivity.
  assert (axis = 0 \/ axis = 1 \/ axis = 2) as [-> | [-> | ->]] by lia; reflexivity.
Qed.

Section Whole.
Context {T : Type} (scanv drawv : T -> option Qc) (over : T -> Z -> option Z) (ls : list limits) (data : list T) (lo0 hi0 : Qc).
Context (Hd : 1 <= zlen ls <= 3) (Hb : serial_box ls) (Hl : zlen data = nodes (lay 0 ls)).
Lemma scanned vals : map_opt scanv data = Some vals -> forall axis level bufsize xs, drawn (glims ls) axis level = Some xs ->
  to_png scanv drawv over ls data lo0 hi0 axis level bufsize = draw drawv over ls data (scan lo0 hi0 vals) bufsize 0 xs.
Proof.
  intros V axis level bufsize xs D. unfold to_png. assert (map_opt (grid_read_int false (lay 0 ls) data) (zrange 0 (nodes (lay 0 ls))) = Some data) as ->.
  { rewrite <- Hl. unfold grid_read_int, addr_int. clear. assert (forall pre l : list T, map_opt (fun i => get (pre ++ l) i) (zrange (zlen pre) (zlen (pre ++ l))) = Some l) as G.
    { intros pre l. revert pre. induction l as [|a l IH]; intros pre; [rewrite app_nil_r, zrange_nil by lia; reflexivity|].
      rewrite zrange_cons by (rewrite zlen_app, zlen_cons; pose proof (zlen_nonneg l); lia). cbn [map_opt].
      assert (get (pre ++ a :: l) (zlen pre) = Some a) as ->. { unfold get, zlen. replace (_ <? 0) with false by (symmetry; apply Z.ltb_ge; lia). rewrite Nat2Z.id, nth_error_app2, Nat.sub_diag by lia. reflexivity. }
      cbn [bind]. specialize (IH (pre ++ [a])). rewrite <- app_assoc in IH. cbn [app] in IH. rewrite zlen_app in IH. change (zlen [a]) with 1 in IH. rewrite IH. reflexivity. }
    exact (G [] data). }
  cbn [req obind]. rewrite V. cbn [req obind]. rewrite D. reflexivity.
Qed.
Theorem image vals axis level invert : map_opt scanv data = Some vals -> slice_of (glims ls) axis level ->
  (forall c, In c data -> exists v p q, drawv c = Some v /\ shade (scan lo0 hi0 vals) v = Some p /\ over c p = Some q) ->
  let w := fst (picture (glims ls) axis) in let h := snd (picture (glims ls) axis) in
  exists buf, mmsp2png scanv drawv over ls data lo0 hi0 axis level invert = Done (w, h, buf) /\ zlen buf = w * h /\
    forall r c, 0 <= r < h -> 0 <= c < w -> exists cell v p q, grid_read false (lay 0 ls) data (node_at (glims ls) axis level r c) = Some cell /\ In cell data /\
      drawv cell = Some v /\ shade (scan lo0 hi0 vals) v = Some p /\ over cell p = Some q /\ get buf (r * w + c) = Some (if invert then 255 - q else q).
Proof.
  intros V S P w h. destruct (serial_lims ls Hb) as (LO & M0 & M1 & F). assert (zlen (glims ls) = zlen ls) as E by (unfold glims; apply BaseL.zlen_map).
  assert (1 <= zlen (glims ls) <= 3) as Hd' by lia. destruct (picture_nonneg (glims ls) axis Hd' F) as [W0 H0]. fold w in W0. fold h in H0.
  pose proof (drawn_table _ _ _ Hd' F S) as DT. fold w h in DT. set (xs := table w h (node_at (glims ls) axis level)) in *.
  assert (forall x, In x xs -> exists cell, grid_read false (lay 0 ls) data x = Some cell /\ In cell data) as RD.
  { intros x Hx. apply in_table in Hx as (r & c & Hr & Hc & ->). pose proof (node_at_in _ _ _ r c Hd' F S Hr Hc) as IB. rewrite <- M0, <- M1 in IB.
    destruct (local_encode false 0 ls data _ ltac:(lia) LO IB) as (-> & _ & B). assert (cells (lay 0 ls) = nodes (lay 0 ls)) as CN.
    { rewrite cells_lay, nodes_lay. f_equal. apply map_ext. intros; lia. } destruct (get_ok data (encode (lay 0 ls) (node_at (glims ls) axis level r c))) as [cell Hcell]; [lia|].
    exists cell. split; [exact Hcell|]. unfold get in Hcell. destruct (_ <? 0); [discriminate|]. eapply nth_error_In; eauto. }
  destruct (draw_ok drawv over ls data (scan lo0 hi0 vals) (w * h) xs 0) as (l & D & F2).
  { unfold xs. rewrite table_len by auto. lia. }
  { intros x Hx. destruct (RD x Hx) as (cell & G & I). destruct (P cell I) as (v & p & q & A1 & A2 & A3). exists q. unfold pixel. rewrite G. cbn [bind]. rewrite A1. cbn [bind]. rewrite A2. exact A3. }
  assert (zlen l = w * h) as Ll. { rewrite <- (table_len w h (node_at (glims ls) axis level)) by auto. unfold zlen. f_equal. symmetry. fold xs. eapply Forall2_len; eauto. }
  exists (if invert then map (fun p => 255 - p) l else l). split; [|split].
  - unfold mmsp2png. assert (slicing ls axis level = (axis, level)) as -> .
    { unfold slicing. destruct S as [[S1 ->]|(S1 & S2 & _)]; [replace (zlen ls =? 3) with false by (symmetry; apply Z.eqb_neq; lia); reflexivity|].
      replace (axis <? 0) with false by (symmetry; apply Z.ltb_ge; lia). now rewrite andb_false_r. }
    rewrite (image_size_picture ls axis level) by auto. rewrite (surjective_pairing (picture (glims ls) axis)). fold w h. rewrite (scanned vals V _ _ _ _ DT), D. cbn [obind]. rewrite Ll, Z.eqb_refl. reflexivity.
  - destruct invert; [now rewrite BaseL.zlen_map|auto].
  - intros r c Hr Hc. pose proof (table_get w h (node_at (glims ls) axis level) r c Hr Hc) as G. destruct (Forall2_at _ _ _ _ _ F2 G) as (q & Gq & Px).
    assert (In (node_at (glims ls) axis level r c) xs) as Ix by (apply in_table; eauto). destruct (RD _ Ix) as (cell & Gc & Ic). destruct (P cell Ic) as (v & p & q' & A1 & A2 & A3).
    unfold pixel in Px. rewrite Gc in Px. cbn [bind] in Px. rewrite A1 in Px. cbn [bind] in Px. rewrite A2 in Px. cbn [bind] in Px. rewrite A3 in Px. injection Px as ->.
    exists cell, v, p, q. repeat split; auto. destruct invert; [|auto]. unfold get in *. destruct (r * w + c <? 0); [discriminate|]. rewrite nth_error_map, Gq. reflexivity.
Qed.
End Whole.
