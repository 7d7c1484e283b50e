(* The sweeps of the semi-implicit Cahn-Hilliard solver. *)
From Coq Require Import QArith.QArith QArith.Qcanon Sorting.Permutation Lqa.
From Verif Require Import Model.Base Model.Boundary Model.Layout Model.Access Model.Stencil Model.Evolve Model.Split
  Spec.Box Spec.Access Spec.Stencil Spec.Split Proof.BaseL Proof.LayoutL Proof.AccessL Proof.StencilL Proof.StencilQ Proof.StencilS Proof.StencilM.
Local Open Scope Z_scope.

Lemma Qc_cancel (w a b : Qc) : w <> 0%Qc -> (w * a = w * b)%Qc -> a = b.
Proof. intros H E. transitivity (/ w * (w * a))%Qc; [field; auto|]. rewrite E. field. auto. Qed.

Section Split.
Context (ls : list limits) (Hs : Forall serial_axis ls) (h : Qc) (Hh : h <> 0%Qc).
Notation axs := (lay 0 ls).
Notation N := (nodes axs).
Notation pos := (position axs).

Definition cell_at (data : cells2) (x : list Z) : list Qc := at_or [0; 0]%Qc axs data x.
Lemma field_cell data j x : 0 <= j < 2 -> field ls data j x = comp j (cell_at data x).
Proof.
  intros Hj. unfold field, comp, cell_at, at_or. destruct (grid_read false axs data x); [reflexivity|].
  assert (j = 0 \/ j = 1) as [-> | ->] by lia; reflexivity.
Qed.
Lemma cell_len data x : two_fields ls data -> zlen (cell_at data x) = 2.
Proof.
  intros [L F]. unfold cell_at, at_or. destruct (grid_read false axs data x) eqn:E; [|reflexivity]. unfold grid_read in E.
  destruct (addr_vec false axs x 0); [|discriminate]. cbn [bind] in E. unfold get in E. destruct (_ <? 0); [discriminate|]. apply nth_error_In in E.
  rewrite Forall_forall in F. auto.
Qed.
Lemma cell_star data x : two_fields ls data -> domain ls x -> star false axs data x (cell_at data).
Proof. intros [L _] B. now apply serial_star. Qed.
Lemma dxs_len : length (dxs axs h) = length axs.
Proof. apply repeat_length. Qed.
Lemma dxs_nz : Forall (fun h => h <> 0%Qc) (dxs axs h).
Proof. unfold dxs. apply Forall_forall. intros v Hv. apply repeat_spec in Hv. now subst. Qed.
Lemma dxs_get i : 0 <= i < zlen axs -> get (dxs axs h) i = Some h.
Proof.
  intros H. rewrite spacing_get by (unfold zlen; rewrite dxs_len; exact H). unfold spacing, dxs. f_equal. unfold zlen in H.
  assert (Z.to_nat i < length axs)%nat as Hl by lia. revert Hl. generalize (length axs) (Z.to_nat i). clear. induction n as [|n IH]; intros [|m] H; simpl; try lia; auto. apply IH. lia.
Qed.
Lemma zlen_axs : zlen axs = zlen ls.
Proof. unfold zlen. now rewrite length_lay. Qed.

Lemma field_laplacian_eq data x j : two_fields ls data -> domain ls x -> 0 <= j < 2 ->
  field_laplacian axs h data x j = Some (laplace ls h (field ls data j) x).
Proof.
  intros W B Hj. unfold field_laplacian. rewrite (flaplacian_eq false axs (dxs axs h) 2 data x (cell_at data) j); auto.
  - f_equal. unfold laplace. rewrite zlen_axs. apply sumQ_ext. intros i Hi. apply in_zrange in Hi.
    assert (spacing (dxs axs h) i = h) as ->.
    { pose proof (dxs_get i ltac:(rewrite zlen_axs; lia)) as G. rewrite spacing_get in G; [congruence|]. unfold zlen. rewrite dxs_len. fold (zlen axs). rewrite zlen_axs. lia. }
    unfold second_difference. now rewrite !field_cell by auto.
  - rewrite length_lay. now apply local_len.
  - apply dxs_len.
  - apply dxs_nz.
  - now apply cell_star.
  - intros y. now apply cell_len.
Qed.
Definition fringe (f : list Z -> Qc) (x : list Z) : Qc :=
  sumQ (map (fun i => / (h * h) * (f (nb x i 1%Z) + f (nb x i (-1)%Z)))%Qc (zrange 0 (zlen ls))).
Lemma fringe_eq data x j : two_fields ls data -> domain ls x -> 0 <= j < 2 ->
  fringe_laplacian axs h data x j = Some (fringe (field ls data j) x).
Proof.
  intros W B Hj. unfold fringe_laplacian. pose proof (local_len ls x B) as Lx.
  rewrite (fold_sum _ (fun i => / (h * h) * (field ls data j (nb x i 1%Z) + field ls data j (nb x i (-1)%Z)))%Qc).
  - cbn [bind snd]. f_equal. rewrite zlen_axs. unfold fringe. ring.
  - intros i a Hi. apply in_zrange in Hi. destruct (cell_star data x W B) as [_ R]. destruct (R i Hi) as [Rh Rl].
    rewrite (probe_eq false axs data x i (cell_at data (nb x i 1)) (cell_at data (nb x i (-1)))) by (auto; rewrite zlen_axs in Hi; unfold zlen in *; lia).
    cbn [bind]. rewrite !comp_get by (rewrite cell_len; auto). cbn [bind]. rewrite dxs_get by auto. cbn [bind]. rewrite recip_eq by now apply sq_nz. cbn [bind].
    rewrite !field_cell by auto. reflexivity.
Qed.
Definition weight : Qc := sumQ (map (fun _ => c2 * / (h * h))%Qc (zrange 0 (zlen ls))).
Lemma lap_weight_eq : lap_weight axs h = Some weight.
Proof.
  unfold lap_weight, weight. rewrite zlen_axs.
  assert (forall l w, (forall i, In i l -> 0 <= i < zlen axs) ->
    fold_opt (fun w d => do h <- get (dxs axs h) d; do r <- recip (h * h)%Qc; Some (w + c2 * r)%Qc) l w = Some (w + sumQ (map (fun _ => c2 * / (h * h)) l))%Qc) as A.
  { induction l as [|i l IH]; intros w Hl; cbn [fold_opt map sumQ]; [f_equal; ring|]. rewrite dxs_get by (apply Hl; now left). cbn [bind].
    rewrite recip_eq by now apply sq_nz. cbn [bind]. rewrite IH by (intros; apply Hl; now right). f_equal. ring. }
  rewrite A by (intros i Hi; apply in_zrange in Hi; rewrite zlen_axs; lia). f_equal. ring.
Qed.
Lemma laplace_fringe f x : laplace ls h f x = (fringe f x - weight * f x)%Qc.
Proof.
  replace (weight * f x)%Qc with (f x * weight)%Qc by ring. unfold laplace, fringe, weight. rewrite <- sumQ_mul, <- sumQ_sub. apply sumQ_ext. intros i _. unfold second_difference. fold c2. field. auto.
Qed.
Lemma weight_nonneg : (0 <= weight)%Qc.
Proof.
  apply sumQ_ge_0. intros _ _. pose proof (sq_inv_pos h Hh) as P. unfold Qclt, Qcle in *. rewrite this_mul. change (this 0) with 0%Q in *. change (this c2) with 2%Q. nra.
Qed.

(* ---- nodes ---- *)
Lemma N_cells : cells axs = N.
Proof. apply cells_nodes_0. Qed.
Lemma pos_dom n : 0 <= n < N -> domain ls (pos n).
Proof. apply pos_box, Hs. Qed.
Lemma node_read (data : cells2) n : zlen data = N -> 0 <= n < N -> grid_read false axs data (pos n) = Some (nth (Z.to_nat n) data [0; 0]%Qc).
Proof.
  intros L Hn. destruct (read_int_position false 0 ls data n) as [<- _]; auto; try lia; [apply lims_le, Hs|]. unfold grid_read_int, addr_int. apply get_nth. lia.
Qed.
Lemma node_field data j n : zlen data = N -> 0 <= j < 2 -> 0 <= n < N -> field ls data j (pos n) = comp j (nth (Z.to_nat n) data [0; 0]%Qc).
Proof. intros L Hj Hn. rewrite field_cell by auto. unfold cell_at, at_or. now rewrite node_read. Qed.
Lemma dom_node y : domain ls y -> exists k, 0 <= k < N /\ pos k = y.
Proof. intros B. apply (position_onto 0); [apply wf_lay, lims_le, Hs|]. now rewrite map_x0_lay, map_x1_lay. Qed.
Lemma nb_node n i d : 0 <= n < N -> 0 <= i < zlen ls -> d = 1 \/ d = -1 ->
  exists k, 0 <= k < N /\ pos k = cbs ls (nb (pos n) i d) /\
    forall data j, zlen data = N -> 0 <= j < 2 -> field ls data j (nb (pos n) i d) = comp j (nth (Z.to_nat k) data [0; 0]%Qc).
Proof.
  intros Hn Hi Hd. pose proof (pos_dom n Hn) as B. pose proof (nb_box ls (pos n) i d Hs B Hi Hd) as B2.
  destruct (dom_node _ B2) as (k & Hk & E). exists k. split; [auto|]. split; [auto|]. intros data j L Hj.
  rewrite <- node_field by auto. unfold field. rewrite E. pose proof (local_len ls _ B) as L1. pose proof (local_len ls _ B2) as L2. rewrite !read_idx by (rewrite ?nb_len; auto).
  now rewrite (cbs_in ls (cbs ls _)).
Qed.

Lemma two_cases v : zlen v = 2 -> exists a b : Qc, v = [a; b].
Proof. destruct v as [|a [|b [|c v]]]; unfold zlen; simpl; intros H; try lia. eauto. Qed.
Lemma two_nth data n : two_fields ls data -> 0 <= n < N -> zlen (nth (Z.to_nat n) data [0; 0]%Qc) = 2.
Proof. intros [L F] Hn. rewrite Forall_forall in F. apply F, nth_In. rewrite N_cells in L. unfold zlen in L. lia. Qed.

Lemma cells_ext (a b : cells2) : two_fields ls a -> two_fields ls b -> (forall n, 0 <= n < N -> nth (Z.to_nat n) a [0; 0]%Qc = nth (Z.to_nat n) b [0; 0]%Qc) -> a = b.
Proof.
  intros [La _] [Lb _] H. rewrite N_cells in La, Lb. unfold zlen in *. apply nth_ext with (d := [0; 0]%Qc) (d' := [0; 0]%Qc); [lia|]. intros n Hn. specialize (H (Z.of_nat n) ltac:(lia)). now rewrite Nat2Z.id in H.
Qed.
Lemma cell_pair data n : two_fields ls data -> 0 <= n < N -> nth (Z.to_nat n) data [0; 0]%Qc = [field ls data 0 (pos n); field ls data 1 (pos n)].
Proof.
  intros W Hn. pose proof (two_nth data n W Hn) as T. pose proof (proj1 W) as L. rewrite N_cells in L. rewrite !node_field by (auto; lia).
  destruct (two_cases _ T) as (a & b & ->). reflexivity.
Qed.
(* ---- one node ---- *)
Context (en : energetics) (D K dt omega : Qc).
Context (Hdt : (0 <= dt * D)%Qc) (HK : (0 <= K)%Qc) (Hen : forall c, (0 <= nonlinear en c)%Qc).

Definition det (c : Qc) : Qc := (1 + dt * D * weight * (nonlinear en c + K * weight))%Qc.
Lemma det_pos c : (0 < det c)%Qc.
Proof.
  unfold det. pose proof weight_nonneg as W. pose proof (Hen c) as E. revert W E Hdt HK. generalize (nonlinear en c) weight (dt * D)%Qc K. clear.
  intros e w d k W E A B. unfold Qclt, Qcle in *. rewrite !this_add, !this_mul, !this_add, !this_mul. change (this 0) with 0%Q in *. change (this 1) with 1%Q.
  assert (0 <= this k * this w)%Q by (apply Qmult_le_0_compat; auto).
  assert (0 <= this d * this w)%Q by (apply Qmult_le_0_compat; auto).
  assert (0 <= this e + this k * this w)%Q by (rewrite <- (Qplus_0_l 0); apply Qplus_le_compat; auto).
  assert (0 <= this d * this w * (this e + this k * this w))%Q by (apply Qmult_le_0_compat; auto). lra.
Qed.
Lemma det_nz c : det c <> 0%Qc.
Proof. intros E. pose proof (det_pos c) as P. rewrite E in P. now apply Qclt_not_eq in P. Qed.

(* the new values at x for the fields fc, fu and the former concentration cOld *)
Definition rel (fc fu : list Z -> Qc) (cOld : Qc) (x : list Z) : list Qc :=
  let c := fc x in
  let b1 := (cOld + D * dt * fringe fu x)%Qc in
  let b2 := (expansive en cOld - K * fringe fc x)%Qc in
  let a12 := (dt * D * weight)%Qc in
  let a21 := (- nonlinear en c - K * weight)%Qc in
  [omega * ((b1 - b2 * a12) * / det c) + (1 - omega) * c; omega * ((b2 - b1 * a21) * / det c) + (1 - omega) * fu x]%Qc.
Definition relv (old new : cells2) (n : Z) : list Qc := rel (field ls new 0) (field ls new 1) (field ls old 0 (pos n)) (pos n).

Lemma relax_eq old new n : two_fields ls old -> two_fields ls new -> 0 <= n < N ->
  relax axs en h D K dt omega weight old new n = Some (set_nth (Z.to_nat n) new (relv old new n)).
Proof.
  intros Wo Wn Hn. unfold relax. pose proof (pos_dom n Hn) as B. pose proof (proj1 Wo) as Lo. pose proof (proj1 Wn) as Ln. rewrite N_cells in Lo, Ln.
  pose proof (two_nth old n Wo Hn) as To. pose proof (two_nth new n Wn Hn) as Tn.
  assert (forall data : cells2, zlen data = N -> grid_read_int false axs data n = Some (nth (Z.to_nat n) data [0; 0]%Qc)) as R.
  { intros data L. unfold grid_read_int, addr_int. apply get_nth. lia. }
  rewrite !R by auto. cbn [bind]. rewrite !comp_get by lia. cbn [bind]. rewrite !fringe_eq by (auto; lia). cbn [bind].
  rewrite <- !node_field by (auto; lia).
  replace (1 - dt * D * weight * (- nonlinear en (field ls new 0 (pos n)) - K * weight))%Qc with (det (field ls new 0 (pos n))) by (unfold det; ring).
  rewrite recip_eq by apply det_nz. cbn [bind]. unfold relv.
  destruct (two_cases _ Tn) as (a & b & ->).
  assert (forall v w : Qc, put [v; w] 0 = fun q => Some [q; w]) as P0 by reflexivity.
  assert (forall v w q : Qc, put [v; w] 1 q = Some [v; q]) as P1 by reflexivity.
  rewrite P0. cbn [bind]. rewrite P1. cbn [bind]. unfold grid_write_int, addr_int. rewrite put_ok by lia. reflexivity.
Qed.

(* relaxation leaves a node alone exactly if the equations hold there *)
Definition eqs (old new : cells2) (x : list Z) : Prop :=
  defect1 ls h D dt old new x = 0%Qc /\ defect2 ls h K (fun c => nonlinear en c * c)%Qc (expansive en) old new x = 0%Qc.
Lemma rel_fixed old new n : omega <> 0%Qc -> (relv old new n = [field ls new 0 (pos n); field ls new 1 (pos n)] <-> eqs old new (pos n)).
Proof.
  intros Ho. unfold relv, rel, eqs, defect1, defect2. rewrite !laplace_fringe. set (x := pos n). set (c := field ls new 0 x). set (u := field ls new 1 x).
  pose proof (det_nz c) as Z. set (b1 := (field ls old 0 x + D * dt * fringe (field ls new 1) x)%Qc). set (b2 := (expansive en (field ls old 0 x) - K * fringe (field ls new 0) x)%Qc).
  split.
  - intros E. injection E as E1 E2.
    assert ((b1 - b2 * (dt * D * weight)) * / det c = c)%Qc as F1.
    { apply (Qc_cancel omega _ _ Ho). transitivity (omega * ((b1 - b2 * (dt * D * weight)) * / det c) + (1 - omega) * c - (1 - omega) * c)%Qc; [ring|]. rewrite E1. ring. }
    assert ((b2 - b1 * (- nonlinear en c - K * weight)) * / det c = u)%Qc as F2.
    { apply (Qc_cancel omega _ _ Ho). transitivity (omega * ((b2 - b1 * (- nonlinear en c - K * weight)) * / det c) + (1 - omega) * u - (1 - omega) * u)%Qc; [ring|]. rewrite E2. ring. }
    assert (b1 - b2 * (dt * D * weight) = c * det c)%Qc as G1 by (rewrite <- F1 at 1; field; auto).
    assert (b2 - b1 * (- nonlinear en c - K * weight) = u * det c)%Qc as G2 by (rewrite <- F2 at 1; field; auto).
    assert (b1 = c + dt * D * weight * u)%Qc as H1.
    { apply (Qc_cancel (det c) _ _ Z). transitivity ((b1 - b2 * (dt * D * weight)) + dt * D * weight * (b2 - b1 * (- nonlinear en c - K * weight)))%Qc; [unfold det; ring|]. rewrite G1, G2. ring. }
    assert (b2 = u + (- nonlinear en c - K * weight) * c)%Qc as H2.
    { apply (Qc_cancel (det c) _ _ Z). transitivity ((- nonlinear en c - K * weight) * (b1 - b2 * (dt * D * weight)) + (b2 - b1 * (- nonlinear en c - K * weight)))%Qc; [unfold det; ring|]. rewrite G1, G2. ring. }
    split.
    + transitivity (b1 - (c + dt * D * weight * u))%Qc; [unfold b1; ring|]. rewrite H1. ring.
    + transitivity (b2 - (u + (- nonlinear en c - K * weight) * c))%Qc; [unfold b2; ring|]. rewrite H2. ring.
  - intros [E1 E2].
    assert (b1 = c + dt * D * weight * u)%Qc as H1.
    { transitivity (field ls old 0 x - c + dt * D * (fringe (field ls new 1) x - weight * u) + (c + dt * D * weight * u))%Qc; [unfold b1; ring|]. rewrite E1. ring. }
    assert (b2 = u + (- nonlinear en c - K * weight) * c)%Qc as H2.
    { transitivity (nonlinear en c * c + expansive en (field ls old 0 x) - K * (fringe (field ls new 0) x - weight * c) - u + (u + (- nonlinear en c - K * weight) * c))%Qc; [unfold b2; ring|]. rewrite E2. ring. }
    rewrite H1, H2. f_equal; [|f_equal].
    + transitivity (omega * (c * (det c * / det c)) + (1 - omega) * c)%Qc; [unfold det at 2; ring|]. rewrite Qcmult_inv_r by auto. ring.
    + transitivity (omega * (u * (det c * / det c)) + (1 - omega) * u)%Qc; [unfold det at 2; ring|]. rewrite Qcmult_inv_r by auto. ring.
Qed.
End Split.
