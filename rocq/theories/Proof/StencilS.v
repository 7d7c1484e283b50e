(* reads near the edge of a serial domain; sums over the domain *)
From Coq Require Import QArith.QArith QArith.Qcanon.
From Verif Require Import Model.Base Model.Boundary Model.Layout Model.Access Model.Stencil Spec.Box Spec.Access Spec.Stencil
  Proof.BaseL Proof.LayoutL Proof.AccessL Proof.StencilL.
Local Open Scope list_scope.

Definition cb (l : limits) (c : Z) : Z := check_boundary false c (l_x0 l) (l_x1 l) (l_b0 l) (l_b1 l).
Fixpoint cbs (ls : list limits) (x : list Z) : list Z :=
  match ls, x with l :: ls', c :: x' => cb l c :: cbs ls' x' | _, _ => [] end.
Notation box ls := (in_box (map l_x0 ls) (map l_x1 ls)).

Lemma adjust_cbs g ls x : length x = length ls -> adjust false (lay g ls) x = cbs ls x.
Proof. revert x; induction ls as [|l ls IH]; intros [|c x] H; simpl in *; try discriminate; auto. f_equal. apply IH. lia. Qed.
Lemma cb_in l c : l_x0 l <= c < l_x1 l -> cb l c = c.
Proof. apply check_boundary_in. Qed.
Lemma cb_range l c : serial_axis l -> l_x0 l - 1 <= c <= l_x1 l -> l_x0 l <= cb l c < l_x1 l.
Proof.
  intros (H & S0 & S1) R. unfold cb, check_boundary, serial_side, mirror, Neumann, Dirichlet, periodic in *.
  destruct (Z.ltb_spec c (l_x0 l)).
  - destruct S0 as [-> |[-> |[-> |[-> ?]]]]; cbn -[Z.mul Z.add Z.sub]; lia.
  - destruct (Z.leb_spec (l_x1 l) c); [|lia]. destruct S1 as [-> |[-> |[-> |[-> ?]]]]; cbn -[Z.mul Z.add Z.sub]; lia.
Qed.
Lemma cbs_in ls x : box ls x -> cbs ls x = x.
Proof. revert x; induction ls as [|l ls IH]; intros [|c x] H; simpl in *; try easy. destruct H. now rewrite cb_in, IH. Qed.
Lemma in_box_nth ls x : box ls x <-> length x = length ls /\ forall i d, (i < length ls)%nat -> l_x0 (nth i ls d) <= nth i x 0 < l_x1 (nth i ls d).
Proof.
  revert x; induction ls as [|l ls IH]; intros [|c x].
  - split; [intros _; split; [auto|intros i d Hi; simpl in Hi; lia]|intros _; exact I].
  - split; [intros []|]. intros [H _]. discriminate.
  - split; [intros []|]. intros [H _]. discriminate.
  - cbn [map in_box]. rewrite IH. split.
    + intros [H1 [H2 H3]]. split; [simpl; lia|]. intros [|i] d Hi; [auto|]. apply H3. simpl in Hi. lia.
    + intros [H1 H2]. simpl in H1. split; [apply (H2 0%nat l); simpl; lia|]. split; [lia|]. intros i d Hi. apply (H2 (S i) d). simpl. lia.
Qed.
Lemma cbs_set ls x i c : box ls x -> (i < length ls)%nat -> cbs ls (set_nth i x c) = set_nth i x (cb (nth i ls (mkLim 0 0 0 0 0 0)) c).
Proof.
  revert x i; induction ls as [|l ls IH]; intros [|b x] [|i] H Hi; simpl in *; try easy; try lia; destruct H as [Hb Hx].
  - now rewrite cbs_in.
  - rewrite cb_in by auto. f_equal. apply IH; auto. lia.
Qed.
Lemma box_set ls x i c : box ls x -> (i < length ls)%nat -> (let l := nth i ls (mkLim 0 0 0 0 0 0) in l_x0 l <= c < l_x1 l) -> box ls (set_nth i x c).
Proof.
  revert x i; induction ls as [|l ls IH]; intros [|b x] [|i] H Hi Hc; simpl in *; try easy; try lia; destruct H as [Hb Hx].
  split; auto. apply IH; auto. lia.
Qed.

Definition at_or {T} (d : T) (axs : list axis) (data : list T) (x : list Z) : T := match grid_read false axs data x with Some v => v | None => d end.

Lemma lims_le ls : Forall serial_axis ls -> Forall (fun l => l_x0 l <= l_x1 l) ls.
Proof. intros F. eapply Forall_impl; [|exact F]. intros l (H & _). lia. Qed.

(* the index of a node in a serial array *)
Definition idx (ls : list limits) (x : list Z) : Z := encode (lay 0 ls) x.
Lemma read_idx {T} ls (data : list T) x : length x = length ls -> grid_read false (lay 0 ls) data x = get data (idx ls (cbs ls x)).
Proof. intros H. rewrite grid_read_eq by (rewrite length_lay; auto). now rewrite adjust_cbs. Qed.
Lemma idx_bounds ls x : Forall serial_axis ls -> box ls x -> 0 <= idx ls x < cells (lay 0 ls).
Proof.
  intros F H. apply (encode_bounds 0); [apply wf_lay, lims_le, F|]. apply (local_in_storage 0); [lia|apply wf_lay, lims_le, F|]. now rewrite map_x0_lay, map_x1_lay.
Qed.
Lemma read_defined {T} (d : T) ls (data : list T) x : Forall serial_axis ls -> zlen data = cells (lay 0 ls) -> length x = length ls -> box ls (cbs ls x) ->
  grid_read false (lay 0 ls) data x = Some (at_or d (lay 0 ls) data x).
Proof.
  intros F L Lx B. unfold at_or. rewrite read_idx by auto. pose proof (idx_bounds ls _ F B). destruct (get_ok data (idx ls (cbs ls x))) as [v ->]; [lia|reflexivity].
Qed.
Lemma nb_box ls x i d : Forall serial_axis ls -> box ls x -> 0 <= i < zlen ls -> d = 1 \/ d = -1 -> box ls (cbs ls (nb x i d)).
Proof.
  intros F B Hi Hd. unfold nb. unfold zlen in Hi. rewrite cbs_set by (auto; lia). apply box_set; auto; [lia|]. cbv zeta. set (l := nth _ ls _).
  apply in_box_nth in B as [_ B]. specialize (B (Z.to_nat i) (mkLim 0 0 0 0 0 0) ltac:(lia)). fold l in B.
  apply cb_range; [|lia]. rewrite Forall_forall in F. apply F. apply nth_In. lia.
Qed.
Lemma serial_star {T} (d : T) ls (data : list T) x : Forall serial_axis ls -> zlen data = cells (lay 0 ls) -> box ls x ->
  star false (lay 0 ls) data x (at_or d (lay 0 ls) data).
Proof.
  intros F L B. pose proof (local_len ls x B) as Lx. split.
  - apply read_defined; auto. now rewrite cbs_in.
  - intros i Hi. assert (0 <= i < zlen ls) as Hi' by (unfold zlen in *; rewrite length_lay in Hi; lia).
    split; apply read_defined; auto; try (rewrite nb_len; auto); apply nb_box; auto.
Qed.

(* ---- sums over the domain ---- *)
Fixpoint boxsum (ls : list limits) (F : list Z -> Qc) : Qc :=
  match ls with
  | [] => F []
  | l :: ls' => sumQ (map (fun c => boxsum ls' (fun y => F (c :: y))) (zrange (l_x0 l) (l_x1 l)))
  end.
Lemma boxsum_ext ls F G : (forall x, box ls x -> F x = G x) -> boxsum ls F = boxsum ls G.
Proof.
  revert F G; induction ls as [|l ls IH]; intros F G H; simpl.
  - apply H. exact I.
  - apply sumQ_ext. intros c Hc. apply in_zrange in Hc. apply IH. intros x Hx. apply H. simpl. auto.
Qed.
Lemma boxsum_add ls F G : boxsum ls (fun x => F x + G x)%Qc = (boxsum ls F + boxsum ls G)%Qc.
Proof.
  revert F G; induction ls as [|l ls IH]; intros F G; simpl; [reflexivity|]. rewrite <- sumQ_add. apply sumQ_ext. intros. apply IH.
Qed.
Lemma boxsum_mul ls k F : boxsum ls (fun x => k * F x)%Qc = (k * boxsum ls F)%Qc.
Proof. revert F; induction ls as [|l ls IH]; intros F; simpl; [reflexivity|]. rewrite <- sumQ_mul. apply sumQ_ext. intros. apply IH. Qed.
Lemma boxsum_zero ls : boxsum ls (fun _ => 0%Qc) = 0%Qc.
Proof. induction ls as [|l ls IH]; simpl; [reflexivity|]. rewrite IH. apply sumQ_zero. Qed.
Lemma boxsum_sumQ {A} ls (F : A -> list Z -> Qc) m : boxsum ls (fun x => sumQ (map (fun a => F a x) m)) = sumQ (map (fun a => boxsum ls (F a)) m).
Proof. induction m as [|a m IH]; simpl; [apply boxsum_zero|]. rewrite boxsum_add, IH. reflexivity. Qed.

Lemma sumQ_shift f lo hi k : sumQ (map f (zrange (lo + k) (hi + k))) = sumQ (map (fun c => f (c + k)) (zrange lo hi)).
Proof. rewrite zrange_shift, map_map. reflexivity. Qed.
Lemma zrange_mul f n m : 0 <= n -> 0 <= m ->
  sumQ (map f (zrange 0 (n * m))) = sumQ (map (fun c => sumQ (map (fun j => f (c * m + j)) (zrange 0 m))) (zrange 0 n)).
Proof.
  intros Hn Hm. revert Hn. apply (natlike_ind (fun n => sumQ (map f (zrange 0 (n * m))) = sumQ (map (fun c => sumQ (map (fun j => f (c * m + j)) (zrange 0 m))) (zrange 0 n)))).
  - rewrite !zrange_nil by lia. reflexivity.
  - clear n. intros n Hn IH. rewrite <- Z.add_1_r. rewrite zrange_snoc by lia. rewrite map_app, sumQ_app, <- IH. cbn [map sumQ].
    rewrite (zrange_app 0 (n * m) ((n + 1) * m)) by nia. rewrite map_app, sumQ_app. f_equal.
    replace (zrange (n * m) ((n + 1) * m)) with (zrange (0 + n * m) (m + n * m)) by (f_equal; lia). rewrite sumQ_shift. rewrite Qcplus_0_r.
    apply sumQ_ext. intros j _. f_equal. lia.
Qed.
Lemma nodes_sum g ls F : Forall (fun l => l_x0 l <= l_x1 l) ls ->
  sumQ (map (fun i => F (position (lay g ls) i)) (zrange 0 (nodes (lay g ls)))) = boxsum ls F.
Proof.
  intros Fl; revert F; induction Fl as [|l ls Hl Fl IH]; intros F.
  - change (nodes (lay g [])) with 1. simpl. ring.
  - cbn [boxsum]. rewrite nodes_lay. cbn [map]. rewrite prodZ_cons. pose proof (nodes_nonneg g (lay g ls) (wf_lay g ls Fl)) as Hn.
    rewrite <- (nodes_lay g ls). rewrite zrange_mul by lia.
    replace (zrange (l_x0 l) (l_x1 l)) with (zrange (0 + l_x0 l) (l_x1 l - l_x0 l + l_x0 l)) by (f_equal; lia).
    rewrite sumQ_shift. apply sumQ_ext. intros c Hc. apply in_zrange in Hc. rewrite <- IH. apply sumQ_ext. intros j Hj. apply in_zrange in Hj.
    f_equal. cbn [position lay a_xx a_x0]. rewrite <- (nodes_lay g ls).
    assert (Z.quot (c * nodes (lay g ls) + j) (nodes (lay g ls)) = c) as Q.
    { rewrite Z.quot_div_nonneg by nia. rewrite Z.div_add_l by lia. rewrite Z.div_small by lia. lia. }
    rewrite Q. f_equal. f_equal. lia.
Qed.

(* sums of differences along one axis *)
Lemma line_periodic l (f : Z -> Qc) d : periodic_axis l -> d = 1 \/ d = -1 ->
  sumQ (map (fun c => f (cb l (c + d))) (zrange (l_x0 l) (l_x1 l))) = sumQ (map f (zrange (l_x0 l) (l_x1 l))).
Proof.
  intros (H & B0 & B1) [-> | ->].
  - replace (l_x1 l) with (l_x1 l - 1 + 1) by lia. rewrite zrange_snoc by lia. rewrite map_app, sumQ_app. cbn [map sumQ].
    rewrite <- (zrange_snoc (l_x0 l) (l_x1 l - 1)) by lia. replace (l_x1 l - 1 + 1) with (l_x1 l) by lia.
    rewrite (zrange_cons (l_x0 l) (l_x1 l)) by lia. cbn [map sumQ].
    assert (cb l (l_x1 l) = l_x0 l) as ->.
    { unfold cb, check_boundary. rewrite B1. destruct (Z.ltb_spec (l_x1 l) (l_x0 l)); [lia|]. destruct (Z.leb_spec (l_x1 l) (l_x1 l)); [|lia]. cbn -[Z.mul Z.add Z.sub]. lia. }
    replace (zrange (l_x0 l + 1) (l_x1 l)) with (zrange (l_x0 l + 1) (l_x1 l - 1 + 1)) by (f_equal; lia). rewrite sumQ_shift.
    rewrite (sumQ_ext (fun c => f (cb l (c + 1))) (fun c => f (c + 1))) by (intros c Hc; apply in_zrange in Hc; rewrite cb_in by lia; auto). ring.
  - rewrite (zrange_cons (l_x0 l) (l_x1 l)) at 1 by lia. cbn [map sumQ].
    assert (cb l (l_x0 l + -1) = l_x1 l - 1) as ->.
    { unfold cb, check_boundary. rewrite B0. destruct (Z.ltb_spec (l_x0 l + -1) (l_x0 l)); [|lia]. cbn -[Z.mul Z.add Z.sub]. lia. }
    replace (zrange (l_x0 l) (l_x1 l)) with (zrange (l_x0 l) (l_x1 l - 1 + 1)) by (f_equal; lia).
    rewrite zrange_snoc by lia. rewrite map_app, sumQ_app. cbn [map sumQ].
    replace (zrange (l_x0 l + 1) (l_x1 l)) with (zrange (l_x0 l + 1) (l_x1 l - 1 + 1)) by (f_equal; lia). rewrite sumQ_shift.
    rewrite (sumQ_ext (fun c => f (cb l (c + 1 + -1))) f) by (intros c Hc; apply in_zrange in Hc; rewrite cb_in by lia; f_equal; lia). ring.
Qed.
Lemma line_insulated l (f : Z -> Qc) : insulated_axis l ->
  (sumQ (map (fun c => f (cb l (c + 1%Z))) (zrange (l_x0 l) (l_x1 l))) + sumQ (map (fun c => f (cb l (c + -1)%Z)) (zrange (l_x0 l) (l_x1 l))) =
   c2 * sumQ (map f (zrange (l_x0 l) (l_x1 l))))%Qc.
Proof.
  intros (H & B0 & B1). rewrite c2_eq.
  assert (sumQ (map (fun c => f (cb l (c + 1%Z))) (zrange (l_x0 l) (l_x1 l))) = sumQ (map f (zrange (l_x0 l) (l_x1 l))) - f (l_x0 l) + f (l_x1 l - 1)%Z)%Qc as ->.
  { replace (zrange (l_x0 l) (l_x1 l)) with (zrange (l_x0 l) (l_x1 l - 1 + 1)) at 1 by (f_equal; lia). rewrite zrange_snoc by lia. rewrite map_app, sumQ_app. cbn [map sumQ].
    rewrite (zrange_cons (l_x0 l) (l_x1 l)) by lia. cbn [map sumQ].
    assert (cb l (l_x1 l - 1 + 1) = l_x1 l - 1) as ->.
    { replace (l_x1 l - 1 + 1) with (l_x1 l) by lia. unfold cb, check_boundary. destruct (Z.ltb_spec (l_x1 l) (l_x0 l)); [lia|]. destruct (Z.leb_spec (l_x1 l) (l_x1 l)); [|lia]. destruct B1 as [-> | ->]; reflexivity. }
    replace (zrange (l_x0 l + 1) (l_x1 l)) with (zrange (l_x0 l + 1) (l_x1 l - 1 + 1)) by (f_equal; lia). rewrite sumQ_shift.
    rewrite (sumQ_ext (fun c => f (cb l (c + 1))) (fun c => f (c + 1))) by (intros c Hc; apply in_zrange in Hc; rewrite cb_in by lia; auto). ring. }
  assert (sumQ (map (fun c => f (cb l (c + -1)%Z)) (zrange (l_x0 l) (l_x1 l))) = sumQ (map f (zrange (l_x0 l) (l_x1 l))) + f (l_x0 l) - f (l_x1 l - 1)%Z)%Qc as ->.
  { rewrite (zrange_cons (l_x0 l) (l_x1 l)) at 1 by lia. cbn [map sumQ].
    assert (cb l (l_x0 l + -1) = l_x0 l) as ->.
    { unfold cb, check_boundary. destruct (Z.ltb_spec (l_x0 l + -1) (l_x0 l)); [|lia]. destruct B0 as [-> | ->]; reflexivity. }
    replace (zrange (l_x0 l) (l_x1 l)) with (zrange (l_x0 l) (l_x1 l - 1 + 1)) by (f_equal; lia).
    rewrite zrange_snoc by lia. rewrite map_app, sumQ_app. cbn [map sumQ].
    replace (zrange (l_x0 l + 1) (l_x1 l)) with (zrange (l_x0 l + 1) (l_x1 l - 1 + 1)) by (f_equal; lia). rewrite sumQ_shift.
    rewrite (sumQ_ext (fun c => f (cb l (c + 1 + -1))) f) by (intros c Hc; apply in_zrange in Hc; rewrite cb_in by lia; f_equal; lia). ring. }
  ring.
Qed.

Lemma boxsum_sumQ_swap ls (F : Z -> list Z -> Qc) m : sumQ (map (fun a => boxsum ls (F a)) m) = boxsum ls (fun x => sumQ (map (fun a => F a x) m)).
Proof. symmetry. apply boxsum_sumQ. Qed.

Lemma axis_sum ls i (K : limits -> Prop) (a b e : Qc) :
  (forall l (f : Z -> Qc), K l -> (a * sumQ (map (fun c => f (cb l (c + 1)%Z)) (zrange (l_x0 l) (l_x1 l))) + b * sumQ (map f (zrange (l_x0 l) (l_x1 l)))
     + e * sumQ (map (fun c => f (cb l (c + -1)%Z)) (zrange (l_x0 l) (l_x1 l))) = 0)%Qc) ->
  forall G, (i < length ls)%nat -> K (nth i ls (mkLim 0 0 0 0 0 0)) ->
  boxsum ls (fun x => a * G (cbs ls (nb x (Z.of_nat i) 1)) + b * G x + e * G (cbs ls (nb x (Z.of_nat i) (-1))))%Qc = 0%Qc.
Proof.
  intros Line. revert i; induction ls as [|l ls IH]; intros i G Hi Hk; [simpl in Hi; lia|].
  destruct i as [|i].
  - cbn [boxsum]. simpl in Hk. rewrite boxsum_sumQ_swap. rewrite <- (boxsum_zero ls). apply boxsum_ext. intros y Hy.
    rewrite <- (Line l (fun c => G (c :: y)) Hk). rewrite <- !sumQ_mul, <- !sumQ_add. apply sumQ_ext. intros c Hc. apply in_zrange in Hc.
    unfold nb. change (Z.to_nat (Z.of_nat 0)) with 0%nat. cbn [nth set_nth cbs]. now rewrite cbs_in.
  - cbn [boxsum]. simpl in Hk. rewrite <- (sumQ_zero (zrange (l_x0 l) (l_x1 l))). apply sumQ_ext. intros c Hc. apply in_zrange in Hc.
    rewrite <- (IH i (fun y => G (c :: y)) ltac:(simpl in Hi; lia) Hk). apply boxsum_ext. intros y Hy.
    unfold nb. rewrite !Nat2Z.id. cbn [nth set_nth cbs]. now rewrite cb_in.
Qed.

(* ---- arrays given by a function ---- *)
Definition tab (n : Z) (F : Z -> Qc) : list Qc := map F (zrange 0 n).
Lemma tab_len n F : 0 <= n -> zlen (tab n F) = n.
Proof. intros. unfold tab. rewrite zlen_map, zlen_zrange by lia. lia. Qed.
Lemma tab_ext n F G : (forall j, 0 <= j < n -> F j = G j) -> tab n F = tab n G.
Proof. intros H. apply map_ext_in. intros j Hj. apply in_zrange in Hj. auto. Qed.
Lemma get_tab n F j : 0 <= j < n -> get (tab n F) j = Some (F j).
Proof.
  intros H. unfold get, tab. destruct (Z.ltb_spec j 0); [lia|]. rewrite nth_error_map, nth_error_zrange by lia. cbn [option_map]. f_equal. f_equal. lia.
Qed.
Lemma put_tab n F j v : 0 <= j < n -> put (tab n F) j v = Some (tab n (fun k => if k =? j then v else F k)).
Proof.
  intros H. rewrite put_ok by (rewrite tab_len; lia). f_equal. unfold tab.
  rewrite (zrange_app 0 j n), (zrange_cons j n) by lia. rewrite !map_app. cbn [map].
  replace (Z.to_nat j) with (length (map F (zrange 0 j))) by (rewrite map_length, length_zrange; lia). rewrite set_nth_mid. rewrite Z.eqb_refl. f_equal; [|f_equal].
  - apply map_ext_in. intros k Hk. apply in_zrange in Hk. destruct (Z.eqb_spec k j); [lia|auto].
  - apply map_ext_in. intros k Hk. apply in_zrange in Hk. destruct (Z.eqb_spec k j); [lia|auto].
Qed.
Lemma repeat_tab n : repeat 0%Qc (Z.to_nat n) = tab n (fun _ => 0%Qc).
Proof.
  unfold tab, zrange. rewrite map_map. replace (n - 0) with n by lia. generalize 0%nat. induction (Z.to_nat n) as [|m IH]; intros s; simpl; [reflexivity|]. f_equal. apply IH.
Qed.
Lemma fold_tab (step : list Qc -> Z -> option (list Qc)) n N (t : Z -> Qc -> Qc) F : 0 <= N <= n ->
  (forall j G, 0 <= j < N -> step (tab n G) j = put (tab n G) j (t j (G j))) ->
  fold_opt step (zrange 0 N) (tab n F) = Some (tab n (fun k => if k <? N then t k (F k) else F k)).
Proof.
  intros HN H. assert (forall m, 0 <= m -> m <= N -> fold_opt step (zrange 0 m) (tab n F) = Some (tab n (fun k => if k <? m then t k (F k) else F k))) as A.
  { apply (natlike_ind (fun m => m <= N -> fold_opt step (zrange 0 m) (tab n F) = Some (tab n (fun k => if k <? m then t k (F k) else F k)))).
    - intros _. rewrite zrange_nil by lia. cbn [fold_opt]. f_equal. apply tab_ext. intros j Hj. destruct (Z.ltb_spec j 0); [lia|auto].
    - intros m Hm IH Hm'. rewrite <- Z.add_1_r in *. rewrite zrange_snoc by lia. rewrite fold_opt_app, IH by lia. cbn [bind fold_opt].
      rewrite H by lia. rewrite put_tab by lia. cbn [bind]. f_equal. apply tab_ext. intros j Hj.
      destruct (Z.eqb_spec j m) as [->|]; [destruct (Z.ltb_spec m m); [lia|]; destruct (Z.ltb_spec m (m + 1)); [auto|lia]|].
      destruct (Z.ltb_spec j m), (Z.ltb_spec j (m + 1)); auto; lia. }
  apply A; lia.
Qed.

(* the loop over the nodes of a serial grid *)
Lemma cells_nodes_0 ls : cells (lay 0 ls) = nodes (lay 0 ls).
Proof. rewrite cells_lay, nodes_lay. f_equal. apply map_ext. intros. lia. Qed.
Lemma list_tab (v : list Qc) : v = tab (zlen v) (fun j => nth (Z.to_nat j) v 0%Qc).
Proof.
  unfold tab. apply nth_ext with (d := 0%Qc) (d' := 0%Qc).
  - rewrite map_length, length_zrange. unfold zlen. lia.
  - intros n Hn. assert (nth_error (map (fun j => nth (Z.to_nat j) v 0%Qc) (zrange 0 (zlen v))) n = Some (nth n v 0%Qc)) as E.
    { rewrite nth_error_map, nth_error_zrange by (unfold zlen; lia). cbn [option_map]. f_equal. f_equal. lia. }
    symmetry. apply (nth_error_nth _ _ 0%Qc E).
Qed.
Lemma for_nodes_eq ls f t dest : zlen dest = cells (lay 0 ls) -> (forall i, 0 <= i < nodes (lay 0 ls) -> f i = Some (t i)) ->
  for_nodes false (lay 0 ls) f dest = Some (tab (nodes (lay 0 ls)) t).
Proof.
  intros L H. unfold for_nodes. rewrite cells_nodes_0 in L. assert (0 <= nodes (lay 0 ls)) by (rewrite <- L; apply zlen_nonneg).
  rewrite (list_tab dest), L. rewrite (fold_tab _ _ _ (fun i _ => t i)) by
    (try lia; intros j G Hj; rewrite H by auto; cbn [bind]; reflexivity).
  f_equal. apply tab_ext. intros j Hj. destruct (Z.ltb_spec j (nodes (lay 0 ls))); [auto|lia].
Qed.
Lemma read_int_0 ls (data : list Qc) i : zlen data = cells (lay 0 ls) -> 0 <= i < nodes (lay 0 ls) ->
  grid_read_int false (lay 0 ls) data i = Some (nth (Z.to_nat i) data 0%Qc).
Proof. intros L H. rewrite <- cells_nodes_0 in H. unfold grid_read_int, addr_int. apply get_nth. lia. Qed.
Lemma sum_tab n F : sumQ (tab n F) = sumQ (map F (zrange 0 n)).
Proof. reflexivity. Qed.

(* the Laplacian of a serial grid *)
Section Serial.
Context (ls : list limits) (dx : list Qc) (Hs : Forall serial_axis ls) (Hd : length dx = length ls) (Hz : Forall (fun h => h <> 0%Qc) dx).
Definition lap (data : list Qc) (x : list Z) : Qc :=
  sumQ (map (fun i => second_difference (at_or 0%Qc (lay 0 ls) data) x i (spacing dx i)) (zrange 0 (zlen ls))).
Lemma zlen_lay : zlen (lay 0 ls) = zlen ls.
Proof. unfold zlen. now rewrite length_lay. Qed.
Lemma laplacian_serial data x : zlen data = cells (lay 0 ls) -> box ls x -> laplacian false (lay 0 ls) dx data x = Some (lap data x).
Proof.
  intros L B. rewrite (laplacian_eq _ _ _ _ _ (at_or 0%Qc (lay 0 ls) data)); auto.
  - unfold lap. now rewrite zlen_lay.
  - rewrite length_lay. now apply local_len.
  - now rewrite length_lay.
  - now apply serial_star.
Qed.
Lemma pos_box i : 0 <= i < nodes (lay 0 ls) -> box ls (position (lay 0 ls) i).
Proof. intros H. destruct (position_into 0 (lay 0 ls) i (wf_lay 0 ls (lims_le ls Hs)) H) as [B _]. now rewrite map_x0_lay, map_x1_lay in B. Qed.
Lemma laplacian_at_serial data i : zlen data = cells (lay 0 ls) -> 0 <= i < nodes (lay 0 ls) ->
  laplacian_at false (lay 0 ls) dx data i = Some (lap data (position (lay 0 ls) i)).
Proof. intros L H. unfold laplacian_at. apply laplacian_serial; auto. now apply pos_box. Qed.

Lemma lap_sum data : zlen data = cells (lay 0 ls) -> Forall (fun l => periodic_axis l \/ insulated_axis l) ls ->
  sumQ (map (fun i => lap data (position (lay 0 ls) i)) (zrange 0 (nodes (lay 0 ls)))) = 0%Qc.
Proof.
  intros L F. rewrite (nodes_sum 0 ls (lap data)) by now apply lims_le. unfold lap. rewrite boxsum_sumQ.
  transitivity (sumQ (map (fun _ : Z => 0%Qc) (zrange 0 (zlen ls)))); [|apply sumQ_zero]. apply sumQ_ext. intros i Hi. apply in_zrange in Hi.
  unfold second_difference. fold c2. set (f := at_or 0%Qc (lay 0 ls) data).
  pose proof (spacing_nz dx i Hz ltac:(unfold zlen in *; lia)) as Nz.
  transitivity (/ (spacing dx i * spacing dx i) * boxsum ls (fun x => 1 * f (cbs ls (nb x i 1)) + (- c2) * f x + 1 * f (cbs ls (nb x i (-1)))))%Qc.
  - rewrite <- boxsum_mul. apply boxsum_ext. intros x Hx.
    assert (forall d, d = 1 \/ d = -1 -> f (nb x i d) = f (cbs ls (nb x i d))) as E.
    { intros d Hdd. unfold f, at_or. pose proof (local_len ls x Hx) as Lx. rewrite !read_idx.
      - rewrite (cbs_in ls (cbs ls (nb x i d))); [reflexivity|]. now apply nb_box.
      - pose proof (nb_box ls x i d Hs Hx ltac:(lia) Hdd) as B. now apply local_len in B.
      - now rewrite nb_len. }
    cbv beta; rewrite (E 1), (E (-1)) by auto. field. auto.
  - assert (boxsum ls (fun x => 1 * f (cbs ls (nb x i 1)) + (- c2) * f x + 1 * f (cbs ls (nb x i (-1))))%Qc = 0%Qc) as ->; [|ring].
    replace i with (Z.of_nat (Z.to_nat i)) by lia. apply (axis_sum ls (Z.to_nat i) (fun l => periodic_axis l \/ insulated_axis l)).
    + intros l g [P|I].
      * rewrite (line_periodic l g 1 P), (line_periodic l g (-1) P) by auto. rewrite c2_eq. ring.
      * pose proof (line_insulated l g I) as E.
        match goal with |- (1 * ?p + - c2 * ?u + 1 * ?q)%Qc = _ => transitivity (p + q - c2 * u)%Qc; [ring|]; rewrite E; ring end.
    + unfold zlen in Hi. lia.
    + rewrite Forall_forall in F. apply F. apply nth_In. unfold zlen in Hi. lia.
Qed.
End Serial.
