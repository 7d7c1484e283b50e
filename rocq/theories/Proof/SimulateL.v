From Verif Require Import Model.Base Model.Boundary Model.Layout Model.Access Model.Setup Model.Codec Model.Region Model.MPI
  Model.Ghostswap Model.Stencil Model.Simulate Spec.Box Spec.Access Spec.Bytes Spec.Decomp Spec.Schedule Spec.Stencil
  Proof.BaseL Proof.LayoutL Proof.AccessL Proof.SetupL Proof.CodecL Proof.RegionL Proof.SerialL Proof.MPIL Proof.GhostL Proof.HaloL Proof.StencilL Proof.StencilS.
Local Open Scope list_scope.

(* ---- limits of a rank with the boundary conditions set ---- *)
Definition set_lim (l : limits) (b : Z * Z) : limits :=
  mkLim (l_g0 l) (l_g1 l) (l_x0 l) (l_x1 l) (if l_x0 l =? l_g0 l then fst b else l_b0 l) (if l_x1 l =? l_g1 l then snd b else l_b1 l).

Lemma length_zip_with {A B C} (f : A -> B -> C) l m : length m = length l -> length (zip_with f l m) = length l.
Proof. revert m; induction l; intros [|b m]; simpl; intros; auto; discriminate. Qed.
Lemma map_zip {X} (f : limits -> X) ls bs : (forall l b, f (set_lim l b) = f l) -> length bs = length ls -> map f (zip_with set_lim ls bs) = map f ls.
Proof. intros H. revert bs; induction ls as [|l ls IH]; intros [|b bs] E; simpl in *; try discriminate; auto. rewrite H. f_equal. apply IH. lia. Qed.
Lemma zip_lay gh ls bs : length bs = length ls -> zip_with set_bounds_axis (lay gh ls) bs = lay gh (zip_with set_lim ls bs).
Proof.
  revert bs; induction ls as [|l ls IH]; intros [|b bs] E; try discriminate; [reflexivity|]. cbn [lay zip_with]. rewrite IH by (simpl in E; lia).
  rewrite !map_zip by (auto; simpl in E; lia). reflexivity.
Qed.

(* a rank's limits l within those of the whole domain w *)
Definition fits (l w : limits) : Prop :=
  l_x0 w <= l_x0 l /\ l_x0 l < l_x1 l /\ l_x1 l <= l_x1 w /\
  l_b0 l = (if l_x0 l =? l_x0 w then l_b0 w else parallel) /\ l_b1 l = (if l_x1 l =? l_x1 w then l_b1 w else parallel).

Lemma axis_key l w x : fits l w -> serial_axis w -> l_x0 l - 1 <= x <= l_x1 l ->
  let z := check_boundary true x (l_x0 l) (l_x1 l) (l_b0 l) (l_b1 l) in
  l_x0 l - 1 <= z <= l_x1 l /\ l_x0 w + (z - l_x0 w) mod (l_x1 w - l_x0 w) = cb w x.
Proof.
  intros (F1 & F2 & F3 & B0 & B1) (H & S0 & S1) R. unfold cb, check_boundary. rewrite B0, B1. unfold serial_side, mirror, Neumann, Dirichlet, periodic, parallel in *.
  destruct (Z.ltb_spec x (l_x0 l)); [|destruct (Z.leb_spec (l_x1 l) x)].
  - destruct (Z.eqb_spec (l_x0 l) (l_x0 w)) as [E|E].
    + destruct (Z.ltb_spec x (l_x0 w)); [|lia]. destruct S0 as [-> |[-> |[-> |[-> ?]]]]; cbn -[Z.mul Z.add Z.sub Z.modulo]; split; try lia.
      * rewrite Z.mod_small; lia.
      * rewrite Z.mod_small; lia.
      * replace (x - l_x0 w) with (l_x1 w - l_x0 w - 1 + (-1) * (l_x1 w - l_x0 w)) by lia. rewrite Z_mod_plus_full, Z.mod_small; lia.
      * rewrite Z.mod_small; lia.
    + cbn -[Z.mul Z.add Z.sub Z.modulo]. destruct (Z.ltb_spec x (l_x0 w)); [lia|]. destruct (Z.leb_spec (l_x1 w) x); [lia|]. split; [lia|]. rewrite Z.mod_small; lia.
  - destruct (Z.eqb_spec (l_x1 l) (l_x1 w)) as [E|E].
    + destruct (Z.ltb_spec x (l_x0 w)); [lia|]. destruct (Z.leb_spec (l_x1 w) x); [|lia]. destruct S1 as [-> |[-> |[-> |[-> ?]]]]; cbn -[Z.mul Z.add Z.sub Z.modulo]; split; try lia.
      * rewrite Z.mod_small; lia.
      * rewrite Z.mod_small; lia.
      * replace (x - l_x0 w) with (0 + 1 * (l_x1 w - l_x0 w)) by lia. rewrite Z_mod_plus_full, Z.mod_small; lia.
      * rewrite Z.mod_small; lia.
    + cbn -[Z.mul Z.add Z.sub Z.modulo]. destruct (Z.ltb_spec x (l_x0 w)); [lia|]. destruct (Z.leb_spec (l_x1 w) x); [lia|]. split; [lia|]. rewrite Z.mod_small; lia.
  - destruct (Z.ltb_spec x (l_x0 w)); [lia|]. destruct (Z.leb_spec (l_x1 w) x); [lia|]. split; [lia|]. rewrite Z.mod_small; lia.
Qed.

Definition gaxes (w : list limits) : list gaxis := map (fun l => mkG (l_x0 l) (l_x1 l)) w.
Lemma axes_key gh ls w z : 1 <= gh -> Forall2 fits ls w -> Forall serial_axis w -> Forall2 (fun l c => l_x0 l - 1 <= c <= l_x1 l) ls z ->
  in_box (map (fun l => l_x0 l - gh) ls) (map (fun l => l_x1 l + gh) ls) (adjust true (lay gh ls) z) /\ wrap (gaxes w) (adjust true (lay gh ls) z) = cbs w z.
Proof.
  intros Hg F. revert z; induction F as [|l w0 ls w H F IH]; intros z S R; inversion R as [|? c ? z' Rc Rz]; subst; [simpl; auto|]. inversion S; subst.
  destruct (IH z' H3 Rz) as [I1 I2]. pose proof (axis_key l w0 c H H2 Rc) as K. cbv zeta in K. destruct K as [K1 K2].
  cbn [lay adjust map in_box gaxes wrap cbs a_x0 a_x1 a_b0 a_b1 gx_0 gx_1 glen]. split; [split; [lia|auto]|]. fold (gaxes w). rewrite I2. f_equal. exact K2.
Qed.

Lemma nb_near ls x i d : box ls x -> 0 <= i < zlen ls -> d = 1 \/ d = -1 -> Forall2 (fun l c => l_x0 l - 1 <= c <= l_x1 l) ls (nb x i d).
Proof.
  intros B Hi Hd. unfold nb. unfold zlen in Hi. set (k := Z.to_nat i). assert (k < length ls)%nat as Hk by lia. clearbody k. clear Hi.
  revert x k B Hk; induction ls as [|l ls IH]; intros [|c x] [|k] B Hk; simpl in *; try easy; try lia; destruct B as [B1 B2].
  - constructor; [lia|]. clear - B2. revert x B2; induction ls; intros [|c x] B; simpl in *; try easy; constructor; [lia|]. apply IHls; tauto.
  - constructor; [lia|]. apply IH; auto. lia.
Qed.

Section Star.
Context {T : Type}.
Definition agrees (gh : Z) (ls w : list limits) (F : list Z -> T) (d : list T) : Prop :=
  forall y, in_box (map (fun l => l_x0 l - gh) ls) (map (fun l => l_x1 l + gh) ls) y -> get d (encode (lay gh ls) y) = Some (F (wrap (gaxes w) y)).

Lemma wrap_in w y : in_box (map l_x0 w) (map l_x1 w) y -> wrap (gaxes w) y = y.
Proof.
  revert y; induction w as [|l w IH]; intros [|c y] B; simpl in *; try easy. destruct B as [B1 B2]. fold (gaxes w). rewrite IH by auto. f_equal. unfold glen. simpl.
  rewrite Z.mod_small; lia.
Qed.
Lemma fits_box ls w x : Forall2 fits ls w -> box ls x -> box w x.
Proof.
  intros F. revert x; induction F as [|l w0 ls w H F IH]; intros [|c x] B; simpl in *; try easy. destruct B as [B1 B2]. destruct H as (? & ? & ? & _). split; [lia|auto].
Qed.
Lemma fits_lims ls w : Forall2 fits ls w -> lims_ok ls.
Proof. induction 1 as [|l w0 ls w H F IH]; constructor; auto. destruct H as (? & ? & ? & _). simpl. lia. Qed.

Lemma star_rank gh ls w F (d : list T) x : 1 <= gh -> Forall2 fits ls w -> Forall serial_axis w -> agrees gh ls w F d -> box ls x ->
  star true (lay gh ls) d x (fun z => F (cbs w z)).
Proof.
  intros Hg Ff S A B. pose proof (fits_lims _ _ Ff) as Lo. pose proof (local_len ls x B) as Lx.
  assert (forall z, length z = length ls -> Forall2 (fun l c => l_x0 l - 1 <= c <= l_x1 l) ls z -> grid_read true (lay gh ls) d z = Some (F (cbs w z))) as R.
  { intros z Lz Rz. rewrite grid_read_eq by (rewrite length_lay; auto). destruct (axes_key gh ls w z Hg Ff S Rz) as [K1 K2]. rewrite A by auto. now rewrite K2. }
  split.
  - apply R; [auto|]. clear - B. revert x B; induction ls; intros [|c x] B; simpl in *; try easy; constructor; [lia|]. apply IHls; tauto.
  - intros i Hi. assert (0 <= i < zlen ls) by (unfold zlen in *; rewrite length_lay in Hi; lia). split; apply R; try (rewrite nb_len; auto); apply nb_near; auto.
Qed.

Lemma star_whole w F (S : list T) x : Forall serial_axis w -> (forall y, box w y -> get S (encode (lay 0 w) y) = Some (F y)) -> box w x ->
  star false (lay 0 w) S x (fun z => F (cbs w z)).
Proof.
  intros Sa A B. pose proof (local_len w x B) as Lx. split.
  - rewrite read_idx by auto. apply A. now rewrite cbs_in.
  - intros i Hi. assert (0 <= i < zlen w) by (unfold zlen in *; rewrite length_lay in Hi; lia).
    split; rewrite read_idx by (rewrite nb_len; auto); apply A; apply nb_box; auto.
Qed.

(* the values a node's rule is applied to *)
Definition vals (w : list limits) (F : list Z -> T) (x : list Z) : list T :=
  F x :: flat_map (fun i => [F (cbs w (nb x i 1)); F (cbs w (nb x i (-1)))]) (zrange 0 (zlen w)).
Lemma length_vals w F x : zlen (vals w F x) = 1 + 2 * zlen w.
Proof.
  unfold vals. rewrite zlen_cons. pose proof (zlen_nonneg w). pose proof (zlen_zrange 0 (zlen w) ltac:(lia)).
  assert (forall l, zlen (flat_map (fun i => [F (cbs w (nb x i 1)); F (cbs w (nb x i (-1)))]) l) = 2 * zlen l) as ->; [|lia].
  induction l as [|a l IH]; [reflexivity|]. cbn [flat_map]. rewrite zlen_app, IH, !zlen_cons, zlen_nil. lia.
Qed.

Lemma gather_star mpi axs (data : list T) i f : length (position axs i) = length axs -> grid_read_int mpi axs data i = Some (f (position axs i)) ->
  star mpi axs data (position axs i) f ->
  gather mpi axs data i = Some (f (position axs i) :: flat_map (fun j => [f (nb (position axs i) j 1); f (nb (position axs i) j (-1))]) (zrange 0 (zlen axs))).
Proof.
  intros L R [_ St]. unfold gather. rewrite R. cbn [bind]. set (x := position axs i) in *.
  assert (forall js acc, (forall j, In j js -> 0 <= j < zlen axs) ->
    fold_opt (fun '(s, acc) j => do p <- probe mpi axs data s j; let '(s, yh, yl) := p in Some (s, acc ++ [yh; yl])) js (x, acc) =
    Some (x, acc ++ flat_map (fun j => [f (nb x j 1); f (nb x j (-1))]) js)) as H.
  { induction js as [|j js IH]; intros acc Hj; cbn [fold_opt flat_map]; [now rewrite app_nil_r|]. destruct (St j) as [Rh Rl]; [apply Hj; now left|].
    rewrite (probe_eq mpi axs data x j (f (nb x j 1)) (f (nb x j (-1)))); auto.
    - cbn [bind]. rewrite IH by (intros; apply Hj; now right). now rewrite <- app_assoc.
    - specialize (Hj j (or_introl eq_refl)). unfold zlen in *. lia. }
  rewrite H by (intros j Hj; now apply in_zrange in Hj). reflexivity.
Qed.

(* ---- the sweep ---- *)
Lemma addr_int_encode mpi g ls i : 0 <= g -> (mpi = false -> g = 0) -> lims_ok ls -> 0 <= i < nodes (lay g ls) ->
  addr_int mpi (lay g ls) i = encode (lay g ls) (position (lay g ls) i).
Proof.
  intros Hg Hs Hl Hi. pose proof (wf_lay g ls Hl) as W. destruct (position_spec _ _ _ W Hi) as [P1 P2].
  unfold addr_int. destruct mpi; [reflexivity|]. rewrite (Hs eq_refl) in *. rewrite map_x0_lay, map_x1_lay in P1. rewrite encode_index_serial by auto. congruence.
Qed.

Lemma get_put (l l' : list T) i j v : put l i v = Some l' -> get l' j = if j =? i then Some v else get l j.
Proof.
  intros H. destruct (Z_lt_le_dec i 0) as [C|C]; [unfold put in H; destruct (Z.ltb_spec i 0); [discriminate|lia]|].
  destruct (Z.eqb_spec j i) as [->|N].
  - pose proof H as H'. apply put_some in H' as [B ->]. unfold get. destruct (Z.ltb_spec i 0); [lia|]. unfold zlen in B.
    rewrite (nth_error_nth' _ v) by (rewrite length_set_nth; lia). now rewrite nth_set_nth by lia.
  - apply put_some in H as [B ->]. unfold get. destruct (Z.ltb_spec j 0); [auto|].
    assert (Z.to_nat j <> Z.to_nat i) by lia. clear - H0. set (a := Z.to_nat j) in *. set (b := Z.to_nat i) in *. clearbody a b.
    revert a b H0; induction l as [|x l IH]; intros [|a] [|b] N; simpl; auto; try lia. 
Qed.

Lemma sweep_fold (f : Z -> option T) (V : Z -> T) (at_ : Z -> Z) n (dst : list T) : 0 <= n ->
  (forall i, 0 <= i < n -> f i = Some (V i)) -> (forall i, 0 <= i < n -> 0 <= at_ i < zlen dst) ->
  (forall i j, 0 <= i < n -> 0 <= j < n -> at_ i = at_ j -> i = j) ->
  exists dst', fold_opt (fun d i => do v <- f i; put d (at_ i) v) (zrange 0 n) dst = Some dst' /\ zlen dst' = zlen dst /\
    (forall i, 0 <= i < n -> get dst' (at_ i) = Some (V i)) /\
    forall v, In v dst' -> In v dst \/ exists i, 0 <= i < n /\ v = V i.
Proof.
  intros Hn. pattern n. apply natlike_ind; [| |exact Hn]; clear n Hn.
  - intros _ _ _. exists dst. rewrite zrange_nil by lia. cbn [fold_opt]. split; [auto|]. split; [auto|]. split; [intros; lia|auto].
  - intros n Hn IH Hf Ha Hi. rewrite <- Z.add_1_r in *.
    destruct IH as (d & E & L & G & Vv); [intros; apply Hf; lia|intros; apply Ha; lia|intros; apply Hi; auto; lia|].
    rewrite zrange_snoc by lia. rewrite fold_opt_app, E. cbn [bind fold_opt]. rewrite Hf by lia. cbn [bind].
    destruct (put d (at_ n) (V n)) as [d'|] eqn:P.
    + exists d'. cbn [bind]. pose proof (put_len _ _ _ _ P). split; [auto|]. split; [congruence|]. split.
      * intros i Hi'. rewrite (get_put _ _ _ _ _ P). destruct (Z.eqb_spec (at_ i) (at_ n)) as [e|e]; [apply Hi in e; [|lia|lia]; now subst|].
        assert (i <> n) by congruence. apply G. lia.
      * intros v Hv. apply In_nth_error in Hv as [k Hk]. assert (get d' (Z.of_nat k) = Some v) as Gk.
        { unfold get. destruct (Z.ltb_spec (Z.of_nat k) 0); [lia|]. now rewrite Nat2Z.id. }
        rewrite (get_put _ _ _ _ _ P) in Gk. destruct (Z.eqb_spec (Z.of_nat k) (at_ n)); [inversion Gk; right; exists n; split; [lia|auto]|].
        unfold get in Gk. destruct (_ <? 0); [discriminate|]. apply nth_error_In in Gk. destruct (Vv v Gk) as [I|(i & I & ->)]; [auto|right; exists i; split; [lia|auto]].
    + exfalso. specialize (Ha n ltac:(lia)). rewrite put_ok in P by lia. discriminate.
Qed.
End Star.

Section Sweep.
Context {T : Type} (rule : list Z -> list T -> option T).
Definition next (w : list limits) (F : list Z -> T) (x : list Z) : T := match rule x (vals w F x) with Some v => v | None => F x end.

Lemma sweep_spec mpi g ls w F (src dst : list T) : 0 <= g -> (mpi = false -> g = 0) -> lims_ok ls -> length w = length ls ->
  (forall x, box ls x -> star mpi (lay g ls) src x (fun z => F (cbs w z)) /\ box w x /\ exists v, rule x (vals w F x) = Some v) ->
  zlen dst = cells (lay g ls) ->
  exists dst', sweep rule mpi (lay g ls) src dst = Some dst' /\ zlen dst' = cells (lay g ls) /\
    (forall y, box ls y -> get dst' (encode (lay g ls) y) = Some (next w F y)) /\
    forall v, In v dst' -> In v dst \/ exists y, box ls y /\ v = next w F y.
Proof.
  intros Hg Hm Lo Lw H L. pose proof (wf_lay g ls Lo) as W. set (axs := lay g ls) in *.
  assert (forall i, 0 <= i < nodes axs -> box ls (position axs i) /\ in_box (map a_s0 axs) (map a_s1 axs) (position axs i)) as P.
  { intros i Hi. destruct (position_into g axs i W Hi) as [B _]. split; [unfold axs in B; now rewrite map_x0_lay, map_x1_lay in B|]. now apply (local_in_storage g). }
  destruct (sweep_fold (fun i => do vs <- gather mpi axs src i; rule (position axs i) vs) (fun i => next w F (position axs i)) (addr_int mpi axs) (nodes axs) dst)
    as (dst' & E & L' & G & V).
  - apply (nodes_nonneg g); auto.
  - intros i Hi. destruct (P i Hi) as [B _]. destruct (H _ B) as (St & Bw & v & Rv).
    rewrite (gather_star mpi axs src i (fun z => F (cbs w z))); auto.
    + cbn [bind]. unfold next. unfold vals in Rv |- *. replace (zlen axs) with (zlen w) by (unfold axs, zlen; rewrite length_lay; lia).
      rewrite (cbs_in w (position axs i)) by auto. now rewrite Rv.
    + unfold axs. rewrite length_lay. now apply local_len.
    + unfold axs. destruct (read_int_position mpi g ls src i Hg Hm Lo Hi) as [-> _]. apply St.
  - intros i Hi. unfold axs. rewrite addr_int_encode by auto. rewrite L. apply (encode_bounds g); auto. now apply P.
  - intros i j Hi Hj Ea. unfold axs in Ea. rewrite !addr_int_encode in Ea by auto. apply (encode_inj g) in Ea; [|auto|now apply P|now apply P].
    destruct (position_into g axs j W Hj) as [_ I]. now apply I.
  - exists dst'. split.
    { unfold sweep. rewrite <- E. clear. unfold grid_write_int.
      assert (forall l d, fold_opt (fun d i => do vs <- gather mpi axs src i; do v <- rule (position axs i) vs; put d (addr_int mpi axs i) v) l d =
        fold_opt (fun d i => do v <- (do vs <- gather mpi axs src i; rule (position axs i) vs); put d (addr_int mpi axs i) v) l d) as X; [|apply X].
      induction l as [|i l IH]; intros d; cbn [fold_opt]; [auto|]. destruct (gather mpi axs src i); cbn [bind]; [|auto]. destruct (rule (position axs i) l0); cbn [bind]; [|auto].
      destruct (put d _ _); cbn [bind]; auto. }
    split; [congruence|]. split.
    + intros y By. destruct (position_onto g axs y W) as (i & Hi & <-); [unfold axs; now rewrite map_x0_lay, map_x1_lay|].
      unfold axs. rewrite <- (addr_int_encode mpi) by auto. now apply G.
    + intros v Hv. destruct (V v Hv) as [I|(i & Hi & ->)]; [auto|]. right. exists (position axs i). split; [now apply P|auto].
Qed.
End Sweep.

(* ---- the decomposition with boundary conditions set ---- *)
Lemma nth_zip_axes axs bs j : length bs = length axs -> (j < length axs)%nat ->
  nth j (zip_with set_bounds_axis axs bs) dax = set_bounds_axis (nth j axs dax) (nth j bs (0, 0)).
Proof. revert bs j; induction axs as [|a axs IH]; intros [|b bs] [|j] L H; simpl in *; try lia; auto. apply IH; lia. Qed.
Lemma map_zip_axes {X} (f : axis -> X) axs bs : (forall a b, f (set_bounds_axis a b) = f a) -> length bs = length axs -> map f (zip_with set_bounds_axis axs bs) = map f axs.
Proof. intros H. revert bs; induction axs as [|l ls IH]; intros [|b bs] E; simpl in *; try discriminate; auto. rewrite H. f_equal. apply IH. lia. Qed.
Lemma cells_zip axs bs : length bs = length axs -> cells (zip_with set_bounds_axis axs bs) = cells axs /\ nodes (zip_with set_bounds_axis axs bs) = nodes axs.
Proof. destruct axs, bs; simpl; intros; try discriminate; auto. Qed.
Lemma wf_zip gh axs bs : length bs = length axs -> wf_axes gh axs -> wf_axes gh (zip_with set_bounds_axis axs bs).
Proof.
  revert bs; induction axs as [|a axs IH]; intros [|b bs] L W; simpl in *; try discriminate; auto. destruct W as (? & ? & ? & ? & ? & ?).
  destruct (cells_zip axs bs ltac:(lia)) as [-> ->]. repeat (split; [auto; fail|]). apply IH; auto; lia.
Qed.
Lemma encode_zip axs bs y : length bs = length axs -> encode (zip_with set_bounds_axis axs bs) y = encode axs y.
Proof. revert bs y; induction axs as [|a axs IH]; intros [|b bs] [|x y] L; simpl in *; try discriminate; auto. rewrite IH by lia. reflexivity. Qed.

Lemma deco_bounds np gh gs G bs : length bs = length gs -> deco np gh gs G -> deco np gh gs (fun r => with_bounds set_bounds_axis bs (G r)).
Proof.
  intros Lb DC. pose proof (dc_len _ _ _ _ DC) as Ll. split.
  - apply (dc_np _ _ _ _ DC). - apply (dc_gh _ _ _ _ DC). - apply (dc_ne _ _ _ _ DC).
  - intros r Hr. destruct (Ll r Hr) as (A & B & C & D). unfold with_bounds. cbn [ge_axes ge_n0 ge_n1 ge_ghosts]. rewrite length_zip_with by lia. auto.
  - intros r Hr. destruct (Ll r Hr) as (A & _). apply wf_zip; [lia|]. now apply (dc_wf _ _ _ _ DC).
  - intros r j Hr Hj. destruct (Ll r Hr) as (A & _). unfold with_bounds. cbn [ge_axes]. rewrite nth_zip_axes by lia. now apply (dc_in _ _ _ _ DC).
  - intros r i Hr Hi. now apply (dc_nb _ _ _ _ DC).
  - intros r i j Hr Hi Hj. destruct (dc_nb _ _ _ _ DC r i Hr Hi) as (Hu & _). destruct (Ll r Hr) as (A & _). destruct (Ll _ Hu) as (A' & _).
    unfold with_bounds. cbn [ge_axes ge_n1]. rewrite !nth_zip_axes by lia. now apply (dc_up _ _ _ _ DC).
  - intros x r r' Hr Hr' O O'. destruct (Ll r Hr) as (A & _), (Ll r' Hr') as (A' & _). unfold owns, with_bounds in O, O'. cbn [ge_axes] in O, O'.
    rewrite !map_zip_axes in O by (auto; lia). rewrite !map_zip_axes in O' by (auto; lia). eapply (dc_own _ _ _ _ DC); eauto.
Qed.

Definition whole_lims (gs : list gaxis) (bs : list (Z * Z)) : list limits := zip_with set_lim (map serial_limits gs) bs.
Lemma whole_lay gs bs : length bs = length gs -> whole gs bs = lay 0 (whole_lims gs bs).
Proof. intros L. unfold whole, whole_lims, setup_single. cbn [ge_axes]. apply zip_lay. now rewrite map_length. Qed.
Lemma whole_gaxes gs bs : length bs = length gs -> gaxes (whole_lims gs bs) = gs.
Proof.
  unfold gaxes, whole_lims. revert bs; induction gs as [|[a b] gs IH]; intros [|c bs] L; simpl in *; try discriminate; auto. f_equal. apply IH. lia.
Qed.
Lemma length_whole gs bs : length bs = length gs -> length (whole_lims gs bs) = length gs.
Proof. intros. unfold whole_lims. rewrite length_zip_with; rewrite map_length; auto. Qed.

Lemma fits_zip gs p1 pos bs : length p1 = length gs -> length pos = length gs -> length bs = length gs ->
  Forall2 (fun l g => gx_0 g <= l_x0 l /\ l_x0 l < l_x1 l /\ l_x1 l <= gx_1 g) (zip_limits gs p1 pos) gs ->
  Forall2 fits (zip_with set_lim (zip_limits gs p1 pos) bs) (whole_lims gs bs).
Proof.
  unfold whole_lims. revert p1 pos bs; induction gs as [|g gs IH]; intros [|p p1] [|q pos] [|b bs] L1 L2 L3 F; cbn [length] in *; try discriminate; cbn [zip_limits zip_with map]; [constructor|].
  cbn [zip_limits] in F. inversion F as [|? ? ? ? Hh Ht]; subst. constructor; [|apply IH; auto; lia].
  revert Hh. unfold axis_limits. destruct (local_limits g p q) as [x0 x1]. unfold fits, set_lim, serial_limits. cbn [l_x0 l_x1 l_g0 l_g1 l_b0 l_b1]. intros (A & B & C).
  rewrite !Z.eqb_refl. repeat split; auto; [destruct (Z.eqb_spec x0 (gx_0 g))|destruct (Z.eqb_spec x1 (gx_1 g))]; auto.
Qed.

Lemma Forall2_of_nth {X Y} (R : X -> Y -> Prop) l m dx dy : length l = length m -> (forall j, (j < length m)%nat -> R (nth j l dx) (nth j m dy)) -> Forall2 R l m.
Proof.
  revert m; induction l as [|a l IH]; intros [|b m] L H; simpl in L; try discriminate; constructor; [apply (H O); simpl; lia|]. apply IH; [lia|]. intros j Hj. apply (H (S j)). simpl. lia.
Qed.
Lemma nth_lay_x gh ls j : (j < length ls)%nat ->
  a_x0 (nth j (lay gh ls) dax) = l_x0 (nth j ls (mkLim 0 0 0 0 0 0)) /\ a_x1 (nth j (lay gh ls) dax) = l_x1 (nth j ls (mkLim 0 0 0 0 0 0)).
Proof. revert j; induction ls as [|l ls IH]; intros [|j] H; simpl in *; try lia; auto. apply IH. lia. Qed.

Section Main.
Context {T : Type} (c : codec T) (valid : T -> Prop) (np : Z) (gs : list gaxis) (bs : list (Z * Z)) (gh B : Z) (rule : list Z -> list T -> option T).
Context (S : serialises c valid) (Hnp : 0 < np) (Hne : gs <> []) (Hgh : 1 <= gh) (B0 : 0 <= B).
Context (HB : forall v, valid v -> c_size c v <= B).
Context (Lb : length bs = length gs) (Sa : Forall serial_axis (whole_lims gs bs)).
Context (HI : forall r ge, 0 <= r < np -> setup_mpi np gs gh r = Some ge -> cells (ge_axes ge) * B <= int_max).
Context (Hw : forall r ge, 0 <= r < np -> setup_mpi np gs gh r = Some ge ->
     Forall (fun a => a_x0 a < a_x1 a /\ gh <= a_x1 a - a_x0 a) (ge_axes ge)).
Context (Hrule : forall x vs, Forall valid vs -> zlen vs = 1 + 2 * zlen gs -> exists v, rule x vs = Some v /\ valid v).

Let w := whole_lims gs bs.
Let G0 r := match setup_mpi np gs gh r with Some ge => ge | None => dgeom end.
Let G r := with_bounds set_bounds_axis bs (G0 r).

Lemma gok_gs : Forall (fun g => gx_0 g < gx_1 g) gs /\ gok gs.
Proof.
  assert (Forall (fun g => gx_0 g < gx_1 g) gs) as H.
  { rewrite <- (whole_gaxes gs bs Lb). unfold gaxes. apply Forall_map. eapply Forall_impl; [|exact Sa]. intros l (H & _). exact H. }
  split; [auto|]. eapply Forall_impl; [|exact H]. cbv beta. lia.
Qed.
Lemma setup_G0 r : 0 <= r < np -> setup_mpi np gs gh r = Some (G0 r).
Proof. intros Hr. destruct (setup_eq np gs gh r Hnp Hne (proj2 gok_gs) Hr) as (p1 & _ & _ & _ & _ & E). unfold G0. now rewrite E. Qed.
Lemma DC0 : deco np gh gs G0.
Proof. apply deco_setup; auto; [apply gok_gs|lia]. Qed.
Lemma DCG : deco np gh gs G.
Proof. apply deco_bounds; [auto|apply DC0]. Qed.

Lemma rank_lims r : 0 <= r < np -> exists ls, ge_axes (G r) = lay gh ls /\ Forall2 fits ls w /\ length ls = length gs.
Proof.
  intros Hr. destruct (setup_eq np gs gh r Hnp Hne (proj2 gok_gs) Hr) as (p1 & P1 & (L & Q & _) & S2 & S3 & S4).
  pose proof (in_box_length _ _ _ S2) as [Lp _]. rewrite map_length in Lp. set (pos := rank_pos (slices p1) r) in *.
  pose proof (setup_G0 r Hr) as E. rewrite S4 in E. assert (ge_axes (G0 r) = lay gh (zip_limits gs p1 pos)) as Ea by (inversion E; reflexivity).
  assert (length (zip_limits gs p1 pos) = length gs) as Lz by (apply length_zip; congruence).
  exists (zip_with set_lim (zip_limits gs p1 pos) bs). split; [|split].
  - unfold G, with_bounds. cbn [ge_axes]. rewrite Ea. apply zip_lay. congruence.
  - apply fits_zip; try congruence. pose proof DC0 as DC. pose proof (dc_in _ _ _ _ DC r) as I. pose proof (Hw r _ Hr (setup_G0 r Hr)) as W. rewrite Ea in I, W.
    apply (Forall2_of_nth _ _ _ (mkLim 0 0 0 0 0 0) (mkG 0 0)); [auto|]. intros j Hj. specialize (I j Hr Hj). cbv zeta in I.
    rewrite Forall_forall in W. specialize (W (nth j (lay gh (zip_limits gs p1 pos)) dax) ltac:(apply nth_In; rewrite length_lay; lia)).
    destruct (nth_lay_x gh (zip_limits gs p1 pos) j ltac:(lia)) as [E0 E1]. rewrite E0, E1 in I, W. lia.
  - rewrite length_zip_with; congruence.
Qed.

Lemma wide_G : wide np gh gs G.
Proof.
  intros r j Hr Hj. pose proof (Hw r _ Hr (setup_G0 r Hr)) as W. destruct (dc_len _ _ _ _ DC0 r Hr) as (L & _). unfold G, with_bounds. cbn [ge_axes]. rewrite nth_zip_axes by lia. cbn [set_bounds_axis a_x0 a_x1].
  rewrite Forall_forall in W. apply W. apply nth_In. lia.
Qed.
Lemma cells_G r : 0 <= r < np -> cells (ge_axes (G r)) = cells (ge_axes (G0 r)).
Proof. intros Hr. destruct (dc_len _ _ _ _ DC0 r Hr) as (L & _). apply cells_zip. lia. Qed.
Lemma HIG : forall r, 0 <= r < np -> cells (ge_axes (G r)) * B <= int_max.
Proof. intros r Hr. rewrite cells_G by auto. apply (HI r); auto. now apply setup_G0. Qed.

(* what the storage of the ranks holds *)
Definition owned (F : list Z -> T) (d : Z -> list T) : Prop := forall r y, 0 <= r < np -> owns (G r) y -> get (d r) (encode (ge_axes (G r)) y) = Some (F y).
Definition stored (F : list Z -> T) (d : Z -> list T) : Prop :=
  forall r y, 0 <= r < np -> in_box (map a_s0 (ge_axes (G r))) (map a_s1 (ge_axes (G r))) y -> get (d r) (encode (ge_axes (G r)) y) = Some (F (wrap gs y)).

Lemma owner y : length y = length gs -> exists q, 0 <= q < np /\ owns (G q) (wrap gs y).
Proof.
  intros Ly. destruct gok_gs as [Hg1 Hg].
  assert (in_box (map gx_0 gs) (map gx_1 gs) (wrap gs y)) as Bw.
  { apply in_box_iff. rewrite length_wrap, !map_length by auto. split; [auto|]. split; [auto|]. intros j Hj.
    rewrite (nth_map_eq gx_0 _ j 0 (mkG 0 0)), (nth_map_eq gx_1 _ j 0 (mkG 0 0)), (nth_wrap gs y j (mkG 0 0)) by auto.
    assert (gx_0 (nth j gs (mkG 0 0)) < gx_1 (nth j gs (mkG 0 0))) by (rewrite Forall_forall in Hg1; apply Hg1, nth_In; auto).
    unfold glen. pose proof (Z.mod_pos_bound (nth j y 0 - gx_0 (nth j gs (mkG 0 0))) (gx_1 (nth j gs (mkG 0 0)) - gx_0 (nth j gs (mkG 0 0)))). lia. }
  destruct (partition np gs gh _ Hnp Hne Hg Bw) as (q & geq & Hq & Eq & O & _). exists q. split; [auto|].
  rewrite (setup_G0 q Hq) in Eq. inversion Eq; subst geq. destruct (dc_len _ _ _ _ DC0 q Hq) as (L & _).
  unfold owns, G, with_bounds in *. cbn [ge_axes]. rewrite !map_zip_axes by (auto; lia). exact O.
Qed.

Lemma exchanged F d d' : owned F d -> inv np gs G d (length gs) d' -> stored F d'.
Proof.
  intros O I r y Hr Hs. assert (length y = length gs) as Ly.
  { destruct (dc_len _ _ _ _ DCG r Hr) as (L & _). apply in_box_length in Hs as [H _]. rewrite map_length in H. lia. }
  destruct (owner y Ly) as (q & Hq & Oq). rewrite (I r y Hr Hs ltac:(intros; lia) q Hq Oq). now apply O.
Qed.

Lemma stored_agrees F d r ls : 0 <= r < np -> stored F d -> ge_axes (G r) = lay gh ls -> agrees gh ls w F (d r).
Proof.
  intros Hr St E y By. rewrite <- E. unfold w. rewrite whole_gaxes by auto. apply St; auto. rewrite E.
  destruct (lay_nth_x0 gh ls) as (_ & _ & -> & ->). exact By.
Qed.

Lemma Forall_vals F x : (forall y, box w y -> valid (F y)) -> box w x -> Forall valid (vals w F x).
Proof.
  intros V Bx. unfold vals. constructor; [auto|]. apply Forall_flat_map. apply Forall_forall. intros i Hi. apply in_zrange in Hi.
  repeat constructor; apply V; apply nb_box; auto.
Qed.
Lemma rule_vals F x : (forall y, box w y -> valid (F y)) -> box w x -> exists v, rule x (vals w F x) = Some v /\ valid v.
Proof. intros V Bx. apply Hrule; [now apply Forall_vals|]. rewrite length_vals. unfold w, zlen. now rewrite length_whole. Qed.
Lemma next_valid F : (forall y, box w y -> valid (F y)) -> forall y, box w y -> valid (next rule w F y).
Proof. intros V y By. unfold next. destruct (rule_vals F y V By) as (v & -> & H). exact H. Qed.

Lemma rank_sweep F d u : (forall y, box w y -> valid (F y)) -> stored F d -> held valid np G u ->
  exists u', (forall r, 0 <= r < np -> sweep rule true (ge_axes (G r)) (d r) (u r) = Some (u' r)) /\ held valid np G u' /\ owned (next rule w F) u'.
Proof.
  intros V St Hu.
  assert (forall r, 0 <= r < np -> exists u', sweep rule true (ge_axes (G r)) (d r) (u r) = Some u' /\ zlen u' = cells (ge_axes (G r)) /\ Forall valid u' /\
     forall y, owns (G r) y -> get u' (encode (ge_axes (G r)) y) = Some (next rule w F y)) as X.
  { intros r Hr. destruct (rank_lims r Hr) as (ls & E & Ff & Ll). destruct (Hu r Hr) as [Lu Vu].
    destruct (sweep_spec rule true gh ls w F (d r) (u r)) as (u' & E' & L' & O & In_).
    - lia. - discriminate. - eapply fits_lims; eauto. - unfold w. rewrite length_whole by auto. auto.
    - intros x Bx. split; [|split].
      + apply star_rank; auto. now apply stored_agrees.
      + eapply fits_box; eauto.
      + destruct (rule_vals F x V) as (v & Ev & _); [eapply fits_box; eauto|eauto].
    - now rewrite <- E.
    - exists u'. rewrite E. split; [auto|]. split; [auto|]. split.
      + apply Forall_forall. intros v Hv. destruct (In_ v Hv) as [I|(y & By & ->)]; [rewrite Forall_forall in Vu; auto|].
        apply next_valid; auto. eapply fits_box; eauto.
      + intros y Oy. apply O. unfold owns in Oy. rewrite E, map_x0_lay, map_x1_lay in Oy. exact Oy. }
  exists (fun r => match sweep rule true (ge_axes (G r)) (d r) (u r) with Some u' => u' | None => [] end).
  split; [|split].
  - intros r Hr. destruct (X r Hr) as (u' & -> & _). reflexivity.
  - intros r Hr. destruct (X r Hr) as (u' & -> & ? & ? & _). auto.
  - intros r y Hr Oy. destruct (X r Hr) as (u' & -> & _ & _ & H). auto.
Qed.

Lemma whole_sweep F (D U : list T) : (forall y, box w y -> valid (F y)) ->
  (forall y, box w y -> get D (encode (lay 0 w) y) = Some (F y)) -> zlen U = cells (lay 0 w) ->
  exists U', sweep rule false (lay 0 w) D U = Some U' /\ zlen U' = cells (lay 0 w) /\ forall y, box w y -> get U' (encode (lay 0 w) y) = Some (next rule w F y).
Proof.
  intros V A L. destruct (sweep_spec rule false 0 w w F D U) as (U' & E & L' & O & _); auto.
  - lia. - apply lims_le, Sa.
  - intros x Bx. split; [now apply star_whole|]. split; [auto|]. destruct (rule_vals F x V Bx) as (v & Ev & _). eauto.
  - eauto.
Qed.

(* n steps on all ranks and on the whole domain *)
Lemma loops n : forall F d u D U ch, (forall y, box w y -> valid (F y)) ->
  held valid np G d -> stored F d -> held valid np G u -> quiet ch ->
  (forall y, box w y -> get D (encode (lay 0 w) y) = Some (F y)) -> zlen D = cells (lay 0 w) -> zlen U = cells (lay 0 w) ->
  exists D' F' d' k ch', serial_loop rule (lay 0 w) n D U = Some D' /\ zlen D' = cells (lay 0 w) /\ (forall y, box w y -> get D' (encode (lay 0 w) y) = Some (F' y)) /\
    held valid np G d' /\ stored F' d' /\ quiet ch' /\
    gsteps k (ranks np (fun r => rank_loop rule c (G r) n (d r) (u r)), ch) (ranks np (fun r => Ret (d' r)), ch').
Proof.
  induction n as [|n IH]; intros F d u D U ch V Hd St Hu Q A L1 L2.
  - exists D, F, d, O, ch. cbn [serial_loop rank_loop]. repeat (split; [auto; fail|]). constructor.
  - destruct (whole_sweep F D U V A L2) as (U' & E1 & L1' & A'). destruct (rank_sweep F d u V St Hu) as (u' & E2 & Hu' & O).
    destruct (ghost_round c valid np gh gs G B DCG S HB B0 HIG u' (fun r g => rank_loop rule c (G r) n g (d r)) ch Hu' Q) as (e & k & ch1 & Q1 & He & I & Gs).
    destruct (IH (next rule w F) e d U' D ch1 (next_valid F V) He (exchanged _ _ _ O (I wide_G)) Hd Q1 A' L1' L1) as (D' & F' & d' & k' & ch' & R1 & R2 & R3 & R4 & R5 & R6 & R7).
    exists D', F', d', (k + k')%nat, ch'. cbn [serial_loop]. rewrite E1. cbn [bind]. repeat (split; [auto; fail|]).
    eapply gsteps_app; [|exact R7]. erewrite ranks_ext; [exact Gs|]. intros r Hr. cbn [rank_loop]. rewrite (E2 r Hr). reflexivity.
Qed.
End Main.

Lemma whole_serial gs bs : Forall2 (fun g b => gx_0 g < gx_1 g /\ serial_side (fst b) (glen g) /\ serial_side (snd b) (glen g)) gs bs ->
  length bs = length gs /\ Forall serial_axis (whole_lims gs bs).
Proof.
  induction 1 as [|g b gs bs (H1 & H2 & H3) F [L IH]]; [split; [auto|constructor]|]. split; [simpl; lia|]. unfold whole_lims. cbn [map zip_with]. constructor; [|exact IH].
  unfold serial_axis, set_lim, serial_limits. cbn [l_x0 l_x1 l_g0 l_g1 l_b0 l_b1]. rewrite !Z.eqb_refl. auto.
Qed.
Lemma whole_box gs bs : length bs = length gs -> map l_x0 (whole_lims gs bs) = map gx_0 gs /\ map l_x1 (whole_lims gs bs) = map gx_1 gs.
Proof.
  intros L. unfold whole_lims. rewrite !map_zip by (auto; now rewrite map_length). rewrite !map_map. auto.
Qed.

(* [mid]: what the program does between the first exchange and the loop *)
Theorem simulation_mid {T} (c : codec T) valid np gs bs gh B rule n (D U : Z -> list T) (D0 U0 : list T) (mid : proc (list T) -> proc (list T)) j :
  serialises c valid -> 0 < np -> gs <> [] -> 1 <= gh -> 0 <= B -> (forall v, valid v -> c_size c v <= B) ->
  Forall2 (fun g b => gx_0 g < gx_1 g /\ serial_side (fst b) (glen g) /\ serial_side (snd b) (glen g)) gs bs ->
  (forall r ge, 0 <= r < np -> setup_mpi np gs gh r = Some ge ->
     Forall (fun a => a_x0 a < a_x1 a /\ gh <= a_x1 a - a_x0 a) (ge_axes ge) /\ cells (ge_axes ge) * B <= int_max /\
     zlen (D r) = cells (ge_axes ge) /\ Forall valid (D r) /\ zlen (U r) = cells (ge_axes ge) /\ Forall valid (U r) /\
     forall y, owns ge y -> grid_read true (ge_axes ge) (D r) y = grid_read false (whole gs bs) D0 y) ->
  (forall x vs, Forall valid vs -> zlen vs = 1 + 2 * zlen gs -> exists v, rule x vs = Some v /\ valid v) ->
  zlen D0 = cells (whole gs bs) -> zlen U0 = cells (whole gs bs) ->
  (forall P ch, gsteps j (ranks np (fun r => mid (P r)), ch) (ranks np P, ch)) ->
  exists D0' D' f, serial_loop rule (whole gs bs) n D0 U0 = Some D0' /\ zlen D0' = cells (whole gs bs) /\ finished np D' f /\
    inevitable (ranks np (fun r => lift (setup_mpi np gs gh r) (fun ge0 => let ge := with_bounds set_bounds_axis bs ge0 in ghostswap c ge (D r) (fun old => mid (rank_loop rule c ge n old (U r))))), no_chans) f /\
    forall r ge, 0 <= r < np -> setup_mpi np gs gh r = Some ge -> zlen (D' r) = cells (ge_axes ge) /\ Forall valid (D' r) /\ forall y, owns ge y ->
      exists v, grid_read true (ge_axes ge) (D' r) y = Some v /\ grid_read false (whole gs bs) D0' y = Some v.
Proof.
  intros S Hnp Hne Hgh B0 HB Hbs HD Hrule L0 L1 Hmid. destruct (whole_serial gs bs Hbs) as [Lb Sa]. rewrite whole_lay in * by auto. set (w := whole_lims gs bs) in *.
  destruct (whole_box gs bs Lb) as [Bx0 Bx1]. fold w in Bx0, Bx1.
  assert (forall r ge, 0 <= r < np -> setup_mpi np gs gh r = Some ge -> cells (ge_axes ge) * B <= int_max) as HI by (intros r ge Hr E; apply (HD r ge Hr E)).
  assert (forall r ge, 0 <= r < np -> setup_mpi np gs gh r = Some ge -> Forall (fun a => a_x0 a < a_x1 a /\ gh <= a_x1 a - a_x0 a) (ge_axes ge)) as Hw by (intros r ge Hr E; apply (HD r ge Hr E)).
  set (G0 := fun r => match setup_mpi np gs gh r with Some ge => ge | None => dgeom end).
  set (G := fun r => with_bounds set_bounds_axis bs (G0 r)).
  pose proof (setup_G0 np gs bs gh B Hnp Hne Lb Sa HI Hw) as SG. fold G0 in SG.
  pose proof (DC0 np gs bs gh B Hnp Hne Hgh Lb Sa HI Hw) as DC. fold G0 in DC.
  pose proof (DCG np gs bs gh B Hnp Hne Hgh Lb Sa HI Hw) as DG. change (deco np gh gs G) in DG.
  assert (forall r, 0 <= r < np -> cells (ge_axes (G r)) = cells (ge_axes (G0 r)) /\ (forall y, owns (G r) y <-> owns (G0 r) y) /\ forall y, encode (ge_axes (G r)) y = encode (ge_axes (G0 r)) y) as GG.
  { intros r Hr. destruct (dc_len _ _ _ _ DC r Hr) as (L & _). unfold G, with_bounds, owns. cbn [ge_axes]. split; [apply cells_zip; lia|]. split.
    - intros y. rewrite !map_zip_axes by (auto; lia). reflexivity. - intros y. apply encode_zip. lia. }
  (* the field *)
  destruct (zlen D0 =? 0) eqn:Z0.
  { exfalso. assert (exists y, box w y) as [y By].
    { clear - Sa. induction Sa as [|l w' (H & _) F [y IH]]; [exists []; exact I|]. exists (l_x0 l :: y). simpl. split; [lia|auto]. }
    pose proof (idx_bounds w y Sa By). lia. }
  assert (exists v0 : T, True) as [v0 _] by (destruct D0 as [|v0 D0]; [rewrite zlen_nil in Z0; discriminate|eauto]).
  set (F := at_or v0 (lay 0 w) D0).
  assert (forall y, box w y -> get D0 (encode (lay 0 w) y) = Some (F y)) as A0.
  { intros y By. pose proof (read_defined v0 w D0 y Sa L0 (local_len w y By)) as R. rewrite cbs_in in R by auto. specialize (R By). rewrite read_idx in R by now apply local_len.
    rewrite cbs_in in R by auto. exact R. }
  assert (forall r y, 0 <= r < np -> owns (G0 r) y -> grid_read true (ge_axes (G0 r)) (D r) y = get (D r) (encode (ge_axes (G0 r)) y) /\ box w y) as RO.
  { intros r y Hr Oy. destruct (dc_len _ _ _ _ DC r Hr) as (L & _). split.
    - rewrite grid_read_eq; [now rewrite adjust_in|]. unfold owns in Oy. apply in_box_length in Oy as [H _]. rewrite map_length in H. congruence.
    - destruct (rank_lims valid np gs bs gh B rule Hnp Hne Hgh Lb Sa HI Hw Hrule r Hr) as (ls & E & Ff & _). apply (fits_box ls w y Ff).
      apply (GG r Hr) in Oy. change (ge_axes (G r) = lay gh ls) in E. unfold owns in Oy. rewrite E, map_x0_lay, map_x1_lay in Oy. exact Oy. }
  assert (owned np gs bs gh F D) as OD.
  { intros r y Hr Oy. change (owns (G r) y) in Oy. change (get (D r) (encode (ge_axes (G r)) y) = Some (F y)). destruct (GG r Hr) as (_ & Go & ->). apply Go in Oy. destruct (RO r y Hr Oy) as [<- By].
    destruct (HD r _ Hr (SG r Hr)) as (_ & _ & _ & _ & _ & _ & Hy). rewrite (Hy y Oy). rewrite read_idx by now apply local_len. rewrite cbs_in by auto. now apply A0. }
  assert (forall y, box w y -> valid (F y)) as VF.
  { intros y By. destruct (owner valid np gs bs gh B rule Hnp Hne Hgh Lb Sa HI Hw Hrule y) as (q & Hq & Oq).
    { apply local_len in By. unfold w in By. rewrite length_whole in By; auto. }
    pose proof (wrap_in w y By) as Ew. unfold w in Ew at 1. rewrite (whole_gaxes gs bs Lb) in Ew. rewrite Ew in Oq. pose proof (OD q y Hq Oq) as E.
    destruct (HD q _ Hq (SG q Hq)) as (_ & _ & _ & Vq & _). rewrite Forall_forall in Vq. apply Vq. unfold get in E. destruct (_ <? 0); [discriminate|]. eapply nth_error_In; eauto. }
  assert (held valid np G D /\ held valid np G U) as [HdD HdU].
  { split; intros r Hr; destruct (GG r Hr) as (-> & _); destruct (HD r _ Hr (SG r Hr)) as (_ & _ & ? & ? & ? & ? & _); auto. }
  destruct (ghost_round c valid np gh gs G B DG S HB B0 (HIG np gs bs gh B Hnp Hne Hgh Lb Sa HI Hw) D (fun r old => mid (rank_loop rule c (G r) n old (U r))) no_chans HdD quiet_empty)
    as (e & k & ch1 & Q1 & He & I & Gs).
  specialize (I (wide_G np gs bs gh B Hnp Hne Hgh Lb Sa HI Hw)).
  pose proof (exchanged valid np gs bs gh B rule Hnp Hne Hgh Lb Sa HI Hw Hrule F D e OD I) as St.
  destruct (loops c valid np gs bs gh B rule S Hnp Hne Hgh B0 HB Lb Sa HI Hw Hrule n F e U D0 U0 ch1 VF He St HdU Q1 A0 L0 L1) as (D0' & F' & D' & k' & ch' & R1 & R2 & R3 & R4 & R5 & R6 & R7).
  match goal with |- context [inevitable (ranks np ?P, _) _] => destruct (conclude np P D' (k + (j + k')) no_chans ch' Hnp R6) as (f & F1 & F2) end.
  { eapply gsteps_app; [|eapply gsteps_app; [apply (Hmid (fun r => rank_loop rule c (G r) n (e r) (U r)))|exact R7]]. erewrite ranks_ext; [exact Gs|]. intros r Hr. rewrite (SG r Hr). reflexivity. }
  exists D0', D', f. split; [auto|]. split; [auto|]. split; [auto|]. split; [auto|].
  intros r ge Hr Eg. rewrite (SG r Hr) in Eg. inversion Eg; subst ge. destruct (R4 r Hr) as [Rl Rv]. split; [rewrite Rl; apply (GG r Hr)|]. split; [auto|]. intros y Oy. destruct (RO r y Hr Oy) as [_ By].
  exists (F' y). split.
  - destruct (dc_len _ _ _ _ DC r Hr) as (L & _). rewrite grid_read_eq; [|unfold owns in Oy; apply in_box_length in Oy as [H _]; rewrite map_length in H; congruence].
    rewrite adjust_in by auto. destruct (GG r Hr) as (_ & Go & Ge). rewrite <- Ge.
    pose proof (wrap_in w y By) as Ew. unfold w in Ew at 1. rewrite (whole_gaxes gs bs Lb) in Ew. rewrite <- Ew at 2. apply R5; auto.
    apply (local_in_storage gh); [lia|apply (dc_wf _ _ _ _ DG r Hr)|]. now apply Go.
  - rewrite read_idx by now apply local_len. rewrite cbs_in by auto. now apply R3.
Qed.

Theorem simulation {T} (c : codec T) valid np gs bs gh B rule n (D U : Z -> list T) (D0 U0 : list T) :
  serialises c valid -> 0 < np -> gs <> [] -> 1 <= gh -> 0 <= B -> (forall v, valid v -> c_size c v <= B) ->
  Forall2 (fun g b => gx_0 g < gx_1 g /\ serial_side (fst b) (glen g) /\ serial_side (snd b) (glen g)) gs bs ->
  (forall r ge, 0 <= r < np -> setup_mpi np gs gh r = Some ge ->
     Forall (fun a => a_x0 a < a_x1 a /\ gh <= a_x1 a - a_x0 a) (ge_axes ge) /\ cells (ge_axes ge) * B <= int_max /\
     zlen (D r) = cells (ge_axes ge) /\ Forall valid (D r) /\ zlen (U r) = cells (ge_axes ge) /\ Forall valid (U r) /\
     forall y, owns ge y -> grid_read true (ge_axes ge) (D r) y = grid_read false (whole gs bs) D0 y) ->
  (forall x vs, Forall valid vs -> zlen vs = 1 + 2 * zlen gs -> exists v, rule x vs = Some v /\ valid v) ->
  zlen D0 = cells (whole gs bs) -> zlen U0 = cells (whole gs bs) ->
  exists D0' D' f, serial_loop rule (whole gs bs) n D0 U0 = Some D0' /\ finished np D' f /\
    inevitable (ranks np (rank_simulation rule c set_bounds_axis np gs bs gh D U n), no_chans) f /\
    forall r ge y, 0 <= r < np -> setup_mpi np gs gh r = Some ge -> owns ge y ->
      exists v, grid_read true (ge_axes ge) (D' r) y = Some v /\ grid_read false (whole gs bs) D0' y = Some v.
Proof.
  intros S Hnp Hne Hgh B0 HB Hbs HD Hrule L0 L1.
  destruct (simulation_mid c valid np gs bs gh B rule n D U D0 U0 (fun p => p) O S Hnp Hne Hgh B0 HB Hbs HD Hrule L0 L1) as (D0' & D' & f & E & _ & F & I & R); [intros; constructor|].
  exists D0', D', f. split; [auto|]. split; [auto|]. split; [exact I|]. intros r ge y Hr Eg. destruct (R r ge Hr Eg) as (_ & _ & Ry). apply Ry.
Qed.
