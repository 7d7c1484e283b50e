(* Monte Carlo grain growth on several ranks: the exchange of the sublattices, and the whole program *)
From Verif Require Import Model.Base Model.Boundary Model.Layout Model.Access Model.Setup Model.Codec Model.MPI Model.Ghostswap Model.Colour Model.Spin Model.McRanks
  Spec.Box Spec.Access Spec.Bytes Spec.Decomp Spec.Schedule Spec.Stencil Spec.Spin Spec.McRanks
  Proof.BaseL Proof.LayoutL Proof.AccessL Proof.CodecL Proof.SetupL Proof.MPIL Proof.GhostL Proof.HaloL Proof.ColourL Proof.StencilS Proof.SpinL Proof.SpinF Proof.GrowthL Proof.GrowthF Proof.McRanksL.
Local Open Scope list_scope.
Local Open Scope Z_scope.
Ltac Zify.zify_post_hook ::= idtac.

(* ---- lists ---- *)
Lemma choose_ranks {X} (P : Z -> X -> Prop) np : 0 < np -> (forall r, 0 <= r < np -> exists x, P r x) -> exists f, forall r, 0 <= r < np -> P r (f r).
Proof.
  intros Hnp H. destruct (H 0 ltac:(lia)) as (x0 & _).
  assert (forall n, exists f, forall r, 0 <= r < np -> r < Z.of_nat n -> P r (f r)) as X1.
  { induction n as [|n (f & IH)]; [exists (fun _ => x0); lia|]. destruct (Z_lt_dec (Z.of_nat n) np) as [L|L].
    - destruct (H (Z.of_nat n) ltac:(lia)) as (x & Hx). exists (fun r => if r =? Z.of_nat n then x else f r). intros r Hr Hn. destruct (Z.eqb_spec r (Z.of_nat n)) as [->|]; [auto|]. apply IH; lia.
    - exists f. intros r Hr Hn. apply IH; lia. }
  destruct (X1 (Z.to_nat np)) as (f & Hf). exists f. intros r Hr. apply Hf; lia.
Qed.
Lemma bound_ranks np (f : Z -> nat) : exists m, forall r, 0 <= r < np -> (f r <= m)%nat.
Proof.
  assert (forall n, exists m, forall r, 0 <= r < np -> r < Z.of_nat n -> (f r <= m)%nat) as X1.
  { induction n as [|n (m & IH)]; [exists O; lia|]. exists (Nat.max m (f (Z.of_nat n))). intros r Hr Hn. destruct (Z.eq_dec r (Z.of_nat n)) as [->|]; [lia|]. specialize (IH r Hr ltac:(lia)). lia. }
  destruct (X1 (Z.to_nat np)) as (m & H). exists m. intros r Hr. apply H; lia.
Qed.
Lemma filter_flat_map {X Y} (p : Y -> bool) (f : X -> list Y) l : filter p (flat_map f l) = flat_map (fun x => filter p (f x)) l.
Proof. induction l as [|a l IH]; [reflexivity|]. cbn [flat_map]. rewrite filter_app. now rewrite IH. Qed.
Lemma flat_map_one {X Y} (f : X -> list Y) l q : NoDup l -> In q l -> (forall x, In x l -> x <> q -> f x = []) -> flat_map f l = f q.
Proof.
  induction l as [|a l IH]; intros N I Z; [destruct I|]. inversion N as [|? ? Na Nl]; subst. cbn [flat_map]. destruct I as [->|I].
  - replace (flat_map f l) with (@nil Y); [apply app_nil_r|]. symmetry. assert (forall x, In x l -> f x = []) as Z' by (intros x Hx; apply Z; [now right|]; intros ->; contradiction). clear -Z'. induction l as [|b l IH]; [reflexivity|]. cbn [flat_map]. rewrite Z' by now left. apply IH. intros x Hx. apply Z'. now right.
  - rewrite Z; [|now left|intros ->; contradiction]. cbn [app]. apply IH; auto. intros x Hx. apply Z. now right.
Qed.

(* ---- the sites of a rank ---- *)
Lemma inside_any axs w x : map a_g0 axs = map l_x0 w -> map a_g1 axs = map l_x1 w -> length x = length w -> inside_global axs x = in_boxb w x.
Proof.
  unfold inside_global. revert axs x. induction w as [|l w IH]; intros [|a axs] [|c x] E0 E1 L; cbn in *; try discriminate; [reflexivity|]. injection E0 as E0 E0'. injection E1 as E1 E1'. rewrite IH by (auto; lia). now rewrite E0, E1.
Qed.
Lemma near_any axs w x : map a_g0 axs = map l_x0 w -> map a_g1 axs = map l_x1 w -> length x = length w -> near_sites axs x = box_neighbours w x.
Proof.
  intros E0 E1 L. assert (length axs = length w) as La by (rewrite <- (map_length a_g0), E0; apply map_length). unfold near_sites, box_neighbours. rewrite La, offsets_cube. unfold displacements, nonzero.
  assert (forall l, Forall (fun o => length o = length w) l -> filter (inside_global axs) (map (vadd x) l) = filter (in_boxb w) (map (plus x) l)) as X.
  { induction 1 as [|o l Lo _ IH]; [reflexivity|]. cbn [map filter]. rewrite IH, vadd_plus by congruence. now rewrite (inside_any axs w) by (auto; rewrite plus_length; congruence). }
  apply X. apply Forall_forall. intros o Ho. apply filter_In in Ho as [Ho _]. now apply in_cube in Ho.
Qed.
Lemma outside_any axs x : length x = length axs -> outside axs x = false <-> in_box (map a_x0 axs) (map a_x1 axs) x.
Proof.
  unfold outside. revert x. induction axs as [|a axs IH]; intros [|c x] L; cbn in L; try discriminate; [cbn; tauto|]. cbn [combine existsb map in_box]. rewrite orb_false_iff, IH by lia. rewrite orb_false_iff, Z.ltb_ge, Z.geb_leb, Z.leb_gt. tauto.
Qed.
Lemma site_len axs s j : length (site_of axs s j) = length axs.
Proof.
  assert (forall x o, length (vadd x o) = length x) as X by (induction x as [|c x IH]; intros [|d o]; cbn; auto). unfold site_of. rewrite !X. unfold first_cell_start. apply map_length.
Qed.
Lemma site_lay g ls s j : planar ls -> site_of (lay g ls) s j = site_of (lay 0 ls) s j.
Proof. intros D. apply (planar_cases ls); [auto|reflexivity|reflexivity]. Qed.
Lemma num_lay g ls : planar ls -> num_lattice_cells (lay g ls) = num_lattice_cells (lay 0 ls).
Proof. intros D. apply (planar_cases ls); [auto|reflexivity|reflexivity]. Qed.
Lemma odd_shift st i o : st mod 2 = 0 -> Z.odd (st + 2 * i + o) = Z.odd o.
Proof. intros E. rewrite Z.odd_add, Z.odd_add, Z.odd_mul. rewrite Zmod_odd in E. destruct (Z.odd st); [discriminate|]. cbn. destruct (Z.odd o); reflexivity. Qed.
Lemma site_sub ls s j : planar ls -> 0 <= s < 2 ^ zlen ls -> of_sublattice s (site_of (lay 0 ls) s j).
Proof.
  intros D. apply (planar_cases ls); [auto| |].
  - intros a b _ Hs. change (2 ^ zlen [a; b]) with 4 in Hs. rewrite site2. intros [|[|k]] Hk; cbn in Hk; try lia; cbn [nth]; (rewrite odd_shift by apply start_ok); assert (s = 0 \/ s = 1 \/ s = 2 \/ s = 3) as [-> |[-> |[-> | ->]]] by lia; reflexivity.
  - intros a b c _ Hs. change (2 ^ zlen [a; b; c]) with 8 in Hs. rewrite site3. intros [|[|[|k]]] Hk; cbn in Hk; try lia; cbn [nth]; (rewrite odd_shift by apply start_ok);
      assert (s = 0 \/ s = 1 \/ s = 2 \/ s = 3 \/ s = 4 \/ s = 5 \/ s = 6 \/ s = 7) as [-> |[-> |[-> |[-> |[-> |[-> |[-> | ->]]]]]]] by lia; reflexivity.
Qed.
Lemma sub_parity s x y : length x = length y -> of_sublattice s x -> of_sublattice s y -> same_parity x y.
Proof.
  intros L Hx Hy. assert (forall j, (j < length x)%nat -> Z.odd (nth j x 0) = Z.odd (nth j y 0)) as H by (intros j Hj; rewrite (Hx j Hj), (Hy j) by lia; now rewrite L).
  clear Hx Hy. revert y L H. induction x as [|c x IH]; intros [|d y] L H; cbn in L; try discriminate; constructor.
  - specialize (H O). cbn in H. rewrite Zmod_odd, Z.odd_sub, H by lia. now destruct (Z.odd d).
  - apply IH; [lia|]. intros j Hj. apply (H (S j)). cbn. lia.
Qed.
Lemma sub_apart w s x y : box w x -> of_sublattice s x -> of_sublattice s y -> ~ In y (box_neighbours w x).
Proof.
  intros B Hx Hy I. pose proof I as I'. apply (neighbour_iff w) in I' as [By _]; auto. apply (parity_apart w x y); auto. apply (sub_parity s); auto. apply local_len in B, By. congruence.
Qed.

(* the geometry of a rank: its layout, and the limits of the whole domain *)
Lemma zip_global gs p1 pos : length p1 = length gs -> length pos = length gs ->
  length (zip_limits gs p1 pos) = length gs /\ map l_g0 (zip_limits gs p1 pos) = map gx_0 gs /\ map l_g1 (zip_limits gs p1 pos) = map gx_1 gs.
Proof.
  revert p1 pos. induction gs as [|g gs IH]; intros [|p p1] [|q pos] L1 L2; cbn in *; try discriminate; [auto|]. destruct (IH p1 pos ltac:(lia) ltac:(lia)) as (E0 & E1 & E2).
  unfold axis_limits at 1 2. destruct (local_limits g p q). cbn. rewrite E0, E1, E2. auto.
Qed.
Lemma lay_global g ls : map a_g0 (lay g ls) = map l_g0 ls /\ map a_g1 (lay g ls) = map l_g1 ls.
Proof. induction ls as [|l ls [E0 E1]]; [auto|]. cbn. now rewrite E0, E1. Qed.
Lemma rank_shape np gs r ge : 0 < np -> gs <> [] -> gok gs -> 0 <= r < np -> setup_mpi np gs 1 r = Some ge ->
  exists ls, ge_axes ge = lay 1 ls /\ length ls = length gs /\ map a_g0 (ge_axes ge) = map gx_0 gs /\ map a_g1 (ge_axes ge) = map gx_1 gs.
Proof.
  intros Hnp Hne Hg Hr E. destruct (setup_eq np gs 1 r Hnp Hne Hg Hr) as (p1 & _ & (L & _) & Hb & _ & E'). cbv zeta in *. rewrite E in E'. injection E' as ->. cbn [ge_axes].
  assert (length (rank_pos (slices p1) r) = length gs) as Lp by (apply in_box_length in Hb as [Hb _]; rewrite map_length in Hb; congruence).
  destruct (zip_global gs p1 _ L Lp) as (E0 & E1 & E2). eexists. split; [reflexivity|]. split; [auto|]. destruct (lay_global 1 (zip_limits gs p1 (rank_pos (slices p1) r))) as [-> ->]. auto.
Qed.
Lemma wrap_even gs y s : length y = length gs -> (forall j, (j < length gs)%nat -> 0 < glen (nth j gs (mkG 0 0)) /\ glen (nth j gs (mkG 0 0)) mod 2 = 0) -> of_sublattice s (wrap gs y) <-> of_sublattice s y.
Proof.
  intros L H. unfold of_sublattice. rewrite length_wrap by auto. rewrite L.
  assert (forall j, (j < length gs)%nat -> Z.odd (nth j (wrap gs y) 0) = Z.odd (nth j y 0)) as X.
  { intros j Hj. destruct (H j Hj) as [Hp He]. rewrite (nth_wrap gs y j (mkG 0 0)) by auto. set (g := nth j gs (mkG 0 0)) in *. set (v := nth j y 0). rewrite Z.mod_eq by lia.
    replace (gx_0 g + (v - gx_0 g - glen g * ((v - gx_0 g) / glen g))) with (v - glen g * ((v - gx_0 g) / glen g)) by ring. rewrite Z.odd_sub, Z.odd_mul. rewrite Zmod_odd in He. destruct (Z.odd (glen g)); [discriminate|]. cbn. now destruct (Z.odd v). }
  split; intros A j Hj; specialize (A j Hj); rewrite X in * by auto; auto.
Qed.
Lemma drawn_in ge s rnd l : forall k, (forall i, 0 <= rnd i) -> drawn ge s rnd k l -> Forall (fun a => 0 <= a_n a /\ owns ge (at_site a) /\ of_sublattice s (at_site a)) l.
Proof. induction l as [|a l IH]; intros k R D; [constructor|]. inversion D; subst. constructor; [cbn; auto|]. eapply IH; eauto. Qed.

Section Ranks.
Context (c : codec Z) (valid : Z -> Prop) (np : Z) (gs : list gaxis) (G : Z -> geom) (B : Z) (hot : Z -> Z -> bool) (sel : list axis -> list Z -> Z -> bool).
Context (Hnp : 0 < np) (DC : deco np 1 gs G) (Sc : serialises c valid) (HB : forall v, valid v -> c_size c v <= B) (B0 : 0 <= B).
Context (HI : forall r, 0 <= r < np -> cells (ge_axes (G r)) * B <= int_max).
Context (Hdim : (length gs = 2 \/ length gs = 3)%nat).
Context (ES : forall r, 0 <= r < np -> setup_mpi np gs 1 r = Some (G r)).
Context (Hg : Forall (fun g => gx_0 g < gx_1 g /\ Z.even (gx_1 g - gx_0 g) = true) gs).
Context (H2 : forall r, 0 <= r < np -> Forall (fun a => a_x0 a + 2 <= a_x1 a) (ge_axes (G r))).
Notation w := (map serial_limits gs).
Context (Hsel : forall r x rd, 0 <= r < np -> sel (ge_axes (G r)) x rd = sel (lay 0 w) x rd).

Notation ax r := (ge_axes (G r)).
Notation storage r := (in_box (map a_s0 (ax r)) (map a_s1 (ax r))).
Notation held := (held valid np G).
Notation all := (fold_left (tried w hot (sel (lay 0 w)))).
Definition stored (F : list Z -> Z) (d : Z -> list Z) : Prop := forall r y, 0 <= r < np -> storage r y -> get (d r) (encode (ax r) y) = Some (F (wrap gs y)).

Lemma Hne : gs <> [].
Proof using All. intros ->. destruct Hdim; discriminate. Qed.
Lemma Hok : gok gs.
Proof using All. unfold gok. eapply Forall_impl; [|exact Hg]. cbn. lia. Qed.
Lemma Hlen j : (j < length gs)%nat -> 0 < glen (nth j gs (mkG 0 0)) /\ glen (nth j gs (mkG 0 0)) mod 2 = 0.
Proof using All. intros Hj. pose proof Hg as X. rewrite Forall_forall in X. destruct (X _ (nth_In _ (mkG 0 0) Hj)) as [A E]. unfold glen. split; [lia|]. rewrite Zmod_odd, <- Z.negb_even, E. reflexivity. Qed.
Lemma axlen r : 0 <= r < np -> length (ax r) = length gs.
Proof using All. intros Hr. apply (dc_len _ _ _ _ DC r Hr). Qed.
Lemma two r j : 0 <= r < np -> (j < length gs)%nat -> a_x0 (nth j (ax r) dax) + 2 <= a_x1 (nth j (ax r) dax).
Proof using All. intros Hr Hj. pose proof (H2 r Hr) as X. rewrite Forall_forall in X. apply X. apply nth_In. now rewrite axlen. Qed.
Lemma Hthin r : 0 <= r < np -> Forall (fun a => a_x0 a < a_x1 a) (ax r).
Proof using All. intros Hr. eapply Forall_impl; [|exact (H2 r Hr)]. cbn. lia. Qed.
Lemma w_len : length w = length gs.
Proof using All. apply map_length. Qed.
Lemma w_box y : box w y <-> length y = length gs /\ forall j, (j < length gs)%nat -> gx_0 (nth j gs (mkG 0 0)) <= nth j y 0 < gx_1 (nth j gs (mkG 0 0)).
Proof.
  rewrite in_box_iff, !map_map. cbn [serial_limits l_x0 l_x1]. rewrite !map_length. split.
  - intros (L & _ & X). split; [auto|]. intros j Hj. specialize (X j Hj). rewrite (nth_map_eq gx_0 _ j 0 (mkG 0 0)), (nth_map_eq gx_1 _ j 0 (mkG 0 0)) in X by auto. auto.
  - intros (L & X). split; [auto|]. split; [auto|]. intros j Hj. rewrite (nth_map_eq gx_0 _ j 0 (mkG 0 0)), (nth_map_eq gx_1 _ j 0 (mkG 0 0)) by auto. auto.
Qed.
Lemma owned_box r y : 0 <= r < np -> owns (G r) y -> box w y.
Proof using All. intros Hr O. apply (owns_iff np 1 gs G DC r y Hr) in O as [L O]. apply w_box. split; [auto|]. intros j Hj. specialize (O j Hj). pose proof (dc_in _ _ _ _ DC r j Hr Hj) as X. cbv zeta in X. lia. Qed.
Lemma box_wrap y : box w y -> wrap gs y = y.
Proof using All.
  intros By. apply w_box in By as [L By]. apply (nth_ext _ _ 0 0); [rewrite length_wrap; auto|]. intros j Hj. rewrite length_wrap in Hj by auto. rewrite (nth_wrap gs y j (mkG 0 0)) by auto. specialize (By j Hj). unfold glen. rewrite Z.mod_small by lia. lia.
Qed.
Lemma storage_len r y : 0 <= r < np -> storage r y -> length y = length gs.
Proof using All. intros Hr Hs. now apply (storage_iff np 1 gs G DC r y Hr) in Hs. Qed.
Lemma wrap_box y : length y = length gs -> box w (wrap gs y).
Proof using All.
  intros L. apply w_box. split; [now rewrite length_wrap|]. intros j Hj. rewrite (nth_wrap gs y j (mkG 0 0)) by auto. destruct (Hlen j Hj) as [P _]. pose proof (Z.mod_pos_bound (nth j y 0 - gx_0 (nth j gs (mkG 0 0))) _ P). unfold glen in *. lia.
Qed.
Lemma owner y : box w y -> exists q, 0 <= q < np /\ owns (G q) y.
Proof using All.
  intros By. assert (in_box (map gx_0 gs) (map gx_1 gs) y) as By' by (rewrite !map_map in By; exact By).
  destruct (partition np gs 1 y Hnp Hne Hok By') as (q & ge & Hq & E & O & _). rewrite (ES q Hq) in E. injection E as <-. eauto.
Qed.
Lemma owned_storage r y : 0 <= r < np -> owns (G r) y -> storage r y.
Proof using All. intros Hr O. eapply (local_in_storage 1); [lia| |exact O]. apply (dc_wf _ _ _ _ DC r Hr). Qed.
Lemma near_storage r x y : 0 <= r < np -> owns (G r) x -> In y (box_neighbours w x) -> storage r y.
Proof using All.
  intros Hr O I. pose proof (owned_box r x Hr O) as Bx. apply (neighbour_iff w) in I as [By (o & Ho & E)]; auto. apply (owns_iff np 1 gs G DC r x Hr) in O as [L O]. apply (storage_iff np 1 gs G DC r y Hr). apply w_box in By as [Ly _]. split; [auto|].
  intros j Hj. specialize (O j Hj). unfold displacements in Ho. apply filter_In in Ho as [Ho _]. rewrite w_len in Ho. apply in_cube in Ho as [Lo Fo]. subst y.
  assert (nth j (plus x o) 0 = nth j x 0 + nth j o 0) as ->. { clear -L Lo Hj. revert o j Lo L Hj. generalize (length gs). intros n. revert x. induction n as [|n IH]; intros [|a x] [|b o] j Lo L Hj; cbn in *; try lia. destruct j; [reflexivity|]. apply IH; lia. }
  assert (-1 <= nth j o 0 <= 1) by (rewrite Forall_forall in Fo; apply Fo, nth_In; lia). lia.
Qed.
Lemma read_storage r (d : list Z) y : 0 <= r < np -> zlen d = cells (ax r) -> storage r y -> grid_read true (ax r) d y = get d (encode (ax r) y).
Proof using All. intros Hr L Hs. apply (storage_read np gs 1 r (G r) d y Hnp Hne Hok ltac:(lia) Hr (ES r Hr) (Hthin r Hr) L Hs). Qed.
Lemma write_owned r (d : list Z) x v : 0 <= r < np -> zlen d = cells (ax r) -> owns (G r) x -> grid_write true (ax r) d x v = put d (encode (ax r) x) v /\ 0 <= encode (ax r) x < zlen d.
Proof using All.
  intros Hr L O. split.
  - rewrite grid_write_eq; [|rewrite axlen by auto; now apply (owns_iff np 1 gs G DC r x Hr) in O]. now rewrite adjust_in by exact O.
  - rewrite L. apply (encode_bounds 1); [apply (dc_wf _ _ _ _ DC r Hr)|now apply owned_storage].
Qed.
(* the data are determined by the field *)
Lemma same_data F d d' : held d -> held d' -> stored F d -> stored F d' -> forall r, 0 <= r < np -> d r = d' r.
Proof using All.
  intros Hd Hd' Sd Sd' r Hr. destruct (Hd r Hr) as [L _], (Hd' r Hr) as [L' _]. apply MPIL.get_ext; [congruence|]. intros p Hp. rewrite L in Hp.
  destruct (encode_onto 1 (ax r) p (dc_wf _ _ _ _ DC r Hr) ltac:(lia) Hp) as (y & Hy & <-). now rewrite Sd, Sd'.
Qed.

(* ---- the sweep of one rank ---- *)
Definition view (r s : Z) (F : list Z -> Z) (l : list attempt) (data : list Z) : Prop :=
  zlen data = cells (ax r) /\ Forall valid data /\ Forall (fun a => 0 <= a_n a /\ owns (G r) (at_site a) /\ of_sublattice s (at_site a)) l /\
  forall y, storage r y -> get data (encode (ax r) y) = Some (if in_boxb w y then all l F y else F (wrap gs y)).

Lemma rank_sweep r s rnd F d : 0 <= r < np -> 0 <= s < 2 ^ zlen gs -> (forall k, 0 <= rnd k) -> fair (num_lattice_cells (ax r)) rnd -> (forall y, box w y -> valid (F y)) ->
  zlen d = cells (ax r) -> Forall valid d -> (forall y, storage r y -> get d (encode (ax r) y) = Some (F (wrap gs y))) ->
  exists f e l, (forall g, sweep true (ax r) hot (sel (ax r)) (f + g) rnd s (0, d, 0%nat) = Some (Some e)) /\ view r s F l e /\ zlen l = to_flip (ax r) s /\ drawn (G r) s rnd 0 l.
Proof using All.
  intros Hr Hs R Fr VF Ld Vd Sd. destruct (rank_shape np gs r (G r) Hnp Hne Hok Hr (ES r Hr)) as (ls & El & Ll & E0 & E1).
  assert (planar ls) as Pl by (unfold planar, zlen; rewrite Ll; destruct Hdim as [-> | ->]; auto).
  assert (Forall (fun l => l_x0 l + 2 <= l_x1 l) ls) as W2. { pose proof (H2 r Hr) as X. rewrite El in X. clear -X. induction ls; [constructor|]. cbn in X. inversion X; subst. constructor; auto. }
  assert (zlen ls = zlen gs) as Zl by (unfold zlen; congruence).
  assert (map a_g0 (ax r) = map l_x0 w) as E0' by (rewrite map_map; exact E0). assert (map a_g1 (ax r) = map l_x1 w) as E1' by (rewrite map_map; exact E1).
  assert (forall x, length x = length (ax r) -> outside (ax r) x = false -> owns (G r) x) as Out by (intros x Lx Ox; now apply outside_any).
  assert (0 <= s < num_sublattices (lay 0 ls)) as Hs'. { replace (num_sublattices (lay 0 ls)) with (2 ^ zlen gs); [auto|]. rewrite <- Zl. apply (planar_cases ls); auto. }
  destruct (sublattice_inhabited ls s Pl W2 Hs') as (j0 & Hj0 & _).
  apply sweep_all; auto.
  - rewrite El, num_lay by auto. lia.
  - intros l data j rd rn rr (L & V & Fl & Gd) Ox Hrn. set (x := site_of (ax r) s j) in *. assert (length x = length (ax r)) as Lx by apply site_len. pose proof (Out x Lx Ox) as O. pose proof (owned_box r x Hr O) as Bx.
    assert (length x = length w) as Lx' by (rewrite w_len, <- (axlen r Hr); auto).
    assert (forall y, storage r y -> box w y -> grid_read true (ax r) data y = Some (all l F y)) as Rd. { intros y Sy By. rewrite read_storage, Gd by auto. apply in_boxb_ok in By. now rewrite By. }
    destruct (visit_gen true (ax r) hot (sel (ax r)) (all l F) (box_neighbours w x) data x rd rn rr) as (n & E); auto.
    { now apply near_any. } { apply Rd; auto. now apply owned_storage. }
    { intros y Hy. apply Rd; [now apply (near_storage r x)|]. apply (neighbour_iff w) in Hy; tauto. }
    rewrite Hsel in E by auto. match type of E with _ = Some (?v, _) => set (vv := v) in * end. destruct (write_owned r data x vv Hr L O) as [Ew Ei]. rewrite put_ok in Ew by auto. eexists vv, n, _. split; [exact E|]. split; [exact Ew|].
    assert (put data (encode (ax r) x) vv = Some (set_nth (Z.to_nat (encode (ax r) x)) data vv)) as Ep by (apply put_ok; auto).
    assert (Forall (fun a => 0 <= a_n a /\ owns (G r) (at_site a) /\ of_sublattice s (at_site a)) (l ++ [mkAttempt x rd rn rr])) as Fl'.
    { apply Forall_app. split; [auto|]. constructor; [|constructor]. cbn. split; [auto|]. split; [auto|]. unfold x. rewrite El, site_lay by auto. apply site_sub; [auto|]. now rewrite Zl. }
    assert (valid vv) as Vv.
    { assert (vv = all (l ++ [mkAttempt x rd rn rr]) F x) as ->. { rewrite fold_left_app. cbn [fold_left]. unfold tried. cbn [at_site a_d a_n a_r]. destruct (vdec x x); [reflexivity|congruence]. }
      apply all_in; auto. eapply Forall_impl; [|exact Fl']. cbn. intros a (A1 & A2 & _). split; [auto|]. now apply (owned_box r). }
    split; [rewrite (put_len _ _ _ _ Ep); auto|]. split; [eapply Forall_put; eauto|]. split; [exact Fl'|].
    intros y Sy. rewrite fold_left_app. cbn [fold_left]. unfold tried. cbn [at_site a_d a_n a_r]. destruct (vdec y x) as [->|Ny].
    + rewrite (get_put_eq _ _ _ _ Ep). apply in_boxb_ok in Bx. rewrite Bx. reflexivity.
    + rewrite (get_put_ne _ _ _ _ _ Ep); [rewrite Gd by auto; reflexivity|]. intros Ee. apply Ny. symmetry. apply (encode_inj 1 (ax r)); auto; [apply (dc_wf _ _ _ _ DC r Hr)|now apply owned_storage].
  - intros j Oj. split; [apply Out; [apply site_len|auto]|]. rewrite El, site_lay by auto. apply site_sub; [auto|]. now rewrite Zl.
  - intros k. rewrite El, num_lay in Fr by auto. destruct (fair_hits ls s rnd k Pl W2 R Fr Hs') as (m & Bm). exists m. apply outside_any; [apply site_len|]. rewrite El, num_lay, site_lay by auto. destruct (lay_nth_x0 1 ls) as (-> & -> & _). exact Bm.
  - split; [auto|]. split; [auto|]. split; [constructor|]. intros y Sy. cbn [fold_left]. rewrite Sd by auto. destruct (in_boxb w y) eqn:E; [|reflexivity]. apply in_boxb_ok in E. now rewrite box_wrap.
Qed.

(* ---- a sweep of all ranks and the exchange of the sublattice ---- *)
Lemma sub_dec s y : of_sublattice s y \/ ~ of_sublattice s y.
Proof using All.
  unfold of_sublattice. assert (forall n, (forall j, (j < n)%nat -> Z.odd (nth j y 0) = Z.testbit s (Z.of_nat (length y - 1 - j))) \/ ~ (forall j, (j < n)%nat -> Z.odd (nth j y 0) = Z.testbit s (Z.of_nat (length y - 1 - j)))) as X; [|apply X].
  induction n as [|n [IH|IH]]; [left; lia| |right; intros A; apply IH; intros j Hj; apply A; lia].
  destruct (Bool.bool_dec (Z.odd (nth n y 0)) (Z.testbit s (Z.of_nat (length y - 1 - n)))) as [E|E]; [left|right; intros A; apply E, A; lia]. intros j Hj. destruct (Nat.eq_dec j n) as [->|]; [auto|]. apply IH. lia.
Qed.
Definition merged (L : Z -> list attempt) : list attempt := flat_map L (zrange 0 np).
Definition lawful (s : Z) (L : Z -> list attempt) : Prop := forall r, 0 <= r < np -> Forall (fun a => 0 <= a_n a /\ owns (G r) (at_site a) /\ of_sublattice s (at_site a)) (L r).

Lemma merged_in s L : lawful s L -> Forall (fun a => (0 <= a_n a /\ box w (at_site a)) /\ of_sublattice s (at_site a)) (merged L).
Proof using All.
  intros HL. apply Forall_forall. intros a Ha. apply in_flat_map in Ha as (r & Hr & Ha). apply in_zrange in Hr. specialize (HL r Hr). rewrite Forall_forall in HL. destruct (HL a Ha) as (A1 & A2 & A3). split; [|auto]. split; [auto|]. now apply (owned_box r).
Qed.
(* the attempts of the other ranks do not matter to a node *)
Lemma merged_own s L F q y : lawful s L -> 0 <= q < np -> owns (G q) y -> all (merged L) F y = all (L q) F y.
Proof using All.
  intros HL Hq O. apply (all_same w hot (sel (lay 0 w)) (of_sublattice s)).
  - intros x z Bx. now apply sub_apart.
  - eapply Forall_impl; [|apply (merged_in s L HL)]. cbn. tauto.
  - eapply Forall_impl; [|apply (HL q Hq)]. cbn. tauto.
  - now apply (owned_box q).
  - unfold merged. rewrite filter_flat_map. apply (flat_map_one (fun r => filter (here y) (L r)) (zrange 0 np) q); [apply NoDup_zrange|now apply in_zrange|].
    intros r Hr Nr. apply in_zrange in Hr. destruct (filter (here y) (L r)) as [|a l] eqn:E; [reflexivity|]. exfalso. apply Nr. assert (In a (filter (here y) (L r))) as Ia by (rewrite E; now left). apply filter_In in Ia as [Ia Ha].
    specialize (HL r Hr). rewrite Forall_forall in HL. destruct (HL a Ia) as (_ & Oa & _). unfold here in Ha. destruct (vdec (at_site a) y) as [Ey|]; [|discriminate]. rewrite Ey in Oa. exact (dc_own _ _ _ _ DC y r q Hr Hq Oa O).
Qed.

Lemma turn s rnd F d : 0 <= s < 2 ^ zlen gs -> (forall k, 0 <= rnd k) -> (forall r, 0 <= r < np -> fair (num_lattice_cells (ax r)) rnd) -> (forall y, box w y -> valid (F y)) -> held d -> stored F d ->
  exists f e L d1, (forall r fuel, 0 <= r < np -> (f <= fuel)%nat -> sweep true (ax r) hot (sel (ax r)) fuel rnd s (0, d r, 0%nat) = Some (Some (e r))) /\
    (forall r, 0 <= r < np -> drawn (G r) s rnd 0 (L r) /\ zlen (L r) = to_flip (ax r) s) /\ held d1 /\ stored (all (merged L) F) d1 /\
    forall (K : Z -> list Z -> proc (list Z)) ch, quiet ch -> exists k ch', quiet ch' /\
      gsteps k (ranks np (fun r => ghostswap_colour c (G r) s (e r) (K r)), ch) (ranks np (fun r => K r (d1 r)), ch').
Proof using All.
  intros Hs R Fr VF Hd Sd.
  destruct (choose_ranks (fun r (p : nat * list Z * list attempt) => (forall g, sweep true (ax r) hot (sel (ax r)) (fst (fst p) + g) rnd s (0, d r, 0%nat) = Some (Some (snd (fst p)))) /\ view r s F (snd p) (snd (fst p)) /\ zlen (snd p) = to_flip (ax r) s /\ drawn (G r) s rnd 0 (snd p)) np Hnp) as (p & Hp).
  { intros r Hr. destruct (Hd r Hr) as [Ld Vd]. destruct (rank_sweep r s rnd F (d r) Hr Hs R (Fr r Hr) VF Ld Vd) as (f & e & l & X); [intros y Hy; now apply Sd|]. exists (f, e, l). exact X. }
  destruct (bound_ranks np (fun r => fst (fst (p r)))) as (f & Hf). set (e := fun r => snd (fst (p r))). set (L := fun r => snd (p r)).
  assert (held e) as He by (intros r Hr; destruct (Hp r Hr) as (_ & (V1 & V2 & _) & _); auto).
  assert (lawful s L) as HL by (intros r Hr; destruct (Hp r Hr) as (_ & (_ & _ & V3 & _) & _); auto).
  destruct (cls_sub gs s (repeat 0 (length gs)) Hdim Hs (repeat_length _ _)) as (par & HP & _).
  assert (forall r y, 0 <= r < np -> storage r y -> get (e r) (encode (ax r) y) = Some (if in_boxb w y then all (L r) F y else F (wrap gs y))) as Ge by (intros r y Hr Hy; destruct (Hp r Hr) as (_ & (_ & _ & _ & V4) & _); auto).
  assert (forall d1, cinv np gs G par e (length gs) d1 -> stored (all (merged L) F) d1) as St.
  { intros d1 I r y Hr Hy. pose proof (storage_len r y Hr Hy) as Ly. destruct (I r y Hr Hy) as [I1 I2]. destruct (cls_sub gs s y Hdim Hs Ly) as (par' & HP' & CS). rewrite HP in HP'. injection HP' as <-.
    pose proof (wrap_box y Ly) as Bw. destruct (owner _ Bw) as (q & Hq & Oq). pose proof (wrap_even gs y s Ly Hlen) as We. destruct (sub_dec s y) as [Cy|Ny].
    - rewrite (I1 ltac:(lia) (proj2 CS Cy) q Hq Oq), Ge by (auto; now apply owned_storage). apply in_boxb_ok in Bw as Bw'. rewrite Bw'. f_equal. symmetry. now apply (merged_own s).
    - rewrite I2, Ge by (auto; left; now rewrite CS). assert (forall l z, Forall (fun a => of_sublattice s (at_site a)) l -> ~ of_sublattice s z -> all l F z = F z) as Aw.
      { intros l z Fl Nz. apply all_away. intros a Ha E. rewrite Forall_forall in Fl. apply Nz. rewrite <- E. auto. }
      rewrite (Aw (merged L)); [|eapply Forall_impl; [|apply (merged_in s L HL)]; cbn; tauto|now rewrite We]. destruct (in_boxb w y) eqn:Eb; [|reflexivity]. apply in_boxb_ok in Eb. rewrite box_wrap by auto. f_equal. apply Aw; [|auto]. eapply Forall_impl; [|apply (HL r Hr)]. cbn. tauto. }
  assert (forall j, (j < length gs)%nat -> glen (nth j gs (mkG 0 0)) mod 2 = 0) as HE by (intros j Hj; apply Hlen; auto).
  assert (forall r j, 0 <= r < np -> (j < length gs)%nat -> 1 <= a_x1 (nth j (ax r) dax) - a_x0 (nth j (ax r) dax)) as HW by (intros r j Hr Hj; pose proof (two r j Hr Hj); lia).
  destruct (colour_round c valid np gs G B s par DC Sc HB B0 HI HP HE HW e (fun _ => @Ret (list Z)) no_chans He quiet_empty) as (d1 & _ & _ & _ & Hd1 & I1 & _).
  exists f, e, L, d1. split; [|split; [|split; [auto|split; [auto|]]]].
  - intros r fuel Hr Hfu. destruct (Hp r Hr) as (X & _). specialize (Hf r Hr). cbn in Hf. replace fuel with (fst (fst (p r)) + (fuel - fst (fst (p r))))%nat by lia. apply X.
  - intros r Hr. destruct (Hp r Hr) as (_ & _ & X & Y). auto.
  - intros K ch Q. destruct (colour_round c valid np gs G B s par DC Sc HB B0 HI HP HE HW e K ch He Q) as (d2 & k & ch' & Q' & Hd2 & I2 & Gs). exists k, ch'. split; [auto|].
    rewrite (ranks_ext np (fun r => K r (d1 r)) (fun r => K r (d2 r))); [exact Gs|]. intros r Hr. f_equal. apply (same_data (all (merged L) F)); auto.
Qed.

(* ---- any number of sweeps ---- *)
Context (rand : Z -> nat -> Z) (clock : Z -> Z -> Z -> Z) (R : forall seed k, 0 <= rand seed k) (HC : forall t s, 0 <= clock 0 t s < 2 ^ 64).
Context (Fr : forall r t s, 0 <= r < np -> fair (num_lattice_cells (ax r)) (rand (clock 0 t s))).
Definition legal (ts : Z * Z) (L : Z -> list attempt) : Prop := forall r, 0 <= r < np -> drawn (G r) (snd ts) (rand (clock 0 (fst ts) (snd ts))) 0 (L r) /\ zlen (L r) = to_flip (ax r) (snd ts).
Lemma legal_lawful ts L : legal ts L -> lawful (snd ts) L.
Proof using All. intros H r Hr. destruct (H r Hr) as [D _]. eapply drawn_in; [|exact D]. auto. Qed.

Lemma sweeps ts : Forall (fun t => 0 <= snd t < 2 ^ zlen gs) ts -> forall F d, (forall y, box w y -> valid (F y)) -> held d -> stored F d ->
  exists f Ls d', Forall2 legal ts Ls /\ held d' /\ stored (all (flat_map merged Ls) F) d' /\
    forall fuel ch, (f <= fuel)%nat -> quiet ch -> exists k ch', quiet ch' /\
      gsteps k (ranks np (fun r => rank_sweeps c hot sel rand fuel (clock r) (G r) ts (d r)), ch) (ranks np (fun r => Ret (d' r)), ch').
Proof using All.
  induction 1 as [|[t s] ts Hs _ IH]; intros F d VF Hd Sd.
  - exists O, [], d. split; [constructor|]. split; [auto|]. split; [exact Sd|]. intros fuel ch _ Q. exists O, ch. split; [auto|]. constructor.
  - cbn [snd] in Hs. destruct (turn s (rand (clock 0 t s)) F d Hs (R _) (fun r Hr => Fr r t s Hr) VF Hd Sd) as (f & e & L & d1 & Sw & Le & Hd1 & Sd1 & Ex).
    assert (legal (t, s) L) as Lg by exact Le. pose proof (merged_in s L (legal_lawful _ _ Lg)) as Min.
    destruct (IH (all (merged L) F) d1) as (f' & Ls & d' & Hl & Hd' & Sd' & Go); auto.
    { intros y By. apply all_in; auto. eapply Forall_impl; [|exact Min]. cbn. tauto. }
    exists (Nat.max f f'), (L :: Ls), d'. split; [constructor; auto|]. split; [auto|]. split; [cbn [flat_map]; now rewrite fold_left_app|].
    intros fuel ch Hfu Q. destruct (Ex (fun r => rank_sweeps c hot sel rand fuel (clock r) (G r) ts) ch Q) as (k1 & c1 & Q1 & G1). destruct (Go fuel c1 ltac:(lia) Q1) as (k2 & c2 & Q2 & G2).
    exists (1 + (1 + (k1 + k2)))%nat, c2. split; [auto|]. eapply gsteps_app; [apply gsteps_1|].
    { cbn [rank_sweeps]. apply (all_coll np 1 (fun r => pd_enc pod_ulong (clock r t s)) (fun r ms => lift (get ms 0) (fun m => lift (sweep true (ax r) hot (sel (ax r)) fuel (rand (pd_dec pod_ulong m)) s (0, d r, 0%nat)) (fun over => lift over (fun data =>
        barrier (ghostswap_colour c (G r) s data (rank_sweeps c hot sel rand fuel (clock r) (G r) ts))))))). auto. }
    assert (@get msg (@map Z msg (fun r => pd_enc pod_ulong (clock r t s)) (zrange 0 np)) 0 = Some (pd_enc pod_ulong (clock 0 t s))) as E0.
    { rewrite zrange_cons by auto. reflexivity. }
    assert (pd_dec pod_ulong (pd_enc pod_ulong (clock 0 t s)) = clock 0 t s) as Ed by (apply (pod_uint_ok 8), HC).
    rewrite (ranks_ext np _ (fun r => Coll 0 [] (fun _ => ghostswap_colour c (G r) s (e r) (rank_sweeps c hot sel rand fuel (clock r) (G r) ts)))).
    2:{ intros r Hr. cbv beta. cbv beta in E0. rewrite E0. cbn [lift]. rewrite Ed, (Sw r fuel Hr ltac:(lia)). reflexivity. }
    eapply gsteps_app; [apply gsteps_1; apply (all_coll np 0 (fun _ => []) (fun r _ => ghostswap_colour c (G r) s (e r) (rank_sweeps c hot sel rand fuel (clock r) (G r) ts))); auto|].
    eapply gsteps_app; [exact G1|exact G2].
Qed.
End Ranks.

Lemma Forall_get {A} (P : A -> Prop) l i v : Forall P l -> get l i = Some v -> P v.
Proof. intros F E. apply get_err in E. rewrite Forall_forall in F. apply F. eapply nth_error_In; eauto. Qed.
Lemma turns_ok (gs : list gaxis) steps : (length gs = 2 \/ length gs = 3)%nat -> Forall (fun t => 0 <= snd t < 2 ^ zlen gs) (turns (length gs) steps).
Proof.
  intros Hd. apply Forall_forall. intros x Hx. unfold turns in Hx. apply in_flat_map in Hx as (t & _ & Hx). apply in_map_iff in Hx as (s & <- & Hs). apply in_zrange in Hs. unfold zlen. cbn [snd]. destruct Hd as [L|L]; rewrite L in *; cbn [Nat.eqb] in Hs; [change (2 ^ Z.of_nat 2) with 4|change (2 ^ Z.of_nat 3) with 8]; lia.
Qed.
Lemma read_at ls (d : list Z) y : lims_ok ls -> zlen d = cells (lay 0 ls) -> box ls y -> grid_read false (lay 0 ls) d y = Some (value_at ls d y).
Proof.
  intros W L By. unfold value_at. destruct (local_encode false 0 ls d y ltac:(lia) W By) as (E & _ & Hb). rewrite E. rewrite <- L in Hb. now rewrite (BaseL.get_nth _ _ 0) by exact Hb.
Qed.

(* ---- what the attempts keep ---- *)
Lemma attempts_keep w hot sel (P : list Z -> Prop) l : whole w -> kept w hot P -> Forall (fun a => 0 <= a_n a /\ box w (at_site a)) l -> forall d d', zlen d = cells (lay 0 w) -> P d ->
  attempts (lay 0 w) hot sel l d = Some d' -> zlen d' = cells (lay 0 w) /\ P d'.
Proof.
  intros W Kp Fl. induction Fl as [|a l [Ha Hb] _ IH]; intros d d' L Pd E; [injection E as <-; auto|]. unfold attempts in E. cbn [fold_opt] in E. fold (attempts (lay 0 w) hot sel l) in E.
  destruct (visit_ok w W hot sel d (at_site a) (a_d a) (a_n a) (a_r a) L Hb Ha) as (n & Ev). destruct (Kp d (at_site a) (sel (at_site a) (a_d a)) (a_n a) (a_r a) L Pd Hb Ha) as (d1 & E1 & L1 & P1).
  assert (attempt_at (lay 0 w) hot sel d a = Some d1) as Ea by (unfold attempt_at; rewrite Ev; exact E1). rewrite Ea in E. cbn [bind] in E. now apply (IH d1).
Qed.

Lemma storage_box0 ls y : in_box (map a_s0 (lay 0 ls)) (map a_s1 (lay 0 ls)) y -> box ls y.
Proof.
  unfold box. replace (map a_s0 (lay 0 ls)) with (map l_x0 ls); [replace (map a_s1 (lay 0 ls)) with (map l_x1 ls); [auto|]|].
  - induction ls as [|l ls IH]; [reflexivity|]. cbn. rewrite IH. f_equal. lia.
  - induction ls as [|l ls IH]; [reflexivity|]. cbn. rewrite IH. f_equal. lia.
Qed.
(* Ls, D0' and fuel0 depend on the field alone: D2 stands for any grids of the ranks that hold the same field *)
Theorem ranks_uniform : forall (c : codec Z) valid np gs B hot (sel : list axis -> list Z -> Z -> bool) rand clock steps (D : Z -> list Z) D0,
  let w := map serial_limits gs in
  serialises c valid -> 0 < np -> (length gs = 2 \/ length gs = 3)%nat -> 0 <= B -> (forall v, valid v -> c_size c v <= B) ->
  Forall (fun g => gx_0 g < gx_1 g /\ Z.even (gx_1 g - gx_0 g) = true) gs ->
  (forall r ge, 0 <= r < np -> setup_mpi np gs 1 r = Some ge ->
     zlen (D r) = cells (ge_axes ge) /\ Forall valid (D r) /\ cells (ge_axes ge) * B <= int_max /\ Forall (fun a => a_x0 a + 2 <= a_x1 a) (ge_axes ge) /\
     (forall y, owns ge y -> grid_read true (ge_axes ge) (D r) y = grid_read false (lay 0 w) D0 y) /\
     (forall t s, fair (num_lattice_cells (ge_axes ge)) (rand (clock 0 t s))) /\ (forall x rd, sel (ge_axes ge) x rd = sel (lay 0 w) x rd)) ->
  zlen D0 = cells (lay 0 w) -> (forall seed k, 0 <= rand seed k) -> (forall t s, 0 <= clock 0 t s < 2 ^ 64) ->
  exists Ls D0',
    Forall2 (fun ts L => forall r ge, 0 <= r < np -> setup_mpi np gs 1 r = Some ge ->
        drawn ge (snd ts) (rand (clock 0 (fst ts) (snd ts))) 0 (L r) /\ zlen (L r) = to_flip (ge_axes ge) (snd ts)) (turns (length gs) steps) Ls /\
    attempts (lay 0 w) hot (sel (lay 0 w)) (flat_map (fun L => flat_map L (zrange 0 np)) Ls) D0 = Some D0' /\
    Forall (fun v => In v D0) D0' /\ ((forall r dE, 0 < dE -> hot r dE = false) -> grain_energy2 w (value_at w D0') <= grain_energy2 w (value_at w D0)) /\
    zlen D0' = cells (lay 0 w) /\ Forall valid D0' /\
    exists fuel0 D', (forall r ge, 0 <= r < np -> setup_mpi np gs 1 r = Some ge -> zlen (D' r) = cells (ge_axes ge) /\ Forall valid (D' r)) /\
     forall fuel D2, (fuel0 <= fuel)%nat -> (forall r ge, 0 <= r < np -> setup_mpi np gs 1 r = Some ge ->
       zlen (D2 r) = cells (ge_axes ge) /\ Forall valid (D2 r) /\ (forall y, owns ge y -> grid_read true (ge_axes ge) (D2 r) y = grid_read false (lay 0 w) D0 y)) ->
     exists f, finished np D' f /\
      inevitable (ranks np (rank_growth c hot sel rand fuel np gs clock steps D2), no_chans) f /\
      forall r ge y, 0 <= r < np -> setup_mpi np gs 1 r = Some ge ->
        (in_box (map a_s0 (ge_axes ge)) (map a_s1 (ge_axes ge)) y -> grid_read true (ge_axes ge) (D' r) y = grid_read false (lay 0 w) D0' (wrap gs y)) /\
        (owns ge y -> grid_read true (ge_axes ge) (D' r) y = grid_read false (lay 0 w) D0' y).
Proof.
  intros c valid np gs B hot sel rand clock steps D D0 w Sc Hnp Hdim B0 HB Hg HD L0 R HC.
  assert (gs <> []) as Hn by (intros ->; destruct Hdim; discriminate).
  assert (gok gs) as Hk by (unfold gok; eapply Forall_impl; [|exact Hg]; cbn; lia).
  pose proof (deco_setup np gs 1 Hnp Hn Hk ltac:(lia)) as DC. set (G r := match setup_mpi np gs 1 r with Some ge => ge | None => dgeom end) in *.
  assert (forall r, 0 <= r < np -> setup_mpi np gs 1 r = Some (G r)) as ES.
  { intros r Hr. destruct (setup_eq np gs 1 r Hnp Hn Hk Hr) as (p1 & _ & _ & _ & _ & E). unfold G. now rewrite E. }
  clearbody G.
  assert (forall r, 0 <= r < np -> cells (ge_axes (G r)) * B <= int_max) as HI by (intros r Hr; now apply (HD r _ Hr (ES r Hr))).
  assert (forall r, 0 <= r < np -> Forall (fun a => a_x0 a + 2 <= a_x1 a) (ge_axes (G r))) as H2 by (intros r Hr; now apply (HD r _ Hr (ES r Hr))).
  assert (forall r x rd, 0 <= r < np -> sel (ge_axes (G r)) x rd = sel (lay 0 w) x rd) as Hsel by (intros r x rd Hr; now apply (HD r _ Hr (ES r Hr))).
  assert (forall r t s, 0 <= r < np -> fair (num_lattice_cells (ge_axes (G r))) (rand (clock 0 t s))) as Fr by (intros r t s Hr; now apply (HD r _ Hr (ES r Hr))).
  assert (held valid np G D) as Hd by (intros r Hr; destruct (HD r _ Hr (ES r Hr)) as (A1 & A2 & _); auto).
  assert (whole w) as Ww. { unfold w, whole. apply Forall_forall. intros l Hl. apply in_map_iff in Hl as (g & <- & Ig). rewrite Forall_forall in Hg. specialize (Hg g Ig). cbn. lia. }
  assert (lims_ok w) as Wo by (unfold lims_ok; eapply Forall_impl; [|exact Ww]; cbn; lia).
  set (F := value_at w D0).
  assert (forall y, box w y -> exists q, 0 <= q < np /\ owns (G q) y /\ get (D q) (encode (ge_axes (G q)) y) = Some (F y)) as Own.
  { intros y By. destruct (owner c valid np gs G B hot sel Hnp DC Sc HB B0 HI Hdim ES Hg H2 Hsel y By) as (q & Hq & O). exists q. split; [auto|]. split; [auto|].
    destruct (HD q _ Hq (ES q Hq)) as (Lq & _ & _ & _ & Eq & _). unfold F. rewrite <- read_at, <- Eq by auto. symmetry. eapply read_storage; eauto. eapply owned_storage; eauto. }
  assert (forall y, box w y -> valid (F y)) as VF by (intros y By; destruct (Own y By) as (q & Hq & _ & E); eapply Forall_get; [|exact E]; now apply Hd).
  assert (wide np 1 gs G) as Wd by (intros r j Hr Hj; pose proof (two c valid np gs G B hot sel Hnp DC Sc HB B0 HI Hdim ES Hg H2 Hsel r j Hr Hj); lia).
  assert (forall d, inv np gs G D (length gs) d -> stored np gs G F d) as St.
  { intros d I r y Hr Hy. assert (length y = length gs) as Ly by (eapply storage_len; eauto). assert (box w (wrap gs y)) as Bw by (eapply wrap_box; eauto). destruct (Own _ Bw) as (q & Hq & O & E). rewrite <- E. apply (I r y Hr Hy); [lia|auto|auto]. }
  destruct (ghost_round c valid np 1 gs G B DC Sc HB B0 HI D (fun _ => @Ret (list Z)) no_chans Hd quiet_empty) as (d & _ & _ & _ & Hd1 & Iv & _). specialize (Iv Wd).
  destruct (sweeps c valid np gs G B hot sel Hnp DC Sc HB B0 HI Hdim ES Hg H2 Hsel rand clock R HC Fr (turns (length gs) steps) (turns_ok gs steps Hdim) F d VF Hd1 (St d Iv)) as (f0 & Ls & d' & Hl & Hd' & Sd' & Go).
  assert (Forall (fun a => 0 <= a_n a /\ box w (at_site a)) (flat_map (merged np) Ls)) as Fa.
  { apply Forall_forall. intros a Ha. apply in_flat_map in Ha as (L & HL & Ha). assert (exists ts, legal np G rand clock ts L) as (ts & Lg). { clear -Hl HL. induction Hl; [destruct HL|]. destruct HL as [<-|HL]; eauto. }
    assert (lawful np G (snd ts) L) as Lw by (eapply legal_lawful; eauto). assert (Forall (fun a => (0 <= a_n a /\ box w (at_site a)) /\ of_sublattice (snd ts) (at_site a)) (merged np L)) as X by (eapply merged_in; eauto). rewrite Forall_forall in X. now apply X. }
  destruct (attempts_all w hot (sel (lay 0 w)) _ Ww Fa D0 F L0 (fun y _ => eq_refl)) as (D0' & Ea & L0' & Va).
  assert (Forall (fun v => In v D0) D0') as Nw.
  { eapply attempts_keep; [exact Ww|apply (keeps_spins w hot (sel (lay 0 w)) Ww)|exact Fa|exact L0| |exact Ea]. apply Forall_forall. auto. }
  exists Ls, D0'. split; [|split; [exact Ea|split; [exact Nw|split; [|split; [exact L0'|split]]]]].
  { clear -Hl ES. induction Hl as [|ts L tl Lt Lg _ IH]; constructor; [|exact IH]. intros r ge Hr E. rewrite (ES r Hr) in E. injection E as <-. now apply Lg. }
  { intros Cold. eapply (attempts_keep w hot (sel (lay 0 w)) (fun d => grain_energy2 w (value_at w d) <= grain_energy2 w (value_at w D0))); [exact Ww|apply (keeps_energy w hot (sel (lay 0 w)) Ww _ Cold)|exact Fa|exact L0|lia|exact Ea]. }
  { eapply Forall_impl; [|exact Nw]. cbn. intros v Hv. apply In_nth_error in Hv as [p Hp]. assert (0 <= Z.of_nat p < cells (lay 0 w)) as Rp.
    { rewrite <- L0. assert (p < length D0)%nat by (apply nth_error_Some; congruence). unfold zlen. lia. }
    destruct (encode_onto 0 (lay 0 w) (Z.of_nat p) (wf_lay 0 w Wo) ltac:(lia) Rp) as (y & Hy & Ep). assert (box w y) as By by (now apply storage_box0).
    specialize (VF y By). unfold F, value_at in VF. destruct (local_encode false 0 w D0 y ltac:(lia) Wo By) as (Er & _). rewrite Er, Ep in VF.
    unfold get in VF. destruct (Z.ltb_spec (Z.of_nat p) 0); [lia|]. rewrite Nat2Z.id, Hp in VF. exact VF. }
  exists f0, d'. split; [intros r ge Hr E; rewrite (ES r Hr) in E; injection E as <-; now apply Hd'|].
  intros fuel D2 Hf HD2.
  assert (held valid np G D2) as HH2 by (intros r Hr; destruct (HD2 r _ Hr (ES r Hr)) as (A1 & A2 & _); auto).
  assert (forall d, inv np gs G D2 (length gs) d -> stored np gs G F d) as St2.
  { intros d1 I r y Hr Hy. assert (length y = length gs) as Ly by (eapply storage_len; eauto). assert (box w (wrap gs y)) as Bw by (eapply wrap_box; eauto). destruct (Own _ Bw) as (q & Hq & O & _).
    destruct (HD2 q _ Hq (ES q Hq)) as (Lq & _ & Eq). assert (get (D2 q) (encode (ge_axes (G q)) (wrap gs y)) = Some (F (wrap gs y))) as <-.
    { unfold F. rewrite <- read_at, <- Eq by auto. symmetry. eapply read_storage; eauto. eapply owned_storage; eauto. }
    apply (I r y Hr Hy); [lia|auto|auto]. }
  destruct (ghost_round c valid np 1 gs G B DC Sc HB B0 HI D2 (fun r data => rank_sweeps c hot sel rand fuel (clock r) (G r) (turns (length gs) steps) data) no_chans HH2 quiet_empty) as (d2 & k1 & c1 & Q1 & Hd2 & Iv2 & G1). specialize (Iv2 Wd).
  destruct (Go fuel c1 Hf Q1) as (k2 & c2 & Q2 & G2).
  destruct (conclude np (rank_growth c hot sel rand fuel np gs clock steps D2) d' (k1 + k2) no_chans c2 Hnp Q2) as (fin & F1 & F2).
  { eapply gsteps_app; [|exact G2]. rewrite (ranks_ext np _ (fun r => ghostswap c (G r) (D2 r) (fun data => rank_sweeps c hot sel rand fuel (clock r) (G r) (turns (length gs) steps) data))) by (intros r Hr; unfold rank_growth; now rewrite (ES r Hr)).
    rewrite (ranks_ext np (fun r => rank_sweeps c hot sel rand fuel (clock r) (G r) (turns (length gs) steps) (d r)) (fun r => rank_sweeps c hot sel rand fuel (clock r) (G r) (turns (length gs) steps) (d2 r))); [exact G1|].
    intros r Hr. f_equal. eapply (same_data c valid np gs G B hot sel Hnp DC Sc HB B0 HI Hdim ES Hg H2 Hsel F); eauto. }
  exists fin. split; [auto|]. split; [auto|]. intros r ge y Hr E. rewrite (ES r Hr) in E. injection E as <-. destruct (Hd' r Hr) as [Ld' _].
  assert (in_box (map a_s0 (ge_axes (G r))) (map a_s1 (ge_axes (G r))) y -> grid_read true (ge_axes (G r)) (d' r) y = grid_read false (lay 0 w) D0' (wrap gs y)) as X.
  { intros Hy. assert (length y = length gs) as Ly by (eapply storage_len; eauto). assert (box w (wrap gs y)) as Bw by (eapply wrap_box; eauto). rewrite (read_at w D0') by auto. rewrite Va by auto. etransitivity; [eapply read_storage; eauto|]. exact (Sd' r y Hr Hy). }
  split; [exact X|]. intros O. rewrite X by (eapply owned_storage; eauto). now rewrite (owned_wrap np 1 gs G DC r y Hr O).
Qed.
Theorem ranks_serial : forall (c : codec Z) valid np gs B hot (sel : list axis -> list Z -> Z -> bool) rand clock steps (D : Z -> list Z) D0,
  let w := map serial_limits gs in
  serialises c valid -> 0 < np -> (length gs = 2 \/ length gs = 3)%nat -> 0 <= B -> (forall v, valid v -> c_size c v <= B) ->
  Forall (fun g => gx_0 g < gx_1 g /\ Z.even (gx_1 g - gx_0 g) = true) gs ->
  (forall r ge, 0 <= r < np -> setup_mpi np gs 1 r = Some ge ->
     zlen (D r) = cells (ge_axes ge) /\ Forall valid (D r) /\ cells (ge_axes ge) * B <= int_max /\ Forall (fun a => a_x0 a + 2 <= a_x1 a) (ge_axes ge) /\
     (forall y, owns ge y -> grid_read true (ge_axes ge) (D r) y = grid_read false (lay 0 w) D0 y) /\
     (forall t s, fair (num_lattice_cells (ge_axes ge)) (rand (clock 0 t s))) /\ (forall x rd, sel (ge_axes ge) x rd = sel (lay 0 w) x rd)) ->
  zlen D0 = cells (lay 0 w) -> (forall seed k, 0 <= rand seed k) -> (forall t s, 0 <= clock 0 t s < 2 ^ 64) ->
  exists Ls D0',
    Forall2 (fun ts L => forall r ge, 0 <= r < np -> setup_mpi np gs 1 r = Some ge ->
        drawn ge (snd ts) (rand (clock 0 (fst ts) (snd ts))) 0 (L r) /\ zlen (L r) = to_flip (ge_axes ge) (snd ts)) (turns (length gs) steps) Ls /\
    attempts (lay 0 w) hot (sel (lay 0 w)) (flat_map (fun L => flat_map L (zrange 0 np)) Ls) D0 = Some D0' /\
    Forall (fun v => In v D0) D0' /\ ((forall r dE, 0 < dE -> hot r dE = false) -> grain_energy2 w (value_at w D0') <= grain_energy2 w (value_at w D0)) /\
    exists fuel0, forall fuel, (fuel0 <= fuel)%nat -> exists D' f, finished np D' f /\
      inevitable (ranks np (rank_growth c hot sel rand fuel np gs clock steps D), no_chans) f /\
      forall r ge y, 0 <= r < np -> setup_mpi np gs 1 r = Some ge ->
        (in_box (map a_s0 (ge_axes ge)) (map a_s1 (ge_axes ge)) y -> grid_read true (ge_axes ge) (D' r) y = grid_read false (lay 0 w) D0' (wrap gs y)) /\
        (owns ge y -> grid_read true (ge_axes ge) (D' r) y = grid_read false (lay 0 w) D0' y).
Proof.
  intros c valid np gs B hot sel rand clock steps D D0 w Sc Hnp Hdim B0 HB Hg HD L0 R HC.
  destruct (ranks_uniform c valid np gs B hot sel rand clock steps D D0 Sc Hnp Hdim B0 HB Hg HD L0 R HC) as (Ls & D0' & A1 & A2 & A3 & A4 & _ & _ & fuel0 & D' & _ & H).
  exists Ls, D0'. split; [exact A1|]. split; [exact A2|]. split; [exact A3|]. split; [exact A4|]. exists fuel0. intros fuel Hf.
  destruct (H fuel D Hf) as (f & H1 & H2 & H3); [|exists D', f; auto]. intros r ge Hr E. destruct (HD r ge Hr E) as (Y1 & Y2 & _ & _ & Y5 & _). auto.
Qed.
