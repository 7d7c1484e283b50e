(* The cells and sublattices of Monte Carlo grain growth; what a sweep keeps; the order of the attempts *)
From Verif Require Import Model.Base Model.Boundary Model.Layout Model.Access Model.Spin Spec.Box Spec.Access Spec.Stencil Spec.Spin
  Proof.BaseL Proof.LayoutL Proof.AccessL Proof.StencilS Proof.SpinL Proof.SpinF Proof.GrowthL Proof.ConvertL.
Local Open Scope list_scope.
Local Open Scope Z_scope.

(* ---- one axis ---- *)
Definition ncells (p : Z) (l : limits) : Z :=
  let len := l_x1 l - l_x0 l in
  if Z.rem p 2 =? 0 then Z.quot len 2 + 1 else 1 + (if Z.rem len 2 =? 0 then Z.quot len 2 else Z.quot len 2 + 1).
Definition start (l : limits) : Z := if Z.rem (l_x0 l) 2 =? 0 then l_x0 l else l_x0 l - 1.
Lemma start_ok l : start l mod 2 = 0 /\ start l <= l_x0 l <= start l + 1.
Proof.
  unfold start. destruct (Z.eqb_spec (Z.rem (l_x0 l) 2) 0) as [E|N].
  - split; [|lia]. apply Z.rem_divide in E; [|lia]. destruct E as [q ->]. apply Z.mod_mul. lia.
  - split; [|lia]. pose proof (Z.mod_pos_bound (l_x0 l) 2 ltac:(lia)). assert (l_x0 l mod 2 <> 0). { intros E. apply N. apply Z.rem_divide; [lia|]. now apply Z.mod_divide in E. }
    pose proof (Z.div_mod (l_x0 l) 2 ltac:(lia)). replace (l_x0 l - 1) with (l_x0 l / 2 * 2) by lia. apply Z.mod_mul. lia.
Qed.
Lemma ncells_ok p l : l_x0 l < l_x1 l -> (l_x1 l - l_x0 l) / 2 + 1 <= ncells p l.
Proof.
  intros H. unfold ncells. cbv zeta. rewrite Z.quot_div_nonneg by lia. pose proof (Z.div_pos (l_x1 l - l_x0 l) 2). destruct (_ =? 0); [lia|]. destruct (_ =? 0); lia.
Qed.
(* the cell of a coordinate *)
Lemma cell_of p l c : l_x0 l <= c < l_x1 l -> 0 <= (c - start l) / 2 < ncells p l /\ start l + 2 * ((c - start l) / 2) + (c - start l) mod 2 = c.
Proof.
  intros H. pose proof (start_ok l) as [_ S]. pose proof (ncells_ok p l ltac:(lia)). pose proof (Z.div_mod (c - start l) 2 ltac:(lia)). split; [|lia]. split; [apply Z.div_pos; lia|].
  assert ((c - start l) / 2 <= (l_x1 l - l_x0 l) / 2) by (apply Z.div_le_mono; lia). lia.
Qed.
(* an axis of two nodes or more has nodes of both parities *)
Lemma both_parities p l o : l_x0 l + 2 <= l_x1 l -> o = 0 \/ o = 1 -> exists i, 0 <= i < ncells p l /\ l_x0 l <= start l + 2 * i + o < l_x1 l.
Proof.
  intros H O. pose proof (start_ok l) as [_ S]. pose proof (ncells_ok p l ltac:(lia)) as N. assert (1 <= (l_x1 l - l_x0 l) / 2) by (apply Z.div_le_lower_bound; lia).
  destruct (Z_lt_dec (start l + o) (l_x0 l)); [exists 1|exists 0]; lia.
Qed.

(* ---- two and three axes ---- *)
Lemma site2 a b s j : site_of (lay 0 [a; b]) s j = [start a + 2 * Z.quot j (ncells (l_x0 a) b) + Z.quot s 2; start b + 2 * Z.rem j (ncells (l_x0 a) b) + Z.rem s 2].
Proof. reflexivity. Qed.
Lemma site3 a b c s j : let n1 := ncells (l_x0 a) b in let n2 := ncells (l_x0 a) c in
  site_of (lay 0 [a; b; c]) s j = [start a + 2 * Z.quot (Z.quot j n2) n1 + Z.quot s 4; start b + 2 * Z.rem (Z.quot j n2) n1 + Z.rem (Z.quot s 2) 2; start c + 2 * Z.rem j n2 + Z.rem s 2].
Proof. reflexivity. Qed.
Lemma num2 a b : num_lattice_cells (lay 0 [a; b]) = ncells (l_x0 a) a * ncells (l_x0 a) b.
Proof. unfold num_lattice_cells. change (lattice_cells (lay 0 [a; b])) with [ncells (l_x0 a) a; ncells (l_x0 a) b]. rewrite !prodZ_cons. change (prodZ []) with 1. lia. Qed.
Lemma num3 a b c : num_lattice_cells (lay 0 [a; b; c]) = ncells (l_x0 a) a * (ncells (l_x0 a) b * ncells (l_x0 a) c).
Proof. unfold num_lattice_cells. change (lattice_cells (lay 0 [a; b; c])) with [ncells (l_x0 a) a; ncells (l_x0 a) b; ncells (l_x0 a) c]. rewrite !prodZ_cons. change (prodZ []) with 1. lia. Qed.

Definition planar (ls : list limits) : Prop := zlen ls = 2 \/ zlen ls = 3.
Lemma planar_cases ls (P : list limits -> Prop) : planar ls -> (forall a b, ls = [a; b] -> P [a; b]) -> (forall a b c, ls = [a; b; c] -> P [a; b; c]) -> P ls.
Proof.
  intros D H2 H3. unfold planar, zlen in D. destruct ls as [|a [|b [|c [|d t]]]]; cbn in D; try lia; [now apply H2|now apply H3].
Qed.
Lemma par_shift st i k o : st mod 2 = 0 -> (st + 2 * i + o - (st + 2 * k + o)) mod 2 = 0.
Proof. intros _. replace (st + 2 * i + o - (st + 2 * k + o)) with ((i - k) * 2) by lia. apply Z.mod_mul. lia. Qed.
(* the sites of a sublattice have coordinates of equal parity *)
Lemma sites_parity ls s j k : planar ls -> same_parity (site_of (lay 0 ls) s j) (site_of (lay 0 ls) s k).
Proof.
  intros D. apply (planar_cases ls); [auto| |].
  - intros a b _. rewrite !site2. repeat constructor; apply par_shift, start_ok.
  - intros a b c _. rewrite !site3. repeat constructor; apply par_shift, start_ok.
Qed.
Lemma cells_pos ls : planar ls -> whole ls -> 0 < num_lattice_cells (lay 0 ls).
Proof.
  intros D. apply (planar_cases ls); [auto| |]; intros; match goal with H : whole _ |- _ => rename H into W end.
  - rewrite num2. inversion W as [|? ? (_ & _ & Ha) W2]; subst. inversion W2 as [|? ? (_ & _ & Hb) _]; subst. pose proof (cell_of (l_x0 a) a (l_x0 a) ltac:(lia)). pose proof (cell_of (l_x0 a) b (l_x0 b) ltac:(lia)). apply Z.mul_pos_pos; lia.
  - rewrite num3. inversion W as [|? ? (_ & _ & Ha) W2]; subst. inversion W2 as [|? ? (_ & _ & Hb) W3]; subst. inversion W3 as [|? ? (_ & _ & Hc) _]; subst.
    pose proof (cell_of (l_x0 a) a (l_x0 a) ltac:(lia)). pose proof (cell_of (l_x0 a) b (l_x0 b) ltac:(lia)). pose proof (cell_of (l_x0 a) c (l_x0 c) ltac:(lia)). repeat apply Z.mul_pos_pos; lia.
Qed.
Lemma join2 i j m n : 0 <= i < m -> 0 <= j < n -> 0 <= i * n + j < m * n /\ Z.quot (i * n + j) n = i /\ Z.rem (i * n + j) n = j.
Proof.
  intros Hi Hj. assert (0 <= i * n + j) by nia. split; [nia|]. rewrite Z.quot_div_nonneg, Z.rem_mod_nonneg by lia. split; [symmetry; apply (Z.div_unique _ n i j); lia|symmetry; apply (Z.mod_unique _ n i j); lia].
Qed.
(* the sublattice with given increments *)
Lemma pick2 ls a b i0 i1 o0 o1 : ls = [a; b] -> 0 <= i0 < ncells (l_x0 a) a -> 0 <= i1 < ncells (l_x0 a) b -> 0 <= o0 <= 1 -> 0 <= o1 <= 1 ->
  let j := i0 * ncells (l_x0 a) b + i1 in 0 <= j < num_lattice_cells (lay 0 ls) /\ site_of (lay 0 ls) (2 * o0 + o1) j = [start a + 2 * i0 + o0; start b + 2 * i1 + o1].
Proof.
  intros -> H0 H1 O0 O1 j. destruct (join2 i0 i1 _ _ H0 H1) as (Hj & Q & R). fold j in Hj, Q, R. rewrite num2. split; [exact Hj|]. rewrite site2, Q, R.
  assert (o0 = 0 \/ o0 = 1) as [-> | ->] by lia; assert (o1 = 0 \/ o1 = 1) as [-> | ->] by lia; reflexivity.
Qed.
Lemma pick3 ls a b c i0 i1 i2 o0 o1 o2 : ls = [a; b; c] -> 0 <= i0 < ncells (l_x0 a) a -> 0 <= i1 < ncells (l_x0 a) b -> 0 <= i2 < ncells (l_x0 a) c -> 0 <= o0 <= 1 -> 0 <= o1 <= 1 -> 0 <= o2 <= 1 ->
  let j := (i0 * ncells (l_x0 a) b + i1) * ncells (l_x0 a) c + i2 in 0 <= j < num_lattice_cells (lay 0 ls) /\
  site_of (lay 0 ls) (4 * o0 + 2 * o1 + o2) j = [start a + 2 * i0 + o0; start b + 2 * i1 + o1; start c + 2 * i2 + o2].
Proof.
  intros -> H0 H1 H2 O0 O1 O2 j. destruct (join2 i0 i1 _ _ H0 H1) as (Hj & Q & R). destruct (join2 _ i2 _ _ Hj H2) as (Hj' & Q' & R'). fold j in Hj', Q', R'. rewrite num3. split; [lia|]. rewrite site3, Q', R', Q, R.
  assert (o0 = 0 \/ o0 = 1) as [-> | ->] by lia; assert (o1 = 0 \/ o1 = 1) as [-> | ->] by lia; assert (o2 = 0 \/ o2 = 1) as [-> | ->] by lia; reflexivity.
Qed.
(* every node is a site of some sublattice *)
Lemma sites_cover ls x : planar ls -> box ls x -> exists s j, 0 <= s < num_sublattices (lay 0 ls) /\ 0 <= j < num_lattice_cells (lay 0 ls) /\ site_of (lay 0 ls) s j = x.
Proof.
  intros D. apply (planar_cases ls); [auto| |].
  - intros a b _ B. destruct x as [|c0 [|c1 [|? ?]]]; cbn in B; try tauto. destruct B as (B0 & B1 & _).
    destruct (cell_of (l_x0 a) a c0 B0) as [C0 E0]. destruct (cell_of (l_x0 a) b c1 B1) as [C1 E1]. pose proof (Z.mod_pos_bound (c0 - start a) 2 ltac:(lia)). pose proof (Z.mod_pos_bound (c1 - start b) 2 ltac:(lia)).
    destruct (pick2 [a; b] a b _ _ ((c0 - start a) mod 2) ((c1 - start b) mod 2) eq_refl C0 C1 ltac:(lia) ltac:(lia)) as [Hj E]. eexists _, _. split; [|split; [exact Hj|rewrite E, E0, E1; reflexivity]]. change (num_sublattices _) with 4. lia.
  - intros a b c _ B. destruct x as [|c0 [|c1 [|c2 [|? ?]]]]; cbn in B; try tauto. destruct B as (B0 & B1 & B2 & _).
    destruct (cell_of (l_x0 a) a c0 B0) as [C0 E0]. destruct (cell_of (l_x0 a) b c1 B1) as [C1 E1]. destruct (cell_of (l_x0 a) c c2 B2) as [C2 E2].
    pose proof (Z.mod_pos_bound (c0 - start a) 2 ltac:(lia)). pose proof (Z.mod_pos_bound (c1 - start b) 2 ltac:(lia)). pose proof (Z.mod_pos_bound (c2 - start c) 2 ltac:(lia)).
    destruct (pick3 [a; b; c] a b c _ _ _ ((c0 - start a) mod 2) ((c1 - start b) mod 2) ((c2 - start c) mod 2) eq_refl C0 C1 C2 ltac:(lia) ltac:(lia) ltac:(lia)) as [Hj E]. eexists _, _. split; [|split; [exact Hj|rewrite E, E0, E1, E2; reflexivity]]. change (num_sublattices _) with 8. lia.
Qed.
(* of one sublattice, and in one cell, only *)
Lemma split1 st i o k q : 0 <= o <= 1 -> 0 <= q <= 1 -> st + 2 * i + o = st + 2 * k + q -> i = k /\ o = q.
Proof. lia. Qed.
Lemma rem_eq a b n : n <> 0 -> Z.quot a n = Z.quot b n -> Z.rem a n = Z.rem b n -> a = b.
Proof. intros N E F. rewrite (Z.quot_rem a n), (Z.quot_rem b n), E, F by auto. reflexivity. Qed.
Lemma sites_unique ls s j s' j' : planar ls -> whole ls -> 0 <= s < num_sublattices (lay 0 ls) -> 0 <= s' < num_sublattices (lay 0 ls) -> 0 <= j -> 0 <= j' ->
  site_of (lay 0 ls) s j = site_of (lay 0 ls) s' j' -> s = s' /\ j = j'.
Proof.
  intros D. apply (planar_cases ls); [auto| |].
  - intros a b _ W Hs Hs' Hj Hj' E. change (num_sublattices _) with 4 in *. rewrite !site2 in E. injection E as E0 E1. inversion W as [|? ? (_ & _ & Ha) W2]; subst. inversion W2 as [|? ? (_ & _ & Hb) _]; subst.
    pose proof (cell_of (l_x0 a) b (l_x0 b) ltac:(lia)) as [N _].
    assert (forall t, 0 <= t < 4 -> 0 <= Z.quot t 2 <= 1 /\ 0 <= Z.rem t 2 <= 1) as B. { intros t Ht. assert (t = 0 \/ t = 1 \/ t = 2 \/ t = 3) as [-> |[-> |[-> | ->]]] by lia; vm_compute; repeat split; discriminate. }
    destruct (B s Hs), (B s' Hs'). apply split1 in E0 as [I0 O0]; auto. apply split1 in E1 as [I1 O1]; auto. split; [apply (rem_eq _ _ 2); lia|apply (rem_eq _ _ (ncells (l_x0 a) b)); lia].
  - intros a b c _ W Hs Hs' Hj Hj' E. change (num_sublattices _) with 8 in *. rewrite !site3 in E. injection E as E0 E1 E2. inversion W as [|? ? (_ & _ & Ha) W2]; subst. inversion W2 as [|? ? (_ & _ & Hb) W3]; subst. inversion W3 as [|? ? (_ & _ & Hc) _]; subst.
    pose proof (cell_of (l_x0 a) b (l_x0 b) ltac:(lia)) as [Nb _]. pose proof (cell_of (l_x0 a) c (l_x0 c) ltac:(lia)) as [Nc _].
    assert (forall t, 0 <= t < 8 -> 0 <= Z.quot t 4 <= 1 /\ 0 <= Z.rem (Z.quot t 2) 2 <= 1 /\ 0 <= Z.rem t 2 <= 1 /\ t = 4 * Z.quot t 4 + 2 * Z.rem (Z.quot t 2) 2 + Z.rem t 2) as B.
    { intros t Ht. assert (t = 0 \/ t = 1 \/ t = 2 \/ t = 3 \/ t = 4 \/ t = 5 \/ t = 6 \/ t = 7) as [-> |[-> |[-> |[-> |[-> |[-> |[-> | ->]]]]]]] by lia; vm_compute; repeat split; discriminate. }
    destruct (B s Hs) as (? & ? & ? & Es), (B s' Hs') as (? & ? & ? & Es'). apply split1 in E0 as [I0 O0]; auto. apply split1 in E1 as [I1 O1]; auto. apply split1 in E2 as [I2 O2]; auto. split; [lia|].
    apply (rem_eq _ _ (ncells (l_x0 a) c)); try lia. apply (rem_eq _ _ (ncells (l_x0 a) b)); lia.
Qed.
(* no sublattice of a box with sides of two nodes or more is empty *)
Lemma sublattice_inhabited ls s : planar ls -> Forall (fun l => l_x0 l + 2 <= l_x1 l) ls -> 0 <= s < num_sublattices (lay 0 ls) -> exists j, 0 <= j < num_lattice_cells (lay 0 ls) /\ box ls (site_of (lay 0 ls) s j).
Proof.
  intros D. apply (planar_cases ls); [auto| |].
  - intros a b _ F Hs. change (num_sublattices _) with 4 in Hs. inversion F as [|? ? Ha F2]; subst. inversion F2 as [|? ? Hb _]; subst.
    assert (exists o0 o1, (o0 = 0 \/ o0 = 1) /\ (o1 = 0 \/ o1 = 1) /\ s = 2 * o0 + o1) as (o0 & o1 & O0 & O1 & ->). { assert (s = 0 \/ s = 1 \/ s = 2 \/ s = 3) as [-> |[-> |[-> | ->]]] by lia; [exists 0, 0|exists 0, 1|exists 1, 0|exists 1, 1]; auto. }
    destruct (both_parities (l_x0 a) a o0 Ha O0) as (i0 & I0 & B0). destruct (both_parities (l_x0 a) b o1 Hb O1) as (i1 & I1 & B1).
    destruct (pick2 [a; b] a b i0 i1 o0 o1 eq_refl I0 I1 ltac:(lia) ltac:(lia)) as [Hj E]. eexists. split; [exact Hj|]. rewrite E. cbn. lia.
  - intros a b c _ F Hs. change (num_sublattices _) with 8 in Hs. inversion F as [|? ? Ha F2]; subst. inversion F2 as [|? ? Hb F3]; subst. inversion F3 as [|? ? Hc _]; subst.
    assert (exists o0 o1 o2, (o0 = 0 \/ o0 = 1) /\ (o1 = 0 \/ o1 = 1) /\ (o2 = 0 \/ o2 = 1) /\ s = 4 * o0 + 2 * o1 + o2) as (o0 & o1 & o2 & O0 & O1 & O2 & ->).
    { assert (s = 0 \/ s = 1 \/ s = 2 \/ s = 3 \/ s = 4 \/ s = 5 \/ s = 6 \/ s = 7) as [-> |[-> |[-> |[-> |[-> |[-> |[-> | ->]]]]]]] by lia;
      [exists 0, 0, 0|exists 0, 0, 1|exists 0, 1, 0|exists 0, 1, 1|exists 1, 0, 0|exists 1, 0, 1|exists 1, 1, 0|exists 1, 1, 1]; auto 8. }
    destruct (both_parities (l_x0 a) a o0 Ha O0) as (i0 & I0 & B0). destruct (both_parities (l_x0 a) b o1 Hb O1) as (i1 & I1 & B1). destruct (both_parities (l_x0 a) c o2 Hc O2) as (i2 & I2 & B2).
    destruct (pick3 [a; b; c] a b c i0 i1 i2 o0 o1 o2 eq_refl I0 I1 I2 ltac:(lia) ltac:(lia) ltac:(lia)) as [Hj E]. eexists. split; [exact Hj|]. rewrite E. cbn. lia.
Qed.
Lemma fair_hits ls s rnd k : planar ls -> Forall (fun l => l_x0 l + 2 <= l_x1 l) ls -> (forall k, 0 <= rnd k) -> fair (num_lattice_cells (lay 0 ls)) rnd -> 0 <= s < num_sublattices (lay 0 ls) ->
  exists m, box ls (site_of (lay 0 ls) s (Z.rem (rnd (k + m)%nat) (num_lattice_cells (lay 0 ls)))).
Proof.
  intros D S2 R F Hs. destruct (sublattice_inhabited ls s D S2 Hs) as (j & Hj & B). destruct (F j k Hj) as (k' & Hk & E). exists (k' - k)%nat. replace (k + (k' - k))%nat with k' by lia.
  rewrite Z.rem_mod_nonneg by (auto; lia). now rewrite E.
Qed.

(* ---- what a sweep keeps ---- *)
Section Kept.
Context (ls : list limits) (hot : Z -> Z -> bool) (sel : list Z -> Z -> bool).
Notation axs := (lay 0 ls).
Hypothesis W : whole ls.
Notation spins := (value_at ls).
Lemma keeps_spins (P : Z -> Prop) : kept ls hot (Forall P).
Proof.
  intros data x b rn r L FP B R. unfold attempted. set (v := fresh _ _ _ _ _ _). destruct (write_in ls W hot sel data x v L B) as (d' & Wr & L' & E & O & K). exists d'. split; [exact Wr|]. split; [exact L'|]. apply K; [exact FP|].
  rewrite Forall_forall in FP. destruct (fresh_in hot sel b (spins data x) (map (spins data) (box_neighbours ls x)) rn r R) as [H|H]; fold v in H.
  - rewrite H. apply FP, spins_In; auto.
  - apply in_map_iff in H as (y & <- & Hy). apply FP, spins_In; auto. apply neighbour_iff in Hy; tauto.
Qed.
Lemma keeps_energy (E0 : Z) : (forall r dE, 0 < dE -> hot r dE = false) -> kept ls hot (fun data => grain_energy2 ls (spins data) <= E0).
Proof.
  intros Cold data x b rn r L HE B R. unfold attempted. set (v := fresh _ _ _ _ _ _). destruct (write_in ls W hot sel data x v L B) as (d' & Wr & L' & E & O & K). exists d'. split; [exact Wr|]. split; [exact L'|].
  pose proof (energy_after ls data x v d' B E O) as D. destruct (Z.eq_dec v (spins data x)) as [Ev|Nv].
  - assert (sumZ (map (fun s => unlike s v - unlike s (spins data x)) (map (spins data) (box_neighbours ls x))) = 0) as Z0. { rewrite Ev. generalize (map (spins data) (box_neighbours ls x)). induction l as [|s l IH]; [reflexivity|]. cbn [map]. rewrite sumZ_cons, IH. lia. }
    lia.
  - pose proof (fresh_accepted hot b _ _ rn r Nv) as A. fold v in A. unfold accept in A. set (dE := sumZ _) in *. destruct (Z.leb_spec dE 0); [lia|]. rewrite Cold in A by auto. discriminate.
Qed.
Lemma keeps_both I J : kept ls hot I -> kept ls hot J -> kept ls hot (fun d => I d /\ J d).
Proof.
  intros K1 K2 data x b rn r L [H1 H2] B R. destruct (K1 data x b rn r L H1 B R) as (d1 & A1 & L1 & I1). destruct (K2 data x b rn r L H2 B R) as (d2 & A2 & L2 & I2). unfold attempted in *. rewrite A1 in A2. injection A2 as <-. eauto 6.
Qed.

(* ---- the order of the attempts ---- *)
Lemma same_values d1 d2 : zlen d1 = cells axs -> zlen d2 = cells axs -> (forall y, box ls y -> spins d1 y = spins d2 y) -> d1 = d2.
Proof.
  intros L1 L2 H. assert (nodes axs = cells axs) as EN. { rewrite nodes_lay, cells_lay. f_equal. apply map_ext. intros l. lia. }
  apply get_ext; [congruence|]. intros i Hi. rewrite L1, <- EN in Hi. pose proof (position_into 0 axs i (wf_lay 0 ls (whole_lims ls W)) Hi) as [B _]. rewrite map_x0_lay, map_x1_lay in B.
  pose proof (proj1 (read_int_position false 0 ls d1 i ltac:(lia) ltac:(auto) (whole_lims ls W) Hi)) as R1. pose proof (proj1 (read_int_position false 0 ls d2 i ltac:(lia) ltac:(auto) (whole_lims ls W) Hi)) as R2.
  unfold grid_read_int in R1, R2. change (addr_int false axs i) with i in R1, R2. rewrite R1, R2, (read_in ls W d1), (read_in ls W d2), H by auto. reflexivity.
Qed.
Lemma attempts_value l : forall data, zlen data = cells axs -> Forall (fun a => box ls (at_site a) /\ 0 <= a_n a) l -> (forall a b, In a l -> In b l -> same_parity (at_site a) (at_site b)) ->
  exists d, attempts axs hot sel l data = Some d /\ zlen d = cells axs /\
    forall y, box ls y -> spins d y = fold_left (fun v a => fresh hot (sel (at_site a) (a_d a)) v (map (spins data) (box_neighbours ls y)) (a_n a) (a_r a)) (filter (fun a => if vdec (at_site a) y then true else false) l) (spins data y).
Proof.
  induction l as [|a l IH]; intros data L F P; [exists data; split; [reflexivity|auto]|]. inversion F as [|? ? [B R] F']; subst. destruct a as [x rd rn r]. cbn [at_site a_n] in B, R.
  unfold attempts. cbn [fold_opt]. unfold attempt_at at 1. cbn [at_site a_d a_n a_r]. destruct (visit_ok ls W hot sel data x rd rn r L B R) as (n & ->). cbn [bind fst]. set (v := fresh _ _ _ _ _ _).
  destruct (write_in ls W hot sel data x v L B) as (d1 & -> & L1 & E & O & _). cbn [bind]. destruct (IH d1 L1 F') as (d & A & Ld & V); [intros; apply P; now right|]. exists d. split; [exact A|]. split; [exact Ld|].
  intros y By. rewrite V by auto. cbn [filter at_site]. destruct (vdec x y) as [<-|N].
  - cbn [fold_left at_site a_d a_n a_r]. rewrite E. fold v. assert (map (spins d1) (box_neighbours ls x) = map (spins data) (box_neighbours ls x)) as ->; [|reflexivity].
    apply map_ext_in. intros z Hz. apply O; [now apply neighbour_iff in Hz|]. intros ->. revert Hz. now apply box_no_self.
  - rewrite O by auto. match goal with |- context [filter ?f l] => destruct (filter f l) as [|b t] eqn:Ef end; [reflexivity|]. rewrite <- Ef.
    assert (map (spins d1) (box_neighbours ls y) = map (spins data) (box_neighbours ls y)) as ->; [|reflexivity].
    assert (In b (b :: t)) as Hb by now left. rewrite <- Ef in Hb. apply filter_In in Hb as [Hb Eb]. destruct (vdec (at_site b) y) as [<-|]; [|discriminate].
    apply map_ext_in. intros z Hz. apply O; [now apply neighbour_iff in Hz|]. intros ->. revert Hz. apply parity_apart; auto. specialize (P b (mkAttempt x rd rn r)). cbn in P. apply P; auto.
Qed.
Lemma attempts_order data l1 l2 : zlen data = cells axs -> Forall (fun a => box ls (at_site a) /\ 0 <= a_n a) l1 -> Forall (fun a => box ls (at_site a) /\ 0 <= a_n a) l2 ->
  (forall a b, In a l1 -> In b l1 -> same_parity (at_site a) (at_site b)) -> (forall a b, In a l2 -> In b l2 -> same_parity (at_site a) (at_site b)) ->
  (forall y, filter (fun a => if vdec (at_site a) y then true else false) l1 = filter (fun a => if vdec (at_site a) y then true else false) l2) ->
  exists d, zlen d = cells axs /\ attempts axs hot sel l1 data = Some d /\ attempts axs hot sel l2 data = Some d.
Proof.
  intros L F1 F2 P1 P2 E. destruct (attempts_value l1 data L F1 P1) as (d1 & A1 & L1 & V1). destruct (attempts_value l2 data L F2 P2) as (d2 & A2 & L2 & V2). exists d1. split; [auto|]. split; [auto|]. rewrite A2. f_equal. symmetry.
  apply same_values; auto. intros y By. rewrite V1, V2, E by auto. reflexivity.
Qed.
End Kept.

(* ---- a side of one node ---- *)
Definition reachable (p : Z) (l : limits) (c : Z) : Prop := 0 <= (c - start l) / 2 < ncells p l.
Lemma sites_reach ls y : planar ls -> Forall2 (reachable (match ls with l :: _ => l_x0 l | [] => 0 end)) ls y ->
  exists s j, 0 <= s < num_sublattices (lay 0 ls) /\ 0 <= j < num_lattice_cells (lay 0 ls) /\ site_of (lay 0 ls) s j = y.
Proof.
  intros D. apply (planar_cases ls); [auto| |].
  - intros a b _ F. inversion F as [|? c0 ? ? C0 F2]; subst. inversion F2 as [|? c1 ? ? C1 F3]; subst. inversion F3; subst. unfold reachable in *.
    pose proof (Z.mod_pos_bound (c0 - start a) 2 ltac:(lia)). pose proof (Z.mod_pos_bound (c1 - start b) 2 ltac:(lia)). pose proof (Z.div_mod (c0 - start a) 2 ltac:(lia)). pose proof (Z.div_mod (c1 - start b) 2 ltac:(lia)).
    destruct (pick2 [a; b] a b _ _ ((c0 - start a) mod 2) ((c1 - start b) mod 2) eq_refl C0 C1 ltac:(lia) ltac:(lia)) as [Hj E]. eexists _, _. split; [|split; [exact Hj|rewrite E; f_equal; [lia|f_equal; lia]]]. change (num_sublattices _) with 4. lia.
  - intros a b c _ F. inversion F as [|? c0 ? ? C0 F2]; subst. inversion F2 as [|? c1 ? ? C1 F3]; subst. inversion F3 as [|? c2 ? ? C2 F4]; subst. inversion F4; subst. unfold reachable in *.
    pose proof (Z.mod_pos_bound (c0 - start a) 2 ltac:(lia)). pose proof (Z.mod_pos_bound (c1 - start b) 2 ltac:(lia)). pose proof (Z.mod_pos_bound (c2 - start c) 2 ltac:(lia)). pose proof (Z.div_mod (c0 - start a) 2 ltac:(lia)). pose proof (Z.div_mod (c1 - start b) 2 ltac:(lia)). pose proof (Z.div_mod (c2 - start c) 2 ltac:(lia)).
    destruct (pick3 [a; b; c] a b c _ _ _ ((c0 - start a) mod 2) ((c1 - start b) mod 2) ((c2 - start c) mod 2) eq_refl C0 C1 C2 ltac:(lia) ltac:(lia) ltac:(lia)) as [Hj E]. eexists _, _. split; [|split; [exact Hj|rewrite E; f_equal; [lia|f_equal; [lia|f_equal; lia]]]]. change (num_sublattices _) with 8. lia.
Qed.
Definition thin (l : limits) : bool := (Z.rem (l_x0 l) 2 =? 0) && (l_x1 l =? l_x0 l + 1).
Definition beyond (ls : list limits) : list Z := map (fun l => if thin l then l_x0 l + 1 else l_x0 l) ls.
Lemma beyond_reach p ls : whole ls -> Forall2 (reachable p) ls (beyond ls).
Proof.
  induction 1 as [|l t (_ & _ & H) _ IH]; constructor; auto. unfold reachable. destruct (thin l) eqn:E; [|destruct (cell_of p l (l_x0 l) ltac:(lia)); auto].
  apply andb_true_iff in E as [E0 E1]. apply Z.eqb_eq in E1. unfold start. rewrite E0. replace (l_x0 l + 1 - l_x0 l) with 1 by lia. change (1 / 2) with 0. pose proof (ncells_ok p l H). pose proof (Z.div_pos (l_x1 l - l_x0 l) 2). lia.
Qed.
Lemma beyond_loose ls : whole ls -> outside_loose (lay 0 ls) (beyond ls) = false.
Proof.
  unfold outside_loose. induction 1 as [|l t (_ & _ & H) _ IH]; [reflexivity|]. cbn [beyond map lay combine existsb a_x0 a_x1]. fold (beyond t). rewrite IH, orb_false_r. unfold thin.
  destruct (Z.eqb_spec (Z.rem (l_x0 l) 2) 0), (Z.eqb_spec (l_x1 l) (l_x0 l + 1)); cbn [andb]; rewrite orb_false_iff, Z.ltb_ge, Z.gtb_ltb, Z.ltb_ge; lia.
Qed.
Lemma beyond_parity ls x : Exists (fun l => thin l = true) ls -> box ls x -> ~ same_parity (beyond ls) x.
Proof.
  intros X. revert x. induction X as [l t T|l t _ IH]; intros [|c x] B P; cbn in B; try tauto; inversion P as [|? ? ? ? P1 P2]; subst.
  - rewrite T in P1. apply andb_true_iff in T as [_ T]. apply Z.eqb_eq in T. assert (c = l_x0 l) as -> by lia. replace (l_x0 l + 1 - l_x0 l) with 1 in P1 by lia. discriminate.
  - apply (IH x); tauto.
Qed.
Lemma thin_stuck ls hot sel fuel (rnd : Z -> Z -> nat -> Z) steps data : planar ls -> whole ls -> Exists (fun l => thin l = true) ls -> (forall a b k, 0 <= rnd a b k) -> zlen data = cells (lay 0 ls) -> 1 <= steps ->
  growth_update (lay 0 ls) hot sel fuel rnd steps data = Some None.
Proof.
  intros D W X R L St. pose proof (cells_pos ls D W) as N. destruct (sites_reach ls (beyond ls) D (beyond_reach _ ls W)) as (s & j & Hs & Hj & E).
  assert (forall rn, (forall k, 0 <= rn k) -> forall d, sweep false (lay 0 ls) hot sel fuel rn s (0, d, 0%nat) = Some None) as Stuck.
  { intros rn Rn d. apply (sweep_stuck ls hot sel rn s Rn N).
    - intros k B. apply (beyond_parity ls (site_of (lay 0 ls) s (Z.rem (rn k) (num_lattice_cells (lay 0 ls)))) X B). rewrite <- E. now apply sites_parity.
    - unfold to_flip. match goal with |- 0 < zlen ?l => assert (In j l) as I; [|destruct l as [|? t]; [easy|rewrite zlen_cons; pose proof (zlen_nonneg t); lia]] end.
      apply filter_In. split; [now apply in_zrange|]. rewrite E, beyond_loose by auto. reflexivity. }
  unfold growth_update. rewrite (zrange_cons 0 steps) by lia. cbn [fold_opt].
  assert (forall step l, fold_opt (fun (st : option (list Z)) s => match st with Some data => sweep false (lay 0 ls) hot sel fuel (rnd step s) s (0, data, 0%nat) | None => Some None end) l None = Some None) as Nn by (intros step; induction l; [reflexivity|]; cbn [fold_opt bind]; auto).
  assert (forall step l d, In s l -> zlen d = cells (lay 0 ls) -> fold_opt (fun (st : option (list Z)) s => match st with Some data => sweep false (lay 0 ls) hot sel fuel (rnd step s) s (0, data, 0%nat) | None => Some None end) l (Some d) = Some None) as In1.
  { intros step. induction l as [|b l IH]; intros d H Ld; [easy|]. cbn [fold_opt]. destruct H as [->|H]; [rewrite Stuck by auto; apply Nn|].
    destruct (sweep_defined ls W hot sel (Forall (fun _ => True)) (keeps_spins ls hot sel W _) (rnd step b) b (R step b) N fuel 0 d 0%nat Ld) as [->|(d' & -> & L' & _)]; [apply Forall_forall; auto|apply Nn|]. cbn [bind]. auto. }
  rewrite In1 by (auto; now apply in_zrange). cbn [bind].
  match goal with |- fold_opt _ ?l _ = _ => generalize l end. induction l as [|step l IH]; [reflexivity|]. cbn [fold_opt]. rewrite Nn. exact IH.
Qed.
