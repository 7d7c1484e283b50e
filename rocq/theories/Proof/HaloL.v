From Verif Require Import Model.Base Model.Boundary Model.Layout Model.Setup Model.Codec Model.Region Model.MPI
  Model.Access Model.Ghostswap Spec.Box Spec.Access Spec.Bytes Spec.Decomp Spec.Schedule
  Proof.SetupL Proof.BaseL Proof.LayoutL Proof.CodecL Proof.RegionL Proof.SerialL Proof.MPIL Proof.GhostL Proof.AccessL.
From Coq Require Import ZifyBool.
Ltac Zify.zify_post_hook ::= Z.div_mod_to_equations.

Definition dax : axis := mkAxis 0 0 0 0 0 0 0 0 0 0.
Definition dgeom : geom := mkGeom [] 0 [] [] [] [] [].

(* what the proofs below use about the geometry of the ranks *)
Record deco (np gh : Z) (gs : list gaxis) (G : Z -> geom) : Prop := {
  dc_np : 0 < np; dc_gh : 0 <= gh; dc_ne : gs <> [];
  dc_len : forall r, 0 <= r < np -> length (ge_axes (G r)) = length gs /\ length (ge_n0 (G r)) = length gs /\
                                    length (ge_n1 (G r)) = length gs /\ ge_ghosts (G r) = gh;
  dc_wf : forall r, 0 <= r < np -> wf_axes gh (ge_axes (G r));
  dc_in : forall r j, 0 <= r < np -> (j < length gs)%nat ->
    let a := nth j (ge_axes (G r)) dax in let g := nth j gs (mkG 0 0) in
    gx_0 g <= a_x0 a /\ a_x0 a <= a_x1 a /\ a_x1 a <= gx_1 g;
  dc_nb : forall r i, 0 <= r < np -> (i < length gs)%nat ->
    let u := nth i (ge_n1 (G r)) 0 in let d := nth i (ge_n0 (G r)) 0 in
    0 <= u < np /\ 0 <= d < np /\ nth i (ge_n0 (G u)) 0 = r /\ nth i (ge_n1 (G d)) 0 = r;
  dc_up : forall r i j, 0 <= r < np -> (i < length gs)%nat -> (j < length gs)%nat ->
    let a := nth j (ge_axes (G r)) dax in let g := nth j gs (mkG 0 0) in
    let b := nth j (ge_axes (G (nth i (ge_n1 (G r)) 0))) dax in
    (j <> i -> a_x0 b = a_x0 a /\ a_x1 b = a_x1 a) /\
    (j = i -> a_x0 b = a_x1 a \/ a_x1 a = gx_1 g /\ a_x0 b = gx_0 g);
  dc_own : forall x r r', 0 <= r < np -> 0 <= r' < np -> owns (G r) x -> owns (G r') x -> r = r'
}.

Lemma nth_of_error {X} (l : list X) i x d : nth_error l i = Some x -> nth i l d = x.
Proof. intros. now apply nth_error_nth. Qed.

Lemma length_zip gs p1 pos : length p1 = length gs -> length pos = length gs ->
  length (zip_limits gs p1 pos) = length gs.
Proof. revert p1 pos; induction gs; intros [|p p1] [|q pos]; simpl; intros; auto; discriminate. Qed.

Lemma deco_setup np gs gh : 0 < np -> gs <> [] -> gok gs -> 0 <= gh ->
  deco np gh gs (fun r => match setup_mpi np gs gh r with Some ge => ge | None => dgeom end).
Proof.
  intros Hnp Hne Hg Hgh.
  assert (forall r, 0 <= r < np -> exists ge, setup_mpi np gs gh r = Some ge /\
    length (ge_axes ge) = length gs /\ length (ge_n0 ge) = length gs /\ length (ge_n1 ge) = length gs /\
    ge_ghosts ge = gh /\ wf_axes gh (ge_axes ge)) as X.
  { intros r Hr. destruct (setup_eq np gs gh r Hnp Hne Hg Hr) as (p1 & P1 & (L & Q & E) & S2 & S3 & S4).
    eexists. split; [exact S4|]. simpl.
    pose proof (in_box_length _ _ _ S2) as [Lp _]. rewrite map_length in Lp.
    assert (length (zip_limits gs p1 (rank_pos (slices p1) r)) = length gs) as Lz.
    { apply length_zip; congruence. }
    rewrite !map_length, seq_length.
    assert (length (lay gh (zip_limits gs p1 (rank_pos (slices p1) r))) = length gs) as Ll.
    { rewrite <- Lz. generalize (zip_limits gs p1 (rank_pos (slices p1) r)) as ls. clear.
      induction ls; simpl; auto. }
    repeat (split; [auto; fail|]). apply wf_lay.
    apply Forall_forall. intros l Hl. apply In_nth_error in Hl as [i Hi].
    assert (i < length gs)%nat as Hi' by (rewrite <- Lz; apply nth_error_Some; congruence).
    destruct (axis_at np gs gh r _ i Hnp Hne Hg Hr S4 Hi') as (g & p & k & a & N1 & N2 & N3 & N4 & N5 & N6 & N7 & N8 & N9 & N10 & _).
    destruct (balanced np gs gh r r _ _ i a a Hnp Hne Hg Hr Hr S4 S4 N4 N4) as (_ & B & _).
    destruct (nth_error_lay gh _ i _ Hi) as (a' & A0 & A1 & A2 & A3 & A4 & _). simpl in N4. rewrite N4 in A0.
    inversion A0; subst. lia. }
  split; auto.
  - intros r Hr. destruct (X r Hr) as (ge & E & H). rewrite E. tauto.
  - intros r Hr. destruct (X r Hr) as (ge & E & H). rewrite E. tauto.
  - intros r j Hr Hj. destruct (X r Hr) as (ge & E & H). rewrite E.
    destruct (axis_at np gs gh r ge j Hnp Hne Hg Hr E Hj) as (g & p & k & a & N1 & N2 & N3 & N4 & N5 & N6 & N7 & N8 & N9 & N10 & _).
    rewrite (nth_of_error _ _ _ dax N4), (nth_of_error _ _ _ (mkG 0 0) N1).
    pose proof (start_0 g p ltac:(lia)). pose proof (start_p g p ltac:(lia)).
    pose proof (start_mono g p 0 k ltac:(lia) N6 ltac:(lia)). pose proof (start_mono g p (k + 1) p ltac:(lia) N6 ltac:(lia)).
    cbv zeta. rewrite N9, N10.
    destruct (balanced np gs gh r r _ _ j a a Hnp Hne Hg Hr Hr E E N4 N4) as (_ & B & _). lia.
  - intros r i Hr Hi. destruct (X r Hr) as (ge & E & H). cbv zeta. rewrite E.
    destruct (neighbours np gs gh r ge i Hnp Hne Hg Hr E Hi) as (u & d & gu & gd & U1 & U2 & U3 & U4 & U5 & U6 & U7 & U8 & _).
    rewrite (nth_of_error _ _ _ 0 U1), (nth_of_error _ _ _ 0 U2), U5, U6.
    rewrite (nth_of_error _ _ _ 0 U7), (nth_of_error _ _ _ 0 U8). auto.
  - intros r i j Hr Hi Hj. destruct (X r Hr) as (ge & E & H). cbv zeta. rewrite E.
    destruct (neighbours np gs gh r ge i Hnp Hne Hg Hr E Hi) as (u & d & gu & gd & U1 & U2 & U3 & U4 & U5 & U6 & U7 & U8 & O & (a & au & ad & A1 & A2 & A3 & A4 & A5)).
    rewrite (nth_of_error _ _ _ 0 U1), U5. split; intros Hji.
    + destruct (O j Hji) as [[_ Z]|(b & bu & bd & B1 & B2 & B3 & B4 & B5 & _)].
      { apply nth_error_None in Z. lia. }
      rewrite (nth_of_error _ _ _ dax B1), (nth_of_error _ _ _ dax B2). auto.
    + subst j. rewrite (nth_of_error _ _ _ dax A1), (nth_of_error _ _ _ dax A2).
      destruct (axis_at np gs gh r ge i Hnp Hne Hg Hr E Hi) as (g & p & k & a' & N1 & N2 & N3 & N4 & N5 & N6 & N7 & N8 & _).
      rewrite A1 in N4; inversion N4; subst a'. rewrite (nth_of_error _ _ _ (mkG 0 0) N1).
      rewrite <- N7, <- N8. intuition.
  - intros x r r' Hr Hr' O O'. destruct (X r Hr) as (ge & E & _). destruct (X r' Hr') as (ge' & E' & _).
    rewrite E in O. rewrite E' in O'.
    pose proof (owned_inside np gs gh r ge x Hnp Hne Hg Hr E O) as I.
    destruct (partition np gs gh x Hnp Hne Hg I) as (q & gq & Q1 & Q2 & Q3 & Q4).
    rewrite (Q4 _ _ Hr E O), (Q4 _ _ Hr' E' O'). auto.
Qed.

(* sizes *)
Lemma NoDup_map_in {X Y} (f : X -> Y) l : (forall x y, In x l -> In y l -> f x = f y -> x = y) -> NoDup l -> NoDup (map f l).
Proof.
  intros I N. induction N as [|x l Hx N IH]; simpl; constructor.
  - intros H. apply in_map_iff in H as (y & E & Hy). apply Hx. rewrite (I x y); simpl; auto.
  - apply IH. intros; apply I; simpl; auto.
Qed.
Lemma buffer_bound {T} (c : codec T) valid rng gh axs (d : list T) mn mx n B :
  rng_ok rng -> wf_axes gh axs -> axs <> [] ->
  Box.inside mn mx (map a_s0 axs) (map a_s1 axs) -> zlen d = cells axs -> Forall valid d ->
  (forall v, valid v -> c_size c v <= B) -> 0 <= B ->
  buffer_size c rng d axs mn mx 0 = Some n -> n <= cells axs * B.
Proof.
  intros R W Hne I L V HB B0 Hn. pose proof (inside_len _ _ _ _ I) as (I1 & I2 & _). rewrite map_length in *.
  set (ps := addrs rng axs mn mx 0) in *.
  assert (NoDup ps /\ Forall (fun p => 0 <= p < cells axs) ps) as [ND FP].
  { unfold ps. rewrite addrs_coords by auto. split.
    - apply NoDup_map_in.
      + intros y y' Hy Hy' E. apply in_coords in Hy; [|congruence]. apply in_coords in Hy'; [|congruence].
        eapply encode_inj; [exact W|..]; try lia; eapply inside_box; eauto; eapply in_rng_box; eauto.
      + apply NoDup_coords; auto.
    - apply Forall_forall. intros p Hp. apply in_map_iff in Hp as (y & <- & Hy).
      apply in_coords in Hy; [|congruence]. cbv beta. pose proof (encode_bounds gh axs y W). 
      assert (in_box (map a_s0 axs) (map a_s1 axs) y) by (eapply inside_box; eauto; eapply in_rng_box; eauto). lia. }
  assert (exists vs, map_opt (get d) ps = Some vs /\ Forall valid vs /\ length vs = length ps) as (vs & M & Vv & Lv).
  { clear - FP L V. induction FP as [|p ps Hp _ IH]; [exists []; repeat split; constructor|].
    destruct IH as (vs & M & Vv & Lv). destruct (get d p) as [v|] eqn:E.
    - exists (v :: vs). simpl. rewrite E, M. simpl. repeat split; [|lia]. constructor; auto.
      unfold get in E. destruct (p <? 0); [discriminate|]. apply nth_error_In in E. rewrite Forall_forall in V. auto.
    - exfalso. unfold get in E. destruct (Z.ltb_spec p 0); [lia|]. apply nth_error_None in E. unfold zlen in L. lia. }
  erewrite buffer_size_flat in Hn by exact M. inversion Hn; subst n.
  assert (total c vs <= zlen vs * B) as T1.
  { apply total_bound. rewrite Forall_forall in *. auto. }
  assert (zlen vs <= cells axs).
  { unfold zlen. rewrite Lv. 
    assert (length ps <= length (zrange 0 (cells axs)))%nat.
    { apply NoDup_incl_length; auto. intros p Hp. rewrite Forall_forall in FP. apply in_zrange. auto. }
    rewrite length_zrange in H. pose proof (zlen_nonneg d); lia. }
  nia.
Qed.

(* every cell of the storage is some coordinate *)
Lemma encode_onto gh axs p : wf_axes gh axs -> 0 <= gh -> 0 <= p < cells axs ->
  exists y, in_box (map a_s0 axs) (map a_s1 axs) y /\ encode axs y = p.
Proof.
  intros W Hgh. revert p; induction axs as [|a t IH]; intros p; simpl; intros H.
  - exists []. simpl. split; [auto|lia].
  - destruct W as (W0 & W1 & Wx & Ws & _ & Wt). rewrite Ws in *.
    pose proof (cells_nonneg gh t Hgh Wt).
    assert (0 < cells t) by nia.
    destruct (IH Wt (p mod cells t)) as (y & Y1 & Y2); [apply Z.mod_pos_bound; auto|].
    exists (a_s0 a + p / cells t :: y). simpl. split; [split; [|auto]|].
    + split; [assert (0 <= p / cells t) by (apply Z.div_pos; lia); lia|].
      assert (p / cells t < a_s1 a - a_s0 a) by (apply Z.div_lt_upper_bound; lia). lia.
    + rewrite Y2. pose proof (Z.div_mod p (cells t)). nia.
Qed.

Lemma in_rng_dec rng lo hi x : in_rng rng lo hi x \/ ~ in_rng rng lo hi x.
Proof.
  revert hi x; induction lo as [|l lo IH]; intros [|h hi] [|c x]; simpl; auto.
  destruct (In_dec Z.eq_dec c (rng l h)), (IH hi x); tauto.
Qed.

Lemma moved_valid {T} valid rng np gh ax rp smin rmin smax rmax sp (d d' : Z -> list T) :
  rng_ok rng -> 0 <= gh -> fit np gh ax sp rp smin smax rmin rmax ->
  moved rng np ax rp smin rmin rmax d d' ->
  (forall r, 0 <= r < np -> zlen (d r) = cells (ax r) /\ Forall valid (d r)) ->
  (forall r, 0 <= r < np -> zlen (d' r) = cells (ax r) /\ Forall valid (d' r)).
Proof.
  intros R Hgh F M H r Hr. destruct (M r Hr) as (M1 & M2 & M3). destruct (H r Hr) as [H1 H2].
  split; [congruence|]. apply Forall_forall. intros v Hv. apply In_nth_error in Hv as [k Hk].
  destruct F as [Fp Fw Fs Fr Fe]. destruct (Fw r Hr) as (W & _).
  assert (0 <= Z.of_nat k < cells (ax r)) as Hk'.
  { rewrite <- H1, <- M1. assert (k < length (d' r))%nat by (apply nth_error_Some; congruence). unfold zlen. lia. }
  destruct (encode_onto gh (ax r) (Z.of_nat k) W Hgh Hk') as (y & Y1 & Y2).
  assert (get (d' r) (encode (ax r) y) = Some v) as E.
  { rewrite Y2. unfold get. destruct (Z.ltb_spec (Z.of_nat k) 0); [lia|]. now rewrite Nat2Z.id. }
  assert (forall q p, 0 <= q < np -> get (d q) p = Some v -> valid v) as V.
  { intros q p Hq G. destruct (H q Hq) as [_ V]. unfold get in G. destruct (p <? 0); [discriminate|].
    rewrite Forall_forall in V. apply V. eapply nth_error_In; eauto. }
  destruct (in_rng_dec rng (rmin r) (rmax r) y) as [I|I].
  - rewrite M2 in E by auto. eapply V; [|exact E]. now apply Fp.
  - rewrite M3 in E by auto. eapply V; [|exact E]. auto.
Qed.

Lemma wf_nth gh axs j : wf_axes gh axs -> (j < length axs)%nat ->
  a_s0 (nth j axs dax) = a_x0 (nth j axs dax) - gh /\ a_s1 (nth j axs dax) = a_x1 (nth j axs dax) + gh.
Proof.
  revert j; induction axs as [|a t IH]; intros [|j]; simpl; intros W H; try lia.
  destruct W as (_ & _ & _ & _ & _ & W). apply IH; auto; lia.
Qed.

Lemma length_set {X} i (l : list X) x : length (set_nth i l x) = length l.
Proof. revert i; induction l; intros [|i]; simpl; auto. Qed.
Lemma nth_set {X} i (l : list X) x j d : (i < length l)%nat ->
  nth j (set_nth i l x) d = if Nat.eqb j i then x else nth j l d.
Proof.
  revert i j; induction l as [|a l IH]; intros [|i] [|j]; simpl; intros H; try lia; auto. apply IH; lia.
Qed.

Section Halo.
Context {T : Type} (c : codec T) (valid : T -> Prop) (np gh : Z) (gs : list gaxis) (G : Z -> geom) (B : Z).
Context (DC : deco np gh gs G) (S : serialises c valid).
Context (HB : forall v, valid v -> c_size c v <= B) (B0 : 0 <= B).
Context (HI : forall r, 0 <= r < np -> cells (ge_axes (G r)) * B <= int_max).

Notation ax r := (ge_axes (G r)).
Notation aj r j := (nth j (ge_axes (G r)) dax).
Notation gj j := (nth j gs (mkG 0 0)).
Notation up i r := (nth i (ge_n1 (G r)) 0).
Notation dn i r := (nth i (ge_n0 (G r)) 0).
Notation storage r := (in_box (map a_s0 (ax r)) (map a_s1 (ax r))).

Notation lo r := (map (fun a => a_x0 a - gh) (ax r)).
Notation hi r := (map (fun a => a_x1 a + gh) (ax r)).

Lemma storage_iff r y : 0 <= r < np -> storage r y <-> length y = length gs /\
  forall j, (j < length gs)%nat -> a_x0 (aj r j) - gh <= nth j y 0 < a_x1 (aj r j) + gh.
Proof using DC.
  clear S HB B0 HI.
  intros Hr. destruct (dc_len _ _ _ _ DC r Hr) as (L & _). pose proof (dc_wf _ _ _ _ DC r Hr) as W.
  rewrite in_box_iff, !map_length, L. split.
  - intros (H1 & H2 & H). split; [auto|]. intros j Hj. specialize (H j Hj).
    rewrite (nth_map_eq a_s0 _ j 0 dax) in H by lia. rewrite (nth_map_eq a_s1 _ j 0 dax) in H by lia.
    destruct (wf_nth gh _ j W ltac:(lia)). lia.
  - intros (H1 & H). split; [auto|]. split; [auto|]. intros j Hj. specialize (H j Hj).
    rewrite (nth_map_eq a_s0 _ j 0 dax) by lia. rewrite (nth_map_eq a_s1 _ j 0 dax) by lia.
    destruct (wf_nth gh _ j W ltac:(lia)). lia.
Qed.

Lemma owns_iff r y : 0 <= r < np -> owns (G r) y <-> length y = length gs /\
  forall j, (j < length gs)%nat -> a_x0 (aj r j) <= nth j y 0 < a_x1 (aj r j).
Proof using DC.
  clear S HB B0 HI.
  intros Hr. destruct (dc_len _ _ _ _ DC r Hr) as (L & _). unfold owns.
  rewrite in_box_iff, !map_length, L. split.
  - intros (H1 & H2 & H). split; [auto|]. intros j Hj. specialize (H j Hj).
    rewrite (nth_map_eq a_x0 _ j 0 dax) in H by lia. rewrite (nth_map_eq a_x1 _ j 0 dax) in H by lia. lia.
  - intros (H1 & H). split; [auto|]. split; [auto|]. intros j Hj. specialize (H j Hj).
    rewrite (nth_map_eq a_x0 _ j 0 dax) by lia. rewrite (nth_map_eq a_x1 _ j 0 dax) by lia. lia.
Qed.

(* region with [a,b) on axis i and the whole storage on the others *)
Definition reg_lo r i a := set_nth i (lo r) a.
Definition reg_hi r i b := set_nth i (hi r) b.

Lemma reg_len r i a : 0 <= r < np -> length (reg_lo r i a) = length gs /\ length (reg_hi r i a) = length gs.
Proof.
  intros Hr. destruct (dc_len _ _ _ _ DC r Hr) as (L & _). unfold reg_lo, reg_hi.
  now rewrite !length_set, !map_length.
Qed.
Lemma nth_reg_lo r i a j : 0 <= r < np -> (i < length gs)%nat -> (j < length gs)%nat ->
  nth j (reg_lo r i a) 0 = if Nat.eqb j i then a else a_x0 (aj r j) - gh.
Proof.
  intros Hr Hi Hj. destruct (dc_len _ _ _ _ DC r Hr) as (L & _). unfold reg_lo.
  rewrite nth_set by (rewrite map_length; lia).
  rewrite (nth_map_eq (fun a => a_x0 a - gh) _ j 0 dax) by lia. reflexivity.
Qed.
Lemma nth_reg_hi r i a j : 0 <= r < np -> (i < length gs)%nat -> (j < length gs)%nat ->
  nth j (reg_hi r i a) 0 = if Nat.eqb j i then a else a_x1 (aj r j) + gh.
Proof.
  intros Hr Hi Hj. destruct (dc_len _ _ _ _ DC r Hr) as (L & _). unfold reg_hi.
  rewrite nth_set by (rewrite map_length; lia).
  rewrite (nth_map_eq (fun a => a_x1 a + gh) _ j 0 dax) by lia. reflexivity.
Qed.

Lemma reg_inside r i a b : 0 <= r < np -> (i < length gs)%nat ->
  a_x0 (aj r i) - gh <= a -> b <= a_x1 (aj r i) + gh ->
  Box.inside (reg_lo r i a) (reg_hi r i b) (map a_s0 (ax r)) (map a_s1 (ax r)).
Proof.
  intros Hr Hi Ha Hb. destruct (dc_len _ _ _ _ DC r Hr) as (L & _). pose proof (dc_wf _ _ _ _ DC r Hr) as W.
  apply inside_iff. rewrite !map_length, L. destruct (reg_len r i a Hr) as [-> _]. destruct (reg_len r i b Hr) as [_ ->].
  repeat (split; [auto; fail|]). intros j Hj.
  rewrite nth_reg_lo, nth_reg_hi by auto.
  rewrite (nth_map_eq a_s0 _ j 0 dax) by lia. rewrite (nth_map_eq a_s1 _ j 0 dax) by lia.
  destruct (wf_nth gh _ j W ltac:(lia)).
  destruct (Nat.eqb_spec j i); [subst j|]; lia.
Qed.

Lemma in_reg r i a b y : 0 <= r < np -> (i < length gs)%nat ->
  in_box (reg_lo r i a) (reg_hi r i b) y <-> length y = length gs /\ a <= nth i y 0 < b /\
    forall j, (j < length gs)%nat -> j <> i -> a_x0 (aj r j) - gh <= nth j y 0 < a_x1 (aj r j) + gh.
Proof.
  intros Hr Hi. rewrite in_box_iff. destruct (reg_len r i a Hr) as [-> _]. destruct (reg_len r i b Hr) as [_ ->].
  split.
  - intros (H1 & _ & H). split; [auto|]. split.
    + specialize (H i Hi). rewrite nth_reg_lo, nth_reg_hi, Nat.eqb_refl in H by auto. auto.
    + intros j Hj N. specialize (H j Hj). rewrite nth_reg_lo, nth_reg_hi in H by auto.
      destruct (Nat.eqb_spec j i); [contradiction|auto].
  - intros (H1 & H2 & H). split; [auto|]. split; [auto|]. intros j Hj. rewrite nth_reg_lo, nth_reg_hi by auto.
    destruct (Nat.eqb_spec j i); [now subst j|auto].
Qed.

(* the down neighbour, from the up neighbour *)
Lemma dn_facts r i j : 0 <= r < np -> (i < length gs)%nat -> (j < length gs)%nat ->
  let d := dn i r in
  (j <> i -> a_x0 (aj d j) = a_x0 (aj r j) /\ a_x1 (aj d j) = a_x1 (aj r j)) /\
  (j = i -> a_x1 (aj d j) = a_x0 (aj r j) \/ a_x1 (aj d j) = gx_1 (gj j) /\ a_x0 (aj r j) = gx_0 (gj j)).
Proof.
  intros Hr Hi Hj d. destruct (dc_nb _ _ _ _ DC r i Hr Hi) as (_ & Hd & _ & E).
  pose proof (dc_up _ _ _ _ DC d i j Hd Hi Hj) as U. cbv zeta in U. fold d in E. rewrite E in U.
  destruct U as [U1 U2]. split; intros N; [specialize (U1 N); intuition congruence|].
  specialize (U2 N). intuition congruence.
Qed.

Definition up_smin i r := reg_lo r i (a_x1 (aj r i) - gh).
Definition up_smax i r := reg_hi r i (a_x1 (aj r i)).
Definition up_rmin i r := reg_lo r i (a_x0 (aj r i) - gh).
Definition up_rmax i r := reg_hi r i (a_x0 (aj r i)).
Definition dn_smin i r := reg_lo r i (a_x0 (aj r i)).
Definition dn_smax i r := reg_hi r i (a_x0 (aj r i) + gh).
Definition dn_rmin i r := reg_lo r i (a_x1 (aj r i)).
Definition dn_rmax i r := reg_hi r i (a_x1 (aj r i) + gh).

Lemma ax_ne r : 0 <= r < np -> ax r <> [].
Proof.
  intros Hr E. destruct (dc_len _ _ _ _ DC r Hr) as (L & _). rewrite E in L. pose proof (dc_ne _ _ _ _ DC).
  destruct gs; [contradiction|discriminate].
Qed.

Lemma fit_up i : (i < length gs)%nat ->
  fit np gh (fun r => ax r) (fun r => up i r) (fun r => dn i r) (up_smin i) (up_smax i) (up_rmin i) (up_rmax i).
Proof.
  intros Hi. pose proof (dc_gh _ _ _ _ DC) as Hgh. split.
  - intros r Hr. destruct (dc_nb _ _ _ _ DC r i Hr Hi) as (? & ? & ? & ?). auto.
  - intros r Hr. split; [apply (dc_wf _ _ _ _ DC r Hr)|]. split; [now apply ax_ne|].
    destruct (dc_nb _ _ _ _ DC r i Hr Hi) as (_ & Hd & _).
    destruct (dc_len _ _ _ _ DC r Hr) as (-> & _). destruct (dc_len _ _ _ _ DC _ Hd) as (-> & _). auto.
  - intros r Hr. destruct (dc_in _ _ _ _ DC r i Hr Hi) as (? & ? & ?). apply reg_inside; auto; lia.
  - intros r Hr. destruct (dc_in _ _ _ _ DC r i Hr Hi) as (? & ? & ?). apply reg_inside; auto; lia.
  - intros r Hr. destruct (dc_nb _ _ _ _ DC r i Hr Hi) as (_ & Hd & _).
    unfold up_smin, up_smax, up_rmin, up_rmax.
    apply extents_eq; try (rewrite ?(proj1 (reg_len _ _ _ Hr)), ?(proj2 (reg_len _ _ _ Hr)), ?(proj1 (reg_len _ _ _ Hd)), ?(proj2 (reg_len _ _ _ Hd)); reflexivity).
    rewrite (proj1 (reg_len _ _ _ Hd)). intros j Hj. rewrite !nth_reg_lo, !nth_reg_hi by auto.
    destruct (dn_facts r i j Hr Hi Hj) as [F1 _].
    destruct (Nat.eqb_spec j i) as [->|N]; [lia|]. destruct (F1 N) as [-> ->]. lia.
Qed.

Lemma fit_dn i : (i < length gs)%nat ->
  fit np gh (fun r => ax r) (fun r => dn i r) (fun r => up i r) (dn_smin i) (dn_smax i) (dn_rmin i) (dn_rmax i).
Proof.
  intros Hi. pose proof (dc_gh _ _ _ _ DC) as Hgh. split.
  - intros r Hr. destruct (dc_nb _ _ _ _ DC r i Hr Hi) as (? & ? & ? & ?). auto.
  - intros r Hr. split; [apply (dc_wf _ _ _ _ DC r Hr)|]. split; [now apply ax_ne|].
    destruct (dc_nb _ _ _ _ DC r i Hr Hi) as (Hd & _ & _).
    destruct (dc_len _ _ _ _ DC r Hr) as (-> & _). destruct (dc_len _ _ _ _ DC _ Hd) as (-> & _). auto.
  - intros r Hr. destruct (dc_in _ _ _ _ DC r i Hr Hi) as (? & ? & ?). apply reg_inside; auto; lia.
  - intros r Hr. destruct (dc_in _ _ _ _ DC r i Hr Hi) as (? & ? & ?). apply reg_inside; auto; lia.
  - intros r Hr. destruct (dc_nb _ _ _ _ DC r i Hr Hi) as (Hd & _ & _).
    unfold dn_smin, dn_smax, dn_rmin, dn_rmax.
    apply extents_eq; try (rewrite ?(proj1 (reg_len _ _ _ Hr)), ?(proj2 (reg_len _ _ _ Hr)), ?(proj1 (reg_len _ _ _ Hd)), ?(proj2 (reg_len _ _ _ Hd)); reflexivity).
    rewrite (proj1 (reg_len _ _ _ Hd)). intros j Hj. rewrite !nth_reg_lo, !nth_reg_hi by auto.
    destruct (dc_up _ _ _ _ DC r i j Hr Hi Hj) as [F1 _].
    destruct (Nat.eqb_spec j i) as [->|N]; [lia|]. destruct (F1 N) as [-> ->]. lia.
Qed.

Definition held (d : Z -> list T) : Prop := forall r, 0 <= r < np -> zlen (d r) = cells (ax r) /\ Forall valid (d r).

Section Steps.
Context {A : Type}.

Lemma up_round d (K : Z -> list T -> proc A) i ch : (i < length gs)%nat -> held d -> quiet ch ->
  exists d' n ch', quiet ch' /\ held d' /\ moved zrange np (fun r => ax r) (fun r => dn i r) (up_smin i) (up_rmin i) (up_rmax i) d d' /\
    gsteps n (ranks np (fun r => swap_up c zrange (G r) i (d r) (K r)), ch) (ranks np (fun r => K r (d' r)), ch').
Proof.
  intros Hi Hd Q. pose proof (dc_np _ _ _ _ DC). pose proof (fit_up i Hi) as F.
  destruct (transfer_round c zrange valid np gh _ _ _ _ _ _ _ d K 100 200 ch S rng_ok1 H F Hd) as (d' & n & ch' & Q' & M & Gs); auto.
  { intros r n Hr Hn. destruct (Hd r Hr) as [L V].
    eapply Z.le_trans; [|apply HI; exact Hr].
    eapply (buffer_bound c valid zrange gh (ax r)); eauto using rng_ok1, ax_ne.
    - apply (dc_wf _ _ _ _ DC); auto. - apply (fit_s _ _ _ _ _ _ _ _ _ F r Hr). }
  exists d', n, ch'. split; [auto|]. split; [|split; [exact M|]].
  { unfold held. eapply (moved_valid valid zrange np gh); eauto using rng_ok1. apply (dc_gh _ _ _ _ DC). }
  erewrite ranks_ext; [exact Gs|]. intros r Hr. cbv beta. unfold swap_up.
  destruct (dc_len _ _ _ _ DC r Hr) as (L1 & L2 & L3 & ->).
  rewrite (nth_error_nth' (ax r) dax) by lia. cbn [lift].
  rewrite (nth_error_nth' (ge_n1 (G r)) 0) by lia. cbn [lift].
  rewrite (nth_error_nth' (ge_n0 (G r)) 0) by lia. reflexivity.
Qed.

Lemma dn_round d (K : Z -> list T -> proc A) i ch : (i < length gs)%nat -> held d -> quiet ch ->
  exists d' n ch', quiet ch' /\ held d' /\ moved zrange np (fun r => ax r) (fun r => up i r) (dn_smin i) (dn_rmin i) (dn_rmax i) d d' /\
    gsteps n (ranks np (fun r => swap_down c zrange (G r) i (d r) (K r)), ch) (ranks np (fun r => K r (d' r)), ch').
Proof.
  intros Hi Hd Q. pose proof (dc_np _ _ _ _ DC). pose proof (fit_dn i Hi) as F.
  destruct (transfer_round c zrange valid np gh _ _ _ _ _ _ _ d K 300 400 ch S rng_ok1 H F Hd) as (d' & n & ch' & Q' & M & Gs); auto.
  { intros r n Hr Hn. destruct (Hd r Hr) as [L V].
    eapply Z.le_trans; [|apply HI; exact Hr].
    eapply (buffer_bound c valid zrange gh (ax r)); eauto using rng_ok1, ax_ne.
    - apply (dc_wf _ _ _ _ DC); auto. - apply (fit_s _ _ _ _ _ _ _ _ _ F r Hr). }
  exists d', n, ch'. split; [auto|]. split; [|split; [exact M|]].
  { unfold held. eapply (moved_valid valid zrange np gh); eauto using rng_ok1. apply (dc_gh _ _ _ _ DC). }
  erewrite ranks_ext; [exact Gs|]. intros r Hr. cbv beta. unfold swap_down.
  destruct (dc_len _ _ _ _ DC r Hr) as (L1 & L2 & L3 & ->).
  rewrite (nth_error_nth' (ax r) dax) by lia. cbn [lift].
  rewrite (nth_error_nth' (ge_n0 (G r)) 0) by lia. cbn [lift].
  rewrite (nth_error_nth' (ge_n1 (G r)) 0) by lia. reflexivity.
Qed.
End Steps.

(* ---- values ---- *)
Context (D0 : Z -> list T).
Definition good (d : Z -> list T) r y : Prop :=
  forall q, 0 <= q < np -> owns (G q) (wrap gs y) ->
    get (d r) (encode (ax r) y) = get (D0 q) (encode (ax q) (wrap gs y)).
Definition wide : Prop := forall r j, 0 <= r < np -> (j < length gs)%nat -> gh <= a_x1 (aj r j) - a_x0 (aj r j).

(* storage cells that are local on the axes from i on are right *)
Definition inv (i : nat) d : Prop := forall r y, 0 <= r < np -> storage r y ->
  (forall j, (i <= j < length gs)%nat -> a_x0 (aj r j) <= nth j y 0 < a_x1 (aj r j)) -> good d r y.

Lemma owned_wrap r y : 0 <= r < np -> owns (G r) y -> wrap gs y = y.
Proof using DC.
  clear S HB B0 HI D0.
  intros Hr O. apply owns_iff in O as [L O]; auto. apply list_eq_nth; rewrite length_wrap by auto; [auto|].
  intros j Hj. rewrite (nth_wrap gs y j (mkG 0 0)) by auto. specialize (O j Hj).
  destruct (dc_in _ _ _ _ DC r j Hr Hj) as (? & ? & ?). unfold glen.
  rewrite Z.mod_small by lia. lia.
Qed.

Lemma wrap_shift y y' i k : (i < length gs)%nat -> length y = length gs -> length y' = length gs ->
  (forall j, (j < length gs)%nat -> j <> i -> nth j y' 0 = nth j y 0) ->
  nth i y' 0 = nth i y 0 + k * glen (gj i) -> wrap gs y' = wrap gs y.
Proof.
  intros Hi L L' H E. apply list_eq_nth; rewrite !length_wrap by auto; [auto|]. intros j Hj.
  rewrite !(nth_wrap gs _ j (mkG 0 0)) by auto. destruct (Nat.eq_dec j i) as [->|N]; [|now rewrite H].
  rewrite E. replace (nth i y 0 + k * glen (gj i) - gx_0 (gj i)) with (nth i y 0 - gx_0 (gj i) + k * glen (gj i)) by lia.
  now rewrite Z_mod_plus_full.
Qed.

Lemma inv_start : inv 0 D0.
Proof.
  intros r y Hr Hs Hl q Hq O.
  assert (owns (G r) y) as O'.
  { apply owns_iff; auto. apply storage_iff in Hs as [L _]; auto. split; [auto|]. intros; apply Hl; lia. }
  rewrite (owned_wrap r y Hr O') in *. now rewrite (dc_own _ _ _ _ DC y q r Hq Hr O O').
Qed.

(* after the upward exchange on axis i, the lower halo of axis i is right too *)
Definition inv_half (i : nat) d : Prop := forall r y, 0 <= r < np -> storage r y ->
  nth i y 0 < a_x1 (aj r i) ->
  (forall j, (i < j < length gs)%nat -> a_x0 (aj r j) <= nth j y 0 < a_x1 (aj r j)) -> good d r y.

Lemma inv_up i d d' : (i < length gs)%nat -> wide -> inv i d ->
  moved zrange np (fun r => ax r) (fun r => dn i r) (up_smin i) (up_rmin i) (up_rmax i) d d' -> inv_half i d'.
Proof.
  intros Hi Wd I M r y Hr Hs H1 H2. destruct (M r Hr) as (_ & M1 & M2).
  pose proof (proj1 (storage_iff r y Hr) Hs) as [L Sy].
  destruct (Z_lt_le_dec (nth i y 0) (a_x0 (aj r i))) as [Hlt|Hge].
  - assert (in_rng zrange (up_rmin i r) (up_rmax i r) y) as Hy.
    { apply in_rng1. apply in_reg; auto. split; [auto|]. split; [specialize (Sy i Hi); lia|]. intros; apply Sy; auto. }
    specialize (M1 y Hy). destruct (dc_nb _ _ _ _ DC r i Hr Hi) as (_ & Hq & _). set (q := dn i r) in *.
    set (y' := translate (up_rmin i r) (up_smin i q) y) in *.
    destruct (reg_len r i (a_x0 (aj r i) - gh) Hr) as [Lr _]. destruct (reg_len q i (a_x1 (aj q i) - gh) Hq) as [Lq _].
    assert (length y' = length gs) as L' by (unfold y', up_rmin, up_smin; rewrite length_translate; congruence).
    assert (forall j, (j < length gs)%nat -> nth j y' 0 = if Nat.eqb j i then nth i y 0 - a_x0 (aj r i) + a_x1 (aj q i) else nth j y 0) as N'.
    { intros j Hj. unfold y', up_rmin, up_smin. rewrite nth_translate by congruence. rewrite !nth_reg_lo by auto.
      destruct (dn_facts r i j Hr Hi Hj) as [F _]. fold q in F.
      destruct (Nat.eqb_spec j i) as [->|N]; [lia|]. destruct (F N) as [-> _]. lia. }
    assert (good d q y') as Gd.
    { apply I; auto.
      - apply storage_iff; auto. split; [auto|]. intros j Hj. rewrite N' by auto.
        destruct (dn_facts r i j Hr Hi Hj) as [F _]. fold q in F. specialize (Sy j Hj).
        pose proof (dc_gh _ _ _ _ DC). pose proof (Wd q j Hq Hj).
        destruct (Nat.eqb_spec j i) as [->|N]; [lia|]. destruct (F N) as [-> ->]. lia.
      - intros j Hj. rewrite N' by lia. destruct (dn_facts r i j Hr Hi ltac:(lia)) as [F _]. fold q in F.
        specialize (Sy j ltac:(lia)). pose proof (Wd q j Hq ltac:(lia)).
        destruct (Nat.eqb_spec j i) as [->|N]; [lia|]. destruct (F N) as [-> ->]. apply H2; lia. }
    assert (wrap gs y' = wrap gs y) as Ew.
    { destruct (dn_facts r i i Hr Hi Hi) as [_ F]. fold q in F. specialize (F eq_refl).
      apply (wrap_shift y y' i (if a_x1 (aj q i) =? a_x0 (aj r i) then 0 else 1)); auto.
      - intros j Hj N. rewrite N' by auto. destruct (Nat.eqb_spec j i); [contradiction|auto].
      - rewrite N', Nat.eqb_refl by auto. unfold glen. destruct (Z.eqb_spec (a_x1 (aj q i)) (a_x0 (aj r i))); lia. }
    intros q' Hq' O. rewrite M1. rewrite <- Ew in *. apply Gd; auto.
  - assert (~ in_rng zrange (up_rmin i r) (up_rmax i r) y) as Hy.
    { intros Hy. apply in_rng1 in Hy. apply in_reg in Hy as (_ & ? & _); auto. lia. }
    specialize (M2 y Hs Hy). intros q Hq O. rewrite M2. apply I; auto.
    intros j Hj. destruct (Nat.eq_dec j i) as [->|N]; [lia|apply H2; lia].
Qed.

Lemma inv_dn i d d' : (i < length gs)%nat -> wide -> inv_half i d ->
  moved zrange np (fun r => ax r) (fun r => up i r) (dn_smin i) (dn_rmin i) (dn_rmax i) d d' -> inv (Datatypes.S i) d'.
Proof.
  intros Hi Wd I M r y Hr Hs H2. destruct (M r Hr) as (_ & M1 & M2).
  pose proof (proj1 (storage_iff r y Hr) Hs) as [L Sy].
  destruct (Z_lt_le_dec (nth i y 0) (a_x1 (aj r i))) as [Hlt|Hge].
  - assert (~ in_rng zrange (dn_rmin i r) (dn_rmax i r) y) as Hy.
    { intros Hy. apply in_rng1 in Hy. apply in_reg in Hy as (_ & ? & _); auto. lia. }
    specialize (M2 y Hs Hy). intros q Hq O. rewrite M2. apply I; auto.
  - assert (in_rng zrange (dn_rmin i r) (dn_rmax i r) y) as Hy.
    { apply in_rng1. apply in_reg; auto. split; [auto|]. split; [specialize (Sy i Hi); lia|]. intros; apply Sy; auto. }
    specialize (M1 y Hy). destruct (dc_nb _ _ _ _ DC r i Hr Hi) as (Hq & _ & _). set (q := up i r) in *.
    set (y' := translate (dn_rmin i r) (dn_smin i q) y) in *.
    destruct (reg_len r i (a_x1 (aj r i)) Hr) as [Lr _]. destruct (reg_len q i (a_x0 (aj q i)) Hq) as [Lq _].
    assert (length y' = length gs) as L' by (unfold y', dn_rmin, dn_smin; rewrite length_translate; congruence).
    assert (forall j, (j < length gs)%nat -> nth j y' 0 = if Nat.eqb j i then nth i y 0 - a_x1 (aj r i) + a_x0 (aj q i) else nth j y 0) as N'.
    { intros j Hj. unfold y', dn_rmin, dn_smin. rewrite nth_translate by congruence. rewrite !nth_reg_lo by auto.
      destruct (dc_up _ _ _ _ DC r i j Hr Hi Hj) as [F _]. fold q in F.
      destruct (Nat.eqb_spec j i) as [->|N]; [lia|]. destruct (F N) as [-> _]. lia. }
    assert (good d q y') as Gd.
    { apply I; auto.
      - apply storage_iff; auto. split; [auto|]. intros j Hj. rewrite N' by auto.
        destruct (dc_up _ _ _ _ DC r i j Hr Hi Hj) as [F _]. fold q in F. specialize (Sy j Hj).
        pose proof (dc_gh _ _ _ _ DC). pose proof (Wd q j Hq Hj).
        destruct (Nat.eqb_spec j i) as [->|N]; [lia|]. destruct (F N) as [-> ->]. lia.
      - rewrite N', Nat.eqb_refl by auto. specialize (Sy i Hi). pose proof (Wd q i Hq Hi). lia.
      - intros j Hj. rewrite N' by lia. destruct (dc_up _ _ _ _ DC r i j Hr Hi ltac:(lia)) as [F _]. fold q in F.
        destruct (Nat.eqb_spec j i) as [->|N]; [lia|]. destruct (F N) as [-> ->]. apply H2; lia. }
    assert (wrap gs y' = wrap gs y) as Ew.
    { destruct (dc_up _ _ _ _ DC r i i Hr Hi Hi) as [_ F]. fold q in F. specialize (F eq_refl).
      apply (wrap_shift y y' i (if a_x0 (aj q i) =? a_x1 (aj r i) then 0 else -1)); auto.
      - intros j Hj N. rewrite N' by auto. destruct (Nat.eqb_spec j i); [contradiction|auto].
      - rewrite N', Nat.eqb_refl by auto. unfold glen. destruct (Z.eqb_spec (a_x0 (aj q i)) (a_x1 (aj r i))); lia. }
    intros q' Hq' O. rewrite M1. rewrite <- Ew in *. apply Gd; auto.
Qed.

Context {A : Type}.
Lemma axes_round n i d (K : Z -> list T -> proc A) ch : (i + n = length gs)%nat -> held d -> quiet ch ->
  exists d' k ch', quiet ch' /\ held d' /\ (wide -> inv i d -> inv (length gs) d') /\
    gsteps k (ranks np (fun r => swap_axes c zrange (G r) (seq i n) (d r) (K r)), ch) (ranks np (fun r => K r (d' r)), ch').
Proof.
  revert i d ch; induction n as [|n IH]; intros i d ch E Hd Q.
  - exists d, O, ch. split; [auto|]. split; [auto|]. split; [intros _ H; replace (length gs) with i by lia; exact H|].
    constructor.
  - cbn [seq swap_axes].
    destruct (up_round d (fun r d1 => swap_down c zrange (G r) i d1 (fun d2 => swap_axes c zrange (G r) (seq (Datatypes.S i) n) d2 (K r))) i ch
      ltac:(lia) Hd Q) as (d1 & n1 & c1 & Q1 & Hd1 & M1 & G1).
    destruct (dn_round d1 (fun r d2 => swap_axes c zrange (G r) (seq (Datatypes.S i) n) d2 (K r)) i c1
      ltac:(lia) Hd1 Q1) as (d2 & n2 & c2 & Q2 & Hd2 & M2 & G2).
    destruct (IH (Datatypes.S i) d2 c2 ltac:(lia) Hd2 Q2) as (d3 & n3 & c3 & Q3 & Hd3 & M3 & G3).
    exists d3, (n1 + (n2 + n3))%nat, c3. split; [auto|]. split; [auto|]. split.
    + intros W I. apply M3; auto. eapply inv_dn; eauto; [lia|]. eapply inv_up; eauto. lia.
    + eapply gsteps_app; [exact G1|]. eapply gsteps_app; [exact G2|exact G3].
Qed.

Lemma ghost_round (K : Z -> list T -> proc A) ch : held D0 -> quiet ch ->
  exists d' k ch', quiet ch' /\ held d' /\ (wide -> inv (length gs) d') /\
    gsteps k (ranks np (fun r => ghostswap c (G r) (D0 r) (K r)), ch) (ranks np (fun r => K r (d' r)), ch').
Proof.
  intros Hd Q. destruct (axes_round (length gs) 0 D0 (fun r d => barrier (K r d)) ch ltac:(lia) Hd Q)
    as (d' & k & c1 & Q1 & Hd1 & I & Gs).
  exists d', (1 + (k + 1))%nat, c1. split; [auto|]. split; [auto|]. split; [intros W; apply I; [auto|apply inv_start]|].
  pose proof (dc_np _ _ _ _ DC). eapply gsteps_app.
  { apply gsteps_1. rewrite (ranks_ext np _ (fun r => Coll 0 [] (fun _ =>
      swap_axes c zrange (G r) (seq 0 (length gs)) (D0 r) (fun d => barrier (K r d))))).
    - apply (all_coll np 0 (fun _ => []) (fun r _ => swap_axes c zrange (G r) (seq 0 (length gs)) (D0 r) (fun d => barrier (K r d)))). lia.
    - intros r Hr. unfold ghostswap. destruct (dc_len _ _ _ _ DC r Hr) as (-> & _). reflexivity. }
  eapply gsteps_app; [exact Gs|]. apply gsteps_1.
  apply (all_coll np 0 (fun _ => []) (fun r _ => K r (d' r))). lia.
Qed.
End Halo.

(* ---- the exchange started from the geometry made by setup ---- *)
Lemma through_setup np gs gh r ge : 0 < np -> gs <> [] -> gok gs -> 0 <= r < np -> setup_mpi np gs gh r = Some ge ->
  exists ls, ge_axes ge = lay gh ls /\ forall x, length x = length gs -> Forall2 through ls x.
Proof.
  intros Hnp Hne Hg Hr E. destruct (setup_eq np gs gh r Hnp Hne Hg Hr) as (p1 & P1 & (L & Q & _) & S2 & S3 & S4).
  rewrite S4 in E. inversion E; subst. simpl. eexists. split; [reflexivity|].
  pose proof (in_box_length _ _ _ S2) as [Lp _]. rewrite map_length in Lp.
  set (pos := rank_pos (slices p1) r) in *. clearbody pos. clear - L Lp. revert L Lp.
  revert pos p1. induction gs as [|g gs IH]; intros [|q pos] [|p p1] L Lp [|x xs] Hx; simpl in *; try discriminate; try lia; constructor; auto.
  unfold through, axis_limits. destruct (local_limits g p q) as [x0 x1]. simpl.
  split; intros _; [destruct (x0 =? gx_0 g)|destruct (x1 =? gx_1 g)]; auto.
Qed.

Lemma lay_nth_x0 gh ls : map a_x0 (lay gh ls) = map l_x0 ls /\ map a_x1 (lay gh ls) = map l_x1 ls /\
  map a_s0 (lay gh ls) = map (fun l => l_x0 l - gh) ls /\ map a_s1 (lay gh ls) = map (fun l => l_x1 l + gh) ls.
Proof. induction ls as [|l ls (IH1 & IH2 & IH3 & IH4)]; simpl; [auto|]. now rewrite IH1, IH2, IH3, IH4. Qed.

(* a storage cell of a rank is read through the access operator *)
Lemma storage_read {T} np gs gh r ge (d : list T) y : 0 < np -> gs <> [] -> gok gs -> 0 <= gh -> 0 <= r < np ->
  setup_mpi np gs gh r = Some ge ->
  Forall (fun a => a_x0 a < a_x1 a) (ge_axes ge) ->
  zlen d = cells (ge_axes ge) -> in_box (map a_s0 (ge_axes ge)) (map a_s1 (ge_axes ge)) y ->
  grid_read true (ge_axes ge) d y = get d (encode (ge_axes ge) y) /\ grid_read true (ge_axes ge) d y <> None.
Proof.
  intros Hnp Hne Hg Hgh Hr E F L B. destruct (through_setup np gs gh r ge Hnp Hne Hg Hr E) as (ls & El & Th).
  rewrite El in *. destruct (lay_nth_x0 gh ls) as (E1 & E2 & E3 & E4). rewrite E3, E4 in B.
  assert (Forall (fun l => l_x0 l < l_x1 l) ls) as F'.
  { clear - F. revert F. induction ls; simpl; intros F; [constructor|]. inversion F; subst; simpl in *. constructor; auto. }
  destruct (halo_access gh ls d y Hgh F' L B) as [H1 H2]. split; [|exact H1]. apply H2. apply Th.
  pose proof (deco_setup np gs gh Hnp Hne Hg Hgh) as DC. destruct (dc_len _ _ _ _ DC r Hr) as (Ll & _).
  rewrite E in Ll. rewrite El in Ll. apply in_box_length in B as [B _]. rewrite B, map_length.
  rewrite <- Ll. clear. induction ls; simpl; auto.
Qed.

Section Final.
Context {T : Type} (c : codec T) (valid : T -> Prop) (np : Z) (gs : list gaxis) (gh B : Z) (D : Z -> list T).
Context (S : serialises c valid) (Hnp : 0 < np) (Hne : gs <> []) (Hgh : 0 <= gh) (B0 : 0 <= B).
Context (HB : forall v, valid v -> c_size c v <= B).
Context (HD : forall r ge, 0 <= r < np -> setup_mpi np gs gh r = Some ge ->
                zlen (D r) = cells (ge_axes ge) /\ Forall valid (D r) /\ cells (ge_axes ge) * B <= int_max).

Let G r := match setup_mpi np gs gh r with Some ge => ge | None => dgeom end.

Lemma setup_some : gok gs -> forall r, 0 <= r < np -> setup_mpi np gs gh r = Some (G r).
Proof. intros Hg r Hr. destruct (setup_eq np gs gh r Hnp Hne Hg Hr) as (p1 & _ & _ & _ & _ & E). unfold G. now rewrite E. Qed.

Lemma ghost_all : gok gs -> exists D' f, finished np D' f /\
  inevitable (ranks np (rank_ghostswap c np gs gh D), no_chans) f /\
  (forall r, 0 <= r < np -> zlen (D' r) = cells (ge_axes (G r)) /\ Forall valid (D' r)) /\
  (wide np gh gs G -> inv np gs G D (length gs) D').
Proof.
  intros Hg. pose proof (deco_setup np gs gh Hnp Hne Hg Hgh) as DC. fold G in DC.
  assert (forall r, 0 <= r < np -> cells (ge_axes (G r)) * B <= int_max) as HI.
  { intros r Hr. destruct (HD r _ Hr (setup_some Hg r Hr)) as (_ & _ & H). exact H. }
  assert (held valid np G D) as H0.
  { intros r Hr. destruct (HD r _ Hr (setup_some Hg r Hr)) as (H1 & H2 & _). auto. }
  destruct (ghost_round c valid np gh gs G B DC S HB B0 HI D (fun _ => Ret) no_chans H0 quiet_empty)
    as (d' & k & c' & Q & Hd & I & Gs).
  destruct (conclude np (rank_ghostswap c np gs gh D) d' k no_chans c' Hnp Q) as (f & F1 & F2).
  { erewrite ranks_ext; [exact Gs|]. intros r Hr. unfold rank_ghostswap. now rewrite (setup_some Hg r Hr). }
  exists d', f. auto.
Qed.

Theorem ghost_terminates : Forall (fun g => gx_0 g <= gx_1 g) gs ->
  exists D' f, finished np D' f /\ inevitable (ranks np (rank_ghostswap c np gs gh D), no_chans) f.
Proof. intros Hg. destruct (ghost_all Hg) as (D' & f & F1 & F2 & _). eauto. Qed.

Theorem ghost_values : Forall (fun g => gx_0 g < gx_1 g) gs ->
  (forall r ge, 0 <= r < np -> setup_mpi np gs gh r = Some ge ->
     Forall (fun a => a_x0 a < a_x1 a /\ gh <= a_x1 a - a_x0 a) (ge_axes ge)) ->
  exists D' f, finished np D' f /\
    inevitable (ranks np (rank_ghostswap c np gs gh D), no_chans) f /\
    forall r ge y, 0 <= r < np -> setup_mpi np gs gh r = Some ge ->
      in_box (map a_s0 (ge_axes ge)) (map a_s1 (ge_axes ge)) y ->
      (exists q geq v, 0 <= q < np /\ setup_mpi np gs gh q = Some geq /\ owns geq (wrap gs y) /\
         grid_read true (ge_axes geq) (D q) (wrap gs y) = Some v /\
         grid_read true (ge_axes ge) (D' r) y = Some v) /\
      (owns ge y -> grid_read true (ge_axes ge) (D' r) y = grid_read true (ge_axes ge) (D r) y).
Proof.
  intros Hg1 Hw.
  assert (gok gs) as Hg by (unfold gok; rewrite Forall_forall in *; intros g Ig; specialize (Hg1 g Ig); simpl in Hg1; lia).
  destruct (ghost_all Hg) as (D' & f & F1 & F2 & F3 & F4). exists D', f. split; [auto|]. split; [auto|].
  pose proof (deco_setup np gs gh Hnp Hne Hg Hgh) as DC. fold G in DC.
  assert (wide np gh gs G) as W.
  { intros r j Hr Hj. specialize (Hw r _ Hr (setup_some Hg r Hr)). destruct (dc_len _ _ _ _ DC r Hr) as (L & _).
    rewrite Forall_forall in Hw. apply Hw. apply nth_In. lia. }
  specialize (F4 W).
  intros r ge y Hr E B1. rewrite (setup_some Hg r Hr) in E. inversion E; subst ge. clear E.
  pose proof (setup_some Hg r Hr) as Er.
  assert (length y = length gs) as Ly.
  { destruct (dc_len _ _ _ _ DC r Hr) as (L & _). apply in_box_length in B1 as [B1 _]. rewrite map_length in B1. lia. }
  assert (forall q, 0 <= q < np -> Forall (fun a => a_x0 a < a_x1 a) (ge_axes (G q))) as Fq.
  { intros q Hq. specialize (Hw q _ Hq (setup_some Hg q Hq)). rewrite Forall_forall in *. intros a Ia. apply Hw; auto. }
  assert (in_box (map gx_0 gs) (map gx_1 gs) (wrap gs y)) as Bw.
  { apply in_box_iff. rewrite length_wrap, !map_length by auto. split; [auto|]. split; [auto|]. intros j Hj.
    rewrite (nth_map_eq gx_0 _ j 0 (mkG 0 0)), (nth_map_eq gx_1 _ j 0 (mkG 0 0)), (nth_wrap gs y j (mkG 0 0)) by auto.
    assert (gx_0 (nth j gs (mkG 0 0)) < gx_1 (nth j gs (mkG 0 0))) by (rewrite Forall_forall in Hg1; apply Hg1, nth_In; auto).
    unfold glen. pose proof (Z.mod_pos_bound (nth j y 0 - gx_0 (nth j gs (mkG 0 0))) (gx_1 (nth j gs (mkG 0 0)) - gx_0 (nth j gs (mkG 0 0)))). lia. }
  destruct (partition np gs gh _ Hnp Hne Hg Bw) as (q & geq & Hq & Eq & O & _).
  pose proof Eq as Eq'. rewrite (setup_some Hg q Hq) in Eq'. inversion Eq'; subst geq. clear Eq'.
  destruct (F3 r Hr) as (L' & _). destruct (HD q _ Hq Eq) as (Lq & _).
  destruct (storage_read np gs gh r (G r) (D' r) y Hnp Hne Hg Hgh Hr Er (Fq r Hr) L' B1) as [R1 R1'].
  assert (in_box (map a_s0 (ge_axes (G q))) (map a_s1 (ge_axes (G q))) (wrap gs y)) as Bq.
  { eapply (local_in_storage gh); eauto. apply (dc_wf _ _ _ _ DC q Hq). }
  destruct (storage_read np gs gh q (G q) (D q) _ Hnp Hne Hg Hgh Hq Eq (Fq q Hq) Lq Bq) as [R2 R2'].
  assert (grid_read true (ge_axes (G r)) (D' r) y = grid_read true (ge_axes (G q)) (D q) (wrap gs y)) as V.
  { rewrite R1, R2. apply (F4 r y Hr B1); auto. intros j Hj; lia. }
  split.
  - destruct (grid_read true (ge_axes (G r)) (D' r) y) as [v|]; [|congruence].
    exists q, (G q), v. auto.
  - intros Oy. assert (wrap gs y = y) as Ew by exact (owned_wrap np gh gs G DC r y Hr Oy). rewrite Ew in *.
    rewrite V. now rewrite (dc_own _ _ _ _ DC y q r Hq Hr O Oy).
Qed.
End Final.
