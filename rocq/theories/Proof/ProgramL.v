From Coq Require Import QArith.QArith QArith.Qcanon Permutation.
From Verif Require Import Model.Base Model.Boundary Model.Layout Model.Access Model.Setup Model.Codec Model.MPI Model.Ghostswap Model.Stencil Model.Simulate Model.Dynamics Model.Stages Model.Program
  Spec.Box Spec.Access Spec.Bytes Spec.Decomp Spec.Schedule Spec.Stencil
  Proof.BaseL Proof.LayoutL Proof.AccessL Proof.CodecL Proof.SetupL Proof.MPIL Proof.HaloL Proof.StencilL Proof.StencilS Proof.StencilQ Proof.SimulateL Proof.StagesL.
Local Open Scope Z_scope.

(* ---- a loop in which every node's cell is read and written once ---- *)
Lemma get_In {X} (l : list X) i v : get l i = Some v -> In v l.
Proof. unfold get. destruct (_ <? 0); [discriminate|]. apply nth_error_In. Qed.
Lemma get_ex {X} (l : list X) i : 0 <= i < zlen l -> exists v, get l i = Some v.
Proof. intros H. unfold get. destruct (Z.ltb_spec i 0); [lia|]. destruct (nth_error l (Z.to_nat i)) eqn:E; [eauto|]. apply nth_error_None in E. unfold zlen in H. lia. Qed.
Lemma put_ex {X} (l : list X) i v : 0 <= i < zlen l -> exists l', put l i v = Some l' /\ zlen l' = zlen l.
Proof.
  intros H. destruct (put l i v) as [l'|] eqn:E.
  - exists l'. split; [auto|]. apply put_some in E as [_ ->]. unfold zlen. now rewrite length_set_nth.
  - exfalso. unfold put in E. unfold zlen in H. destruct (Z.ltb_spec i 0); [lia|]. destruct (Z.leb_spec (Z.of_nat (length l)) i); [lia|]. discriminate.
Qed.
Lemma get_range {X} (l : list X) i v : get l i = Some v -> 0 <= i < zlen l.
Proof. unfold get. destruct (Z.ltb_spec i 0); [discriminate|]. intros E. assert (nth_error l (Z.to_nat i) <> None) by congruence. apply nth_error_Some in H0. unfold zlen. lia. Qed.

Section Pass.
Context {X : Type} (f : Z -> X -> option X) (at_ : Z -> Z).
Definition visit (d : list X) (i : Z) : option (list X) := do c <- get d (at_ i); do c <- f i c; put d (at_ i) c.

Lemma visit_inv d d' i : visit d i = Some d' -> exists c v, get d (at_ i) = Some c /\ f i c = Some v /\ put d (at_ i) v = Some d' /\ zlen d' = zlen d.
Proof.
  unfold visit. destruct (get d (at_ i)) as [c|] eqn:E1; cbn [bind]; [|discriminate]. destruct (f i c) as [v|] eqn:E2; cbn [bind]; [|discriminate]. intros E3.
  exists c, v. repeat (split; [auto|]). apply put_some in E3 as [_ ->]. unfold zlen. now rewrite length_set_nth.
Qed.
Lemma fold_pass_inv l : forall d d', NoDup l -> (forall i j, In i l -> In j l -> at_ i = at_ j -> i = j) -> fold_opt visit l d = Some d' ->
  zlen d' = zlen d /\ forall i, In i l -> exists c v, get d (at_ i) = Some c /\ f i c = Some v /\ get d' (at_ i) = Some v.
Proof.
  assert (forall l d d' a, fold_opt visit l d = Some d' -> (forall i, In i l -> at_ i <> a) -> get d' a = get d a) as Out.
  { clear. induction l as [|i l IH]; intros d d' a E H; cbn [fold_opt] in E; [now inversion E|]. destruct (visit d i) as [d1|] eqn:V; cbn [bind] in E; [|discriminate].
    rewrite (IH d1 d' a E) by (intros; apply H; now right). destruct (visit_inv _ _ _ V) as (c & v & _ & _ & P & _). rewrite (get_put _ _ _ a _ P). destruct (Z.eqb_spec a (at_ i)); [|auto].
    subst. exfalso. now apply (H i); [left|]. }
  induction l as [|i l IH]; intros d d' N I E; cbn [fold_opt] in E; [inversion E; subst; split; [auto|intros i []]|].
  destruct (visit d i) as [d1|] eqn:V; cbn [bind] in E; [|discriminate]. inversion N; subst. destruct (visit_inv _ _ _ V) as (c & v & G1 & F1 & P & L).
  destruct (IH d1 d') as [L' H]; auto; [intros; apply I; auto; now right|]. split; [congruence|]. intros j [<-|Hj].
  - exists c, v. split; [auto|]. split; [auto|]. rewrite (Out l d1 d' _ E).
    + rewrite (get_put _ _ _ (at_ i) _ P). now rewrite Z.eqb_refl.
    + intros k Hk Ea. apply I in Ea; [subst; auto|now right|now left].
  - destruct (H j Hj) as (c' & v' & G' & F' & R'). exists c', v'. split; [|auto]. rewrite (get_put _ _ _ (at_ j) _ P) in G'. destruct (Z.eqb_spec (at_ j) (at_ i)) as [Ea|]; [|auto].
    exfalso. apply I in Ea; [subst; auto|now right|now left].
Qed.
Lemma fold_pass_make l : forall d, NoDup l -> (forall i j, In i l -> In j l -> at_ i = at_ j -> i = j) -> (forall i, In i l -> exists c v, get d (at_ i) = Some c /\ f i c = Some v) ->
  exists d', fold_opt visit l d = Some d' /\ forall v, In v d' -> In v d \/ exists i c, In i l /\ get d (at_ i) = Some c /\ f i c = Some v.
Proof.
  induction l as [|i l IH]; intros d N I H; cbn [fold_opt]; [exists d; auto|]. inversion N; subst.
  destruct (H i (or_introl eq_refl)) as (c & v & Gc & Fc). destruct (put_ex d (at_ i) v (get_range _ _ _ Gc)) as (d1 & P & L).
  assert (visit d i = Some d1) as V by (unfold visit; rewrite Gc; cbn [bind]; rewrite Fc; exact P). rewrite V. cbn [bind].
  assert (forall j, In j l -> get d1 (at_ j) = get d (at_ j)) as Same.
  { intros j Hj. rewrite (get_put _ _ _ (at_ j) _ P). destruct (Z.eqb_spec (at_ j) (at_ i)) as [Ea|]; [|auto]. exfalso. apply I in Ea; [subst; auto|now right|now left]. }
  destruct (IH d1) as (d' & E & M); auto; [intros; apply I; auto; now right|intros j Hj; rewrite Same by auto; apply H; now right|].
  exists d'. split; [auto|]. intros u Hu. destruct (M u Hu) as [Hd|(j & c' & Hj & G' & F')].
  - apply put_some in P as [R ->]. apply In_nth_error in Hd as [n Hn].
    assert (get (set_nth (Z.to_nat (at_ i)) d v) (Z.of_nat n) = Some u) as Gu by (unfold get; destruct (Z.ltb_spec (Z.of_nat n) 0); [lia|]; now rewrite Nat2Z.id).
    assert (put d (at_ i) v = Some (set_nth (Z.to_nat (at_ i)) d v)) as P by (unfold put; unfold zlen in R; destruct (Z.ltb_spec (at_ i) 0); [lia|]; destruct (Z.leb_spec (Z.of_nat (length d)) (at_ i)); [lia|auto]).
    rewrite (get_put _ _ _ (Z.of_nat n) _ P) in Gu. destruct (Z.eqb_spec (Z.of_nat n) (at_ i)); [|left; eapply get_In; eauto].
    inversion Gu; subst u. right. exists i, c. split; [now left|auto].
  - right. exists j, c'. split; [now right|]. rewrite <- Same by auto. auto.
Qed.
End Pass.

(* the same for a loop over the nodes of a grid *)
Lemma node_facts g ls mpi : 0 <= g -> (mpi = false -> g = 0) -> lims_ok ls ->
  (forall i, 0 <= i < nodes (lay g ls) -> box ls (position (lay g ls) i) /\ addr_int mpi (lay g ls) i = encode (lay g ls) (position (lay g ls) i) /\ 0 <= addr_int mpi (lay g ls) i < cells (lay g ls)) /\
  (forall i j, 0 <= i < nodes (lay g ls) -> 0 <= j < nodes (lay g ls) -> addr_int mpi (lay g ls) i = addr_int mpi (lay g ls) j -> i = j) /\
  (forall y, box ls y -> exists i, 0 <= i < nodes (lay g ls) /\ position (lay g ls) i = y).
Proof.
  intros Hg Hm Lo. pose proof (wf_lay g ls Lo) as W.
  assert (forall i, 0 <= i < nodes (lay g ls) -> box ls (position (lay g ls) i) /\ in_box (map a_s0 (lay g ls)) (map a_s1 (lay g ls)) (position (lay g ls) i)) as P.
  { intros i Hi. destruct (position_into g (lay g ls) i W Hi) as [B _]. split; [now rewrite map_x0_lay, map_x1_lay in B|]. now apply (local_in_storage g). }
  split; [|split].
  - intros i Hi. split; [now apply P|]. rewrite addr_int_encode by auto. split; [auto|]. apply (encode_bounds g); auto. now apply P.
  - intros i j Hi Hj Ea. rewrite !addr_int_encode in Ea by auto. apply (encode_inj g) in Ea; [|auto|now apply P|now apply P].
    destruct (position_into g (lay g ls) j W Hj) as [_ I]. now apply I.
  - intros y By. apply (position_onto g); auto. now rewrite map_x0_lay, map_x1_lay.
Qed.

(* the cells read around a node are the same in two grids *)
Definition alike {T} (axs1 : list axis) (d1 : list T) (axs2 : list axis) (d2 : list T) (x : list Z) : Prop :=
  grid_read true axs1 d1 x = grid_read false axs2 d2 x /\
  forall j, 0 <= j < zlen x -> grid_read true axs1 d1 (nb x j 1) = grid_read false axs2 d2 (nb x j 1) /\ grid_read true axs1 d1 (nb x j (-1)) = grid_read false axs2 d2 (nb x j (-1)).

Section Main.
Context (np : Z) (gs : list gaxis) (bs : list (Z * Z)) (gh B : Z).
Context (Hnp : 0 < np) (Hne : gs <> []) (Hgh : 1 <= gh) (B0 : 0 <= B).
Context (Lb : length bs = length gs) (Sa : Forall serial_axis (whole_lims gs bs)).
Context (HI : forall r ge, 0 <= r < np -> setup_mpi np gs gh r = Some ge -> cells (ge_axes ge) * B <= int_max).
Context (Hw : forall r ge, 0 <= r < np -> setup_mpi np gs gh r = Some ge ->
     Forall (fun a => a_x0 a < a_x1 a /\ gh <= a_x1 a - a_x0 a) (ge_axes ge)).

Notation w := (whole_lims gs bs).
Notation G := (fun r => with_bounds set_bounds_axis bs (match setup_mpi np gs gh r with Some ge => ge | None => dgeom end)).

Lemma lims_of r : 0 <= r < np -> exists ls, ge_axes (G r) = lay gh ls /\ Forall2 fits ls w /\ lims_ok ls /\ length ls = length gs.
Proof using All.
  intros Hr. destruct (rank_lims (fun _ : Z => True) np gs bs gh B keep Hnp Hne Hgh Lb Sa HI Hw (keep_ok _ gs) r Hr) as (ls & E & Ff & L).
  exists ls. split; [exact E|]. split; [auto|]. split; [eapply fits_lims; eauto|auto].
Qed.
Lemma some_node : exists y, box w y.
Proof using All. generalize Sa. generalize w. induction 1 as [|l w' (H & _) F [y IH]]; [exists []; exact I|]. exists (l_x0 l :: y). simpl. split; [lia|auto]. Qed.

Definition on_whole {X} (F : list Z -> X) (D : list X) : Prop := zlen D = cells (lay 0 w) /\ forall y, box w y -> get D (encode (lay 0 w) y) = Some (F y).
Definition paired {X} (R : X -> X -> Prop) (u : Z -> list X) (N : list X) : Prop :=
  forall r y, 0 <= r < np -> owns (G r) y -> exists a b, get (u r) (encode (ge_axes (G r)) y) = Some a /\ get N (encode (lay 0 w) y) = Some b /\ R a b.

Lemma whole_lo : lims_ok w.
Proof using All. apply lims_le, Sa. Qed.
Lemma field_of {X} (v0 : X) (D : list X) : zlen D = cells (lay 0 w) -> exists F, on_whole F D.
Proof using All.
  intros L. exists (fun y => nth (Z.to_nat (encode (lay 0 w) y)) D v0). split; [auto|]. intros y By.
  destruct (node_facts 0 w false ltac:(lia) ltac:(auto) whole_lo) as (P & _ & O). destruct (O y By) as (i & Hi & <-). destruct (P i Hi) as (_ & E & R). rewrite <- E.
  destruct (get_ex D (addr_int false (lay 0 w) i)) as [v Gv]; [lia|]. rewrite Gv. f_equal. unfold get in Gv. destruct (_ <? 0); [discriminate|]. symmetry. now apply nth_error_nth.
Qed.
Lemma owned_in_w r y : 0 <= r < np -> owns (G r) y -> box w y.
Proof using All.
  intros Hr O. destruct (lims_of r Hr) as (ls & E & Ff & _). apply (fits_box ls w y Ff). unfold owns in O. cbv beta in E. rewrite E, map_x0_lay, map_x1_lay in O. exact O.
Qed.
Lemma stored_owned {X} (F : list Z -> X) d : stored np gs bs gh F d -> owned np gs bs gh F d.
Proof using All.
  intros St r y Hr Oy. change (owns (G r) y) in Oy. change (get (d r) (encode (ge_axes (G r)) y) = Some (F y)).
  pose proof (owned_in_w r y Hr Oy) as By. pose proof (wrap_in w y By) as Ew. rewrite (whole_gaxes gs bs Lb) in Ew. rewrite <- Ew at 2. apply St; [auto|].
  change (in_box (map a_s0 (ge_axes (G r))) (map a_s1 (ge_axes (G r))) y). destruct (lims_of r Hr) as (ls & E & Ff & Lo & _). cbv beta in E |- *. rewrite E. apply (local_in_storage gh); [lia|now apply wf_lay|].
  unfold owns in Oy. cbv beta in Oy. now rewrite E in Oy.
Qed.
Lemma owned_paired {X} (R : X -> X -> Prop) (vd : X -> Prop) F d D : (forall v, vd v -> R v v) -> owned np gs bs gh F d -> on_whole F D -> Forall vd D -> paired R d D.
Proof using All.
  intros Rr O [L A] V r y Hr Oy. pose proof (owned_in_w r y Hr Oy) as By. exists (F y), (F y). split; [now apply O|]. split; [now apply A|]. apply Rr. rewrite Forall_forall in V. apply V. eapply get_In. now apply A.
Qed.

(* a loop on all ranks that does at every node what the serial loop does *)
Lemma pass_ranks {X} (vd : X -> Prop) (R : X -> X -> Prop) (f0 : Z -> X -> option X) (fr : Z -> Z -> X -> option X) (E E' : list X) (e : Z -> list X) :
  for_cells false (lay 0 w) f0 E = Some E' -> zlen E = cells (lay 0 w) -> Forall vd E -> held vd np G e -> paired R e E ->
  (forall r ls i i0 a b, 0 <= r < np -> ge_axes (G r) = lay gh ls -> Forall2 fits ls w -> lims_ok ls -> length ls = length gs -> 0 <= i < nodes (lay gh ls) -> 0 <= i0 < nodes (lay 0 w) ->
    position (lay gh ls) i = position (lay 0 w) i0 -> box ls (position (lay gh ls) i) -> box w (position (lay 0 w) i0) -> R a b -> vd a -> vd b -> fr r i a = f0 i0 b) ->
  (forall i0 c v, 0 <= i0 < nodes (lay 0 w) -> vd c -> f0 i0 c = Some v -> vd v) ->
  zlen E' = cells (lay 0 w) /\ Forall vd E' /\
  exists e1 H, (forall r, 0 <= r < np -> for_cells true (ge_axes (G r)) (fr r) (e r) = Some (e1 r)) /\ held vd np G e1 /\ owned np gs bs gh H e1 /\ on_whole H E'.
Proof using All.
  intros Es Le Ve He Hp Hf Hk. destruct (node_facts 0 w false ltac:(lia) ltac:(auto) whole_lo) as (P0 & I0 & O0).
  destruct (fold_pass_inv f0 (addr_int false (lay 0 w)) (zrange 0 (nodes (lay 0 w))) E E' (NoDup_zrange _ _)) as [L' C]; [intros i j Hi Hj; apply in_zrange in Hi, Hj; auto|exact Es|].
  assert (forall i0, 0 <= i0 < nodes (lay 0 w) -> exists c v, get E (encode (lay 0 w) (position (lay 0 w) i0)) = Some c /\ f0 i0 c = Some v /\ get E' (encode (lay 0 w) (position (lay 0 w) i0)) = Some v /\ vd c /\ vd v) as C'.
  { intros i0 Hi. destruct (C i0) as (c & v & G1 & F1 & R1); [now apply in_zrange|]. destruct (P0 i0 Hi) as (_ & Ea & _). rewrite Ea in G1, R1. exists c, v. split; [auto|]. split; [auto|]. split; [auto|].
    assert (vd c) by (rewrite Forall_forall in Ve; apply Ve; eapply get_In; eauto). split; [auto|]. eapply Hk; eauto. }
  destruct some_node as [y0 By0]. destruct (O0 y0 By0) as (k0 & Hk0 & _). destruct (C' k0 Hk0) as (v0 & _ & _).
  destruct (field_of v0 E' ltac:(congruence)) as [H Hh].
  split; [congruence|]. split.
  { apply Forall_forall. intros v Hv. destruct (fold_pass_make f0 (addr_int false (lay 0 w)) (zrange 0 (nodes (lay 0 w))) E (NoDup_zrange _ _)) as (E2 & X1 & X2).
    - intros i j Hi Hj; apply in_zrange in Hi, Hj; auto.
    - intros i Hi. destruct (C i Hi) as (c & u & ? & ? & _). eauto.
    - assert (E2 = E') as -> by (change (fold_opt (visit f0 (addr_int false (lay 0 w))) (zrange 0 (nodes (lay 0 w))) E = Some E') in Es; congruence).
      rewrite Forall_forall in Ve. destruct (X2 v Hv) as [X3|(i & c & Hi & Gc & Fc)]; [auto|]. apply in_zrange in Hi. eapply Hk; eauto. apply Ve. eapply get_In; eauto. }
  assert (forall r, 0 <= r < np -> exists u', for_cells true (ge_axes (G r)) (fr r) (e r) = Some u' /\ zlen u' = cells (ge_axes (G r)) /\ Forall vd u' /\
     forall y, owns (G r) y -> get u' (encode (ge_axes (G r)) y) = Some (H y)) as X0.
  { intros r Hr. destruct (lims_of r Hr) as (ls & Ea & Ff & Lo & Ll). destruct (He r Hr) as [Lu Vu]. cbv beta in Ea. rewrite Ea in Lu |- *.
    destruct (node_facts gh ls true ltac:(lia) ltac:(discriminate) Lo) as (P & I & O).
    assert (forall i, 0 <= i < nodes (lay gh ls) -> exists a v, get (e r) (addr_int true (lay gh ls) i) = Some a /\ fr r i a = Some v /\ vd v /\ H (position (lay gh ls) i) = v) as Each.
    { intros i Hi. destruct (P i Hi) as (Bi & Ei & _). assert (box w (position (lay gh ls) i)) as Bw by (eapply fits_box; eauto).
      destruct (O0 _ Bw) as (i0 & Hi0 & Ep). destruct (C' i0 Hi0) as (b & v & Gb & Fb & Gb' & Vb & Vv).
      destruct (Hp r (position (lay gh ls) i) Hr) as (a & b' & Ga & Gb2 & Rab); [unfold owns; cbv beta; now rewrite Ea, map_x0_lay, map_x1_lay|].
      cbv beta in Ga. rewrite Ea in Ga. assert (b' = b) as -> by (rewrite <- Ep in Gb2; congruence).
      exists a, v. rewrite Ei. split; [auto|]. split; [|split; [auto|]].
      - rewrite <- Fb. apply (Hf r ls); auto. now rewrite Ep. rewrite Forall_forall in Vu. apply Vu. eapply get_In; eauto.
      - rewrite <- Ep in *. destruct Hh as [_ Hh]. specialize (Hh _ Bw). congruence. }
    destruct (fold_pass_make (fr r) (addr_int true (lay gh ls)) (zrange 0 (nodes (lay gh ls))) (e r) (NoDup_zrange _ _)) as (u' & E1 & M).
    - intros i j Hi Hj; apply in_zrange in Hi, Hj; auto.
    - intros i Hi. apply in_zrange in Hi. destruct (Each i Hi) as (a & v & ? & ? & _). eauto.
    - exists u'. split; [exact E1|].
      destruct (fold_pass_inv (fr r) (addr_int true (lay gh ls)) (zrange 0 (nodes (lay gh ls))) (e r) u' (NoDup_zrange _ _)) as [Lu' Cu]; [intros i j Hi Hj; apply in_zrange in Hi, Hj; auto|exact E1|].
      split; [congruence|]. split.
      + apply Forall_forall. intros v Hv. destruct (M v Hv) as [Hd|(i & a & Hi & Ga & Fa)]; [rewrite Forall_forall in Vu; auto|]. apply in_zrange in Hi.
        destruct (Each i Hi) as (a' & v' & Ga' & Fa' & Vv & _). congruence.
      + intros y Oy. unfold owns in Oy. cbv beta in Oy. rewrite Ea, map_x0_lay, map_x1_lay in Oy. destruct (O y Oy) as (i & Hi & <-).
        destruct (Cu i) as (a & v & Ga & Fa & Gv); [now apply in_zrange|]. destruct (P i Hi) as (_ & Ei & _). rewrite <- Ei, Gv. destruct (Each i Hi) as (a' & v' & Ga' & Fa' & _ & ->). congruence. }
  exists (fun r => match for_cells true (ge_axes (G r)) (fr r) (e r) with Some u' => u' | None => [] end), H.
  split; [|split; [|split]].
  - intros r Hr. destruct (X0 r Hr) as (u' & E1 & _). cbv beta in E1 |- *. now rewrite E1.
  - intros r Hr. destruct (X0 r Hr) as (u' & E1 & ? & ? & _). cbv beta in E1 |- *. rewrite E1. auto.
  - intros r y Hr Oy. destruct (X0 r Hr) as (u' & E1 & _ & _ & Hy). cbv beta in E1, Hy |- *. rewrite E1. auto.
  - exact Hh.
Qed.

(* what a rank and the serial program read around a node *)
Lemma alike_rank {X} (F : list Z -> X) (d : Z -> list X) (D : list X) r ls x : stored np gs bs gh F d -> on_whole F D -> 0 <= r < np -> ge_axes (G r) = lay gh ls -> Forall2 fits ls w ->
  box ls x -> alike (lay gh ls) (d r) (lay 0 w) D x.
Proof using All.
  intros St [L A] Hr Ea Ff Bx. pose proof (fits_box ls w x Ff Bx) as Bw. pose proof (local_len ls x Bx) as Lx.
  assert (star true (lay gh ls) (d r) x (fun z => F (cbs w z))) as [S1 S2].
  { apply star_rank; auto. intros y By. rewrite <- Ea. rewrite whole_gaxes by auto. apply St; auto. change (in_box (map a_s0 (ge_axes (G r))) (map a_s1 (ge_axes (G r))) y). cbv beta in Ea |- *. rewrite Ea.
    destruct (lay_nth_x0 gh ls) as (_ & _ & -> & ->). exact By. }
  destruct (star_whole w F D x Sa A Bw) as [S3 S4]. split; [congruence|]. intros j Hj.
  assert (0 <= j < zlen (lay gh ls) /\ 0 <= j < zlen (lay 0 w)) as [J1 J2].
  { pose proof (local_len w x Bw). unfold zlen in *. rewrite !length_lay. lia. }
  destruct (S2 j J1), (S4 j J2). split; congruence.
Qed.

Lemma one_barrier {A} (P : Z -> proc A) ch : gsteps 1 (ranks np (fun r => barrier (P r)), ch) (ranks np P, ch).
Proof using All. apply gsteps_1. unfold barrier. apply (all_coll np 0 (fun _ => []) (fun r _ => P r) ch Hnp). Qed.
Lemma exchange {X A} (c : codec X) (vd : X -> Prop) F (d : Z -> list X) (K : Z -> list X -> proc A) ch : serialises c vd -> (forall v, vd v -> c_size c v <= B) -> held vd np G d -> owned np gs bs gh F d -> quiet ch ->
  exists d' k ch', quiet ch' /\ held vd np G d' /\ stored np gs bs gh F d' /\ gsteps k (ranks np (fun r => ghostswap c (G r) (d r) (K r)), ch) (ranks np (fun r => K r (d' r)), ch').
Proof using All.
  intros S HB Hd O Q. destruct (ghost_round c vd np gh gs G B (DCG np gs bs gh B Hnp Hne Hgh Lb Sa HI Hw) S HB B0 (HIG np gs bs gh B Hnp Hne Hgh Lb Sa HI Hw) d K ch Hd Q) as (d' & k & ch' & Q' & Hd' & I & Gs).
  exists d', k, ch'. split; [auto|]. split; [auto|]. split; [|exact Gs].
  exact (exchanged vd np gs bs gh B keep Hnp Hne Hgh Lb Sa HI Hw (keep_ok vd gs) F d d' O (I (wide_G np gs bs gh B Hnp Hne Hgh Lb Sa HI Hw))).
Qed.

(* ---- programs with one loop ---- *)
Section OneLoop.
Context {T : Type} (c : codec T) (valid : T -> Prop) (R : T -> T -> Prop) (step : bool -> list axis -> Z -> list T * list T -> option (list T * list T))
  (f : bool -> list axis -> Z -> list T -> Z -> T -> option T).
Context (S : serialises c valid) (HB : forall v, valid v -> c_size c v <= B) (Rr : forall v, valid v -> R v v).
Context (Hstep : forall mpi g ls t old new, 0 <= g -> (mpi = false -> g = 0) -> lims_ok ls -> zlen new = cells (lay g ls) ->
  step mpi (lay g ls) t (old, new) = do new' <- for_cells mpi (lay g ls) (f mpi (lay g ls) t old) new; Some (new', old)).
Context (Hlocal : forall t ls i i0 (old old0 : list T) (a b : T), lims_ok ls -> length ls = length gs -> 0 <= i < nodes (lay gh ls) -> 0 <= i0 < nodes (lay 0 w) -> position (lay gh ls) i = position (lay 0 w) i0 ->
  length (position (lay 0 w) i0) = length gs -> alike (lay gh ls) old (lay 0 w) old0 (position (lay 0 w) i0) -> Forall valid old0 -> R a b -> valid a -> valid b -> f true (lay gh ls) t old i a = f false (lay 0 w) t old0 i0 b).
Context (Hkeep : forall t (old : list T) i (a v : T), Forall valid old -> 0 <= i < nodes (lay 0 w) -> valid a -> f false (lay 0 w) t old i a = Some v -> valid v).

Lemma one_steps {A} (n : nat) : forall t F d u (D N : list T) st ch (K : Z -> list T -> proc A), on_whole F D -> Forall valid D -> held valid np G d -> stored np gs bs gh F d ->
  zlen N = cells (lay 0 w) -> Forall valid N -> held valid np G u -> paired R u N -> quiet ch -> steps_from t n (step false (lay 0 w)) (D, N) = Some st ->
  exists F' d' k ch', on_whole F' (fst st) /\ Forall valid (fst st) /\ held valid np G d' /\ stored np gs bs gh F' d' /\ quiet ch' /\
    gsteps k (ranks np (fun r => rank_steps step c (G r) t n (d r) (u r) (K r)), ch) (ranks np (fun r => K r (d' r)), ch').
Proof using All.
  induction n as [|n IH]; intros t F d u D N st ch K WD VD Hd St LN VN Hu Hp Q E; cbn [steps_from] in E.
  - inversion E; subst st. exists F, d, O, ch. cbn [fst rank_steps]. repeat (split; [auto; fail|]). constructor.
  - rewrite Hstep in E by (auto; try lia; apply whole_lo). destruct (for_cells false (lay 0 w) (f false (lay 0 w) t D) N) as [N'|] eqn:Ep; cbn [bind] in E; [|discriminate].
    destruct (pass_ranks valid R (f false (lay 0 w) t D) (fun r => f true (ge_axes (G r)) t (d r)) N N' u Ep LN VN Hu Hp) as (LN' & VN' & u1 & F1 & E1 & Hu1 & O1 & W1).
    { intros r ls i i0 a b Hr Ea Ff Lo Ll Hi Hi0 Epos Bi Bw Rab Va Vb. cbv beta in Ea |- *. rewrite Ea. apply Hlocal; auto.
      - apply local_len in Bw. rewrite Bw. apply length_whole; auto.
      - rewrite <- Epos. eapply alike_rank; eauto. }
    { intros i0 a v Hi Va Ev. exact (Hkeep t D i0 a v VD Hi Va Ev). }
    destruct (exchange c valid F1 u1 (fun r g => rank_steps step c (G r) (t + 1) n g (d r) (K r)) ch S HB Hu1 O1 Q) as (e & k & ch1 & Q1 & He & St1 & Gs).
    destruct (IH (t + 1) F1 e d N' D st ch1 K W1 VN' He St1 (proj1 WD) VD Hd (owned_paired R valid F d D Rr (stored_owned F d St) WD VD) Q1 E) as (F' & d' & k' & ch' & A1 & A2 & A3 & A4 & A5 & A6).
    exists F', d', (k + k')%nat, ch'. repeat (split; [auto; fail|]). eapply gsteps_app; [|exact A6]. erewrite ranks_ext; [exact Gs|]. intros r Hr. cbn [rank_steps].
    destruct (lims_of r Hr) as (ls & Ea & _ & Lo & _). specialize (E1 r Hr). destruct (Hu r Hr) as [Lu _]. cbv beta in Ea, E1, Lu |- *. rewrite Ea in E1, Lu |- *.
    rewrite Hstep by (auto; try lia; discriminate). rewrite E1. reflexivity.
Qed.

Fixpoint calls_ok (ns : Z -> list (nat * list T)) (ns0 : list (nat * list T)) : Prop :=
  match ns0 with
  | [] => forall r, 0 <= r < np -> ns r = []
  | (n, N) :: ns0 => exists u ns', (forall r, 0 <= r < np -> ns r = (n, u r) :: ns' r) /\ held valid np G u /\ paired R u N /\ zlen N = cells (lay 0 w) /\ Forall valid N /\ calls_ok ns' ns0
  end.
Lemma one_calls ns0 : forall t F d (D D' : list T) ns ch, on_whole F D -> Forall valid D -> held valid np G d -> owned np gs bs gh F d -> calls_ok ns ns0 -> quiet ch ->
  serial_calls step (lay 0 w) t ns0 D = Some D' ->
  exists F' d' k ch', on_whole F' D' /\ Forall valid D' /\ held valid np G d' /\ owned np gs bs gh F' d' /\ quiet ch' /\
    gsteps k (ranks np (fun r => rank_calls step c (G r) t (ns r) (d r)), ch) (ranks np (fun r => Ret (d' r)), ch').
Proof using All.
  induction ns0 as [|[n N] ns0 IH]; intros t F d D D' ns ch WD VD Hd Od Ok Q E; cbn [serial_calls] in E.
  - inversion E; subst D'. exists F, d, O, ch. repeat (split; [auto; fail|]). erewrite ranks_ext; [constructor|]. intros r Hr. rewrite (Ok r Hr). reflexivity.
  - destruct Ok as (u & ns' & En & Hu & Hp & LN & VN & Ok). destruct (steps_from t n (step false (lay 0 w)) (D, N)) as [st|] eqn:Es; cbn [bind] in E; [|discriminate].
    set (K := fun r (old : list T) => rank_calls step c (G r) (t + Z.of_nat n) (ns' r) old).
    destruct (exchange c valid F d (fun r old => barrier (rank_steps step c (G r) t n old (u r) (K r))) ch S HB Hd Od Q) as (e & k & ch1 & Q1 & He & St & Gs).
    destruct (one_steps n t F e u D N st ch1 K WD VD He St LN VN Hu Hp Q1 Es) as (F1 & d1 & k1 & ch2 & W1 & V1 & Hd1 & St1 & Q2 & Gs1).
    destruct (IH (t + Z.of_nat n) F1 d1 (fst st) D' ns' ch2 W1 V1 Hd1 (stored_owned F1 d1 St1) Ok Q2 E) as (F' & d' & k' & ch' & A1 & A2 & A3 & A4 & A5 & A6).
    exists F', d', (k + (1 + (k1 + k')))%nat, ch'. repeat (split; [auto; fail|]).
    eapply gsteps_app; [erewrite ranks_ext; [exact Gs|]|].
    { intros r Hr. rewrite (En r Hr). reflexivity. }
    eapply gsteps_app; [apply one_barrier|]. eapply gsteps_app; [exact Gs1|exact A6].
Qed.
End OneLoop.

(* ---- programs with two loops and a work grid ---- *)
Section TwoLoops.
Context {T U : Type} (c : codec T) (cu : codec U) (valid : T -> Prop) (uvalid : U -> Prop)
  (one : bool -> list axis -> Z -> list T -> list U -> option (list U)) (two : bool -> list axis -> Z -> list T -> list U -> list T -> option (list T))
  (f1 : bool -> list axis -> Z -> list T -> Z -> U -> option U) (f2 : bool -> list axis -> Z -> list T -> list U -> Z -> T -> option T).
Context (S : serialises c valid) (HB : forall v, valid v -> c_size c v <= B) (Su : serialises cu uvalid) (HBu : forall v, uvalid v -> c_size cu v <= B).
Context (Hone : forall mpi g ls t old temp, 0 <= g -> (mpi = false -> g = 0) -> lims_ok ls -> zlen temp = cells (lay g ls) ->
  one mpi (lay g ls) t old temp = for_cells mpi (lay g ls) (f1 mpi (lay g ls) t old) temp).
Context (Htwo : forall mpi g ls t old temp new, 0 <= g -> (mpi = false -> g = 0) -> lims_ok ls -> zlen new = cells (lay g ls) ->
  two mpi (lay g ls) t old temp new = for_cells mpi (lay g ls) (f2 mpi (lay g ls) t old temp) new).
Context (Hlocal1 : forall t ls i i0 (old old0 : list T) (a b : U), lims_ok ls -> length ls = length gs -> 0 <= i < nodes (lay gh ls) -> 0 <= i0 < nodes (lay 0 w) -> position (lay gh ls) i = position (lay 0 w) i0 ->
  length (position (lay 0 w) i0) = length gs -> alike (lay gh ls) old (lay 0 w) old0 (position (lay 0 w) i0) -> Forall valid old0 -> uvalid a -> uvalid b -> f1 true (lay gh ls) t old i a = f1 false (lay 0 w) t old0 i0 b).
Context (Hlocal2 : forall t ls i i0 (old old0 : list T) (temp temp0 : list U) (a b : T), lims_ok ls -> length ls = length gs -> 0 <= i < nodes (lay gh ls) -> 0 <= i0 < nodes (lay 0 w) -> position (lay gh ls) i = position (lay 0 w) i0 ->
  length (position (lay 0 w) i0) = length gs -> alike (lay gh ls) old (lay 0 w) old0 (position (lay 0 w) i0) -> alike (lay gh ls) temp (lay 0 w) temp0 (position (lay 0 w) i0) -> Forall valid old0 -> valid a -> valid b ->
  f2 true (lay gh ls) t old temp i a = f2 false (lay 0 w) t old0 temp0 i0 b).
Context (Hkeep1 : forall t (old : list T) i (a v : U), Forall valid old -> 0 <= i < nodes (lay 0 w) -> uvalid a -> f1 false (lay 0 w) t old i a = Some v -> uvalid v).
Context (Hkeep2 : forall t (old : list T) (temp : list U) i (a v : T), Forall valid old -> Forall uvalid temp -> 0 <= i < nodes (lay 0 w) -> valid a -> f2 false (lay 0 w) t old temp i a = Some v -> valid v).

Definition any {X} (_ _ : X) : Prop := True.
Lemma any_paired {X} (vd : X -> Prop) u (N : list X) : held vd np G u -> zlen N = cells (lay 0 w) -> paired any u N.
Proof using All.
  intros Hu LN r y Hr Oy. destruct (lims_of r Hr) as (ls & Ea & Ff & Lo & Ll). destruct (Hu r Hr) as [Lu _]. pose proof (owned_in_w r y Hr Oy) as By. cbv beta in Ea, Lu |- *. unfold owns in Oy. cbv beta in Oy. rewrite Ea in Oy, Lu |- *.
  destruct (get_ex (u r) (encode (lay gh ls) y)) as [a Ga].
  { rewrite Lu. apply (encode_bounds gh); [now apply wf_lay|]. apply (local_in_storage gh); [lia|now apply wf_lay|auto]. }
  destruct (get_ex N (encode (lay 0 w) y)) as [b Gb].
  { rewrite LN. apply (encode_bounds 0); [apply wf_lay, whole_lo|]. apply (local_in_storage 0); [lia|apply wf_lay, whole_lo|]. now rewrite map_x0_lay, map_x1_lay. }
  exists a, b. split; [auto|]. split; [auto|exact I].
Qed.

Lemma two_steps {A} (n : nat) : forall t F d u e (D N : list T) (E : list U) st ch (K : Z -> list T -> proc A), on_whole F D -> Forall valid D -> held valid np G d -> stored np gs bs gh F d ->
  zlen N = cells (lay 0 w) -> Forall valid N -> held valid np G u -> zlen E = cells (lay 0 w) -> Forall uvalid E -> held uvalid np G e -> quiet ch ->
  serial_steps2 one two (lay 0 w) t n D N E = Some st ->
  exists F' d' k ch', on_whole F' (fst (fst st)) /\ Forall valid (fst (fst st)) /\ held valid np G d' /\ stored np gs bs gh F' d' /\ quiet ch' /\
    gsteps k (ranks np (fun r => rank_steps2 one two c cu (G r) t n (d r) (u r) (e r) (K r)), ch) (ranks np (fun r => K r (d' r)), ch').
Proof using All.
  induction n as [|n IH]; intros t F d u e D N E st ch K WD VD Hd St LN VN Hu LE VE He Q Es; cbn [serial_steps2] in Es.
  - inversion Es; subst st. exists F, d, O, ch. cbn [fst rank_steps2]. repeat (split; [auto; fail|]). constructor.
  - rewrite Hone in Es by (auto; try lia; apply whole_lo). destruct (for_cells false (lay 0 w) (f1 false (lay 0 w) t D) E) as [E'|] eqn:Ep; cbn [bind] in Es; [|discriminate].
    destruct (pass_ranks uvalid any (f1 false (lay 0 w) t D) (fun r => f1 true (ge_axes (G r)) t (d r)) E E' e Ep LE VE He (any_paired uvalid e E He LE)) as (LE' & VE' & e1 & H1 & X1 & He1 & O1 & W1).
    { intros r ls i i0 a b Hr Ea Ff Lo Ll Hi Hi0 Epos Bi Bw _ Va Vb. cbv beta in Ea |- *. rewrite Ea. apply Hlocal1; auto.
      - apply local_len in Bw. rewrite Bw. apply length_whole; auto.
      - rewrite <- Epos. eapply alike_rank; eauto. }
    { intros i0 a v Hi Va Ev. exact (Hkeep1 t D i0 a v VD Hi Va Ev). }
    destruct (exchange cu uvalid H1 e1 (fun r temp => lift (two true (ge_axes (G r)) t (d r) temp (u r)) (fun new => ghostswap c (G r) new (fun g => rank_steps2 one two c cu (G r) (t + 1) n g (d r) temp (K r)))) ch Su HBu He1 O1 Q)
      as (e2 & k1 & ch1 & Q1 & He2 & St2 & Gs1).
    rewrite Htwo in Es by (auto; try lia; apply whole_lo). destruct (for_cells false (lay 0 w) (f2 false (lay 0 w) t D E') N) as [N'|] eqn:Ep2; cbn [bind] in Es; [|discriminate].
    destruct (pass_ranks valid any (f2 false (lay 0 w) t D E') (fun r => f2 true (ge_axes (G r)) t (d r) (e2 r)) N N' u Ep2 LN VN Hu (any_paired valid u N Hu LN)) as (LN' & VN' & u1 & F1 & X2 & Hu1 & O2 & W2).
    { intros r ls i i0 a b Hr Ea Ff Lo Ll Hi Hi0 Epos Bi Bw _ Va Vb. cbv beta in Ea |- *. rewrite Ea. apply Hlocal2; auto.
      - apply local_len in Bw. rewrite Bw. apply length_whole; auto.
      - rewrite <- Epos. eapply alike_rank; eauto.
      - rewrite <- Epos. eapply alike_rank; eauto. }
    { intros i0 a v Hi Va Ev. exact (Hkeep2 t D E' i0 a v VD VE' Hi Va Ev). }
    destruct (exchange c valid F1 u1 (fun r g => rank_steps2 one two c cu (G r) (t + 1) n g (d r) (e2 r) (K r)) ch1 S HB Hu1 O2 Q1) as (d1 & k2 & ch2 & Q2 & Hd1 & St1 & Gs2).
    destruct (IH (t + 1) F1 d1 d e2 N' D E' st ch2 K W2 VN' Hd1 St1 (proj1 WD) VD Hd LE' VE' He2 Q2 Es) as (F' & d' & k' & ch' & A1 & A2 & A3 & A4 & A5 & A6).
    exists F', d', (k1 + (k2 + k'))%nat, ch'. repeat (split; [auto; fail|]).
    eapply gsteps_app; [erewrite ranks_ext; [exact Gs1|]|eapply gsteps_app; [erewrite ranks_ext; [exact Gs2|]|exact A6]].
    + intros r Hr. cbn [rank_steps2]. destruct (lims_of r Hr) as (ls & Ea & _ & Lo & _). specialize (X1 r Hr). destruct (He r Hr) as [Lu _]. cbv beta in Ea, X1, Lu |- *. rewrite Ea in X1, Lu |- *.
      rewrite Hone by (auto; try lia; discriminate). rewrite X1. reflexivity.
    + intros r Hr. destruct (lims_of r Hr) as (ls & Ea & _ & Lo & _). specialize (X2 r Hr). destruct (Hu r Hr) as [Lu _]. cbv beta in Ea, X2, Lu |- *. rewrite Ea in X2, Lu |- *.
      rewrite Htwo by (auto; try lia; discriminate). rewrite X2. reflexivity.
Qed.

Fixpoint calls_ok2 (ns : Z -> list (nat * list T * list U)) (ns0 : list (nat * list T * list U)) : Prop :=
  match ns0 with
  | [] => forall r, 0 <= r < np -> ns r = []
  | (n, N, E) :: ns0 => exists u e ns', (forall r, 0 <= r < np -> ns r = (n, u r, e r) :: ns' r) /\ held valid np G u /\ held uvalid np G e /\ zlen N = cells (lay 0 w) /\ Forall valid N /\
      zlen E = cells (lay 0 w) /\ Forall uvalid E /\ calls_ok2 ns' ns0
  end.
Lemma two_calls ns0 : forall t F d (D D' : list T) ns ch, on_whole F D -> Forall valid D -> held valid np G d -> owned np gs bs gh F d -> calls_ok2 ns ns0 -> quiet ch ->
  serial_calls2 one two (lay 0 w) t ns0 D = Some D' ->
  exists F' d' k ch', on_whole F' D' /\ Forall valid D' /\ held valid np G d' /\ owned np gs bs gh F' d' /\ quiet ch' /\
    gsteps k (ranks np (fun r => rank_calls2 one two c cu (G r) t (ns r) (d r)), ch) (ranks np (fun r => Ret (d' r)), ch').
Proof using All.
  induction ns0 as [|[[n N] E] ns0 IH]; intros t F d D D' ns ch WD VD Hd Od Ok Q Ed; cbn [serial_calls2] in Ed.
  - inversion Ed; subst D'. exists F, d, O, ch. repeat (split; [auto; fail|]). erewrite ranks_ext; [constructor|]. intros r Hr. rewrite (Ok r Hr). reflexivity.
  - destruct Ok as (u & e0 & ns' & En & Hu & He0 & LN & VN & LE & VE & Ok). destruct (serial_steps2 one two (lay 0 w) t n D N E) as [st|] eqn:Es; cbn [bind] in Ed; [|discriminate].
    set (K := fun r (old : list T) => rank_calls2 one two c cu (G r) (t + Z.of_nat n) (ns' r) old).
    destruct (exchange c valid F d (fun r old => barrier (barrier (rank_steps2 one two c cu (G r) t n old (u r) (e0 r) (K r)))) ch S HB Hd Od Q) as (e & k & ch1 & Q1 & He & St & Gs).
    destruct (two_steps n t F e u e0 D N E st ch1 K WD VD He St LN VN Hu LE VE He0 Q1 Es) as (F1 & d1 & k1 & ch2 & W1 & V1 & Hd1 & St1 & Q2 & Gs1).
    destruct (IH (t + Z.of_nat n) F1 d1 (fst (fst st)) D' ns' ch2 W1 V1 Hd1 (stored_owned F1 d1 St1) Ok Q2 Ed) as (F' & d' & k' & ch' & A1 & A2 & A3 & A4 & A5 & A6).
    exists F', d', (k + (1 + (1 + (k1 + k'))))%nat, ch'. repeat (split; [auto; fail|]).
    eapply gsteps_app; [erewrite ranks_ext; [exact Gs|]|].
    { intros r Hr. rewrite (En r Hr). reflexivity. }
    eapply gsteps_app; [apply (one_barrier (fun r => barrier (rank_steps2 one two c cu (G r) t n (e r) (u r) (e0 r) (K r))))|].
    eapply gsteps_app; [apply one_barrier|]. eapply gsteps_app; [exact Gs1|exact A6].
Qed.
End TwoLoops.
End Main.
