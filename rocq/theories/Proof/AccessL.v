From Verif Require Import Model.Base Model.Boundary Model.Layout Model.Access Spec.Box Spec.Fold Spec.Access
  Proof.BaseL Proof.LayoutL.
From Coq Require Import ZifyBool.
Ltac Zify.zify_post_hook ::= Z.div_mod_to_equations.

Definition lims_ok (ls : list limits) := Forall (fun l => l_x0 l <= l_x1 l) ls.

Lemma map_x0_lay g ls : map a_x0 (lay g ls) = map l_x0 ls.
Proof. induction ls; simpl; congruence. Qed.
Lemma map_x1_lay g ls : map a_x1 (lay g ls) = map l_x1 ls.
Proof. induction ls; simpl; congruence. Qed.
Lemma map_s0_lay g ls : map a_s0 (lay g ls) = map (fun l => l_x0 l - g) ls.
Proof. induction ls; simpl; congruence. Qed.
Lemma map_s1_lay g ls : map a_s1 (lay g ls) = map (fun l => l_x1 l + g) ls.
Proof. induction ls; simpl; congruence. Qed.
Lemma length_lay g ls : length (lay g ls) = length ls.
Proof. induction ls; simpl; congruence. Qed.

Lemma grid_read_eq {T} mpi axs (data : list T) x :
  length x = length axs -> grid_read mpi axs data x = get data (encode axs (adjust mpi axs x)).
Proof. intros H. unfold grid_read. rewrite addr_vec_encode by lia. reflexivity. Qed.

Lemma grid_write_eq {T} mpi axs (data : list T) x v :
  length x = length axs -> grid_write mpi axs data x v = put data (encode axs (adjust mpi axs x)) v.
Proof. intros H. unfold grid_write. rewrite addr_vec_encode by lia. reflexivity. Qed.

Lemma local_len ls x : in_box (map l_x0 ls) (map l_x1 ls) x -> length x = length ls.
Proof. intros H. apply in_box_length in H as [H _]. now rewrite map_length in H. Qed.

Lemma local_encode {T} mpi g ls (data : list T) x :
  0 <= g -> lims_ok ls -> in_box (map l_x0 ls) (map l_x1 ls) x ->
  let axs := lay g ls in
  grid_read mpi axs data x = get data (encode axs x) /\
  (forall v, grid_write mpi axs data x v = put data (encode axs x) v) /\
  0 <= encode axs x < cells axs.
Proof.
  intros Hg Hl Hx axs. pose proof (wf_lay g ls Hl) as W.
  assert (in_box (map a_x0 axs) (map a_x1 axs) x) as Hx'.
  { subst axs. now rewrite map_x0_lay, map_x1_lay. }
  assert (length x = length axs) as Hlen.
  { subst axs; rewrite length_lay. eapply local_len; eauto. }
  rewrite grid_read_eq, (adjust_in mpi axs x Hx') by auto.
  split; [reflexivity|]. split.
  - intros v. rewrite grid_write_eq, (adjust_in mpi axs x Hx') by auto. reflexivity.
  - eapply encode_bounds; eauto. eapply local_in_storage; eauto.
Qed.

Lemma inrange_access {T} mpi g ls (data : list T) x v :
  0 <= g -> lims_ok ls -> zlen data = cells (lay g ls) ->
  in_box (map l_x0 ls) (map l_x1 ls) x ->
  exists data',
    grid_write mpi (lay g ls) data x v = Some data' /\
    zlen data' = zlen data /\
    grid_read mpi (lay g ls) data' x = Some v /\
    (forall y, in_box (map l_x0 ls) (map l_x1 ls) y -> y <> x ->
       grid_read mpi (lay g ls) data' y = grid_read mpi (lay g ls) data y /\
       grid_read mpi (lay g ls) data y <> None).
Proof.
  intros Hg Hl Hd Hx. pose proof (wf_lay g ls Hl) as W.
  destruct (local_encode mpi g ls data x Hg Hl Hx) as (Rx & Wx & Bx).
  destruct (put_ok data (encode (lay g ls) x) v) as []; [lia|].
  eexists. split; [rewrite Wx; apply put_ok; lia|].
  pose proof (put_ok data (encode (lay g ls) x) v ltac:(lia)) as HP.
  split; [eapply put_len; eauto|]. split.
  - destruct (local_encode mpi g ls (set_nth (Z.to_nat (encode (lay g ls) x)) data v) x Hg Hl Hx) as (R' & _ & _).
    rewrite R'. eapply get_put_eq; eauto.
  - intros y Hy Hne.
    destruct (local_encode mpi g ls (set_nth (Z.to_nat (encode (lay g ls) x)) data v) y Hg Hl Hy) as (R' & _ & By).
    destruct (local_encode mpi g ls data y Hg Hl Hy) as (Ry & _ & _).
    rewrite R', Ry. split.
    + eapply get_put_ne; eauto. intros E. apply Hne. symmetry.
      eapply (encode_inj g (lay g ls)); eauto; eapply local_in_storage; eauto;
        rewrite map_x0_lay, map_x1_lay; auto.
    + destruct (get_ok data (encode (lay g ls) y)) as [w ->]; [lia|]. discriminate.
Qed.

(* ---- folding ---- *)
Lemma check_boundary_image x x0 x1 b0 b1 :
  x0 < x1 -> x0 - (x1 - x0) < x -> x < x1 - 1 + (x1 - x0) ->
  (x < x0 -> b0 = 0 \/ b0 = 1 \/ b0 = 2 \/ b0 = 4) ->
  (x1 <= x -> b1 = 0 \/ b1 = 1 \/ b1 = 2 \/ b1 = 4) ->
  bc_image b0 b1 x0 x1 x (check_boundary false x x0 x1 b0 b1).
Proof.
  intros Hne Hlo Hhi Hb0 Hb1.
  unfold bc_image, image_below, image_above, check_boundary, mirror, Neumann, periodic, Dirichlet.
  simpl negb.
  destruct (Z.ltb_spec x x0) as [L|L].
  - specialize (Hb0 L). repeat split; intros; try lia.
    all: destruct Hb0 as [->|[->|[->| ->]]]; simpl; first [lia | exfalso; lia | exists 1; lia].
  - destruct (Z.leb_spec x1 x) as [M|M].
    + specialize (Hb1 M). repeat split; intros; try lia.
      all: destruct Hb1 as [->|[->|[->| ->]]]; simpl; first [lia | exfalso; lia | exists (-1); lia].
    + repeat split; intros; lia.
Qed.

(* per axis: x is close enough for one fold, and the side it left has a serial boundary type *)
Lemma adjust_image g ls x :
  Forall2 foldable ls x ->
  Forall2 image_of ls (combine x (adjust false (lay g ls) x)) /\
  in_box (map l_x0 ls) (map l_x1 ls) (adjust false (lay g ls) x).
Proof.
  induction 1 as [|l c ls x Hf _ IH]; simpl; [split; [constructor|exact I]|].
  destruct IH as [I1 I2]. destruct Hf as (F1 & F2 & F3 & F4).
  assert (bc_image (l_b0 l) (l_b1 l) (l_x0 l) (l_x1 l) c
            (check_boundary false c (l_x0 l) (l_x1 l) (l_b0 l) (l_b1 l))) as B.
  { apply check_boundary_image; auto; lia. }
  split; [constructor; auto|]. split; [|exact I2]. destruct B; lia.
Qed.

Lemma Forall2_foldable_ok ls x : Forall2 foldable ls x -> lims_ok ls /\ length x = length ls.
Proof.
  induction 1 as [|l c ls x Hf _ [IH1 IH2]]; simpl; [split; [constructor|reflexivity]|].
  split; [constructor; auto|congruence]. destruct Hf; lia.
Qed.

Lemma fold_access {T} g ls (data : list T) x :
  0 <= g -> zlen data = cells (lay g ls) -> Forall2 foldable ls x ->
  exists y, Forall2 image_of ls (combine x y) /\ length y = length x /\
    grid_read false (lay g ls) data x = grid_read false (lay g ls) data y /\
    grid_read false (lay g ls) data x <> None /\
    (forall v, grid_write false (lay g ls) data x v = grid_write false (lay g ls) data y v).
Proof.
  intros Hg Hd Hf. destruct (adjust_image g ls x Hf) as [A1 A2].
  destruct (Forall2_foldable_ok _ _ Hf) as [Hl Hlen].
  exists (adjust false (lay g ls) x).
  destruct (local_encode false g ls data _ Hg Hl A2) as (R & Wr & B).
  rewrite grid_read_eq by (rewrite length_lay; auto).
  split; [auto|]. split; [|split; [|split]].
  - rewrite Hlen. eapply local_len; eauto.
  - now rewrite R.
  - destruct (get_ok data (encode (lay g ls) (adjust false (lay g ls) x))) as [w ->]; [lia|discriminate].
  - intros v. rewrite Wr. rewrite grid_write_eq by (rewrite length_lay; auto). reflexivity.
Qed.

(* ---- halo access, MPI build ---- *)
Lemma adjust_halo g ls x :
  Forall (fun l => l_x0 l < l_x1 l) ls ->
  in_box (map (fun l => l_x0 l - g) ls) (map (fun l => l_x1 l + g) ls) x ->
  in_box (map (fun l => l_x0 l - g) ls) (map (fun l => l_x1 l + g) ls) (adjust true (lay g ls) x).
Proof.
  intros H; revert x; induction H as [|l ls Hl _ IH]; intros [|c x]; simpl; try easy.
  intros [Hc Hx]. split; [|auto]. clear - Hl Hc. unfold check_boundary, mirror.
  destruct (Z.ltb_spec c (l_x0 l)); [|destruct (Z.leb_spec (l_x1 l) c)]; simpl;
    repeat match goal with |- context [if ?b then _ else _] => destruct b end; lia.
Qed.

Lemma adjust_through g ls x : Forall2 through ls x -> adjust true (lay g ls) x = x.
Proof.
  induction 1 as [|l c ls x [H1 H2] _ IH]; simpl; [reflexivity|]. rewrite IH. f_equal.
  unfold check_boundary, mirror, Neumann, Dirichlet, periodic, parallel in *.
  destruct (Z.ltb_spec c (l_x0 l)) as [L|L]; [destruct (H1 L) as [-> | ->]; reflexivity|].
  destruct (Z.leb_spec (l_x1 l) c) as [M|M]; [destruct (H2 M) as [-> | ->]; reflexivity|]. reflexivity.
Qed.

Lemma halo_access {T} g ls (data : list T) x :
  0 <= g -> Forall (fun l => l_x0 l < l_x1 l) ls -> zlen data = cells (lay g ls) ->
  in_box (map (fun l => l_x0 l - g) ls) (map (fun l => l_x1 l + g) ls) x ->
  grid_read true (lay g ls) data x <> None /\
  (Forall2 through ls x -> grid_read true (lay g ls) data x = get data (encode (lay g ls) x)).
Proof.
  intros Hg Hl Hd Hx.
  assert (lims_ok ls) as Hok by (eapply Forall_impl; [|exact Hl]; simpl; lia).
  pose proof (wf_lay g ls Hok) as W.
  assert (length x = length (lay g ls)) as Hlen.
  { apply in_box_length in Hx as [H _]. rewrite map_length in H. now rewrite length_lay. }
  rewrite grid_read_eq by auto. split.
  - pose proof (adjust_halo g ls x Hl Hx) as Ha.
    rewrite <- map_s0_lay, <- map_s1_lay in Ha.
    pose proof (encode_bounds _ _ _ W Ha).
    destruct (get_ok data (encode (lay g ls) (adjust true (lay g ls) x))) as [w ->]; [lia|discriminate].
  - intros Ht. now rewrite adjust_through.
Qed.

(* ---- index access ---- *)
Lemma read_int_position {T} mpi g ls (data : list T) i :
  0 <= g -> (mpi = false -> g = 0) -> lims_ok ls ->
  0 <= i < nodes (lay g ls) ->
  grid_read_int mpi (lay g ls) data i = grid_read mpi (lay g ls) data (position (lay g ls) i) /\
  (forall v, grid_write_int mpi (lay g ls) data i v = grid_write mpi (lay g ls) data (position (lay g ls) i) v).
Proof.
  intros Hg Hs Hl Hi. pose proof (wf_lay g ls Hl) as W.
  destruct (position_spec _ _ _ W Hi) as [P1 P2].
  assert (in_box (map l_x0 ls) (map l_x1 ls) (position (lay g ls) i)) as P1'.
  { rewrite map_x0_lay, map_x1_lay in P1; auto. }
  destruct (local_encode mpi g ls data _ Hg Hl P1') as (R & Wr & _).
  unfold grid_read_int, grid_write_int. rewrite R.
  assert (addr_int mpi (lay g ls) i = encode (lay g ls) (position (lay g ls) i)) as ->.
  { unfold addr_int. destruct mpi; [reflexivity|].
    rewrite (Hs eq_refl) in *. rewrite encode_index_serial by auto. congruence. }
  split; [reflexivity|]. intros v. now rewrite Wr.
Qed.
