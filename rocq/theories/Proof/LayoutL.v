From Verif Require Import Model.Base Model.Boundary Model.Layout Spec.Box Spec.Access Proof.BaseL.
From Coq Require Import ZifyBool.
Ltac Zify.zify_post_hook ::= Z.div_mod_to_equations.

Lemma cells_lay g ls :
  cells (lay g ls) = prodZ (map (fun m => (l_x1 m + g) - (l_x0 m - g)) ls).
Proof. destruct ls as [|l t]; simpl; [reflexivity|]. rewrite prodZ_cons. lia. Qed.

Lemma nodes_lay g ls : nodes (lay g ls) = prodZ (map (fun m => l_x1 m - l_x0 m) ls).
Proof. destruct ls as [|l t]; simpl; [reflexivity|]. rewrite prodZ_cons. lia. Qed.

Lemma wf_lay g ls : Forall (fun l => l_x0 l <= l_x1 l) ls -> wf_axes g (lay g ls).
Proof.
  induction 1 as [|l t Hl Ht IH]; simpl; [exact I|].
  rewrite cells_lay, nodes_lay. repeat split; auto.
Qed.

Lemma cells_nonneg g axs : 0 <= g -> wf_axes g axs -> 0 <= cells axs.
Proof.
  intros Hg. induction axs as [|a t IH]; simpl; intros H; [lia|].
  destruct H as (H0 & H1 & Hx & Hs & _ & Ht). specialize (IH Ht). rewrite Hs. nia.
Qed.
Lemma nodes_nonneg g axs : wf_axes g axs -> 0 <= nodes axs.
Proof.
  induction axs as [|a t IH]; simpl; intros H; [lia|].
  destruct H as (H0 & H1 & Hx & _ & Hs & Ht). specialize (IH Ht). rewrite Hs. nia.
Qed.

Lemma encode_bounds g axs x :
  wf_axes g axs -> in_box (map a_s0 axs) (map a_s1 axs) x -> 0 <= encode axs x < cells axs.
Proof.
  revert x; induction axs as [|a t IH]; intros [|c x]; simpl; intros W H; try easy.
  destruct W as (H0 & H1 & Hx & Hs & _ & Ht). destruct H as [Hc Hb].
  specialize (IH _ Ht Hb). rewrite Hs. nia.
Qed.

Lemma encode_inj g axs x y :
  wf_axes g axs -> in_box (map a_s0 axs) (map a_s1 axs) x ->
  in_box (map a_s0 axs) (map a_s1 axs) y -> encode axs x = encode axs y -> x = y.
Proof.
  revert x y; induction axs as [|a t IH]; intros [|c x] [|d y]; simpl; intros W H H' E; try easy.
  destruct W as (H0 & H1 & Hx & Hs & _ & Ht). destruct H as [Hc Hb], H' as [Hd Hb'].
  pose proof (encode_bounds _ _ _ Ht Hb). pose proof (encode_bounds _ _ _ Ht Hb').
  rewrite Hs in E. assert (c = d) by nia. subst d. f_equal. eapply IH; eauto. lia.
Qed.

Lemma in_box_length lo hi x : in_box lo hi x -> length x = length lo /\ length hi = length lo.
Proof.
  revert hi x; induction lo as [|l lo IH]; intros [|h hi] [|c x]; simpl; try easy.
  intros [_ H]. apply IH in H as [-> ->]. auto.
Qed.

Lemma in_box_mono lo hi lo' hi' x :
  Forall2 Z.le lo' lo -> Forall2 Z.le hi hi' -> in_box lo hi x -> in_box lo' hi' x.
Proof.
  intros H; revert hi hi' x; induction H as [|l' l lo' lo Hl Hlo IH]; intros hi hi' x Hh B.
  - destruct Hh; destruct x; simpl in *; easy.
  - destruct Hh as [|h h' hi hi' Hh Hhi]; destruct x as [|c x]; simpl in *; try easy.
    destruct B as [B1 B2]. split; [lia|]. eapply IH; eauto.
Qed.

Lemma local_in_storage g axs x :
  0 <= g -> wf_axes g axs ->
  in_box (map a_x0 axs) (map a_x1 axs) x -> in_box (map a_s0 axs) (map a_s1 axs) x.
Proof.
  intros Hg. revert x; induction axs as [|a t IH]; intros [|c x]; simpl; intros W H; try easy.
  destruct W as (H0 & H1 & Hx & Hs & _ & Ht). destruct H as [Hc Hb]. split; [lia|]. auto.
Qed.

(* the coordinate actually addressed *)
Fixpoint adjust (mpi : bool) (axs : list axis) (x : list Z) : list Z :=
  match axs, x with
  | a :: axs', c :: x' =>
      check_boundary mpi c (a_x0 a) (a_x1 a) (a_b0 a) (a_b1 a) :: adjust mpi axs' x'
  | _, _ => []
  end.

Lemma addr_vec_encode mpi axs x p :
  (length axs <= length x)%nat ->
  addr_vec mpi axs x p = Some (p + encode axs (adjust mpi axs x)).
Proof.
  revert x p; induction axs as [|a t IH]; intros [|c x] p; simpl; intros H; try lia.
  - f_equal; lia.
  - f_equal; lia.
  - rewrite IH by lia. f_equal. lia.
Qed.

Lemma check_boundary_in mpi x x0 x1 b0 b1 : x0 <= x < x1 -> check_boundary mpi x x0 x1 b0 b1 = x.
Proof.
  intros H. unfold check_boundary.
  destruct (Z.ltb_spec x x0); [lia|]. destruct (Z.leb_spec x1 x); [lia|]. reflexivity.
Qed.

Lemma adjust_in mpi axs x :
  in_box (map a_x0 axs) (map a_x1 axs) x -> adjust mpi axs x = x.
Proof.
  revert x; induction axs as [|a t IH]; intros [|c x]; simpl; intros H; try easy.
  destruct H as [Hc Hb]. rewrite check_boundary_in by lia. f_equal. auto.
Qed.

Lemma addr_chain_vec_aux mpi pre axs x p :
  length x = length axs ->
  addr_chain mpi (pre ++ axs) (length pre) p x = addr_vec mpi axs x p.
Proof.
  revert pre x p; induction axs as [|a t IH]; intros pre [|c x] p; simpl; intros H; try lia; auto.
  unfold subscript. rewrite nth_error_app2 by lia. rewrite Nat.sub_diag. simpl.
  specialize (IH (pre ++ [a]) x (p + (check_boundary mpi c (a_x0 a) (a_x1 a) (a_b0 a) (a_b1 a) - a_s0 a) * a_sx a)).
  rewrite <- IH by lia. rewrite <- app_assoc, app_length. simpl. f_equal. lia.
Qed.

Lemma addr_chain_vec mpi axs x p :
  length x = length axs -> addr_chain mpi axs 0 p x = addr_vec mpi axs x p.
Proof. intros H. exact (addr_chain_vec_aux mpi [] axs x p H). Qed.

(* position *)
Fixpoint index (axs : list axis) (x : list Z) : Z :=
  match axs, x with
  | a :: axs', c :: x' => (c - a_x0 a) * a_xx a + index axs' x'
  | _, _ => 0
  end.

Lemma index_bounds g axs x :
  wf_axes g axs -> in_box (map a_x0 axs) (map a_x1 axs) x -> 0 <= index axs x < nodes axs.
Proof.
  revert x; induction axs as [|a t IH]; intros [|c x]; simpl; intros W H; try easy.
  destruct W as (H0 & H1 & Hx & _ & Hs & Ht). destruct H as [Hc Hb].
  specialize (IH _ Ht Hb). rewrite Hs. nia.
Qed.

Lemma position_spec g axs i :
  wf_axes g axs -> 0 <= i < nodes axs ->
  in_box (map a_x0 axs) (map a_x1 axs) (position axs i) /\ index axs (position axs i) = i.
Proof.
  revert i; induction axs as [|a t IH]; intros i; simpl; intros W H; [split; [exact I|lia]|].
  destruct W as (H0 & H1 & Hx & _ & Hs & Ht). rewrite Hs in *.
  pose proof (nodes_nonneg _ _ Ht) as Hn.
  assert (0 < nodes t) as Hp by nia.
  rewrite Z.quot_div_nonneg by lia.
  set (n := i / nodes t).
  assert (0 <= n < a_x1 a - a_x0 a).
  { subst n. split; [apply Z.div_pos; lia|]. apply Z.div_lt_upper_bound; lia. }
  assert (0 <= i - n * nodes t < nodes t).
  { subst n. rewrite Z.mul_comm, <- Z.mod_eq by lia. apply Z.mod_pos_bound; lia. }
  destruct (IH _ Ht H3) as [I1 I2]. repeat split; auto; lia.
Qed.

Lemma index_inj g axs x y :
  wf_axes g axs -> in_box (map a_x0 axs) (map a_x1 axs) x ->
  in_box (map a_x0 axs) (map a_x1 axs) y -> index axs x = index axs y -> x = y.
Proof.
  revert x y; induction axs as [|a t IH]; intros [|c x] [|d y]; simpl; intros W H H' E; try easy.
  destruct W as (H0 & H1 & Hx & _ & Hs & Ht). destruct H as [Hc Hb], H' as [Hd Hb'].
  pose proof (index_bounds _ _ _ Ht Hb). pose proof (index_bounds _ _ _ Ht Hb').
  rewrite Hs in E. assert (c = d) by nia. subst d. f_equal. eapply IH; eauto. lia.
Qed.

Lemma position_index g axs x :
  wf_axes g axs -> in_box (map a_x0 axs) (map a_x1 axs) x -> position axs (index axs x) = x.
Proof.
  intros W H. pose proof (index_bounds _ _ _ W H) as Hi.
  destruct (position_spec _ _ _ W Hi) as [P1 P2]. eapply index_inj; eauto.
Qed.

Lemma index_lex g axs x y :
  wf_axes g axs -> in_box (map a_x0 axs) (map a_x1 axs) x ->
  in_box (map a_x0 axs) (map a_x1 axs) y -> lex_lt x y -> index axs x < index axs y.
Proof.
  revert x y; induction axs as [|a t IH]; intros [|c x] [|d y]; simpl; intros W H H' E; try easy.
  destruct W as (H0 & H1 & Hx & _ & Hs & Ht). destruct H as [Hc Hb], H' as [Hd Hb'].
  pose proof (index_bounds _ _ _ Ht Hb). pose proof (index_bounds _ _ _ Ht Hb').
  rewrite Hs. destruct E as [E|[E1 E2]]; [nia|]. subst d. specialize (IH _ _ Ht Hb Hb' E2). lia.
Qed.

Lemma lex_total lo hi x y : in_box lo hi x -> in_box lo hi y -> lex_lt x y \/ x = y \/ lex_lt y x.
Proof.
  revert hi x y; induction lo as [|l lo IH]; intros [|h hi] [|c x] [|d y]; simpl; try easy; auto.
  intros [_ Hx] [_ Hy]. destruct (Z.lt_trichotomy c d) as [|[->|]]; auto.
  destruct (IH _ _ _ Hx Hy) as [|[->|]]; auto.
Qed.

Lemma encode_index_serial axs x :
  wf_axes 0 axs -> encode axs x = index axs x.
Proof.
  assert (forall t, wf_axes 0 t -> cells t = nodes t) as CN.
  { induction t as [|a t IH]; simpl; intros W; [reflexivity|].
    destruct W as (H0 & H1 & Hx & Hc & Hs & Ht). rewrite Hc, Hs, H0, H1, (IH Ht). f_equal; lia. }
  revert x; induction axs as [|a t IH]; intros [|c x]; simpl; intros W; auto.
  destruct W as (H0 & H1 & Hx & Hc & Hs & Ht). rewrite IH by auto. rewrite Hc, Hs, CN by auto. f_equal. lia.
Qed.

Lemma position_into g axs i : wf_axes g axs -> 0 <= i < nodes axs ->
  in_box (map a_x0 axs) (map a_x1 axs) (position axs i) /\
  (forall j, 0 <= j < nodes axs -> position axs j = position axs i -> j = i).
Proof.
  intros W Hi. destruct (position_spec _ _ _ W Hi) as [P1 P2]. split; [exact P1|].
  intros j Hj E. destruct (position_spec _ _ _ W Hj) as [_ P3]. rewrite <- P3, E. exact P2.
Qed.

Lemma position_onto g axs x : wf_axes g axs ->
  in_box (map a_x0 axs) (map a_x1 axs) x ->
  exists i, 0 <= i < nodes axs /\ position axs i = x.
Proof.
  intros W H. exists (index axs x). split; [eapply index_bounds; eauto|eapply position_index; eauto].
Qed.

Lemma lex_irrefl x : ~ lex_lt x x.
Proof. induction x as [|a x IH]; simpl; [auto|]. intros [H|[_ H]]; [lia|auto]. Qed.

Lemma position_row_major g axs i j : wf_axes g axs ->
  0 <= i < nodes axs -> 0 <= j < nodes axs ->
  (i < j <-> lex_lt (position axs i) (position axs j)).
Proof.
  intros W Hi Hj. destruct (position_spec _ _ _ W Hi) as [Pi Ei], (position_spec _ _ _ W Hj) as [Pj Ej].
  split; intros H.
  - destruct (lex_total _ _ _ _ Pi Pj) as [L|[E|L]]; [exact L| |].
    + rewrite E in Ei. lia.
    + apply (index_lex _ _ _ _ W Pj Pi) in L. lia.
  - apply (index_lex _ _ _ _ W Pi Pj) in H. lia.
Qed.

Lemma layout_wf g ls : Forall (fun l => l_x0 l <= l_x1 l) ls ->
  wf_axes g (lay g ls) /\ nodes (lay g ls) = prodZ (map (fun m => l_x1 m - l_x0 m) ls) /\
  cells (lay g ls) = prodZ (map (fun m => (l_x1 m + g) - (l_x0 m - g)) ls).
Proof. intros H. repeat split; [apply wf_lay; auto|apply nodes_lay|apply cells_lay]. Qed.
