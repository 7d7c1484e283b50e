From Coq Require Import String Sorted Permutation QArith.QArith QArith.Qcanon.
From Verif Require Import Model.Base Model.Text Model.Num Model.Boundary Model.Layout Model.Access Model.Sparse Model.File Model.Stencil Model.Evolve Model.Image Model.Vtk Model.Table.
From Verif Require Import Spec.Box Spec.Access Spec.Image Spec.Table.
From Verif Require Import Proof.BaseL Proof.TextL Proof.LayoutL Proof.AccessL Proof.ImageL Proof.ImageF.
Local Open Scope list_scope.
Local Open Scope Z_scope.

(* ---- splitting ---- *)
Lemma split_nonnil sep s : split sep s <> [].
Proof. destruct s as [|b t]; cbn [split]; [easy|]. destruct (b =? sep); [easy|]. now destruct (split sep t). Qed.
Lemma split_app sep w r : ~ In sep w -> split sep (w ++ sep :: r) = w :: split sep r.
Proof.
  induction w as [|b w IH]; intros H; cbn [List.app split].
  - now rewrite Z.eqb_refl.
  - destruct (b =? sep) eqn:E; [apply Z.eqb_eq in E; subst; exfalso; apply H; now left|]. rewrite IH by (intros X; apply H; now right). reflexivity.
Qed.
Lemma split_one sep w : ~ In sep w -> split sep w = [w].
Proof.
  induction w as [|b w IH]; intros H; cbn [split]; [reflexivity|].
  destruct (b =? sep) eqn:E; [apply Z.eqb_eq in E; subst; exfalso; apply H; now left|]. rewrite IH by (intros X; apply H; now right). reflexivity.
Qed.
Lemma split_tabs w ws : Forall word (w :: ws) -> split 9 (w ++ flat_map (fun w => (9 : byte) :: w) ws) = w :: ws.
Proof.
  revert w; induction ws as [|u ws IH]; intros w H; apply Forall_cons_iff in H as [H1 H2].
  - cbn [flat_map]. rewrite app_nil_r. apply split_one, H1.
  - cbn [flat_map]. rewrite <- app_comm_cons. rewrite split_app by apply H1. f_equal. now apply IH.
Qed.
Lemma tabs_no_newline w ws : Forall word (w :: ws) -> ~ In 10 (w ++ flat_map (fun w => (9 : byte) :: w) ws).
Proof.
  intros H I. apply in_app_or in I as [I|I].
  - apply Forall_cons_iff in H as [H _]. now apply H.
  - apply in_flat_map in I as (u & Hu & [I|I]); [lia|]. apply Forall_cons_iff in H as [_ H]. rewrite Forall_forall in H. now apply (H u).
Qed.
Lemma lines_app l r : ~ In 10 l -> lines (l ++ (10 : byte) :: r) = l :: lines r.
Proof.
  intros H. unfold lines. rewrite split_app by auto. cbn [removelast]. destruct (split 10 r) eqn:E; [now apply split_nonnil in E|]. reflexivity.
Qed.
Lemma lines_concat ls : Forall (fun l => ~ In 10 l) ls -> lines (List.concat (map (fun l => l ++ [(10 : byte)]) ls)) = ls.
Proof.
  induction ls as [|l ls IH]; intros H; [reflexivity|]. apply Forall_cons_iff in H as [H1 H2]. cbn [map List.concat].
  rewrite <- app_assoc. cbn [List.app]. rewrite lines_app by auto. f_equal. now apply IH.
Qed.
(* the number of lines is the number of newlines *)
Lemma split_count sep s : List.length (split sep s) = S (count_occ Z.eq_dec s sep).
Proof.
  induction s as [|b t IH]; [reflexivity|]. cbn [split count_occ]. destruct (b =? sep) eqn:E.
  - apply Z.eqb_eq in E. destruct (Z.eq_dec b sep); [|easy]. cbn. now rewrite IH.
  - apply Z.eqb_neq in E. destruct (Z.eq_dec b sep); [easy|]. rewrite <- IH. destruct (split sep t) eqn:X; [now apply split_nonnil in X|reflexivity].
Qed.
Lemma removelast_length {A} (l : list A) : List.length (removelast l) = Nat.pred (List.length l).
Proof. induction l as [|a l IH]; [reflexivity|]. cbn [removelast]. destruct l; [reflexivity|]. cbn [List.length] in *. rewrite IH. reflexivity. Qed.
Lemma lines_count s : List.length (lines s) = count_occ Z.eq_dec s 10.
Proof. unfold lines. now rewrite removelast_length, split_count. Qed.

(* ---- nodes in order ---- *)
Lemma sorted_zrange {A} (R : A -> A -> Prop) (f : Z -> A) lo hi : (forall i j, lo <= i -> i < j -> j < hi -> R (f i) (f j)) -> StronglySorted R (map f (zrange lo hi)).
Proof.
  intros H. destruct (Z_le_dec hi lo) as [L|L]; [rewrite zrange_nil by auto; constructor|].
  revert lo L H. assert (forall n lo, hi - lo <= Z.of_nat n -> (forall i j, lo <= i -> i < j -> j < hi -> R (f i) (f j)) -> StronglySorted R (map f (zrange lo hi))) as X.
  { induction n as [|n IH]; intros lo L H; [rewrite zrange_nil by lia; constructor|].
    destruct (Z_lt_dec lo hi) as [L'|L']; [|rewrite zrange_nil by lia; constructor]. rewrite zrange_cons by auto. cbn [map]. constructor.
    - apply IH; [lia|]. intros; apply H; lia.
    - apply Forall_forall. intros a Ha. apply in_map_iff in Ha as (j & <- & Hj). apply in_zrange in Hj. apply H; lia. }
  intros lo L H. apply (X (Z.to_nat (hi - lo))); [lia|auto].
Qed.
Lemma sorted_filter {A} (R : A -> A -> Prop) p l : StronglySorted R l -> StronglySorted R (filter p l).
Proof.
  induction 1 as [|a l S IH F]; cbn [filter]; [constructor|]. destruct (p a); [|auto]. constructor; [auto|].
  rewrite Forall_forall in *. intros x Hx. apply filter_In in Hx as [Hx _]. auto.
Qed.

Section Serial.
Context (ls : list limits) (Hs : serial_box ls).
Local Notation axs := (lay 0 ls).
Lemma sb_ok : lims_ok ls.
Proof. now apply serial_lims. Qed.
Lemma nodes_list : all_nodes (map l_g0 ls) (map l_g1 ls) (fun _ => True) (map (position axs) (zrange 0 (nodes axs))).
Proof.
  pose proof (wf_lay 0 ls sb_ok) as W.
  assert (map l_g0 ls = map a_x0 axs /\ map l_g1 ls = map a_x1 axs) as [-> ->].
  { rewrite map_x0_lay, map_x1_lay. unfold serial_box in Hs. split; apply map_ext_in; intros l Hl; rewrite Forall_forall in Hs; apply Hs in Hl; lia. }
  split.
  - intros x. rewrite in_map_iff. split.
    + intros (i & <- & Hi). apply in_zrange in Hi. split; [|auto]. now apply (position_spec 0).
    + intros [Hx _]. apply (position_onto 0) in Hx as (i & Hi & <-); [|auto]. exists i. split; [auto|]. now apply in_zrange.
  - apply sorted_zrange. intros i j Hi Hij Hj. apply (position_row_major 0); auto; lia.
Qed.
Lemma box_read {T} (data : list T) x : zlen data = nodes axs -> in_box (map l_g0 ls) (map l_g1 ls) x -> exists v, grid_read false axs data x = Some v.
Proof.
  intros L Hx. pose proof (proj2 (proj1 nodes_list x) (conj Hx I)) as Hi.
  apply in_map_iff in Hi as (i & <- & Hi). apply in_zrange in Hi.
  destruct (read_int_position false 0 ls data i ltac:(lia) ltac:(auto) sb_ok Hi) as [<- _]. unfold grid_read_int, addr_int. apply get_ok. lia.
Qed.
Lemma place_ok dx x : List.length dx = List.length ls -> List.length x = List.length ls -> place axs dx x = Some (coordinates dx x).
Proof.
  intros H1 H2. unfold place. replace (zlen axs) with (zlen ls) by (unfold zlen; now rewrite length_lay).
  revert H1 H2. clear Hs. unfold coordinates, zlen. generalize (List.length ls) as n. clear ls. intros n. revert dx x.
  induction n as [|n IH]; intros [|h dx] [|c x]; try discriminate; intros H1 H2; [reflexivity|].
  injection H1 as H1. injection H2 as H2. rewrite zrange_cons by lia. replace (0 + 1) with 1 by lia.
  replace (zrange 1 (Z.of_nat (S n))) with (map (fun y => y + 1) (zrange 0 (Z.of_nat n))) by (rewrite <- zrange_shift; f_equal; lia).
  cbn [map_opt]. cbn [get]. change (get (h :: dx) 0) with (Some h). change (get (c :: x) 0) with (Some c). cbn [bind].
  specialize (IH dx x H1 H2). cbn [combine map fst snd]. 
  assert (forall (f : Z -> option Qc) g (is : list Z), (forall i, In i is -> f (g i) = (fun d => do h <- get dx d; do c <- get x d; Some (h * int2q c)%Qc) i) -> map_opt f (map g is) = map_opt (fun d => do h <- get dx d; do c <- get x d; Some (h * int2q c)%Qc) is) as X.
  { intros f g is. induction is as [|i is IHi]; intros H; [reflexivity|]. cbn [map map_opt]. rewrite H by now left. rewrite IHi by (intros; apply H; now right). reflexivity. }
  rewrite X; [now rewrite IH|]. intros i Hi. apply in_zrange in Hi. unfold get. replace (i + 1 <? 0) with false by lia. replace (i <? 0) with false by lia.
  replace (Z.to_nat (i + 1)) with (S (Z.to_nat i)) by lia. reflexivity.
Qed.
Lemma position_len i : 0 <= i < nodes axs -> List.length (position axs i) = List.length ls.
Proof. clear. intros _. assert (forall l i, List.length (position l i) = List.length l) as X by (induction l; intros; cbn; auto). now rewrite X, length_lay. Qed.
End Serial.
