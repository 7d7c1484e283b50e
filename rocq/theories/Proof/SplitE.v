(* Summation by parts, and what the equations of the semi-implicit Cahn-Hilliard scheme imply. *)
From Coq Require Import QArith.QArith QArith.Qcanon Sorting.Permutation Lqa.
From Verif Require Import Model.Base Model.Boundary Model.Layout Model.Access Model.Stencil Model.Evolve Model.Split
  Spec.Box Spec.Access Spec.Stencil Spec.Split Proof.BaseL Proof.LayoutL Proof.AccessL Proof.StencilL Proof.StencilQ Proof.StencilS Proof.StencilM.
Local Open Scope Z_scope.

Definition closed (l : limits) : Prop := periodic_axis l \/ insulated_axis l.
Lemma closed_lt l : closed l -> l_x0 l < l_x1 l.
Proof. intros [[H _]|[H _]]; exact H. Qed.
Lemma cb_high l : closed l -> (l_b1 l = periodic -> cb l (l_x1 l) = l_x0 l) /\ (l_b1 l <> periodic -> cb l (l_x1 l) = l_x1 l - 1).
Proof.
  intros C. pose proof (closed_lt l C) as H. unfold cb, check_boundary. destruct (Z.ltb_spec (l_x1 l) (l_x0 l)); [lia|]. destruct (Z.leb_spec (l_x1 l) (l_x1 l)); [|lia].
  split; intros E.
  - rewrite E. cbn. lia.
  - destruct C as [(_ & _ & B)|(_ & _ & [B|B])]; [congruence| |]; now rewrite B.
Qed.
Lemma cb_low l : closed l -> (l_b0 l = periodic -> cb l (l_x0 l + -1) = l_x1 l - 1) /\ (l_b0 l <> periodic -> cb l (l_x0 l + -1) = l_x0 l).
Proof.
  intros C. pose proof (closed_lt l C) as H. unfold cb, check_boundary. destruct (Z.ltb_spec (l_x0 l + -1) (l_x0 l)); [|lia].
  split; intros E.
  - rewrite E. cbn. lia.
  - destruct C as [(_ & B & _)|(_ & [B|B] & _)]; [congruence| |]; now rewrite B.
Qed.
Lemma line_shift l (g : Z -> Z -> Qc) : closed l -> (forall c, g c c = 0%Qc) ->
  sumQ (map (fun c => g c (cb l (c + 1))) (zrange (l_x0 l) (l_x1 l))) = sumQ (map (fun c => g (cb l (c + -1)) c) (zrange (l_x0 l) (l_x1 l))).
Proof.
  intros C Z0. pose proof (closed_lt l C) as H. destruct (cb_high l C) as [HP HI]. destruct (cb_low l C) as [LP LI].
  replace (zrange (l_x0 l) (l_x1 l)) with (zrange (l_x0 l) (l_x1 l - 1) ++ [l_x1 l - 1]) at 1 by (rewrite <- zrange_snoc by lia; f_equal; lia).
  rewrite (zrange_cons (l_x0 l) (l_x1 l)) by lia. rewrite map_app, sumQ_app. cbn [map sumQ].
  replace (zrange (l_x0 l + 1) (l_x1 l)) with (zrange (l_x0 l + 1) (l_x1 l - 1 + 1)) by (f_equal; lia). rewrite sumQ_shift.
  replace (l_x1 l - 1 + 1) with (l_x1 l) by lia.
  rewrite (sumQ_ext (fun c => g c (cb l (c + 1))) (fun c => g c (c + 1))) by (intros c Hc; apply in_zrange in Hc; rewrite cb_in by lia; auto).
  rewrite (sumQ_ext (fun c => g (cb l (c + 1 + -1)) (c + 1)) (fun c => g c (c + 1))) by (intros c Hc; apply in_zrange in Hc; rewrite cb_in by lia; f_equal; lia).
  assert (g (l_x1 l - 1)%Z (cb l (l_x1 l)) = g (cb l (l_x0 l + -1)) (l_x0 l)) as ->; [|ring].
  destruct C as [(_ & B0 & B1)|(_ & B0 & B1)].
  - now rewrite HP, LP by auto.
  - rewrite HI by (destruct B1 as [-> | ->]; discriminate). rewrite LI by (destruct B0 as [-> | ->]; discriminate). now rewrite !Z0.
Qed.
Lemma box_shift ls i (G : list Z -> list Z -> Qc) : (i < length ls)%nat -> closed (nth i ls (mkLim 0 0 0 0 0 0)) -> (forall x, G x x = 0%Qc) ->
  boxsum ls (fun x => G x (cbs ls (nb x (Z.of_nat i) 1))) = boxsum ls (fun x => G (cbs ls (nb x (Z.of_nat i) (-1))) x).
Proof.
  revert i G; induction ls as [|l ls IH]; intros i G Hi Hk Z0; [simpl in Hi; lia|]. destruct i as [|i].
  - cbn [boxsum]. simpl in Hk. rewrite !boxsum_sumQ_swap. apply boxsum_ext. intros y Hy.
    pose proof (line_shift l (fun a b => G (a :: y) (b :: y)) Hk (fun c => Z0 (c :: y))) as E. etransitivity; [|etransitivity; [exact E|]].
    + apply sumQ_ext. intros c Hc. unfold nb. change (Z.to_nat (Z.of_nat 0)) with 0%nat. cbn [nth set_nth cbs]. now rewrite cbs_in.
    + apply sumQ_ext. intros c Hc. unfold nb. change (Z.to_nat (Z.of_nat 0)) with 0%nat. cbn [nth set_nth cbs]. now rewrite cbs_in.
  - cbn [boxsum]. simpl in Hk. apply sumQ_ext. intros c Hc. apply in_zrange in Hc.
    pose proof (IH i (fun a b => G (c :: a) (c :: b)) ltac:(simpl in Hi; lia) Hk (fun y => Z0 (c :: y))) as E. etransitivity; [|etransitivity; [exact E|]].
    + apply boxsum_ext. intros y Hy. unfold nb. rewrite !Nat2Z.id. cbn [nth set_nth cbs]. now rewrite cb_in.
    + apply boxsum_ext. intros y Hy. unfold nb. rewrite !Nat2Z.id. cbn [nth set_nth cbs]. now rewrite cb_in.
Qed.

Section Parts.
Context (ls : list limits) (Hs : Forall serial_axis ls) (Hc : Forall closed ls) (h : Qc) (Hh : h <> 0%Qc).

(* functions continued by the boundary conditions *)
Definition continued (f : list Z -> Qc) : Prop :=
  forall x i d, domain ls x -> 0 <= i < zlen ls -> d = 1 \/ d = -1 -> f (nb x i d) = f (cbs ls (nb x i d)).
Lemma field_continued data j : continued (field ls data j).
Proof.
  intros x i d B Hi Hd. unfold field. pose proof (nb_box ls x i d Hs B Hi Hd) as B2. pose proof (local_len ls _ B) as L1. pose proof (local_len ls _ B2) as L2.
  rewrite !read_idx by (rewrite ?nb_len; auto). now rewrite (cbs_in ls (cbs ls _)).
Qed.
Lemma total_box f : total ls f = boxsum ls f.
Proof. apply nodes_sum, lims_le, Hs. Qed.
Lemma total_ext f g : (forall x, domain ls x -> f x = g x) -> total ls f = total ls g.
Proof. intros H. rewrite !total_box. now apply boxsum_ext. Qed.
Lemma total_add f g : total ls (fun x => f x + g x)%Qc = (total ls f + total ls g)%Qc.
Proof. rewrite !total_box. apply boxsum_add. Qed.
Lemma total_mul k f : total ls (fun x => k * f x)%Qc = (k * total ls f)%Qc.
Proof. rewrite !total_box. apply boxsum_mul. Qed.
Lemma total_sub f g : total ls (fun x => f x - g x)%Qc = (total ls f - total ls g)%Qc.
Proof.
  transitivity (total ls (fun x => f x + (-(1)) * g x)%Qc); [apply total_ext; intros; ring|]. rewrite total_add, total_mul. ring.
Qed.
Lemma total_le f g : (forall x, domain ls x -> f x <= g x)%Qc -> (total ls f <= total ls g)%Qc.
Proof. intros H. unfold total. apply sumQ_le. intros n Hn. apply in_zrange in Hn. apply H. apply pos_box; auto. Qed.

Lemma closed_at i : 0 <= i < zlen ls -> closed (nth (Z.to_nat i) ls (mkLim 0 0 0 0 0 0)).
Proof. intros Hi. rewrite Forall_forall in Hc. apply Hc, nth_In. unfold zlen in Hi. lia. Qed.
Lemma parts_axis u v i : continued u -> continued v -> 0 <= i < zlen ls ->
  boxsum ls (fun x => u x * second_difference v x i h)%Qc = boxsum ls (fun x => (-(1)) * (step_to h u x i * step_to h v x i))%Qc.
Proof.
  intros Cu Cv Hi. set (G := fun a b : list Z => (u b * (v b - v a))%Qc).
  assert (forall x, G x x = 0%Qc) as Z0 by (intros x; unfold G; ring).
  pose proof (box_shift ls (Z.to_nat i) G ltac:(unfold zlen in Hi; lia) (closed_at i Hi) Z0) as E. rewrite !Z2Nat.id in E by lia.
  transitivity (boxsum ls (fun x => / (h * h) * (u x * (v (nb x i 1) - v x)) + (- / (h * h)) * G (cbs ls (nb x i (-1)%Z)) x))%Qc.
  { apply boxsum_ext. intros x B. unfold second_difference, G. fold c2. rewrite (Cv x i (-1)) by auto. rewrite c2_eq. field. auto. }
  rewrite boxsum_add, boxsum_mul with (k := (- / (h * h))%Qc). rewrite <- E. rewrite <- boxsum_mul, <- boxsum_add. apply boxsum_ext. intros x B. unfold G, step_to.
  rewrite <- (Cu x i 1), <- (Cv x i 1) by auto. field. auto.
Qed.
Definition grad2 (u v : list Z -> Qc) (x : list Z) : Qc := sumQ (map (fun i => step_to h u x i * step_to h v x i)%Qc (zrange 0 (zlen ls))).
Lemma parts u v : continued u -> continued v -> total ls (fun x => u x * laplace ls h v x)%Qc = (- total ls (grad2 u v))%Qc.
Proof.
  intros Cu Cv. rewrite !total_box. unfold grad2, laplace.
  transitivity (boxsum ls (fun x => sumQ (map (fun i => u x * second_difference v x i h)%Qc (zrange 0 (zlen ls))))); [apply boxsum_ext; intros; now rewrite sumQ_mul|].
  rewrite !boxsum_sumQ. transitivity (- (1) * sumQ (map (fun i => boxsum ls (fun x => step_to h u x i * step_to h v x i)) (zrange 0 (zlen ls))))%Qc; [|ring].
  rewrite <- sumQ_mul. apply sumQ_ext. intros i Hi. apply in_zrange in Hi. rewrite parts_axis by auto. apply boxsum_mul.
Qed.
Lemma laplace_total v : continued v -> total ls (laplace ls h v) = 0%Qc.
Proof.
  intros Cv. transitivity (total ls (fun x => 1 * laplace ls h v x)%Qc); [apply total_ext; intros; ring|]. rewrite (parts (fun _ => 1%Qc) v) by (auto; intros x i d _ _ _; reflexivity).
  transitivity (- total ls (fun _ => 0%Qc))%Qc.
  - f_equal. apply total_ext. intros x _. unfold grad2. rewrite <- (sumQ_zero (zrange 0 (zlen ls))). apply sumQ_ext. intros i _. unfold step_to. field. auto.
  - rewrite total_box, boxsum_zero. ring.
Qed.
Lemma sq_nonneg (a : Qc) : (0 <= a * a)%Qc.
Proof. unfold Qcle. rewrite this_mul. change (this 0) with 0%Q. nra. Qed.
Lemma grad2_nonneg u x : (0 <= grad2 u u x)%Qc.
Proof. apply sumQ_ge_0. intros i _. apply sq_nonneg. Qed.
Lemma total_nonneg f : (forall x, domain ls x -> 0 <= f x)%Qc -> (0 <= total ls f)%Qc.
Proof. intros H. unfold total. apply sumQ_ge_0. intros n Hn. apply in_zrange in Hn. apply H, pos_box; auto. Qed.

(* Cauchy-Schwarz for a sum *)
Lemma sum_square (l : list Qc) : (sumQ l * sumQ l <= Qc_of (zlen l) * sumQ (map (fun a => a * a) l))%Qc.
Proof.
  (* sum over pairs of squares of differences *)
  assert (forall (a : Qc) m, (c2 * a * sumQ m <= Qc_of (zlen m) * (a * a) + sumQ (map (fun b => b * b) m))%Qc) as A.
  { intros a m; induction m as [|b m IH]; cbn [map sumQ].
    - change (Qc_of (zlen [])) with 0%Qc. unfold Qcle. rewrite !this_add, !this_mul. change (this 0) with 0%Q. lra.
    - rewrite zlen_cons, Qc_of_add, Qc_of_1. revert IH. generalize (sumQ m) (Qc_of (zlen m)) (sumQ (map (fun b => b * b)%Qc m)). intros s n q IH.
      unfold Qcle in *. rewrite ?this_add, ?this_mul in *. rewrite ?this_add, ?this_mul. change (this 1) with 1%Q. change (this c2) with 2%Q in *.
      revert IH. generalize (this a) (this b) (this s) (this n) (this q). clear. intros a b s n q IH. assert (forall t : Q, 0 <= t * t)%Q as T by (intros; nra). specialize (T (a - b)%Q). nra. }
  induction l as [|a l IH]; cbn [map sumQ].
  - unfold Qcle. rewrite !this_mul. change (this 0) with 0%Q. lra.
  - rewrite zlen_cons, Qc_of_add, Qc_of_1. pose proof (A a l) as P. pose proof (sq_nonneg a) as S. revert IH P S. generalize (sumQ l) (Qc_of (zlen l)) (sumQ (map (fun b => b * b)%Qc l)). intros s n q IH P S.
    unfold Qcle in *. rewrite ?this_add, ?this_mul in *. rewrite ?this_add, ?this_mul. change (this 1) with 1%Q. change (this c2) with 2%Q in *. change (this 0) with 0%Q in *.
    revert IH P S. generalize (this a) (this s) (this n) (this q). clear. intros. nra.
Qed.
End Parts.
