(* energies of spin lattices *)
From Coq Require Import Permutation.
From Verif Require Import Model.Base Model.Boundary Model.Layout Model.Access Model.Spin Spec.Box Spec.Access Spec.Stencil Spec.Spin
  Proof.BaseL Proof.LayoutL Proof.AccessL Proof.StencilS.
Local Open Scope list_scope.
Local Open Scope Z_scope.

Lemma sumZ_cons a l : sumZ (a :: l) = a + sumZ l. Proof. reflexivity. Qed.
Lemma sumZ_nil : sumZ [] = 0. Proof. reflexivity. Qed.
Lemma sum_sub {A} (f g : A -> Z) l : sumZ (map (fun x => f x - g x) l) = sumZ (map f l) - sumZ (map g l).
Proof. induction l as [|a l IH]; cbn [map]; rewrite ?sumZ_cons, ?sumZ_nil; lia. Qed.
Lemma sum_add {A} (f g : A -> Z) l : sumZ (map (fun x => f x + g x) l) = sumZ (map f l) + sumZ (map g l).
Proof. induction l as [|a l IH]; cbn [map]; rewrite ?sumZ_cons, ?sumZ_nil; lia. Qed.
Lemma sum_ext {A} (f g : A -> Z) l : (forall x, In x l -> f x = g x) -> sumZ (map f l) = sumZ (map g l).
Proof. intros H. f_equal. apply map_ext_in. auto. Qed.
Lemma sum_zero {A} (f : A -> Z) l : (forall x, In x l -> f x = 0) -> sumZ (map f l) = 0.
Proof. intros H. induction l as [|a l IH]; cbn [map]; rewrite ?sumZ_cons, ?sumZ_nil; [reflexivity|]. rewrite H by now left. rewrite IH; [lia|]. intros; apply H; now right. Qed.
(* a sum with one term that may differ from zero *)
Lemma sum_one {A} (p : A) (f : A -> Z) l : NoDup l -> In p l -> (forall x, In x l -> x <> p -> f x = 0) -> sumZ (map f l) = f p.
Proof.
  induction l as [|a l IH]; intros ND I Hz; [destruct I|]. inversion ND as [|? ? Na ND']; subst. cbn [map]. rewrite sumZ_cons. destruct I as [->|I].
  - rewrite sum_zero; [lia|]. intros x Hx. apply Hz; [now right|]. intros ->. auto.
  - rewrite Hz; [|now left|intros ->; auto]. rewrite IH; auto. intros; apply Hz; auto. now right.
Qed.
Section Graph.
Context {A : Type} (dec : forall x y : A, {x = y} + {x <> y}) (S : list A) (nb : A -> list A).
Let cnt := count_occ dec.
(* summing over a list of nodes, with repetitions *)
Lemma sum_count (g : A -> Z) l : NoDup S -> incl l S -> sumZ (map g l) = sumZ (map (fun x => Z.of_nat (cnt l x) * g x) S).
Proof.
  intros ND. induction l as [|a l IH]; intros I; [symmetry; apply sum_zero; reflexivity|]. cbn [map]. rewrite sumZ_cons, IH by (intros x Hx; apply I; now right).
  rewrite (sum_ext (fun x => Z.of_nat (cnt (a :: l) x) * g x) (fun x => (if dec x a then g x else 0) + Z.of_nat (cnt l x) * g x)).
  - rewrite sum_add, (sum_one a (fun x => if dec x a then g x else 0)); [destruct (dec a a); [reflexivity|easy]|auto|apply I; now left|]. intros x _ N. now destruct (dec x a).
  - intros x _. unfold cnt. cbn [count_occ]. destruct (dec a x), (dec x a); subst; try easy; lia.
Qed.
Lemma sum_at (p : A) c l : sumZ (map (fun y => if dec y p then c else 0) l) = Z.of_nat (cnt l p) * c.
Proof. unfold cnt. induction l as [|a l IH]; cbn [map count_occ]; rewrite ?sumZ_cons, ?sumZ_nil; [reflexivity|]. destruct (dec a p); lia. Qed.
Hypothesis ND : NoDup S.
Hypothesis closed : forall x, In x S -> incl (nb x) S.
Hypothesis sym : forall x y, In x S -> In y S -> cnt (nb x) y = cnt (nb y) x.
Definition pairs (f : A -> Z) : Z := sumZ (map (fun x => sumZ (map (fun y => unlike (f x) (f y)) (nb x))) S).
Lemma unlike_same a : unlike a a = 0. Proof. unfold unlike. now rewrite Z.eqb_refl. Qed.
Lemma unlike_sym a b : unlike a b = unlike b a. Proof. unfold unlike. now rewrite Z.eqb_sym. Qed.
Lemma pairs_flip p f f' s2 : In p S -> ~ In p (nb p) -> f' p = s2 -> (forall y, In y S -> y <> p -> f' y = f y) ->
  pairs f' - pairs f = 2 * sumZ (map (fun y => unlike (f y) s2 - unlike (f y) (f p)) (nb p)).
Proof.
  intros Ip Np Fp Fo. unfold pairs. rewrite <- sum_sub. set (D := fun y => unlike (f y) s2 - unlike (f y) (f p)).
  assert (cnt (nb p) p = 0%nat) as C0 by (apply count_occ_not_In; auto).
  rewrite (sum_ext _ (fun x => (if dec x p then sumZ (map D (nb p)) else 0) + Z.of_nat (cnt (nb p) x) * D x)).
  - rewrite sum_add, (sum_one p (fun x => if dec x p then sumZ (map D (nb p)) else 0)); [|auto|auto|intros x _ N; now destruct (dec x p)]. destruct (dec p p) as [_|]; [|easy]. rewrite <- (sum_count D (nb p)) by auto. lia.
  - intros x Hx. rewrite <- sum_sub. destruct (dec x p) as [->|N].
    + rewrite C0. cbn [Z.of_nat]. rewrite Z.mul_0_l, Z.add_0_r. apply sum_ext. intros y Hy. rewrite Fp, Fo; [|now apply (closed p)|intros ->; auto].
      unfold D. rewrite (unlike_sym s2), (unlike_sym (f p)). reflexivity.
    + rewrite (sum_ext _ (fun y => if dec y p then D x else 0)); [rewrite sum_at, sym; auto|].
      intros y Hy. rewrite (Fo x Hx N). destruct (dec y p) as [->|Ny]; [now rewrite Fp|]. rewrite (Fo y); [lia|now apply (closed x)|auto].
Qed.
End Graph.
Lemma sum_flip (p : list Z) (f f' : list Z -> Z) S : NoDup S -> In p S -> (forall y, In y S -> y <> p -> f' y = f y) -> sumZ (map f' S) - sumZ (map f S) = f' p - f p.
Proof. intros ND I H. rewrite <- sum_sub. rewrite (sum_one p); auto. intros x Hx N. rewrite H by auto. lia. Qed.

(* ---- displacements ---- *)
Lemma offsets_cube d : offsets d = cube d. Proof. induction d as [|d IH]; cbn; [reflexivity|]. now rewrite IH. Qed.
Lemma in_cube d o : In o (cube d) <-> length o = d /\ Forall (fun i => -1 <= i <= 1) o.
Proof.
  revert o. induction d as [|d IH]; intros o; cbn [cube].
  - split; [intros [<-|[]]; split; [reflexivity|constructor]|]. intros [L _]. destruct o; [now left|discriminate].
  - rewrite in_flat_map. split.
    + intros (i & Hi & H). apply in_map_iff in H as (o' & <- & H). apply IH in H as [L F]. split; [cbn; now rewrite L|]. constructor; [|auto]. cbn in Hi. lia.
    + intros [L F]. destruct o as [|i o]; [discriminate|]. inversion F as [|? ? Hi Fo]; subst. exists i. split; [cbn; lia|]. apply in_map. apply IH. split; [cbn in L; lia|auto].
Qed.
Lemma NoDup_two {A} (a b : list A) : NoDup a -> NoDup b -> (forall x, In x a -> ~ In x b) -> NoDup (a ++ b).
Proof.
  intros Na Nb. induction Na as [|x a Hx _ IH]; intros D; cbn; [auto|]. constructor; [|apply IH; intros; apply D; now right].
  intros I. apply in_app_or in I as [I|I]; [auto|]. apply (D x); [now left|auto].
Qed.
Lemma NoDup_cons_map (is : list Z) (l : list (list Z)) : NoDup is -> NoDup l -> NoDup (flat_map (fun i => map (cons i) l) is).
Proof.
  intros Ni Nl. induction Ni as [|i is Hi _ IH]; cbn [flat_map]; [constructor|]. apply NoDup_two; auto.
  - apply FinFun.Injective_map_NoDup; [|auto]. intros a b E. congruence.
  - intros x Hx I. apply in_map_iff in Hx as (y & <- & _). apply in_flat_map in I as (j & Hj & I). apply in_map_iff in I as (z & E & _). congruence.
Qed.
Lemma NoDup_cube d : NoDup (cube d).
Proof. induction d as [|d IH]; cbn [cube]; [constructor; [auto|constructor]|]. apply NoDup_cons_map; [|auto]. repeat constructor; cbn; lia. Qed.
Lemma in_all_nodes ls x : In x (all_nodes ls) <-> in_box (map l_x0 ls) (map l_x1 ls) x.
Proof.
  revert x. induction ls as [|l ls IH]; intros x; cbn [all_nodes map].
  - split; [intros [<-|[]]; exact I|]. destruct x; [now left|intros []].
  - rewrite in_flat_map. split.
    + intros (c & Hc & H). apply in_map_iff in H as (y & <- & H). apply in_zrange in Hc. apply IH in H. cbn. auto.
    + destruct x as [|c x]; [intros []|]. intros [Hc H]. exists c. split; [now apply in_zrange|]. apply in_map, IH, H.
Qed.
Lemma NoDup_all_nodes ls : NoDup (all_nodes ls).
Proof. induction ls as [|l ls IH]; cbn [all_nodes]; [constructor; [auto|constructor]|]. apply NoDup_cons_map; [apply NoDup_zrange|auto]. Qed.
Lemma vadd_plus x o : length x = length o -> vadd x o = plus x o.
Proof. revert o. induction x as [|c x IH]; intros [|d o] L; cbn in *; try discriminate; [reflexivity|]. f_equal. apply IH. lia. Qed.
Lemma plus_length x o : length x = length o -> length (plus x o) = length x.
Proof. revert o. induction x as [|c x IH]; intros [|d o] L; cbn in *; try discriminate; [reflexivity|]. f_equal. apply IH. lia. Qed.
Definition neg (o : list Z) : list Z := map Z.opp o.
Lemma neg_neg o : neg (neg o) = o. Proof. induction o as [|i o IH]; cbn; [reflexivity|]. unfold neg in IH. now rewrite IH, Z.opp_involutive. Qed.
Lemma in_displacements d o : In o (displacements d) <-> length o = d /\ Forall (fun i => -1 <= i <= 1) o /\ Exists (fun i => i <> 0) o.
Proof.
  unfold displacements. rewrite filter_In, in_cube, existsb_exists, Exists_exists. split.
  - intros ((L & F) & i & Hi & H). split; [auto|]. split; [auto|]. exists i. split; [auto|]. destruct (Z.eqb_spec i 0); [discriminate|auto].
  - intros (L & F & i & Hi & H). split; [auto|]. exists i. split; [auto|]. destruct (Z.eqb_spec i 0); [easy|auto].
Qed.
Lemma NoDup_displacements d : NoDup (displacements d). Proof. apply NoDup_filter, NoDup_cube. Qed.
Lemma neg_displacements d : Permutation (map neg (displacements d)) (displacements d).
Proof.
  assert (forall o, In o (displacements d) -> In (neg o) (displacements d)) as X.
  { intros o. rewrite !in_displacements. intros (L & F & E). split; [unfold neg; now rewrite map_length|]. split.
    - apply Forall_map. eapply Forall_impl; [|exact F]. cbn. lia.
    - apply Exists_exists in E as (i & Hi & N). apply Exists_exists. exists (- i). split; [now apply in_map|lia]. }
  apply NoDup_Permutation; [|apply NoDup_displacements|].
  - apply FinFun.Injective_map_NoDup; [|apply NoDup_displacements]. intros a b E. rewrite <- (neg_neg a), <- (neg_neg b). now rewrite E.
  - intros o. split.
    + intros H. apply in_map_iff in H as (o' & <- & H). auto.
    + intros H. rewrite <- (neg_neg o). apply in_map. auto.
Qed.
Definition vdec : forall x y : list Z, {x = y} + {x <> y} := list_eq_dec Z.eq_dec.
Lemma count_map_sym d (f g : list Z -> list Z) x y : (forall o, In o (displacements d) -> (f o = y <-> g (neg o) = x)) ->
  count_occ vdec (map f (displacements d)) y = count_occ vdec (map g (displacements d)) x.
Proof.
  intros H. transitivity (count_occ vdec (map g (map neg (displacements d))) x).
  - rewrite map_map. revert H. generalize (displacements d) as l. induction l as [|o l IH]; intros H; [reflexivity|]. cbn [map count_occ].
    specialize (H o (or_introl eq_refl)) as Ho. rewrite IH by (intros; apply H; now right). destruct (vdec (f o) y), (vdec (g (neg o)) x); tauto.
  - apply Permutation_count_occ. apply Permutation_map, neg_displacements.
Qed.
(* ---- the torus ---- *)
Lemma torus_serial ls : big_torus ls -> Forall serial_axis ls.
Proof. intros H. eapply Forall_impl; [|exact H]. intros l (B0 & B1 & L). split; [lia|]. rewrite B0, B1. unfold serial_side. auto. Qed.
Lemma cbs_torus ls x o : big_torus ls -> box ls x -> length o = length ls -> Forall (fun i => -1 <= i <= 1) o -> cbs ls (plus x o) = on_torus ls (plus x o).
Proof.
  intros T. revert x o. induction T as [|l ls (B0 & B1 & L) _ IH]; intros [|c x] [|d o] B Lo F; cbn in B, Lo; try easy. cbn [plus cbs on_torus]. inversion F as [|? ? Hd Fo]; subst. destruct B as [Hc B].
  rewrite IH by (auto; lia). f_equal. unfold cb, check_boundary. rewrite B0, B1. cbn [negb andb orb]. change (periodic =? Neumann) with false. change (periodic =? Dirichlet) with false. change (periodic =? periodic) with true. cbn [orb andb].
  destruct (Z.ltb_spec (c + d) (l_x0 l)).
  - replace (c + d - l_x0 l) with ((l_x1 l - l_x0 l + (c + d - l_x0 l)) + (-1) * (l_x1 l - l_x0 l)) by ring. rewrite Z.mod_add, Z.mod_small by lia. lia.
  - destruct (Z.leb_spec (l_x1 l) (c + d)); [|rewrite Z.mod_small by lia; lia].
    replace (c + d - l_x0 l) with ((c + d - l_x1 l) + 1 * (l_x1 l - l_x0 l)) by ring. rewrite Z.mod_add, Z.mod_small by lia. lia.
Qed.
Lemma on_torus_box ls x : Forall (fun l => l_x0 l < l_x1 l) ls -> length x = length ls -> box ls (on_torus ls x).
Proof.
  intros F. revert x. induction F as [|l ls L _ IH]; intros [|c x] Lx; cbn in Lx; try lia; [exact I|]. cbn [on_torus map in_box]. split; [|apply IH; lia].
  pose proof (Z.mod_pos_bound (c - l_x0 l) (l_x1 l - l_x0 l)). lia.
Qed.
Lemma torus_lt ls : big_torus ls -> Forall (fun l => l_x0 l < l_x1 l) ls.
Proof. intros H. eapply Forall_impl; [|exact H]. cbn. intros l (_ & _ & L). lia. Qed.
Lemma mod_shift n a b d : 0 < n -> 0 <= a < n -> 0 <= b < n -> ((a + d) mod n = b <-> (b + - d) mod n = a).
Proof.
  intros Hn Ha Hb. assert (forall a b d, 0 <= a < n -> 0 <= b < n -> (a + d) mod n = b -> (b + - d) mod n = a) as X.
  { clear - Hn. intros a b d Ha Hb <-. rewrite <- Z.add_mod_idemp_l, Z.mod_mod by lia. rewrite Z.add_mod_idemp_l by lia. replace (a + d + - d) with a by lia. apply Z.mod_small; auto. }
  split; [apply X; auto|]. intros H. apply X in H; auto. rewrite Z.opp_involutive in H. auto.
Qed.
Lemma torus_step ls x y o : Forall (fun l => l_x0 l < l_x1 l) ls -> box ls x -> box ls y -> length o = length ls ->
  (on_torus ls (plus x o) = y <-> on_torus ls (plus y (neg o)) = x).
Proof.
  intros F. revert x y o. induction F as [|l ls L _ IH]; intros [|c x] [|e y] [|d o] Bx By Lo; cbn in Bx, By, Lo; try easy. destruct Bx as [Hc Bx], By as [He By]. cbn [plus neg map on_torus].
  specialize (IH x y o Bx By ltac:(lia)). fold (neg o). pose proof (mod_shift (l_x1 l - l_x0 l) (c - l_x0 l) (e - l_x0 l) d ltac:(lia) ltac:(lia) ltac:(lia)) as M.
  replace (c + d - l_x0 l) with (c - l_x0 l + d) by lia. replace (e + - d - l_x0 l) with (e - l_x0 l + - d) by lia.
  split; intros E; injection E as E1 E2; f_equal; try (apply IH; exact E2); assert (forall u v, l_x0 l + u = v -> u = v - l_x0 l) as Y by (intros; lia); apply Y in E1; apply M in E1; lia.
Qed.
Lemma torus_sym ls x y : big_torus ls -> In x (all_nodes ls) -> In y (all_nodes ls) -> count_occ vdec (torus_neighbours ls x) y = count_occ vdec (torus_neighbours ls y) x.
Proof.
  intros T Hx Hy. apply in_all_nodes in Hx, Hy. unfold torus_neighbours. apply count_map_sym. intros o Ho. apply in_displacements in Ho as (L & _). apply torus_step; auto. now apply torus_lt.
Qed.
Lemma torus_closed ls x : big_torus ls -> In x (all_nodes ls) -> incl (torus_neighbours ls x) (all_nodes ls).
Proof.
  intros T Hx y Hy. apply in_all_nodes in Hx. apply in_map_iff in Hy as (o & <- & Ho). apply in_all_nodes. apply in_displacements in Ho as (L & _). apply on_torus_box; [now apply torus_lt|].
  rewrite plus_length; [|rewrite (local_len _ _ Hx); auto]. apply (local_len _ _ Hx).
Qed.
Lemma torus_no_self ls x : big_torus ls -> In x (all_nodes ls) -> ~ In x (torus_neighbours ls x).
Proof.
  intros T Hx Hy. apply in_all_nodes in Hx. apply in_map_iff in Hy as (o & E & Ho). apply in_displacements in Ho as (L & F & X). revert x o Hx E L F X.
  induction T as [|l ls (_ & _ & H) _ IH]; intros [|c x] [|d o] B E L F X; cbn in B, L; try easy. cbn [plus on_torus] in E. injection E as E1 E2. inversion F as [|? ? Hd Fo]; subst. destruct B as [Hc B].
  inversion X as [? ? Nd|? ? X']; subst. 2: { eapply IH; eauto. }
  assert (((c - l_x0 l) + d) mod (l_x1 l - l_x0 l) = (c - l_x0 l)) as M by (replace (c - l_x0 l + d) with (c + d - l_x0 l) by lia; lia).
  pose proof (Z.div_mod (c - l_x0 l + d) (l_x1 l - l_x0 l) ltac:(lia)) as Q. rewrite M in Q. set (q := (c - l_x0 l + d) / (l_x1 l - l_x0 l)) in Q. set (n := l_x1 l - l_x0 l) in Q.
  assert (d = n * q) as Q' by lia. assert (2 <= n) by (unfold n; lia). destruct (Z.eq_dec q 0) as [Eq|]; [rewrite Eq in Q'; lia|]. nia.
Qed.
