(* The semi-implicit Cahn-Hilliard scheme: one solution, and no gain of free energy. *)
From Coq Require Import QArith.QArith QArith.Qcanon Sorting.Permutation Lqa.
From Verif Require Import Model.Base Model.Boundary Model.Layout Model.Access Model.File Model.Stencil Model.Evolve Model.Split
  Spec.Box Spec.Access Spec.Stencil Spec.Split Proof.BaseL Proof.LayoutL Proof.AccessL Proof.StencilL Proof.StencilQ Proof.StencilS Proof.StencilM
  Proof.SplitL Proof.SplitP Proof.SplitE.
Local Open Scope Z_scope.

Lemma Qc_sub_zero (a b : Qc) : (a - b = 0)%Qc -> a = b.
Proof. intros H. transitivity (a - b + b)%Qc; [ring|]. rewrite H. ring. Qed.
Lemma Qc_mul_nonneg (a b : Qc) : (0 <= a -> 0 <= b -> 0 <= a * b)%Qc.
Proof. unfold Qcle. rewrite this_mul. change (this 0) with 0%Q. intros. nra. Qed.
Lemma Qc_add_nonneg (a b : Qc) : (0 <= a -> 0 <= b -> 0 <= a + b)%Qc.
Proof. unfold Qcle. rewrite this_add. change (this 0) with 0%Q. intros. lra. Qed.
Lemma sumQ_zero_all {A} (f : A -> Qc) l : (forall a, In a l -> 0 <= f a)%Qc -> sumQ (map f l) = 0%Qc -> forall a, In a l -> f a = 0%Qc.
Proof.
  induction l as [|b l IH]; intros P E a [].
  - subst b. cbn [map sumQ] in E. pose proof (P a (or_introl eq_refl)) as Pa. pose proof (sumQ_ge_0 f l (fun c Hc => P c (or_intror Hc))) as Ps.
    apply Qcle_antisym; auto. rewrite <- E. rewrite <- (Qcplus_0_r (f a)) at 1. apply Qcplus_le_compat; [apply Qcle_refl|auto].
  - cbn [map sumQ] in E. apply IH; auto; [intros; apply P; now right|].
    pose proof (P b (or_introl eq_refl)) as Pb. pose proof (sumQ_ge_0 f l (fun c Hc => P c (or_intror Hc))) as Ps.
    apply Qcle_antisym; auto. rewrite <- E. rewrite <- (Qcplus_0_l (sumQ (map f l))) at 1. apply Qcplus_le_compat; [auto|apply Qcle_refl].
Qed.

Section Unique.
Context (ls : list limits) (Hs : Forall serial_axis ls) (Hc : Forall closed ls) (h : Qc) (Hh : h <> 0%Qc).
Context (D K dt : Qc) (Hdt : (0 <= dt * D)%Qc) (HK : (0 <= K)%Qc) (con exp : Qc -> Qc).
Notation axs := (lay 0 ls).
Notation N := (nodes axs).
Notation pos := (position axs).
Notation F data j := (field ls data j).
Notation grad2 := (SplitE.grad2 ls h).

Lemma continued_sub f g : continued ls f -> continued ls g -> continued ls (fun x => f x - g x)%Qc.
Proof. intros Cf Cg x i d B Hi Hd. now rewrite (Cf x i d), (Cg x i d). Qed.
Lemma laplace_sub f g x : laplace ls h (fun x => f x - g x)%Qc x = (laplace ls h f x - laplace ls h g x)%Qc.
Proof. unfold laplace. rewrite <- sumQ_sub. apply sumQ_ext. intros i _. unfold second_difference. field. auto. Qed.
Lemma laplace_zero f x : continued ls f -> domain ls x -> (forall y, domain ls y -> f y = 0%Qc) -> laplace ls h f x = 0%Qc.
Proof.
  intros C B Z0. unfold laplace. rewrite <- (sumQ_zero (zrange 0 (zlen ls))). apply sumQ_ext. intros i Hi. apply in_zrange in Hi. unfold second_difference.
  rewrite (C x i 1), (C x i (-1)) by auto. rewrite !Z0 by (auto; apply nb_box; auto). field. auto.
Qed.

Lemma unique old new new' : (forall a b, 0 <= (con a - con b) * (a - b))%Qc -> (forall a b, (con a - con b) * (a - b) = 0 -> a = b)%Qc ->
  two_fields ls new -> two_fields ls new' -> solves ls h D K dt con exp old new -> solves ls h D K dt con exp old new' -> new = new'.
Proof.
  intros Mono Strict W W' S S'. set (dc := fun x => (F new 0 x - F new' 0 x)%Qc). set (du := fun x => (F new 1 x - F new' 1 x)%Qc).
  assert (continued ls dc) as Cc by (apply continued_sub; apply field_continued; auto). assert (continued ls du) as Cu by (apply continued_sub; apply field_continued; auto).
  assert (forall x, domain ls x -> dc x = dt * D * laplace ls h du x)%Qc as E1.
  { intros x B. destruct (S x B) as [A _]. destruct (S' x B) as [A' _]. unfold defect1 in A, A'. unfold du. rewrite laplace_sub. apply Qc_sub_zero. unfold dc.
    transitivity (F old 0 x - F new' 0 x + dt * D * laplace ls h (field ls new' 1) x - (F old 0 x - F new 0 x + dt * D * laplace ls h (field ls new 1) x))%Qc; [ring|]. rewrite A, A'. ring. }
  assert (forall x, domain ls x -> du x = con (F new 0%Z x) - con (F new' 0%Z x) - K * laplace ls h dc x)%Qc as E2.
  { intros x B. destruct (S x B) as [_ A]. destruct (S' x B) as [_ A']. unfold defect2 in A, A'. unfold dc. rewrite laplace_sub. apply Qc_sub_zero. unfold du.
    transitivity (con (F new' 0%Z x) + exp (F old 0%Z x) - K * laplace ls h (F new' 0%Z) x - F new' 1%Z x - (con (F new 0%Z x) + exp (F old 0%Z x) - K * laplace ls h (F new 0%Z) x - F new 1%Z x))%Qc; [ring|]. rewrite A, A'. ring. }
  set (m := fun x => ((con (F new 0%Z x) - con (F new' 0%Z x)) * (F new 0%Z x - F new' 0%Z x))%Qc).
  assert (total ls (fun x => du x * dc x)%Qc = - (dt * D) * total ls (grad2 du du))%Qc as T1.
  { transitivity (total ls (fun x => dt * D * (du x * laplace ls h du x))%Qc); [apply (total_ext ls Hs); intros x B; rewrite (E1 x B); ring|].
    rewrite (total_mul ls Hs), (parts ls Hs Hc h Hh) by auto. ring. }
  assert (total ls (fun x => du x * dc x)%Qc = total ls m + K * total ls (grad2 dc dc))%Qc as T2.
  { transitivity (total ls (fun x => m x + (- K) * (dc x * laplace ls h dc x))%Qc); [apply (total_ext ls Hs); intros x B; rewrite (E2 x B); unfold m, dc at 2 3; ring|].
    rewrite (total_add ls Hs), (total_mul ls Hs), (parts ls Hs Hc h Hh) by auto. ring. }
  assert (0 <= total ls (grad2 du du))%Qc as P1 by (apply (total_nonneg ls Hs); intros; apply grad2_nonneg).
  assert (0 <= total ls (grad2 dc dc))%Qc as P2 by (apply (total_nonneg ls Hs); intros; apply grad2_nonneg).
  assert (0 <= total ls m)%Qc as P3 by (apply (total_nonneg ls Hs); intros; apply Mono).
  assert (total ls m = 0%Qc) as Zm.
  { apply Qcle_antisym; auto. rewrite T1 in T2. clear -T2 P1 P2 Hdt HK. revert T2 P1 P2 Hdt HK. generalize (total ls m) (total ls (grad2 du du)) (total ls (grad2 dc dc)) (dt * D)%Qc. intros q a b d E P1 P2 Hd HK'.
    assert (q = - (d * a) - K * b)%Qc as -> by (transitivity (q + K * b - K * b)%Qc; [ring|]; rewrite <- E; ring).
    pose proof (Qc_mul_nonneg d a Hd P1) as A. pose proof (Qc_mul_nonneg K b HK' P2) as B. unfold Qcle in *. rewrite this_sub, this_opp. change (this 0) with 0%Q in *. lra. }
  assert (forall x, domain ls x -> F new 0 x = F new' 0 x) as EC.
  { intros x B. destruct (dom_node ls Hs x B) as (n & Hn & <-). apply Strict.
    apply (sumQ_zero_all (fun n => m (pos n)) (zrange 0 N)); [intros; apply Mono|exact Zm|now apply in_zrange]. }
  assert (forall x, domain ls x -> F new 1 x = F new' 1 x) as EU.
  { intros x B. apply Qc_sub_zero. pose proof (E2 x B) as E. rewrite (EC x B) in E. rewrite (laplace_zero dc x Cc B) in E by (intros y By; unfold dc; rewrite EC by auto; ring). unfold du in E. rewrite E. ring. }
  apply (cells_ext ls); auto. intros n Hn. rewrite !(cell_pair ls Hs) by auto. pose proof (pos_dom ls Hs n Hn) as B. now rewrite EC, EU.
Qed.

(* convexity: the splitting bounds the change of the density *)
Lemma stable density old new :
  (forall x, domain ls x -> density (F new 0 x) - density (F old 0 x) <= (con (F new 0 x) + exp (F old 0 x)) * (F new 0 x - F old 0 x))%Qc ->
  solves ls h D K dt con exp old new ->
  (energy ls h K density (F new 0) + dt * D * total ls (grad2 (F new 1) (F new 1)) <= energy ls h K density (F old 0))%Qc.
Proof.
  intros Conv S. set (c := F old 0) in *. set (b := F new 0) in *. set (u := F new 1) in *. set (d := fun x => (b x - c x)%Qc).
  assert (continued ls b) as Cb by (apply field_continued; auto). assert (continued ls c) as Cc by (apply field_continued; auto). assert (continued ls u) as Cu by (apply field_continued; auto).
  assert (continued ls d) as Cd by now apply continued_sub.
  assert (forall f, energy ls h K density f = total ls (fun x => density (f x) + half * K * grad2 f f x)%Qc) as En by reflexivity. rewrite !En.
  assert (forall x, grad2 b b x - grad2 c c x <= c2 * grad2 d b x)%Qc as G.
  { intros x. unfold SplitE.grad2. rewrite <- sumQ_sub, <- sumQ_mul. apply sumQ_le. intros i _. unfold step_to, d.
    set (p := ((b (nb x i 1) - b x) / h)%Qc). set (q := ((c (nb x i 1) - c x) / h)%Qc).
    replace ((b (nb x i 1) - c (nb x i 1) - (b x - c x)) / h)%Qc with (p - q)%Qc by (unfold p, q; field; auto).
    pose proof (sq_nonneg (p - q)) as Sq. replace (c2 * ((p - q) * p))%Qc with (p * p - q * q + (p - q) * (p - q))%Qc by (rewrite c2_eq; ring).
    rewrite <- (Qcplus_0_r (p * p - q * q)) at 1. apply Qcplus_le_compat; [apply Qcle_refl|exact Sq]. }
  assert (total ls (fun x => density (b x) + half * K * grad2 b b x)%Qc - total ls (fun x => density (c x) + half * K * grad2 c c x)%Qc
    <= total ls (fun x => u x * d x)%Qc)%Qc as L.
  { rewrite <- (total_sub ls Hs).
    apply Qcle_trans with (total ls (fun x => (con (b x) + exp (c x)) * d x + K * grad2 d b x)%Qc).
    - apply (total_le ls Hs). intros x B. pose proof (Conv x B) as A. pose proof (G x) as Gx.
      replace (density (b x) + half * K * grad2 b b x - (density (c x) + half * K * grad2 c c x))%Qc with (density (b x) - density (c x) + half * K * (grad2 b b x - grad2 c c x))%Qc by ring.
      apply Qcplus_le_compat; [exact A|]. replace (K * grad2 d b x)%Qc with (half * K * (c2 * grad2 d b x))%Qc.
      + rewrite !(Qcmult_comm (half * K)). apply Qcmult_le_compat_r; [exact Gx|]. apply Qc_mul_nonneg; [discriminate|exact HK].
      + transitivity (half * c2 * (K * grad2 d b x))%Qc; [ring|]. replace (half * c2)%Qc with 1%Qc by (apply Qc_is_canon; reflexivity). ring.
    - rewrite (total_add ls Hs), (total_mul ls Hs). rewrite <- (Qcopp_involutive (total ls (grad2 d b))). rewrite <- (parts ls Hs Hc h Hh) by auto.
      replace (K * - total ls (fun x => d x * laplace ls h b x))%Qc with (total ls (fun x => - K * (d x * laplace ls h b x))%Qc) by (rewrite (total_mul ls Hs); ring).
      rewrite <- (total_add ls Hs). rewrite (total_ext ls Hs _ (fun x => u x * d x)%Qc); [apply Qcle_refl|].
      intros x B. destruct (S x B) as [_ A]. unfold defect2 in A. fold b c u in A. assert (u x = con (b x) + exp (c x) - K * laplace ls h b x)%Qc as ->; [|ring].
      symmetry. apply Qc_sub_zero. exact A. }
  assert (total ls (fun x => u x * d x)%Qc = - (dt * D * total ls (grad2 u u)))%Qc as T.
  { transitivity (total ls (fun x => dt * D * (u x * laplace ls h u x))%Qc).
    - apply (total_ext ls Hs). intros x B. destruct (S x B) as [A _]. unfold defect1 in A. fold b c u in A.
      assert (d x = dt * D * laplace ls h u x)%Qc as ->; [|ring]. apply Qc_sub_zero. unfold d. transitivity (- (c x - b x + dt * D * laplace ls h u x))%Qc; [ring|]. rewrite A. ring.
    - rewrite (total_mul ls Hs), (parts ls Hs Hc h Hh) by auto. ring. }
  rewrite T in L. revert L. generalize (total ls (fun x => density (b x) + half * K * grad2 b b x)%Qc) (total ls (fun x => density (c x) + half * K * grad2 c c x)%Qc) (dt * D * total ls (grad2 u u))%Qc.
  intros p q r L. unfold Qcle in *. rewrite this_sub, this_opp in L. rewrite this_add. lra.
Qed.
End Unique.

(* ---- the two energies ---- *)
Lemma vanilla_mono a b : (0 <= (cube a - cube b) * (a - b))%Qc.
Proof.
  replace ((cube a - cube b) * (a - b))%Qc with (half * ((a - b) * (a - b)) * (a * a + b * b + (a + b) * (a + b)))%Qc by (unfold cube; replace half with (/ c2)%Qc by (apply Qc_is_canon; reflexivity); rewrite c2_eq; field; intros E; apply (f_equal this) in E; discriminate).
  apply Qc_mul_nonneg; [apply Qc_mul_nonneg; [discriminate|apply sq_nonneg]|]. repeat apply Qc_add_nonneg; apply sq_nonneg.
Qed.
Lemma vanilla_strict a b : ((cube a - cube b) * (a - b) = 0)%Qc -> a = b.
Proof.
  intros E. destruct (Qc_eq_dec a b) as [|Ne]; [auto|exfalso].
  assert (a - b <> 0)%Qc as Nd by (intros Z; apply Ne; now apply Qc_sub_zero).
  assert (cube a - cube b = 0)%Qc as E3 by (apply Qcmult_integral in E; tauto).
  assert ((a - b) * (a * a + a * b + b * b) = 0)%Qc as E4 by (rewrite <- E3; unfold cube; ring). apply Qcmult_integral in E4. destruct E4 as [E4|E4]; [tauto|].
  apply (f_equal this) in E4. assert (this a * this a + this a * this b + this b * this b == 0)%Q as E5.
  { rewrite <- !this_mul, <- !this_add. rewrite E4. reflexivity. }
  apply Ne. apply Qc_is_canon. revert E5. generalize (this a) (this b). clear. intros a b E.
  assert (forall t : Q, 0 <= t * t)%Q as T by (intros; nra). pose proof (T a) as Ta. pose proof (T b) as Tb. pose proof (T (a + b)%Q) as Tc.
  assert (a * a == 0)%Q as Ea by nra. assert (b * b == 0)%Q as Eb by nra. apply Qmult_integral in Ea. apply Qmult_integral in Eb. destruct Ea, Eb; lra.
Qed.
Lemma vanilla_convex a b : (vanilla_density b - vanilla_density a <= (cube b + - a) * (b - a))%Qc.
Proof.
  assert ((cube b + - a) * (b - a) - (vanilla_density b - vanilla_density a) = quarter * ((b - a) * (b - a)) * (b * b + b * b + (a + b) * (a + b) + c2))%Qc as E.
  { unfold vanilla_density, cube. replace half with (c2 * quarter)%Qc by (apply Qc_is_canon; reflexivity).
    replace 1%Qc with (c2 * c2 * quarter)%Qc at 1 by (apply Qc_is_canon; reflexivity).
    assert (forall p q : Qc, p - q = (c2 * c2 * quarter) * p - q)%Qc as One by (intros; replace (c2 * c2 * quarter)%Qc with 1%Qc by (apply Qc_is_canon; reflexivity); ring).
    rewrite (One ((b * b * b + - a) * (b - a))%Qc). rewrite c2_eq. ring. }
  assert (0 <= quarter * ((b - a) * (b - a)) * (b * b + b * b + (a + b) * (a + b) + c2))%Qc as P.
  { apply Qc_mul_nonneg; [apply Qc_mul_nonneg; [discriminate|apply sq_nonneg]|]. repeat apply Qc_add_nonneg; try apply sq_nonneg. discriminate. }
  rewrite <- E in P. unfold Qcle in *. rewrite this_sub in P. change (this 0) with 0%Q in P. lra.
Qed.
Section Para.
Context (A B C0 Ca Cb : Qc).
Notation pa := (QA B Ca Cb).
Notation pc := (QC B C0 Ca Cb).
Notation con := (contractive (parametric A B C0 Ca Cb)).
Notation exp := (expansive (parametric A B C0 Ca Cb)).
Lemma para_mono a b : (0 <= pa)%Qc -> (0 <= pc)%Qc -> (0 <= (con a - con b) * (a - b))%Qc.
Proof.
  intros HA HC. replace ((con a - con b) * (a - b))%Qc with (pa * ((cube a - cube b) * (a - b)) + pc * ((a - b) * (a - b)))%Qc by (cbn; ring).
  apply Qc_add_nonneg; apply Qc_mul_nonneg; auto; [apply vanilla_mono|apply sq_nonneg].
Qed.
Lemma para_strict a b : (0 <= pa)%Qc -> (0 < pc)%Qc -> ((con a - con b) * (a - b) = 0)%Qc -> a = b.
Proof.
  intros HA HC E. assert (pa * ((cube a - cube b) * (a - b)) + pc * ((a - b) * (a - b)) = 0)%Qc as E' by (rewrite <- E; cbn; ring).
  pose proof (Qc_mul_nonneg _ _ HA (vanilla_mono a b)) as P1. pose proof (sq_nonneg (a - b)) as P2. set (s := ((a - b) * (a - b))%Qc) in *. set (p := (pa * ((cube a - cube b) * (a - b)))%Qc) in *.
  assert (s = 0%Qc) as Z.
  { apply Qc_is_canon. change (this 0%Qc) with 0%Q. assert (this p + this pc * this s == 0)%Q as E2 by (rewrite <- this_mul, <- this_add, E'; reflexivity).
    unfold Qcle, Qclt in *. change (this 0) with 0%Q in *. revert E2 P1 P2 HC. generalize (this p) (this pc) (this s). clear. intros p c s E P1 P2 HC. nra. }
  unfold s in Z. apply Qcmult_integral in Z. apply Qc_sub_zero. tauto.
Qed.
Lemma para_convex a b : (0 <= pa)%Qc -> (0 <= half * (pc + A) + (B * C0 + Ca * Ca + Cb * Cb) * (b + c2 * a))%Qc ->
  (parametric_density A B C0 Ca Cb b - parametric_density A B C0 Ca Cb a <= (con b + exp a) * (b - a))%Qc.
Proof.
  intros HA HR.
  assert ((con b + exp a) * (b - a) - (parametric_density A B C0 Ca Cb b - parametric_density A B C0 Ca Cb a) =
    ((b - a) * (b - a)) * (quarter * pa * (b * b + b * b + (a + b) * (a + b)) + (half * (pc + A) + (B * C0 + Ca * Ca + Cb * Cb) * (b + c2 * a))))%Qc as E.
  { cbn [contractive expansive parametric]. unfold parametric_density, QA, QB, QC, QD, cube, square, fourth. cbv zeta.
    replace half with (c2 * quarter)%Qc by (apply Qc_is_canon; reflexivity). replace c3 with (1 + 1 + 1)%Qc by (apply Qc_is_canon; reflexivity). rewrite c2_eq.
    replace quarter with (/ ((1 + 1) * (1 + 1)))%Qc by (apply Qc_is_canon; reflexivity). field. intros Z; apply (f_equal this) in Z; discriminate. }
  assert (0 <= (b - a) * (b - a) * (quarter * pa * (b * b + b * b + (a + b) * (a + b)) + (half * (pc + A) + (B * C0 + Ca * Ca + Cb * Cb) * (b + c2 * a))))%Qc as P.
  { apply Qc_mul_nonneg; [apply sq_nonneg|]. apply Qc_add_nonneg; [|exact HR]. apply Qc_mul_nonneg; [apply Qc_mul_nonneg; [discriminate|exact HA]|]. repeat apply Qc_add_nonneg; apply sq_nonneg. }
  rewrite <- E in P. unfold Qcle in *. rewrite this_sub in P. change (this 0) with 0%Q in P. lra.
Qed.
End Para.
