(* The passes of the semi-implicit Cahn-Hilliard solver over the tiles of one colour, in any order. *)
From Coq Require Import QArith.QArith QArith.Qcanon Sorting.Permutation Lqa.
From Verif Require Import Model.Base Model.Boundary Model.Layout Model.Access Model.Stencil Model.Evolve Model.Split
  Spec.Box Spec.Access Spec.Stencil Spec.Split Proof.BaseL Proof.LayoutL Proof.AccessL Proof.StencilL Proof.StencilQ Proof.StencilS Proof.StencilM Proof.SplitL.
Local Open Scope Z_scope.

(* ---- colours ---- *)
Lemma sumZ_cons a l : sumZ (a :: l) = a + sumZ l.
Proof. reflexivity. Qed.
Lemma sumZ_set i x v : (i < length x)%nat -> sumZ (set_nth i x v) = sumZ x - nth i x 0 + v.
Proof. revert i; induction x as [|a x IH]; intros [|i] H; simpl in *; try lia; rewrite !sumZ_cons; [lia|]. rewrite IH by lia. lia. Qed.
Lemma dom_nonneg ls x : Forall tiled ls -> domain ls x -> 0 <= sumZ x.
Proof.
  unfold domain. revert x; induction ls as [|l ls IH]; intros [|c x] F B; simpl in *; try easy. inversion F as [|? ? T F']; subst. destruct B as [B1 B2].
  specialize (IH x F' B2). destruct T as [T _]. rewrite sumZ_cons. lia.
Qed.
Lemma cb_colour l c d : serial_axis l -> tiled l -> l_x0 l <= c < l_x1 l -> d = 1 \/ d = -1 ->
  cb l (c + d) = c \/ Z.even (cb l (c + d)) = negb (Z.even c).
Proof.
  intros (H & S0 & S1) (T0 & T1) R Hd.
  assert (Z.even (c + d) = negb (Z.even c)) as P by (destruct Hd as [-> | ->]; rewrite Z.even_add; now destruct (Z.even c)).
  unfold cb, check_boundary. destruct (Z.ltb_spec (c + d) (l_x0 l)).
  - assert (d = -1 /\ c = l_x0 l) as [-> ->] by lia. destruct (Z.eqb_spec (l_b0 l) Neumann); [now left|]. destruct (Z.eqb_spec (l_b0 l) Dirichlet); [now left|]. cbn [orb].
    destruct (Z.eqb_spec (l_b0 l) periodic) as [E|E]; cbn [negb andb].
    + destruct (T1 (or_introl E)) as [T|T]; [right|left; lia]. replace (l_x1 l - (l_x0 l - (l_x0 l + -1))) with (l_x1 l - l_x0 l + l_x0 l + -1) by lia.
      rewrite !Z.even_add, T. now destruct (Z.even (l_x0 l)).
    + destruct S0 as [|[|[|[M S0]]]]; try congruence. rewrite M. cbn. right. replace (2 * l_x0 l - (l_x0 l + -1)) with (l_x0 l + 1) by lia. rewrite Z.even_add. now destruct (Z.even (l_x0 l)).
  - destruct (Z.leb_spec (l_x1 l) (c + d)); [|now right]. assert (d = 1 /\ c = l_x1 l - 1) as [-> ->] by lia.
    destruct (Z.eqb_spec (l_b1 l) Neumann); [now left|]. destruct (Z.eqb_spec (l_b1 l) Dirichlet); [now left|]. cbn [orb].
    destruct (Z.eqb_spec (l_b1 l) periodic) as [E|E]; cbn [negb andb].
    + destruct (T1 (or_intror E)) as [T|T]; [right|left; lia]. replace (l_x1 l - 1) with (l_x1 l - l_x0 l + l_x0 l + -1) at 2 by lia. replace (l_x0 l + (l_x1 l - 1 + 1 - l_x1 l)) with (l_x0 l) by lia.
      rewrite !Z.even_add, T. now destruct (Z.even (l_x0 l)).
    + destruct S1 as [|[|[|[M S1]]]]; try congruence. rewrite M. cbn. right. replace (2 * (l_x1 l - 1) - (l_x1 l - 1 + 1)) with (l_x1 l - 1 + -1) by lia. rewrite Z.even_add. now destruct (Z.even (l_x1 l - 1)).
Qed.
Lemma cbs_colour ls x i d : Forall serial_axis ls -> Forall tiled ls -> domain ls x -> 0 <= i < zlen ls -> d = 1 \/ d = -1 ->
  cbs ls (nb x i d) = x \/ Z.even (sumZ (cbs ls (nb x i d))) = negb (Z.even (sumZ x)).
Proof.
  intros F T B Hi Hd. unfold nb. unfold zlen in Hi. pose proof (local_len ls x B) as Lx. rewrite cbs_set by (auto; lia). set (l := nth (Z.to_nat i) ls (mkLim 0 0 0 0 0 0)).
  assert (serial_axis l /\ tiled l) as [Sl Tl] by (rewrite Forall_forall in F, T; split; [apply F|apply T]; apply nth_In; lia).
  apply in_box_nth in B as [_ B]. specialize (B (Z.to_nat i) (mkLim 0 0 0 0 0 0) ltac:(lia)). fold l in B.
  destruct (cb_colour l (nth (Z.to_nat i) x 0) d Sl Tl B Hd) as [E|E].
  - left. rewrite E. apply set_nth_same.
  - right. rewrite sumZ_set by lia. rewrite Z.even_add, Z.even_sub, E. destruct (Z.even (sumZ x)), (Z.even (nth (Z.to_nat i) x 0)); reflexivity.
Qed.
Lemma skip_colour ls color n : Forall serial_axis ls -> Forall tiled ls -> 0 <= n < nodes (lay 0 ls) -> color = 0 \/ color = 1 ->
  skipped (lay 0 ls) color n = Bool.eqb (Z.even (sumZ (position (lay 0 ls) n))) (color =? 0).
Proof.
  intros F T Hn Hc. unfold skipped. pose proof (dom_nonneg ls _ T (pos_box ls F n Hn)) as P. rewrite Z.rem_mod_nonneg by lia. rewrite Zmod_even.
  destruct Hc as [-> | ->], (Z.even (sumZ _)); reflexivity.
Qed.

Section Pass.
Context (ls : list limits) (Hs : Forall serial_axis ls) (h : Qc) (Hh : h <> 0%Qc).
Context (en : energetics) (D K dt omega : Qc).
Context (Hdt : (0 <= dt * D)%Qc) (HK : (0 <= K)%Qc) (Hen : forall c, (0 <= nonlinear en c)%Qc).
Notation axs := (lay 0 ls).
Notation N := (nodes axs).
Notation pos := (position axs).
Notation dflt := ([0; 0]%Qc).
Notation relv := (SplitL.relv ls h en D K dt omega).
Notation relax := (Split.relax axs en h D K dt omega (weight ls h)).
Notation pass := (Split.pass axs en h D K dt omega (weight ls h)).

Lemma zlen2 a b : zlen [a : Qc; b] = 2. Proof. reflexivity. Qed.
Lemma two_set data n v : two_fields ls data -> zlen v = 2 -> two_fields ls (set_nth n data v).
Proof.
  intros [L F] Hv. split; [unfold zlen in *; now rewrite length_set_nth|]. clear L. revert n; induction F as [|a data Ha F IH]; intros [|n]; simpl; auto.
Qed.
Lemma relv_ext old new new' n : two_fields ls new -> two_fields ls new' -> 0 <= n < N ->
  (forall k, 0 <= k < N -> (k = n \/ exists i d, 0 <= i < zlen ls /\ (d = 1 \/ d = -1) /\ pos k = cbs ls (nb (pos n) i d)) ->
     nth (Z.to_nat k) new dflt = nth (Z.to_nat k) new' dflt) ->
  relv old new n = relv old new' n.
Proof.
  intros W W' Hn H. pose proof (proj1 W) as L. pose proof (proj1 W') as L'. rewrite N_cells in L, L'.
  assert (forall j, 0 <= j < 2 -> field ls new j (pos n) = field ls new' j (pos n)) as E0.
  { intros j Hj. rewrite !(node_field ls Hs) by auto. f_equal. apply H; auto. }
  assert (forall j i d, 0 <= j < 2 -> 0 <= i < zlen ls -> d = 1 \/ d = -1 -> field ls new j (nb (pos n) i d) = field ls new' j (nb (pos n) i d)) as E1.
  { intros j i d Hj Hi Hd. destruct (nb_node ls Hs n i d Hn Hi Hd) as (k & Hk & Ek & G). rewrite !G by auto. f_equal. apply H; eauto 6. }
  assert (forall j, 0 <= j < 2 -> fringe ls h (field ls new j) (pos n) = fringe ls h (field ls new' j) (pos n)) as E2.
  { intros j Hj. unfold fringe. apply sumQ_ext. intros i Hi. apply in_zrange in Hi. now rewrite !E1 by auto. }
  unfold SplitL.relv, rel. rewrite !E0, !E2 by lia. reflexivity.
Qed.
Lemma relax_some old new n : two_fields ls old -> two_fields ls new -> 0 <= n < N -> relax old new n = Some (set_nth (Z.to_nat n) new (relv old new n)).
Proof. intros. now apply relax_eq. Qed.

Lemma nth_set_case {A} (l : list A) m n v d : (m < length l)%nat -> nth m (set_nth n l v) d = if Nat.eqb m n then v else nth m l d.
Proof.
  intros H. destruct (Nat.eqb_spec m n) as [->|E]; [now apply nth_set_nth_eq|]. apply nth_set_nth_ne. auto.
Qed.

(* nodes of one colour have no neighbours of this colour *)
Definition apart (color : Z) : Prop := forall n k i d, 0 <= n < N -> 0 <= k < N -> skipped axs color n = false -> skipped axs color k = false ->
  0 <= i < zlen ls -> d = 1 \/ d = -1 -> pos k = cbs ls (nb (pos n) i d) -> k = n.
Lemma tiled_apart color : Forall tiled ls -> color = 0 \/ color = 1 -> apart color.
Proof.
  intros T Hc n k i d Hn Hk Sn Sk Hi Hd E. rewrite (skip_colour ls) in Sn, Sk by auto.
  destruct (cbs_colour ls (pos n) i d Hs T (pos_box ls Hs n Hn) Hi Hd) as [F|F].
  - rewrite F in E. destruct (position_into 0 axs n (wf_lay 0 ls (lims_le ls Hs)) Hn) as [_ I]. auto.
  - rewrite <- E in F. rewrite F in Sk. destruct (Z.even (sumZ (pos n))), (color =? 0); discriminate.
Qed.

Lemma pass_any color order : apart color -> NoDup order -> (forall n, In n order -> 0 <= n < N) ->
  forall old new, two_fields ls old -> two_fields ls new ->
  exists new', pass color order old new = Some new' /\ two_fields ls new' /\
    (forall n, In n order -> skipped axs color n = false -> nth (Z.to_nat n) new' dflt = relv old new n) /\
    (forall n, 0 <= n < N -> ~ In n order \/ skipped axs color n = true -> nth (Z.to_nat n) new' dflt = nth (Z.to_nat n) new dflt).
Proof.
  intros Ap. unfold Split.pass. induction order as [|a order IH]; intros ND In_ old new Wo Wn; cbn [fold_opt].
  { exists new. split; [auto|]. split; [auto|]. split; [intros n []|auto]. }
  inversion ND as [|? ? Na ND']; subst. pose proof (In_ a (or_introl eq_refl)) as Ha. pose proof (proj1 Wn) as Ln. rewrite N_cells in Ln.
  destruct (skipped axs color a) eqn:Sa; cbn [bind].
  - destruct (IH ND' (fun n H => In_ n (or_intror H)) old new Wo Wn) as (new' & -> & W' & U & V). exists new'. split; [auto|]. split; [auto|]. split.
    + intros n [->|Hi] Sn; [congruence|auto].
    + intros n Hn [H|H]; apply V; auto. left. intros I. apply H. now right.
  - rewrite relax_some by auto. cbn [bind]. set (new1 := set_nth (Z.to_nat a) new (relv old new a)).
    assert (two_fields ls new1) as W1 by (apply two_set; auto).
    destruct (IH ND' (fun n H => In_ n (or_intror H)) old new1 Wo W1) as (new' & -> & W' & U & V). exists new'. split; [auto|]. split; [auto|].
    assert (forall n, 0 <= n < N -> n <> a -> nth (Z.to_nat n) new1 dflt = nth (Z.to_nat n) new dflt) as Ne.
    { intros n Hn E. unfold new1. rewrite nth_set_case by (unfold zlen in Ln; lia). destruct (Nat.eqb_spec (Z.to_nat n) (Z.to_nat a)); [lia|auto]. }
    split.
    + intros n [<-|Hi] Sn.
      * rewrite V by auto. unfold new1. rewrite nth_set_case by (unfold zlen in Ln; lia). now rewrite Nat.eqb_refl.
      * rewrite U by auto. pose proof (In_ n (or_intror Hi)) as Hn. apply relv_ext; auto. intros k Hk C. apply Ne; auto. intros ->. destruct C as [->|(i & d & Hi' & Hd & E)]; [auto|].
        apply Na. now rewrite (Ap n a i d Hn Ha Sn Sa Hi' Hd E).
    + intros n Hn C. assert (n <> a) as Nn by (intros ->; destruct C as [C|C]; [apply C; now left|congruence]). rewrite V; auto.
      destruct C as [C|C]; auto. left. intros I. apply C. now right.
Qed.

(* all nodes of the colour, whatever the order *)
Lemma pass_all color order : apart color -> all_nodes ls order -> forall old new, two_fields ls old -> two_fields ls new ->
  exists new', pass color order old new = Some new' /\ two_fields ls new' /\
    forall n, 0 <= n < N -> nth (Z.to_nat n) new' dflt = if skipped axs color n then nth (Z.to_nat n) new dflt else relv old new n.
Proof.
  intros Ap P old new Wo Wn.
  assert (forall n, In n order <-> 0 <= n < N) as I.
  { intros n. rewrite <- (in_zrange 0 N n). split; apply Permutation_in; [|apply Permutation_sym]; exact P. }
  destruct (pass_any color order Ap (Permutation_NoDup (Permutation_sym P) (NoDup_zrange _ _)) (fun n => proj1 (I n)) old new Wo Wn) as (new' & E & W & U & V).
  exists new'. split; [auto|]. split; [auto|]. intros n Hn. destruct (skipped axs color n) eqn:S; [apply V; auto|]. apply U; auto. now apply I.
Qed.
Lemma pass_order color order order' : apart color -> all_nodes ls order -> all_nodes ls order' -> forall old new, two_fields ls old -> two_fields ls new ->
  pass color order old new = pass color order' old new.
Proof.
  intros Ap P P' old new Wo Wn. destruct (pass_all color order Ap P old new Wo Wn) as (a & -> & Wa & Ea). destruct (pass_all color order' Ap P' old new Wo Wn) as (b & -> & Wb & Eb).
  f_equal. apply (cells_ext ls); auto. intros n Hn. now rewrite Ea, Eb.
Qed.

Notation sweep := (Split.sweep axs en h D K dt omega (weight ls h)).
Lemma sweep_order order order' : Forall tiled ls -> (forall p, all_nodes ls (order p)) -> (forall p, all_nodes ls (order' p)) ->
  forall old new, two_fields ls old -> two_fields ls new ->
  exists new', sweep order old new = Some new' /\ sweep order' old new = Some new' /\ two_fields ls new'.
Proof.
  intros T P P' old new Wo Wn. unfold Split.sweep.
  destruct (pass_all 1 (order 1) (tiled_apart 1 T (or_intror eq_refl)) (P 1) old new Wo Wn) as (a & Ea & Wa & _).
  rewrite <- (pass_order 1 (order 1) (order' 1)) by (auto using tiled_apart). rewrite Ea. cbn [bind].
  destruct (pass_all 0 (order 0) (tiled_apart 0 T (or_introl eq_refl)) (P 0) old a Wo Wa) as (b & Eb & Wb & _).
  rewrite <- (pass_order 0 (order 0) (order' 0)) by (auto using tiled_apart). rewrite Eb. eauto.
Qed.

(* ---- fixed points ---- *)
Notation eqs := (SplitL.eqs ls h en D K dt).
Lemma set_nth_id {A} (l : list A) n d : set_nth n l (nth n l d) = l.
Proof. apply set_nth_same. Qed.
Lemma pass_fixed color order old new : omega <> 0%Qc -> two_fields ls old -> two_fields ls new -> (forall n, In n order -> 0 <= n < N) ->
  (forall n, 0 <= n < N -> eqs old new (pos n)) -> pass color order old new = Some new.
Proof.
  intros Ho Wo Wn I E. unfold Split.pass. induction order as [|a order IH]; cbn [fold_opt]; [auto|]. destruct (skipped axs color a); cbn [bind].
  - apply IH. intros; apply I; now right.
  - pose proof (I a (or_introl eq_refl)) as Ha. rewrite relax_some by auto. cbn [bind].
    assert (relv old new a = nth (Z.to_nat a) new dflt) as -> by (rewrite (cell_pair ls Hs) by auto; apply rel_fixed; auto). rewrite set_nth_id. apply IH. intros; apply I; now right.
Qed.
Lemma sweep_fixed_back order old new : omega <> 0%Qc -> Forall tiled ls -> (forall p, all_nodes ls (order p)) -> two_fields ls old -> two_fields ls new ->
  sweep order old new = Some new -> forall n, 0 <= n < N -> eqs old new (pos n).
Proof.
  intros Ho T P Wo Wn E. unfold Split.sweep in E.
  destruct (pass_all 1 (order 1) (tiled_apart 1 T (or_intror eq_refl)) (P 1) old new Wo Wn) as (a & Ea & Wa & Fa). rewrite Ea in E. cbn [bind] in E.
  destruct (pass_all 0 (order 0) (tiled_apart 0 T (or_introl eq_refl)) (P 0) old a Wo Wa) as (b & Eb & Wb & Fb). rewrite Eb in E. injection E as ->.
  assert (forall n, 0 <= n < N -> skipped axs 0 n = negb (skipped axs 1 n)) as S.
  { intros n Hn. rewrite !(skip_colour ls) by auto. destruct (Z.even _); reflexivity. }
  assert (a = new) as ->.
  { apply (cells_ext ls); auto. intros n Hn. rewrite Fa by auto. destruct (skipped axs 1 n) eqn:S1; [auto|]. rewrite (Fb n Hn), S, S1 by auto. cbn [negb]. rewrite Fa, S1 by auto. reflexivity. }
  intros n Hn. apply rel_fixed with (omega := omega); auto. rewrite <- (cell_pair ls Hs) by auto. destruct (skipped axs 1 n) eqn:S1.
  - rewrite (Fb n Hn), S, S1 by auto. reflexivity.
  - rewrite (Fa n Hn), S1. reflexivity.
Qed.
End Pass.
