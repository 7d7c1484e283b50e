(* Reading, writing and the loops of the multigrid solver. *)
From Coq Require Import QArith.QArith QArith.Qcanon Lqa.
From Verif Require Import Model.Base Model.Boundary Model.Layout Model.Access Model.Stencil Model.Evolve Model.Multigrid Spec.Box Spec.Stencil Spec.Multigrid
  Proof.BaseL Proof.LayoutL Proof.AccessL Proof.StencilL Proof.StencilS Proof.StencilM.
Local Open Scope Z_scope.

Lemma loop_ok lo s hi : 0 < s -> exists r, loop lo s hi = Some r /\ NoDup r /\ forall x, In x r <-> lo <= x < hi /\ (s | x - lo).
Proof.
  intros Hs. unfold loop. destruct (Z.ltb_spec lo hi) as [L|L].
  - destruct (Z.ltb_spec 0 s); [|lia]. cbn [guard bind]. eexists. split; [reflexivity|]. split.
    + apply FinFun.Injective_map_NoDup; [|apply NoDup_zrange]. intros a b E. nia.
    + intros x. rewrite in_map_iff. split.
      * intros (k & <- & Hk). apply in_zrange in Hk. split; [|exists k; lia].
        assert (k < (hi - lo + s - 1) / s) as K by lia. assert (k * s + s <= hi - lo + s - 1).
        { pose proof (Z.mul_div_le (hi - lo + s - 1) s Hs). nia. }
        nia.
      * intros (Hx & k & E). exists k. split; [lia|]. apply in_zrange. split; [nia|]. assert (k + 1 <= (hi - lo + s - 1) / s); [|lia]. apply Z.div_le_lower_bound; nia.
  - exists []. split; [reflexivity|]. split; [constructor|]. intros x. cbn. lia.
Qed.

Lemma nest_in rs x : In x (nest rs) <-> Forall2 (fun r c => In c r) rs x.
Proof.
  revert x. induction rs as [|r rs IH]; intros x; cbn.
  - split; [intros [<-|[]]; constructor|inversion 1; auto].
  - rewrite in_flat_map. split.
    + intros (c & Hc & Hx). apply in_map_iff in Hx as (y & <- & Hy). constructor; [auto|now apply IH].
    + inversion 1 as [|? c ? y Hc Hy]; subst. exists c. split; [auto|]. apply in_map, IH, Hy.
Qed.
Lemma nest_nodup rs : Forall (@NoDup Z) rs -> NoDup (nest rs).
Proof.
  induction 1 as [|r rs Hr _ IH]; [repeat constructor; auto|]. cbn [nest]. induction Hr as [|c r Nc _ IHr]; cbn [flat_map]; [constructor|].
  assert (forall (l m : list (list Z)), NoDup l -> NoDup m -> (forall a, In a l -> ~ In a m) -> NoDup (l ++ m)) as A.
  { clear. induction l as [|a l IH]; intros m Hl Hm D; cbn; [auto|]. inversion Hl; subst. constructor.
    - rewrite in_app_iff. intros [H|H]; [auto|]. apply (D a); cbn; auto.
    - apply IH; auto. intros b Hb. apply D. cbn; auto. }
  apply A; [|exact IHr|].
  - apply FinFun.Injective_map_NoDup; [intros a b E; congruence|exact IH].
  - intros y Hy H. apply in_map_iff in Hy as (z & <- & _). apply in_flat_map in H as (c' & Hc' & H). apply in_map_iff in H as (z' & E & _). inversion E; subst. auto.
Qed.

Lemma fold_opt_ind {A S} (P : S -> Prop) (g : S -> A -> option S) l : (forall s a, In a l -> P s -> exists s', g s a = Some s' /\ P s') ->
  forall s, P s -> exists s', fold_opt g l s = Some s' /\ P s'.
Proof.
  induction l as [|a l IH]; intros H s Hs; cbn [fold_opt]; [eauto|].
  destruct (H s a) as (s1 & E1 & P1); [cbn; auto|auto|]. rewrite E1. cbn [bind]. apply IH; auto. intros; apply H; cbn; auto.
Qed.
Lemma map_opt_forall {A B} (g : A -> option B) (R : A -> B -> Prop) l : (forall a, In a l -> exists b, g a = Some b /\ R a b) ->
  exists bs, map_opt g l = Some bs /\ Forall2 R l bs.
Proof.
  induction l as [|a l IH]; intros H; cbn [map_opt]; [exists []; split; [auto|constructor]|].
  destruct (H a) as (b & E & Rb); [cbn; auto|]. destruct IH as (bs & Es & Rs); [intros; apply H; cbn; auto|]. rewrite E. cbn [bind]. rewrite Es. cbn [bind].
  exists (b :: bs). split; [auto|constructor; auto].
Qed.

Section Grid.
Context (ls : list limits) (Hl : Forall (fun l => l_x0 l = 0 /\ 1 < l_x1 l) ls).
Notation axs := (lay 0 ls).
Notation val := (value ls).
Lemma lims : lims_ok ls.
Proof. eapply Forall_impl; [|exact Hl]. cbn. lia. Qed.
Lemma zlen_axs : zlen axs = zlen ls.
Proof. unfold zlen. now rewrite length_lay. Qed.
Lemma node_len x : node ls x -> length x = length ls.
Proof. apply local_len. Qed.
Lemma node_iff x : node ls x <-> Forall2 (fun l c => 0 <= c < l_x1 l) ls x.
Proof.
  unfold node. revert x. pose proof Hl as F. clear Hl. induction F as [|l ls' (H0 & _) _ IH]; intros x; destruct x as [|c x]; cbn; try (split; intros H; inversion H; fail); try tauto.
  - split; [constructor|auto].
  - rewrite H0. split; [intros (H & B); constructor; [auto|now apply IH]|inversion 1; subst; split; [auto|now apply IH]].
Qed.
Lemma rd_value u x : sized ls u -> node ls x -> rd axs u x = Some (val u x).
Proof.
  intros Su Hx. pose proof (node_len x Hx) as L. unfold rd, grid_read_chain. rewrite addr_chain_vec by (now rewrite length_lay).
  change (do p <- addr_vec false axs x 0; get u p) with (grid_read false axs u x). unfold value.
  destruct (grid_read false axs u x) eqn:E; [reflexivity|]. destruct (inrange_access false 0 ls u x 0%Qc ltac:(lia) lims Su Hx) as (u' & W & _).
  exfalso. destruct (local_encode false 0 ls u x ltac:(lia) lims Hx) as (R & _ & B). rewrite R in E. destruct (get_ok u (encode axs x)) as (v & Ev); [rewrite Su; exact B|]. congruence.
Qed.
Lemma wr_value u x v : sized ls u -> node ls x -> exists u', wr axs u x v = Some u' /\ sized ls u' /\
  val u' x = v /\ (forall y, node ls y -> y <> x -> val u' y = val u y) /\ (v = val u x -> u' = u).
Proof.
  intros Su Hx. pose proof (node_len x Hx) as L. destruct (inrange_access false 0 ls u x v ltac:(lia) lims Su Hx) as (u' & W & Lu & Rx & Ry).
  exists u'. unfold wr. rewrite addr_chain_vec by (now rewrite length_lay). split; [exact W|]. split; [unfold sized in *; lia|]. unfold value. rewrite Rx. split; [reflexivity|]. split.
  - intros y Hy Ne. destruct (Ry y Hy Ne) as (-> & _). reflexivity.
  - intros ->. destruct (local_encode false 0 ls u x ltac:(lia) lims Hx) as (R & Wr & B). rewrite Wr in W. rewrite R in W.
    destruct (get_ok u (encode axs x)) as (q & Eq); [rewrite Su; exact B|]. rewrite Eq in W. rewrite put_ok in W by (rewrite Su; exact B). injection W as <-.
    rewrite (get_nth u _ 0%Qc) in Eq by (rewrite Su; exact B). injection Eq as <-. apply set_nth_same.
Qed.
Lemma rd_at_value u x i k : sized ls u -> 0 <= i < zlen ls -> length x = length ls -> node ls (nb x i k) -> rd_at axs u x i k = Some (val u (nb x i k)).
Proof.
  intros Su Hi L Hn. unfold rd_at. assert (0 <= i < zlen x) as Hx by (unfold zlen in *; lia). rewrite (get_nth x i 0) by auto. cbn [bind]. rewrite put_ok by (unfold zlen in Hx; auto). cbn [bind].
  now apply rd_value.
Qed.
Lemma assign_ind (P : list Qc -> Prop) xs e : (forall u x, In x xs -> P u -> exists v u', e u x = Some v /\ wr axs u x v = Some u' /\ P u') ->
  forall u, P u -> exists u', assign axs xs e u = Some u' /\ P u'.
Proof.
  intros H. apply fold_opt_ind. intros u x Hx Pu. destruct (H u x Hx Pu) as (v & u' & E & W & P'). rewrite E. cbn [bind]. eauto.
Qed.
Lemma assign_done (P : list (list Z) -> list Qc -> Prop) xs e :
  (forall u pre x post, xs = pre ++ x :: post -> P pre u -> exists v u', e u x = Some v /\ wr axs u x v = Some u' /\ P (pre ++ [x]) u') ->
  forall u, P [] u -> exists u', assign axs xs e u = Some u' /\ P xs u'.
Proof.
  intros H. assert (forall post pre u, xs = pre ++ post -> P pre u -> exists u', assign axs post e u = Some u' /\ P xs u') as A.
  { induction post as [|x post IH]; intros pre u E Pu; cbn; [exists u; split; [auto|]; now rewrite E, app_nil_r|].
    destruct (H u pre x post E Pu) as (v & u' & Ev & W & P'). rewrite Ev. cbn [bind]. rewrite W. cbn [bind]. apply (IH (pre ++ [x])); [now rewrite <- app_assoc|auto]. }
  intros u Pu. now apply (A xs []).
Qed.

(* coordinates *)
Lemma nb_set x i k : nb x i k = set_nth (Z.to_nat i) x (nth (Z.to_nat i) x 0 + k). Proof. reflexivity. Qed.
Lemma Forall2_set {A B} (R : A -> B -> Prop) (l : list A) (m : list B) n b da db : Forall2 R l m -> ((n < length l)%nat -> R (nth n l da) (nth n m db) -> R (nth n l da) b) -> Forall2 R l (set_nth n m b).
Proof.
  intros F. revert n. induction F as [|a c l m Rac F IH]; intros n H; destruct n; cbn; try constructor; auto.
  - apply (H); cbn; [lia|auto].
  - apply IH. intros L. apply H. cbn. lia.
Qed.
Lemma inside_node s x : 0 < s -> inside ls s x -> node ls x.
Proof. intros Hs H. apply node_iff. clear Hl. induction H as [|l c ls' x' (Hc & _) _ IH]; constructor; [lia|auto]. Qed.
Lemma inside_len s x : inside ls s x -> length x = length ls.
Proof. intros H. symmetry. now apply Forall2_len in H. Qed.
Lemma Forall2_nth {A B} (R : A -> B -> Prop) l m n da db : Forall2 R l m -> (n < length l)%nat -> R (nth n l da) (nth n m db).
Proof. intros F. revert n. induction F as [|a b l m Rab F IH]; intros n Hn; [inversion Hn|]. destruct n; cbn; [auto|]. apply IH. cbn in Hn. lia. Qed.
Lemma Forall_nth_in {A} (P : A -> Prop) l n d : Forall P l -> (n < length l)%nat -> P (nth n l d).
Proof. intros F H. rewrite Forall_forall in F. apply F, nth_In, H. Qed.
Definition lim0 := mkLim 0 0 0 0 0 0.
Lemma node_set x i c : node ls x -> (i < length ls)%nat -> 0 <= c < l_x1 (nth i ls lim0) -> node ls (set_nth i x c).
Proof. rewrite !node_iff. intros H Hi Hc. apply Forall2_set with (da := lim0) (db := 0); auto. Qed.
Definition divides (s : Z) : Prop := Forall (fun l => (s | l_x1 l - 1)) ls.
Lemma near s x i k : 0 < s -> divides s -> inside ls s x -> 0 <= i < zlen ls -> k = s \/ k = - s -> node ls (nb x i k).
Proof.
  intros Hs Hd Hx Hi Hk. assert (Z.to_nat i < length ls)%nat as Hn by (unfold zlen in Hi; lia).
  apply node_set; [eapply inside_node; eauto|auto|]. pose proof (Forall2_nth _ _ _ _ lim0 0 Hx Hn) as (Hc & (a & Ea)). pose proof (Forall_nth_in _ _ _ lim0 Hd Hn) as (b & Eb). cbn beta in *.
  assert (a * s + s <= b * s) by (assert (a < b) by nia; nia). destruct Hk; subst k; lia.
Qed.
Lemma inner_ok s : 0 < s -> exists xs, inner axs s = Some xs /\ NoDup xs /\ forall x, In x xs <-> inside ls s x.
Proof.
  intros Hs. unfold inner.
  destruct (map_opt_forall (fun a => loop s s (a_x1 a - 1)) (fun a r => NoDup r /\ forall x, In x r <-> s <= x < a_x1 a - 1 /\ (s | x)) axs) as (rs & E & F).
  { intros a _. destruct (loop_ok s s (a_x1 a - 1) Hs) as (r & E & N & I). exists r. split; [auto|]. split; [auto|]. intros x. rewrite I. split; intros (H & k & Ek); split; auto; [exists (k + 1)|exists (k - 1)]; lia. }
  rewrite E. cbn [bind]. exists (nest rs). split; [auto|]. split.
  - apply nest_nodup. clear E. induction F as [|a r A rs' (N & _) _ IH]; constructor; auto.
  - intros x. rewrite nest_in. unfold inside. clear E. remember axs as A eqn:EA. assert (map a_x1 A = map l_x1 ls) as EM by (subst; apply map_x1_lay). clear EA. clear Hl. revert x EM. generalize ls. induction F as [|a r A rs' (N & I) _ IH]; intros m x EM; destruct m as [|l m]; try discriminate.
    + split; inversion 1; constructor.
    + cbn in EM. injection EM as E1 E2. split; inversion 1 as [|? c ? y Hc Hy]; subst; constructor; try (apply I); try (rewrite <- E1; apply I); try (now rewrite E1); try (now apply (IH m)); auto.
Qed.
End Grid.
