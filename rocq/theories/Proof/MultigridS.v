(* Smoothing. *)
From Coq Require Import QArith.QArith QArith.Qcanon Lqa.
From Verif Require Import Model.Base Model.Boundary Model.Layout Model.Access Model.Stencil Model.Evolve Model.Multigrid Spec.Box Spec.Stencil Spec.Multigrid
  Proof.BaseL Proof.LayoutL Proof.AccessL Proof.StencilL Proof.StencilS Proof.StencilM Proof.MultigridL.
Local Open Scope Z_scope.

Lemma fold_plus {A} (g : Qc -> A -> option Qc) (t : A -> Qc) l : (forall i a, In i l -> g a i = Some (a + t i)%Qc) ->
  forall a, fold_opt g l a = Some (a + sumQ (map t l))%Qc.
Proof.
  induction l as [|i l IH]; intros H a; cbn [fold_opt map sumQ]; [f_equal; ring|].
  rewrite H by (cbn; auto). cbn [bind]. rewrite IH by (intros; apply H; cbn; auto). f_equal. ring.
Qed.
Lemma fold_left_plus {A} (t : A -> Qc) l a : fold_left (fun a r => a + t r)%Qc l a = (a + sumQ (map t l))%Qc.
Proof. revert a. induction l as [|i l IH]; intros a; cbn [fold_left map sumQ]; [ring|]. rewrite IH. ring. Qed.
Lemma Qc_of_pos s : 0 < s -> (0 < Qc_of s)%Qc.
Proof. intros H. unfold Qclt. assert (this (Qc_of s) == inject_Z s)%Q as -> by apply Qred_correct. change (this 0) with (inject_Z 0). now rewrite <- Zlt_Qlt. Qed.
Lemma map_zrange_nth {A B} (g : A -> B) l d : map g l = map (fun i => g (nth (Z.to_nat i) l d)) (zrange 0 (zlen l)).
Proof.
  unfold zrange. rewrite map_map. replace (Z.to_nat (zlen l - 0)) with (length l) by (unfold zlen; lia).
  rewrite (map_ext _ (fun k => g (nth k l d))) by (intros; f_equal; f_equal; lia).
  induction l as [|a l IH]; [reflexivity|]. cbn [length seq map]. rewrite <- seq_shift, map_map. cbn [nth]. f_equal. exact IH.
Qed.

Section Smooth.
Context (ls : list limits) (Hl : Forall (fun l => l_x0 l = 0 /\ 1 < l_x1 l) ls) (Hne : ls <> []) (dx : list Qc) (Hdx : spaced ls dx).
Notation axs := (lay 0 ls).
Notation val := (value ls).
Notation dims := (zrange 0 (zlen ls)).
Context (s : Z) (Hs : 0 < s) (Hd : divides ls s).

Definition rr (i : Z) : Qc := (/ ((Qc_of s * nth (Z.to_nat i) dx 0) * (Qc_of s * nth (Z.to_nat i) dx 0)))%Qc.
Definition W : Qc := sumQ (map (fun i => c2 * rr i)%Qc dims).
Definition w : Qc := (/ W)%Qc.
Lemma h_nz i : 0 <= i < zlen ls -> (Qc_of s * nth (Z.to_nat i) dx 0 <> 0)%Qc.
Proof.
  intros Hi E. destruct Hdx as (Ld & Fd). apply Qcmult_integral in E as [E|E].
  - pose proof (Qc_of_pos s Hs) as P. rewrite E in P. now apply Qclt_not_eq in P.
  - apply (Forall_nth_in _ _ (Z.to_nat i) 0%Qc Fd); [unfold zlen in Hi; lia|auto].
Qed.
Lemma rr_pos i : 0 <= i < zlen ls -> (0 < rr i)%Qc.
Proof. intros Hi. apply sq_inv_pos. now apply h_nz. Qed.
Lemma dim_pos : 0 < zlen ls.
Proof. clear Hl Hdx Hd. destruct ls as [|l ls']; [congruence|]. rewrite zlen_cons. pose proof (zlen_nonneg ls'). lia. Qed.
Lemma W_pos : (0 < W)%Qc.
Proof.
  unfold W. pose proof dim_pos as D. rewrite zrange_cons by lia. cbn [map sumQ].
  assert (0 < c2 * rr 0)%Qc as P0.
  { assert (0 < rr 0)%Qc as P by (apply rr_pos; lia). unfold Qclt in *. rewrite this_mul. change (this 0) with 0%Q in *. change (this c2) with (2 # 1)%Q. lra. }
  assert (0 <= sumQ (map (fun i => c2 * rr i) (zrange (0 + 1) (zlen ls))))%Qc as P1.
  { apply sumQ_ge_0. intros i Hi. apply in_zrange in Hi. assert (0 < rr i)%Qc as P by (apply rr_pos; lia). unfold Qclt, Qcle in *. rewrite this_mul. change (this 0) with 0%Q in *. change (this c2) with (2 # 1)%Q. lra. }
  unfold Qclt, Qcle in *. rewrite this_add. change (this 0) with 0%Q in *. lra.
Qed.
Lemma W_nz : W <> 0%Qc.
Proof. intros E. pose proof W_pos as P. rewrite E in P. now apply Qclt_not_eq in P. Qed.
Lemma w_pos : (0 < w)%Qc.
Proof. unfold w. pose proof W_pos as P. unfold Qclt in *. rewrite this_inv. change (this 0) with 0%Q in *. now apply Qinv_lt_0_compat. Qed.
Lemma recips_eq : map_opt recip (squares dx s) = Some (map rr dims).
Proof.
  unfold squares. destruct Hdx as (Ld & Fd). rewrite (map_zrange_nth _ dx 0%Qc). replace (zlen dx) with (zlen ls) by (unfold zlen; lia).
  assert (forall l, (forall i, In i l -> 0 <= i < zlen ls) -> map_opt recip (map (fun i => q_of s * nth (Z.to_nat i) dx 0 * (q_of s * nth (Z.to_nat i) dx 0))%Qc l) = Some (map rr l)) as A.
  { induction l as [|i l IH]; intros H; [reflexivity|]. cbn [map map_opt]. change (q_of s) with (Qc_of s). rewrite recip_eq by (apply sq_nz, h_nz, H; cbn; auto). cbn [bind].
    change (Qc_of s) with (q_of s). rewrite IH by (intros; apply H; cbn; auto). reflexivity. }
  apply A. intros i Hi. now apply in_zrange in Hi.
Qed.
Lemma weights_eq : weights dx s = Some (w, map (fun r => w * r)%Qc (map rr dims)).
Proof.
  unfold weights. rewrite recips_eq. cbn [bind]. rewrite (fold_left_plus (fun r => c2 * r)%Qc), map_map.
  replace (0 + sumQ (map (fun i => c2 * rr i) dims))%Qc with W by (unfold W; ring). rewrite recip_eq by apply W_nz. reflexivity.
Qed.
Lemma get_map_dims (t : Z -> Qc) i : 0 <= i < zlen ls -> get (map t dims) i = Some (t i).
Proof.
  intros Hi. rewrite (get_nth _ i (t 0)) by (rewrite zlen_map, zlen_zrange; lia). f_equal. rewrite map_nth. f_equal.
  apply nth_error_nth. rewrite nth_error_zrange by lia. f_equal. lia.
Qed.
Definition lap (u : list Z -> Qc) (x : list Z) : Qc := laplacian_at ls dx s u x.
Lemma lap_eq u x : lap u x = (sumQ (map (fun i => rr i * (u (nb x i (- s)) + u (nb x i s)))%Qc dims) - W * u x)%Qc.
Proof.
  unfold lap, laplacian_at, W. replace (sumQ (map (fun i => c2 * rr i) dims) * u x)%Qc with (u x * sumQ (map (fun i => c2 * rr i) dims))%Qc by ring.
  rewrite <- sumQ_mul, <- sumQ_sub. apply sumQ_ext. intros i Hi. apply in_zrange in Hi. unfold rr. cbv zeta. fold c2. pose proof (h_nz i Hi) as Z. field. split; intros C; apply Z; rewrite C; ring.
Qed.
Definition relv (u f : list Qc) (x : list Z) : Qc := (val u x + w * (lap (val u) x - val f x))%Qc.
Lemma relv_eq u f x : relv u f x = (- w * val f x + sumQ (map (fun i => w * rr i * (val u (nb x i (- s)) + val u (nb x i s)))%Qc dims))%Qc.
Proof.
  unfold relv. rewrite lap_eq. transitivity (- w * val f x + w * sumQ (map (fun i => rr i * (val u (nb x i (- s)) + val u (nb x i s)))%Qc dims))%Qc.
  - unfold w. pose proof W_nz. field. auto.
  - rewrite <- sumQ_mul. f_equal. apply sumQ_ext. intros; ring.
Qed.
Lemma relaxed_eq u f x : sized ls u -> (sized ls f) -> inside ls s x ->
  relaxed axs s f (w, map (fun r => w * r)%Qc (map rr dims)) u x = Some (relv u f x).
Proof.
  intros Su Sf Hx. unfold relaxed. rewrite (rd_value ls Hl f x Sf) by (eapply inside_node; eauto). cbn [bind fst snd]. rewrite zlen_axs.
  rewrite (fold_plus _ (fun i => w * rr i * (val u (nb x i (- s)) + val u (nb x i s)))%Qc); [now rewrite relv_eq|].
  intros i a Hi. apply in_zrange in Hi. rewrite map_map, (get_map_dims (fun i => w * rr i)%Qc) by auto. cbn [bind]. pose proof (inside_len ls s x Hx) as Lx.
  rewrite !(rd_at_value ls Hl) by (auto; apply (near ls Hl s); auto). reflexivity.
Qed.
Lemma colour_cover x : inside ls s x -> first_colour x = true \/ second_colour axs x = true.
Proof.
  intros Hx. unfold first_colour, second_colour. destruct (length axs <? 3)%nat; [|destruct (Z.rem (sumZ x) 2 =? 0); auto].
  assert (0 <= sumZ x) as N. { clear Hdx Hd Hne Hl. induction Hx as [|l c ls' x' (Hc & _) _ IH]; [unfold sumZ; cbn; lia|]. unfold sumZ in *. cbn [fold_right]. lia. }
  assert (Z.rem (sumZ x) 2 = 0 \/ Z.rem (sumZ x) 2 = 1) as [-> | ->]; auto. pose proof (Z.rem_bound_pos (sumZ x) 2 N ltac:(lia)). lia.
Qed.
Lemma smooth_ind (P : list Qc -> Prop) f : sized ls f -> (forall u, P u -> sized ls u) ->
  (forall u x, P u -> inside ls s x -> exists u', wr axs u x (relv u f x) = Some u' /\ P u') ->
  forall n u, P u -> exists u', smooth axs dx s n u f = Some u' /\ P u'.
Proof.
  intros Sf PS H n u Pu. unfold smooth. rewrite weights_eq. cbn [bind]. revert u Pu. apply fold_opt_ind. intros u _ _ Pu.
  destruct (inner_ok ls s Hs) as (xs & -> & _ & Hxs). cbn [bind]. unfold relax_sweep.
  assert (forall c u, P u -> exists u', assign axs (filter c xs) (relaxed axs s f (w, map (fun r => w * r)%Qc (map rr dims))) u = Some u' /\ P u') as A.
  { intros c. apply assign_ind. intros v x Hx Pv. apply filter_In in Hx as (Hx & _). apply Hxs in Hx. destruct (H v x Pv Hx) as (u' & E & P'). exists (relv v f x), u'.
    split; [apply relaxed_eq; auto|auto]. }
  destruct (A first_colour u Pu) as (u1 & -> & P1). cbn [bind]. apply A, P1.
Qed.

(* solutions stay *)
Lemma smooth_fixed n u f : sized ls u -> sized ls f -> (forall x, inside ls s x -> lap (val u) x = val f x) -> smooth axs dx s n u f = Some u.
Proof.
  intros Su Sf HS. destruct (smooth_ind (fun v => v = u) f Sf ltac:(now intros ? ->)) with (n := n) (u := u) as (u' & E & ->); auto.
  intros v x -> Hx. destruct (wr_value ls Hl u x (relv u f x) Su) as (u' & E & _ & _ & _ & F); [eapply inside_node; eauto|]. exists u'. split; [auto|]. apply F. unfold relv. rewrite HS by auto. ring.
Qed.
(* nodes off the inner lattice are not touched *)
Lemma smooth_frame n u f : sized ls u -> sized ls f -> exists u', smooth axs dx s n u f = Some u' /\ sized ls u' /\ forall y, node ls y -> ~ inside ls s y -> val u' y = val u y.
Proof.
  intros Su Sf. apply (smooth_ind (fun v => sized ls v /\ forall y, node ls y -> ~ inside ls s y -> val v y = val u y) f Sf); [now intros ? (? & _)| |auto].
  intros v x (Sv & F) Hx. destruct (wr_value ls Hl v x (relv v f x) Sv) as (u' & E & S' & _ & G & _); [eapply inside_node; eauto|]. exists u'. split; [auto|]. split; [auto|].
  intros y Hy Ny. rewrite G; auto. intros ->. auto.
Qed.
(* the largest error does not grow *)
Lemma lattice_near x i k : inside ls s x -> 0 <= i < zlen ls -> k = s \/ k = - s -> lattice ls s (nb x i k).
Proof.
  intros Hx Hi Hk. split; [now apply (near ls Hl s)|]. rewrite nb_set.
  assert (Forall (fun c => (s | c)) x) as Fx. { clear Hl Hne Hdx Hd Hi. induction Hx as [|l c ls' x' (_ & D) _ IH]; constructor; auto. }
  apply Forall_forall. intros c Hc. apply In_nth_error in Hc as (m & Em). destruct (Nat.eq_dec (Z.to_nat i) m) as [<-|Ne].
  - rewrite nth_error_set_nth_eq in Em by (rewrite (inside_len ls s x Hx); unfold zlen in Hi; lia). injection Em as <-. apply Z.divide_add_r.
    + apply Forall_nth_in; [exact Fx|]. rewrite (inside_len ls s x Hx). unfold zlen in Hi. lia.
    + destruct Hk as [-> | ->]; [apply Z.divide_refl|apply Z.divide_opp_r, Z.divide_refl].
  - rewrite nth_error_set_nth_ne in Em by auto. apply nth_error_In in Em. rewrite Forall_forall in Fx. auto.
Qed.
Lemma inside_lattice x : inside ls s x -> lattice ls s x.
Proof.
  intros Hx. split; [eapply inside_node; eauto|]. clear Hl Hne Hdx Hd. induction Hx as [|l c ls' x' (_ & D) _ IH]; constructor; auto.
Qed.
Lemma average_le (e : list Z -> Qc) M x : (forall i k, 0 <= i < zlen ls -> k = s \/ k = - s -> (e (nb x i k) <= M)%Qc) ->
  (w * sumQ (map (fun i => rr i * (e (nb x i (- s)) + e (nb x i s))) dims) <= M)%Qc.
Proof.
  intros H. assert (sumQ (map (fun i => rr i * (e (nb x i (- s)) + e (nb x i s))) dims) <= W * M)%Qc as A.
  { unfold W. replace (sumQ (map (fun i => c2 * rr i) dims) * M)%Qc with (M * sumQ (map (fun i => c2 * rr i) dims))%Qc by ring. rewrite <- sumQ_mul. apply sumQ_le.
    intros i Hi. apply in_zrange in Hi. pose proof (rr_pos i Hi) as P. pose proof (H i (- s) Hi (or_intror eq_refl)) as H1. pose proof (H i s Hi (or_introl eq_refl)) as H2. revert P H1 H2.
    generalize (rr i) (e (nb x i (- s))) (e (nb x i s)). intros r a b. unfold Qclt, Qcle. rewrite !this_mul, this_add. change (this 0) with 0%Q. change (this c2) with (2 # 1)%Q. generalize (this r) (this a) (this b) (this M). intros. nra. }
  pose proof W_pos as P. assert (M = w * (W * M))%Qc as -> by (unfold w; field; apply W_nz). rewrite !(Qcmult_comm w). apply Qcmult_le_compat_r; [|apply Qclt_le_weak, w_pos]. auto.
Qed.
Lemma relv_error u f g x : lap g x = val f x -> (relv u f x - g x = w * sumQ (map (fun i => rr i * ((val u (nb x i (- s)) - g (nb x i (- s))) + (val u (nb x i s) - g (nb x i s)))) dims))%Qc.
Proof.
  intros E. unfold relv. rewrite <- E, !lap_eq. transitivity (w * (sumQ (map (fun i => rr i * (val u (nb x i (- s)) + val u (nb x i s)))%Qc dims) - sumQ (map (fun i => rr i * (g (nb x i (- s)) + g (nb x i s)))%Qc dims)))%Qc.
  - unfold w. field. apply W_nz.
  - rewrite <- sumQ_sub. f_equal. apply sumQ_ext. intros; ring.
Qed.
Lemma smooth_error n u f g lo hi : sized ls u -> sized ls f -> (forall x, inside ls s x -> lap g x = val f x) ->
  (forall x, lattice ls s x -> lo <= val u x - g x /\ val u x - g x <= hi)%Qc ->
  exists u', smooth axs dx s n u f = Some u' /\ sized ls u' /\ (forall x, lattice ls s x -> lo <= val u' x - g x /\ val u' x - g x <= hi)%Qc.
Proof.
  intros Su Sf HS HB. apply (smooth_ind (fun v => sized ls v /\ (forall x, lattice ls s x -> lo <= val v x - g x /\ val v x - g x <= hi)%Qc) f Sf); [now intros ? (? & _)| |auto].
  intros v x (Sv & F) Hx. destruct (wr_value ls Hl v x (relv v f x) Sv) as (u' & E & S' & Vx & G & _); [eapply inside_node; eauto|]. exists u'. split; [auto|]. split; [auto|].
  intros y Hy. destruct (list_eq_dec Z.eq_dec y x) as [->|Ne]; [|rewrite G by (auto; apply Hy); now apply F].
  rewrite Vx, (relv_error v f g x (HS x Hx)). split.
  - pose proof (average_le (fun y => - (val v y - g y))%Qc (- lo)%Qc x) as A.
    assert (w * sumQ (map (fun i => rr i * (- (val v (nb x i (- s)) - g (nb x i (- s))) + - (val v (nb x i s) - g (nb x i s)))) dims) =
            - (w * sumQ (map (fun i => rr i * (val v (nb x i (- s)) - g (nb x i (- s)) + (val v (nb x i s) - g (nb x i s)))) dims)))%Qc as EQ.
    { transitivity (w * (- (1) * sumQ (map (fun i => rr i * (val v (nb x i (- s)) - g (nb x i (- s)) + (val v (nb x i s) - g (nb x i s)))) dims)))%Qc; [|ring]. f_equal. rewrite <- sumQ_mul. apply sumQ_ext. intros; ring. }
    cbv beta in A. rewrite EQ in A. assert (forall a b : Qc, (- a <= - b -> b <= a)%Qc) as N by (clear; intros a b; unfold Qcle; rewrite !this_opp; lra).
    apply N, A. intros i k Hi Hk. destruct (F (nb x i k) (lattice_near x i k Hx Hi Hk)) as (L & _). revert L. clear. unfold Qcle. rewrite !this_opp. lra.
  - apply (average_le (fun y => val v y - g y)%Qc). intros i k Hi Hk. apply F. now apply lattice_near.
Qed.

(* a sweep that changes nothing has found a solution *)
Lemma assign_untouched xs e u u' y : (forall x, In x xs -> node ls x) -> sized ls u -> assign axs xs e u = Some u' -> node ls y -> ~ In y xs -> val u' y = val u y.
Proof.
  revert u. induction xs as [|x xs IH]; intros u Hn Su E Hy Ny; cbn in E; [now injection E as <-|].
  destruct (e u x) as [v|]; [|discriminate]. cbn [bind] in E. destruct (wr_value ls Hl u x v Su) as (u1 & W1 & S1 & _ & G & _); [apply Hn; cbn; auto|].
  rewrite W1 in E. cbn [bind] in E. rewrite (IH u1); auto; [|intros; apply Hn; cbn; auto|intros C; apply Ny; cbn; auto]. apply G; auto. intros ->. apply Ny. cbn. auto.
Qed.
Lemma assign_fixed xs e u0 u : NoDup xs -> (forall x, In x xs -> node ls x) -> sized ls u0 -> assign axs xs e u0 = Some u -> (forall y, In y xs -> val u0 y = val u y) ->
  u0 = u /\ forall x, In x xs -> e u x = Some (val u x).
Proof.
  intros N. revert u0. induction N as [|x xs Nx N IH]; intros u0 Hn Su E HE; cbn in E; [injection E as <-; split; [auto|intros ? []]|].
  destruct (e u0 x) as [v|] eqn:Ev; [|discriminate]. cbn [bind] in E. destruct (wr_value ls Hl u0 x v Su) as (u1 & W1 & S1 & Vx & G & Same); [apply Hn; cbn; auto|].
  rewrite W1 in E. cbn [bind] in E. assert (u1 = u0) as ->.
  { apply Same. rewrite (HE x) by (cbn; auto). rewrite <- Vx. symmetry. apply (assign_untouched xs e u1 u x); auto; [intros; apply Hn; cbn; auto|apply Hn; cbn; auto]. }
  destruct (IH u0) as (-> & F); auto; [intros; apply Hn; cbn; auto|intros; apply HE; cbn; auto|]. split; [auto|].
  intros y [<-|Hy]; [|auto]. rewrite Ev. f_equal. rewrite <- Vx. reflexivity.
Qed.
Lemma filter_excl (x : list Z) : first_colour x = true -> second_colour axs x = true -> False.
Proof.
  unfold first_colour, second_colour. intros A B. apply Z.eqb_eq in A. rewrite A in B. destruct (length axs <? 3)%nat; discriminate.
Qed.
Lemma sweep_solution u f : sized ls u -> sized ls f -> smooth axs dx s 1 u f = Some u -> forall x, inside ls s x -> lap (val u) x = val f x.
Proof.
  intros Su Sf. unfold smooth. rewrite weights_eq. cbn [bind]. change (zrange 0 1) with [0]. cbn [fold_opt]. destruct (inner_ok ls s Hs) as (xs & -> & N & Hxs). cbn [bind].
  set (e := relaxed axs s f (w, map (fun r => w * r)%Qc (map rr dims))). intros E x Hx.
  assert (assign axs (filter first_colour xs ++ filter (second_colour axs) xs) e u = Some u) as E'.
  { unfold assign. rewrite fold_opt_app. unfold relax_sweep in E. fold e in E. unfold assign in E. destruct (fold_opt _ (filter first_colour xs) u); [|discriminate]. cbn [bind] in *. destruct (fold_opt _ (filter (second_colour axs) xs) l); [|discriminate]. cbn [bind] in E. auto. }
  destruct (assign_fixed (filter first_colour xs ++ filter (second_colour axs) xs) e u u) as (_ & F); auto.
  - assert (forall (l m : list (list Z)), NoDup l -> NoDup m -> (forall a, In a l -> ~ In a m) -> NoDup (l ++ m)) as A.
    { clear. induction l as [|a l IH]; intros m Hl Hm D; cbn; [auto|]. inversion Hl; subst. constructor.
      - rewrite in_app_iff. intros [H|H]; [auto|]. apply (D a); cbn; auto.
      - apply IH; auto. intros b Hb. apply D. cbn; auto. }
    apply A; [now apply NoDup_filter|now apply NoDup_filter|]. intros a Ha Hb. apply filter_In in Ha as (_ & Ha). apply filter_In in Hb as (_ & Hb). eapply filter_excl; eauto.
  - intros y Hy. apply in_app_iff in Hy as [Hy|Hy]; apply filter_In in Hy as (Hy & _); apply Hxs in Hy; eapply inside_node; eauto.
  - assert (e u x = Some (val u x)) as Ex.
    { apply F, in_app_iff. destruct (colour_cover x Hx); [left|right]; apply filter_In; split; auto; now apply Hxs. }
    unfold e in Ex. rewrite relaxed_eq in Ex by auto. injection Ex as Ex. unfold relv in Ex.
    assert (w * (lap (val u) x - val f x) = 0)%Qc as Z by (transitivity (val u x + w * (lap (val u) x - val f x) - val u x)%Qc; [ring|rewrite Ex; ring]).
    apply Qcmult_integral in Z as [Z|Z]; [pose proof w_pos as P; rewrite Z in P; now apply Qclt_not_eq in P|]. transitivity (lap (val u) x - val f x + val f x)%Qc; [ring|]. rewrite Z. ring.
Qed.

(* the maximum principle *)
Lemma list_max {A} (e : A -> Qc) l : l <> [] -> exists m, In m l /\ forall a, In a l -> (e a <= e m)%Qc.
Proof.
  induction l as [|a l IH]; [congruence|]. intros _. destruct l as [|b l]; [exists a; split; [cbn; auto|]; intros c [<-|[]]; apply Qcle_refl|].
  destruct IH as (m & Hm & H); [discriminate|]. destruct (Qclt_le_dec (e a) (e m)) as [L|G].
  - exists m. split; [right; auto|]. intros c [<-|Hc]; [now apply Qclt_le_weak|auto].
  - exists a. split; [cbn; auto|]. intros c [<-|Hc]; [apply Qcle_refl|]. eapply Qcle_trans; [apply H, Hc|auto].
Qed.
Lemma inside_dec x : {inside ls s x} + {~ inside ls s x}.
Proof.
  unfold inside. clear Hl Hne Hdx Hd. revert x. induction ls as [|l ls' IH]; intros [|c x]; try (right; inversion 1; fail); [left; constructor|].
  destruct (IH x) as [I|N]; [|right; inversion 1; auto].
  destruct (Z_le_dec s c); [|right; inversion 1; lia]. destruct (Z_lt_dec c (l_x1 l - 1)); [|right; inversion 1; lia].
  destruct (Znumtheory.Zdivide_dec s c); [left; constructor; auto|right; inversion 1; tauto].
Qed.
Lemma below (e : list Z -> Qc) : (forall x, inside ls s x -> (W * e x = sumQ (map (fun i => rr i * (e (nb x i (- s)) + e (nb x i s))) dims))%Qc) ->
  (forall x, lattice ls s x -> ~ inside ls s x -> e x <= 0)%Qc -> forall x, lattice ls s x -> (e x <= 0)%Qc.
Proof.
  intros HE HB. destruct (inner_ok ls s Hs) as (xs & _ & _ & Hxs). destruct xs as [|x0 xs0] eqn:Exs.
  { intros x Hx. apply HB; auto. intros C. apply Hxs in C. inversion C. }
  destruct (list_max e (x0 :: xs0)) as (m & Hm & HM); [discriminate|]. apply Hxs in Hm.
  destruct (Qclt_le_dec 0 (e m)) as [P|Np].
  2:{ intros x Hx. destruct (inside_dec x) as [I|N]; [|auto]. eapply Qcle_trans; [apply HM, Hxs, I|auto]. }
  exfalso.
  assert (forall x, lattice ls s x -> (e x <= e m)%Qc) as HL. { intros x Hx. destruct (inside_dec x) as [I|N]; [apply HM, Hxs, I|]. eapply Qcle_trans; [apply HB; auto|]. now apply Qclt_le_weak. }
  assert (0 <= 0 < zlen ls) as H0 by (pose proof dim_pos; lia).
  assert (forall x, inside ls s x -> e x = e m -> e (nb x 0 s) = e m) as Step.
  { intros x Hx Ex. apply Qcle_antisym; [apply HL; apply lattice_near; auto|]. pose proof (HE x Hx) as E. rewrite Ex in E.
    assert (sumQ (map (fun i => rr i * (e (nb x i (- s)) + e (nb x i s))) dims) <= W * e m - rr 0 * (e m - e (nb x 0 s)))%Qc as A.
    { unfold W. rewrite (zrange_cons 0 (zlen ls)) by lia. cbn [map sumQ].
      assert (sumQ (map (fun i => rr i * (e (nb x i (- s)) + e (nb x i s))) (zrange (0 + 1) (zlen ls))) <= e m * sumQ (map (fun i => c2 * rr i) (zrange (0 + 1) (zlen ls))))%Qc as B.
      { rewrite <- sumQ_mul. apply sumQ_le. intros i Hi. apply in_zrange in Hi. pose proof (rr_pos i ltac:(lia)) as Pr.
        pose proof (HL _ (lattice_near x i (- s) Hx ltac:(lia) (or_intror eq_refl))) as H1. pose proof (HL _ (lattice_near x i s Hx ltac:(lia) (or_introl eq_refl))) as H2. revert Pr H1 H2.
        generalize (rr i) (e (nb x i (- s))) (e (nb x i s)) (e m). clear. intros r a b M. unfold Qclt, Qcle. rewrite !this_mul, this_add. change (this 0) with 0%Q. change (this c2) with (2 # 1)%Q. generalize (this r) (this a) (this b) (this M). intros. nra. }
      pose proof (rr_pos 0 H0) as Pr. pose proof (HL _ (lattice_near x 0 (- s) Hx H0 (or_intror eq_refl))) as H1. revert B Pr H1.
      generalize (sumQ (map (fun i => rr i * (e (nb x i (- s)) + e (nb x i s)))%Qc (zrange (0 + 1) (zlen ls)))) (sumQ (map (fun i => c2 * rr i)%Qc (zrange (0 + 1) (zlen ls)))) (rr 0) (e (nb x 0 (- s))) (e (nb x 0 s)) (e m). clear.
      intros A B r a b M. unfold Qclt, Qcle. repeat rewrite ?this_sub, ?this_mul, ?this_add. change (this 0) with 0%Q. change (this c2) with (2 # 1)%Q. generalize (this A) (this B) (this r) (this a) (this b) (this M). intros. nra. }
    rewrite <- E in A. pose proof (rr_pos 0 H0) as Pr. revert A Pr. generalize (W * e m)%Qc (rr 0) (e m) (e (nb x 0 s)). clear. intros K r M b. unfold Qclt, Qcle. repeat rewrite ?this_sub, ?this_mul, ?this_add. change (this 0) with 0%Q.
    generalize (this K) (this r) (this M) (this b). intros. nra. }
  assert (forall k, inside ls s (nb m 0 (Z.of_nat k * s)) /\ e (nb m 0 (Z.of_nat k * s)) = e m) as Walk.
  { induction k as [|k (Ik & Ek)]; [change (Z.of_nat 0 * s) with 0; rewrite nb_0; auto|].
    assert (nb m 0 (Z.of_nat (S k) * s) = nb (nb m 0 (Z.of_nat k * s)) 0 s) as EN.
    { rewrite nb_nb; [f_equal; lia|]. unfold zlen. rewrite (inside_len ls s m Hm). exact H0. }
    assert (e (nb m 0 (Z.of_nat (S k) * s)) = e m) as E1 by (rewrite EN; apply Step; auto). split; [|auto].
    destruct (inside_dec (nb m 0 (Z.of_nat (S k) * s))) as [I|N]; [auto|]. exfalso. assert (e m <= 0)%Qc as C by (rewrite <- E1; apply HB; auto; rewrite EN; apply lattice_near; auto).
    now apply (Qclt_not_le _ _ P). }
  destruct (Walk (Z.to_nat (l_x1 (nth 0 ls lim0)))) as (I & _).
  assert (0 < length ls)%nat as L0 by (unfold zlen in H0; lia). pose proof (Forall2_nth _ _ _ 0%nat lim0 0 I L0) as (Hc & _). cbn beta in Hc.
  pose proof (Forall2_nth _ _ _ 0%nat lim0 0 Hm L0) as (Hc' & _). cbn beta in Hc'. rewrite nb_set in Hc. change (Z.to_nat 0) with 0%nat in Hc. rewrite nth_set_nth in Hc by (rewrite (inside_len ls s m Hm); auto). nia.
Qed.
Lemma solutions_equal f g h : (forall x, inside ls s x -> lap g x = f x) -> (forall x, inside ls s x -> lap h x = f x) ->
  (forall x, lattice ls s x -> ~ inside ls s x -> g x = h x) -> forall x, lattice ls s x -> g x = h x.
Proof.
  intros Hg Hh HB. assert (forall g h, (forall x, inside ls s x -> lap g x = f x) -> (forall x, inside ls s x -> lap h x = f x) -> (forall x, lattice ls s x -> ~ inside ls s x -> g x = h x) ->
    forall x, lattice ls s x -> (g x - h x <= 0)%Qc) as A.
  { clear g h Hg Hh HB. intros g h Hg Hh HB. apply (below (fun x => g x - h x)%Qc).
    - intros x Hx. pose proof (Hg x Hx) as E1. pose proof (Hh x Hx) as E2. rewrite lap_eq in E1, E2.
      transitivity (sumQ (map (fun i => rr i * (g (nb x i (- s)) + g (nb x i s))) dims) - sumQ (map (fun i => rr i * (h (nb x i (- s)) + h (nb x i s))) dims))%Qc.
      + transitivity ((sumQ (map (fun i => rr i * (g (nb x i (- s)) + g (nb x i s))) dims) - f x) - (sumQ (map (fun i => rr i * (h (nb x i (- s)) + h (nb x i s))) dims) - f x))%Qc; [|ring]. rewrite <- E1 at 1. rewrite <- E2. ring.
      + rewrite <- sumQ_sub. apply sumQ_ext. intros; ring.
    - intros x Hx Nx. rewrite (HB x Hx Nx). replace (h x - h x)%Qc with 0%Qc by ring. apply Qcle_refl. }
  intros x Hx. pose proof (A g h Hg Hh HB x Hx) as A1. pose proof (A h g Hh Hg (fun x a b => eq_sym (HB x a b)) x Hx) as A2.
  apply Qcle_antisym; revert A1 A2; unfold Qcle; rewrite !this_sub; change (this 0) with 0%Q; intros; lra.
Qed.
End Smooth.
