(* Defects, restriction, interpolation and the cycle: linear relations between three runs. *)
From Coq Require Import QArith.QArith QArith.Qcanon Lqa.
From Verif Require Import Model.Base Model.Boundary Model.Layout Model.Access Model.Stencil Model.Evolve Model.Multigrid Spec.Box Spec.Stencil Spec.Multigrid
  Proof.BaseL Proof.LayoutL Proof.AccessL Proof.StencilL Proof.StencilS Proof.StencilM Proof.MultigridL Proof.MultigridS.
Local Open Scope Z_scope.

Lemma Forall2_iff_nth {A B} (R : A -> B -> Prop) l m da db : Forall2 R l m <-> length l = length m /\ forall n, (n < length l)%nat -> R (nth n l da) (nth n m db).
Proof.
  split.
  - intros F. split; [now apply Forall2_len in F|]. intros n Hn. now apply Forall2_nth.
  - revert m. induction l as [|a l IH]; intros [|b m] (L & H); try discriminate; constructor.
    + apply (H 0%nat). cbn. lia.
    + apply IH. split; [cbn in L; lia|]. intros n Hn. apply (H (S n)). cbn. lia.
Qed.
Lemma nth_zrange lo hi n d : (n < Z.to_nat (hi - lo))%nat -> nth n (zrange lo hi) d = lo + Z.of_nat n.
Proof. intros H. apply nth_error_nth. now rewrite nth_error_zrange. Qed.

Section Grid.
Context (ls : list limits) (Hl : Forall (fun l => l_x0 l = 0 /\ 1 < l_x1 l) ls) (Hne : ls <> []) (dx : list Qc) (Hdx : spaced ls dx).
Notation axs := (lay 0 ls).
Notation val := (value ls).
Notation dims := (zrange 0 (zlen ls)).

Lemma value_index u n : sized ls u -> 0 <= n < nodes axs -> val u (position axs n) = nth (Z.to_nat n) u 0%Qc.
Proof.
  intros Su Hn. unfold value. destruct (read_int_position false 0 ls u n ltac:(lia) (fun _ => eq_refl) (lims ls Hl) Hn) as (<- & _).
  unfold grid_read_int, addr_int. unfold sized in Su. rewrite cells_nodes_0 in Su. rewrite (get_nth u n 0%Qc) by lia. reflexivity.
Qed.
Lemma value_ext u u' : sized ls u -> sized ls u' -> (forall x, node ls x -> val u x = val u' x) -> u = u'.
Proof.
  intros Su Su' H. pose proof Su as L. pose proof Su' as L'. unfold sized in L, L'. rewrite cells_nodes_0 in L, L'. apply nth_ext with (d := 0%Qc) (d' := 0%Qc); [unfold zlen in *; lia|].
  intros n Hn. assert (0 <= Z.of_nat n < nodes axs) as Hz by (unfold zlen in L; lia). rewrite <- (Nat2Z.id n), <- !value_index by auto. apply H.
  destruct (position_into 0 axs (Z.of_nat n) (wf_lay 0 ls (lims ls Hl)) Hz) as (B & _). now rewrite map_x0_lay, map_x1_lay in B.
Qed.
Lemma node_index x : node ls x -> exists n, 0 <= n < nodes axs /\ position axs n = x.
Proof. intros Hx. apply (position_onto 0 axs x (wf_lay 0 ls (lims ls Hl))). now rewrite map_x0_lay, map_x1_lay. Qed.
Lemma zeros_value x : node ls x -> val (zeros axs) x = 0%Qc.
Proof.
  intros Hx. destruct (node_index x Hx) as (n & Hn & <-). rewrite value_index by (auto; unfold sized, zeros, zlen; rewrite repeat_length, cells_nodes_0; lia).
  unfold zeros. apply nth_repeat.
Qed.
Lemma zeros_sized : sized ls (zeros axs).
Proof. unfold sized, zeros, zlen. rewrite repeat_length. rewrite cells_nodes_0. pose proof (nodes_nonneg 0 axs (wf_lay 0 ls (lims ls Hl))). lia. Qed.
Lemma add_sized u v : sized ls u -> sized ls v -> sized ls (add u v).
Proof. unfold sized, add, zlen. rewrite map_length, combine_length. lia. Qed.
Lemma add_value u v x : sized ls u -> sized ls v -> node ls x -> val (add u v) x = (val u x + val v x)%Qc.
Proof.
  intros Su Sv Hx. destruct (node_index x Hx) as (n & Hn & <-). rewrite !value_index by (auto using add_sized). unfold add.
  rewrite (nth_indep _ 0%Qc ((fun p : Qc * Qc => (fst p + snd p)%Qc) (0%Qc, 0%Qc))).
  - erewrite (map_nth (fun p : Qc * Qc => (fst p + snd p)%Qc)). rewrite combine_nth; [reflexivity|]. unfold sized, zlen in *. lia.
  - rewrite map_length, combine_length. unfold sized in Su, Sv. rewrite cells_nodes_0 in Su, Sv. unfold zlen in *. lia.
Qed.

(* three grids in a linear relation on a set of nodes *)
Definition lin (a b : Qc) (T : list Z -> Prop) (u1 u2 u3 : list Qc) : Prop :=
  sized ls u1 /\ sized ls u2 /\ sized ls u3 /\ forall x, T x -> val u3 x = (a * val u1 x + b * val u2 x)%Qc.
Lemma lin_sub a b (T T' : list Z -> Prop) u1 u2 u3 : (forall x, T' x -> T x) -> lin a b T u1 u2 u3 -> lin a b T' u1 u2 u3.
Proof. intros H (S1 & S2 & S3 & F). repeat split; auto. Qed.
Lemma assign_lin a b (T : list Z -> Prop) xs e1 e2 e3 : (forall x, T x -> node ls x) -> (forall x, In x xs -> node ls x) ->
  (forall u1 u2 u3 x, In x xs -> lin a b T u1 u2 u3 -> exists v1 v2 v3, e1 u1 x = Some v1 /\ e2 u2 x = Some v2 /\ e3 u3 x = Some v3 /\ v3 = (a * v1 + b * v2)%Qc) ->
  forall u1 u2 u3, lin a b T u1 u2 u3 -> exists r1 r2 r3, assign axs xs e1 u1 = Some r1 /\ assign axs xs e2 u2 = Some r2 /\ assign axs xs e3 u3 = Some r3 /\
    lin a b (fun x => T x \/ In x xs) r1 r2 r3.
Proof.
  intros HT Hn H.
  assert (forall post pre u1 u2 u3, xs = pre ++ post -> lin a b (fun x => T x \/ In x pre) u1 u2 u3 -> exists r1 r2 r3, assign axs post e1 u1 = Some r1 /\ assign axs post e2 u2 = Some r2 /\ assign axs post e3 u3 = Some r3 /\
    lin a b (fun x => T x \/ In x xs) r1 r2 r3) as A.
  { induction post as [|x post IH]; intros pre u1 u2 u3 E L; cbn [assign fold_opt].
    - exists u1, u2, u3. rewrite E, app_nil_r. auto.
    - destruct (H u1 u2 u3 x) as (v1 & v2 & v3 & -> & -> & -> & Ev); [rewrite E, in_app_iff; cbn; auto|eapply lin_sub; [|exact L]; cbn; auto|]. cbn [bind].
      destruct L as (S1 & S2 & S3 & F). assert (node ls x) as Nx by (apply Hn; rewrite E, in_app_iff; cbn; auto).
      destruct (wr_value ls Hl u1 x v1 S1 Nx) as (w1 & -> & T1 & V1 & G1 & _). destruct (wr_value ls Hl u2 x v2 S2 Nx) as (w2 & -> & T2 & V2 & G2 & _). destruct (wr_value ls Hl u3 x v3 S3 Nx) as (w3 & -> & T3 & V3 & G3 & _).
      cbn [bind]. apply (IH (pre ++ [x])); [now rewrite <- app_assoc|]. repeat split; auto. intros y Hy. destruct (list_eq_dec Z.eq_dec y x) as [->|Ne]; [now rewrite V1, V2, V3|].
      assert (node ls y) as Ny. { destruct Hy as [Hy|Hy]; [auto|]. apply Hn. rewrite E. apply in_app_iff in Hy as [Hy|[<-|[]]]; apply in_app_iff; cbn; auto. }
      rewrite G1, G2, G3 by auto. apply F. destruct Hy as [Hy|Hy]; [auto|]. apply in_app_iff in Hy as [Hy|[<-|[]]]; [auto|congruence]. }
  intros u1 u2 u3 L. apply (A xs []); [auto|]. eapply lin_sub; [|exact L]. cbn. tauto.
Qed.
Lemma fold_lin {A} a b (T : list Z -> Prop) (g1 g2 g3 : list Qc -> A -> option (list Qc)) l :
  (forall c u1 u2 u3, In c l -> lin a b T u1 u2 u3 -> exists r1 r2 r3, g1 u1 c = Some r1 /\ g2 u2 c = Some r2 /\ g3 u3 c = Some r3 /\ lin a b T r1 r2 r3) ->
  forall u1 u2 u3, lin a b T u1 u2 u3 -> exists r1 r2 r3, fold_opt g1 l u1 = Some r1 /\ fold_opt g2 l u2 = Some r2 /\ fold_opt g3 l u3 = Some r3 /\ lin a b T r1 r2 r3.
Proof.
  induction l as [|c l IH]; intros H u1 u2 u3 L; cbn [fold_opt]; [exists u1, u2, u3; auto|].
  destruct (H c u1 u2 u3) as (r1 & r2 & r3 & -> & -> & -> & L'); [cbn; auto|auto|]. cbn [bind]. apply IH; [|auto]. intros; apply H; [cbn; auto|auto].
Qed.

Section Stride.
Context (s : Z) (Hs : 0 < s) (Hd : divides ls s).
Notation lap := (lap ls dx s).

Lemma lap_lin a b u1 u2 u3 x : inside ls s x -> lin a b (node ls) u1 u2 u3 -> lap (val u3) x = (a * lap (val u1) x + b * lap (val u2) x)%Qc.
Proof.
  intros Hx (_ & _ & _ & F). rewrite !(lap_eq ls dx Hdx s Hs). rewrite (F x) by (eapply inside_node; eauto).
  rewrite (sumQ_ext _ (fun i => a * (rr dx s i * (val u1 (nb x i (- s)) + val u1 (nb x i s))) + b * (rr dx s i * (val u2 (nb x i (- s)) + val u2 (nb x i s))))%Qc).
  - rewrite sumQ_add, !sumQ_mul. ring.
  - intros i Hi. apply in_zrange in Hi. rewrite !F by (apply (near ls Hl s); auto). ring.
Qed.
Lemma smooth_lin a b n f1 f2 f3 u1 u2 u3 : lin a b (inside ls s) f1 f2 f3 -> lin a b (node ls) u1 u2 u3 ->
  exists r1 r2 r3, smooth axs dx s n u1 f1 = Some r1 /\ smooth axs dx s n u2 f2 = Some r2 /\ smooth axs dx s n u3 f3 = Some r3 /\ lin a b (node ls) r1 r2 r3.
Proof.
  intros LF. unfold smooth. rewrite (weights_eq ls Hne dx Hdx s Hs). cbn [bind]. revert u1 u2 u3. apply fold_lin. intros _ u1 u2 u3 _ L.
  destruct (inner_ok ls s Hs) as (xs & -> & _ & Hxs). cbn [bind]. unfold relax_sweep.
  set (wt := (w ls dx s, map (fun r => w ls dx s * r)%Qc (map (rr dx s) dims))).
  assert (forall c u1 u2 u3, lin a b (node ls) u1 u2 u3 -> exists r1 r2 r3, assign axs (filter c xs) (relaxed axs s f1 wt) u1 = Some r1 /\ assign axs (filter c xs) (relaxed axs s f2 wt) u2 = Some r2 /\
    assign axs (filter c xs) (relaxed axs s f3 wt) u3 = Some r3 /\ lin a b (node ls) r1 r2 r3) as A.
  { clear u1 u2 u3 L. intros c u1 u2 u3 L. destruct (assign_lin a b (node ls) (filter c xs) (relaxed axs s f1 wt) (relaxed axs s f2 wt) (relaxed axs s f3 wt)) with (u1 := u1) (u2 := u2) (u3 := u3) as (r1 & r2 & r3 & E1 & E2 & E3 & L'); auto.
    - intros x Hx. apply filter_In in Hx as (Hx & _). apply Hxs in Hx. eapply inside_node; eauto.
    - clear u1 u2 u3 L. intros u1 u2 u3 x Hx L. apply filter_In in Hx as (Hx & _). apply Hxs in Hx. pose proof L as (S1 & S2 & S3 & F). pose proof LF as (Q1 & Q2 & Q3 & FF).
      exists (relv ls dx s u1 f1 x), (relv ls dx s u2 f2 x), (relv ls dx s u3 f3 x). unfold wt. rewrite !(relaxed_eq ls Hl Hne dx Hdx s Hs Hd) by auto. repeat split; auto.
      unfold relv. rewrite (lap_lin a b u1 u2 u3 x Hx L), (F x), (FF x) by (auto; eapply inside_node; eauto). ring.
    - exists r1, r2, r3. repeat split; auto; try apply L'. intros x Hx. apply L'. auto. }
  destruct (A first_colour u1 u2 u3 L) as (r1 & r2 & r3 & -> & -> & -> & L'). cbn [bind]. apply A, L'.
Qed.

(* the defect *)
Lemma defect_at_eq u f x : sized ls u -> sized ls f -> inside ls s x -> defect_at axs s u f (map (rr dx s) dims) x = Some (val f x - lap (val u) x)%Qc.
Proof.
  intros Su Sf Hx. unfold defect_at. rewrite (rd_value ls Hl f x Sf) by (eapply inside_node; eauto). cbn [bind]. rewrite zlen_axs.
  rewrite (fold_plus _ (fun i => - (1) * (rr dx s i * (val u (nb x i (- s)) - c2 * val u x + val u (nb x i s))))%Qc).
  - f_equal. rewrite sumQ_mul.
    assert (sumQ (map (fun i => rr dx s i * (val u (nb x i (- s)) - c2 * val u x + val u (nb x i s)))%Qc dims) = lap (val u) x) as ->; [|ring].
    unfold MultigridS.lap, laplacian_at. apply sumQ_ext. intros i Hi. apply in_zrange in Hi. cbv zeta. unfold rr. fold c2. pose proof (h_nz ls dx Hdx s Hs i Hi) as Z. unfold Qcdiv. ring.
  - intros i acc Hi. apply in_zrange in Hi. rewrite get_map_dims by auto. cbn [bind]. pose proof (inside_len ls s x Hx) as Lx.
    rewrite !(rd_at_value ls Hl) by (auto; apply (near ls Hl s); auto). cbn [bind]. rewrite (rd_value ls Hl u x Su) by (eapply inside_node; eauto). cbn [bind].
    reflexivity || (f_equal; ring).
Qed.
Lemma loops_ok : exists rs, map_opt (fun a => loop s s (a_x1 a - 1)) axs = Some rs /\ Forall2 (fun l r => forall c, In c r <-> s <= c < l_x1 l - 1 /\ (s | c)) ls rs.
Proof.
  assert (forall m, exists rs, map_opt (fun a => loop s s (a_x1 a - 1)) (lay 0 m) = Some rs /\ Forall2 (fun l r => forall c, In c r <-> s <= c < l_x1 l - 1 /\ (s | c)) m rs) as A; [|apply A].
  clear Hl Hne Hdx Hd. induction m as [|l m (rs & E & F)]; [exists []; split; [auto|constructor]|]. cbn [lay map_opt a_x1].
  destruct (loop_ok s s (l_x1 l - 1) Hs) as (r & -> & _ & I). cbn [bind]. rewrite E. cbn [bind]. exists (r :: rs). split; [auto|]. constructor; [|auto].
  intros c. rewrite I. split; intros (H & k & Ek); split; auto; [exists (k + 1)|exists (k - 1)]; lia.
Qed.
Lemma sides_ok : exists ys, sides axs s = Some ys /\ forall y, In y ys -> node ls y /\ ~ inside ls s y.
Proof.
  unfold sides. destruct loops_ok as (rs & -> & F). cbn [bind].
  pose proof Hl as HL. clear Hl Hne Hdx Hd.
  destruct ls as [|l1 [|l2 [|l3 [|l4 m]]]]; cbn [lay]; inversion F as [|? r1 ? rs1 I1 F1]; subst; [exists []; split; [auto|intros ? []]| | | |].
  - inversion F1; subst. eexists. split; [reflexivity|]. intros y Hy. apply in_flat_map in Hy as (x & Hx & Hy). apply I1 in Hx. inversion HL as [|? ? (Z1 & P1) H2]; subst. cbn [a_x1] in Hy. unfold node. cbn.
    destruct Hy as [<-|[<-|[]]]; split; try (cbn; lia); inversion 1 as [|? ? ? ? (C & _) _]; lia.
  - inversion F1 as [|? r2 ? rs2 I2 F2]; subst. inversion F2; subst. eexists. split; [reflexivity|]. inversion HL as [|? ? (Z1 & P1) H2]; subst. inversion H2 as [|? ? (Z2 & P2) H3]; subst. cbn [a_x1]. intros y Hy. unfold node. cbn.
    apply in_app_iff in Hy as [Hy|Hy]; apply in_flat_map in Hy as (x & Hx & Hy); [apply I1 in Hx|apply I2 in Hx]; destruct Hy as [<-|[<-|[]]]; (split; [cbn; lia|]);
      inversion 1 as [|? ? ? ? (C & _) C2]; inversion C2 as [|? ? ? ? (C' & _) _]; lia.
  - inversion F1 as [|? r2 ? rs2 I2 F2]; subst. inversion F2 as [|? r3 ? rs3 I3 F3]; subst. inversion F3; subst. eexists. split; [reflexivity|]. inversion HL as [|? ? (Z1 & P1) H2]; subst. inversion H2 as [|? ? (Z2 & P2) H3]; subst. inversion H3 as [|? ? (Z3 & P3) H4]; subst. cbn [a_x1].
    intros y Hy. unfold node. cbn. rewrite !in_app_iff in Hy.
    destruct Hy as [Hy|[Hy|Hy]]; apply in_flat_map in Hy as (x & Hx & Hy); apply in_flat_map in Hy as (z & Hz & Hy); first [apply I1 in Hx; apply I2 in Hz|apply I2 in Hx; apply I3 in Hz|apply I3 in Hx; apply I1 in Hz];
      destruct Hy as [<-|[<-|[]]]; (split; [cbn; lia|]); inversion 1 as [|? ? ? ? (C & _) C2]; inversion C2 as [|? ? ? ? (C' & _) C3]; inversion C3 as [|? ? ? ? (C'' & _) _]; lia.
  - inversion F1 as [|? r2 ? rs2 I2 F2]; subst. inversion F2 as [|? r3 ? rs3 I3 F3]; subst. inversion F3 as [|? r4 ? rs4 I4 F4]; subst. exists []. split; [auto|intros ? []].
Qed.
Lemma defect_ok u f d : sized ls u -> sized ls f -> sized ls d -> exists d', defect axs dx s u f d = Some d' /\ sized ls d' /\ forall x, inside ls s x -> val d' x = (val f x - lap (val u) x)%Qc.
Proof.
  intros Su Sf Sd. unfold defect. rewrite (recips_eq ls dx Hdx s Hs). cbn [bind]. destruct (inner_ok ls s Hs) as (xs & -> & Nx & Hxs). cbn [bind].
  destruct (assign_done ls (fun pre v => sized ls v /\ forall x, In x pre -> val v x = (val f x - lap (val u) x)%Qc) xs (fun _ x => defect_at axs s u f (map (rr dx s) dims) x)) with (u := d) as (d1 & -> & S1 & V1).
  - intros v pre x post E (Sv & V). assert (inside ls s x) as Hx by (apply Hxs; rewrite E, in_app_iff; cbn; auto). rewrite defect_at_eq by auto.
    destruct (wr_value ls Hl v x (val f x - lap (val u) x)%Qc Sv) as (v' & W' & S' & Vx & G & _); [eapply inside_node; eauto|]. do 2 eexists. split; [reflexivity|]. split; [exact W'|]. split; [auto|].
    intros y Hy. destruct (list_eq_dec Z.eq_dec y x) as [->|Ne]; [auto|]. apply in_app_iff in Hy as [Hy|[<-|[]]]; [|congruence]. rewrite G; auto. apply (inside_node ls Hl s); auto. apply Hxs. rewrite E, in_app_iff. auto.
  - split; [auto|intros ? []].
  - cbn [bind]. destruct sides_ok as (ys & -> & Hys). cbn [bind].
    destruct (assign_ind ls (fun v => sized ls v /\ forall x, inside ls s x -> val v x = (val f x - lap (val u) x)%Qc) ys (fun _ _ => Some 0%Qc)) with (u := d1) as (d2 & -> & S2 & V2); [| |eauto].
    + intros v y Hy (Sv & V). destruct (Hys y Hy) as (Ny & Iy). destruct (wr_value ls Hl v y 0%Qc Sv Ny) as (v' & W' & S' & _ & G & _). do 2 eexists. split; [reflexivity|]. split; [exact W'|]. split; [auto|].
      intros x Hx. rewrite G; auto; [eapply inside_node; eauto|]. intros ->. auto.
    + split; [auto|]. intros x Hx. apply V1, Hxs, Hx.
Qed.
End Stride.

(* restriction *)
Definition off (s : Z) (x o : list Z) : list Z := map (fun p => fst p + s * snd p) (combine x o).
Definition combo (s : Z) (l : list (Qc * list (list Z))) (u : list Z -> Qc) (x : list Z) : Qc :=
  sumQ (map (fun g => fst g * sumQ (map (fun o => u (off s x o)) (snd g)))%Qc l).
Lemma combination_eq s l u x : sized ls u -> (forall g o, In g l -> In o (snd g) -> node ls (off s x o)) -> combination axs s l u x = Some (combo s l (val u) x).
Proof.
  intros Su H. unfold combination, combo. rewrite (fold_plus _ (fun g => fst g * sumQ (map (fun o => val u (off s x o)) (snd g)))%Qc); [f_equal; ring|].
  intros g a Hg. assert (forall os, (forall o, In o os -> node ls (off s x o)) -> map_opt (rd_off axs s u x) os = Some (map (fun o => val u (off s x o)) os)) as A.
  { induction os as [|o os IH]; intros Ho; [reflexivity|]. cbn [map_opt map]. unfold rd_off at 1. fold (off s x o). rewrite (rd_value ls Hl) by (auto; apply Ho; cbn; auto). cbn [bind]. rewrite IH by (intros; apply Ho; cbn; auto). reflexivity. }
  rewrite A by (intros; eapply H; eauto). cbn [bind]. f_equal. f_equal. f_equal. rewrite (fold_left_plus (fun r => r)), map_id. ring.
Qed.
Definition small (o : list Z) : Prop := Forall (fun k => k = 0 \/ k = 1 \/ k = -1) o.
Lemma off_inside s x o : 0 < s -> divides ls (2 * s) -> inside ls (2 * s) x -> length o = length ls -> small o -> inside ls s (off s x o).
Proof.
  intros Hs Hd Hx. unfold off, divides, small in *. clear Hl Hne Hdx. revert o. induction Hx as [|l c m x (Hc & a & Ea) _ IH]; intros [|k o] L So; try discriminate; [constructor|].
  cbn [combine map]. inversion Hd as [|? ? (b & Eb) Hd']; subst. inversion So as [|? ? Hk So']; subst. constructor; [|apply IH; auto; cbn in L; lia].
  cbn [fst snd]. assert (a < b) by nia. assert (1 <= a) by nia. split; [destruct Hk as [-> |[-> | ->]]; nia|]. exists (2 * a + k). lia.
Qed.
Lemma combo_lin s l a b u1 u2 u3 x : (forall g o, In g l -> In o (snd g) -> inside ls s (off s x o)) -> lin a b (inside ls s) u1 u2 u3 ->
  combo s l (val u3) x = (a * combo s l (val u1) x + b * combo s l (val u2) x)%Qc.
Proof.
  intros H (_ & _ & _ & F). unfold combo. rewrite <- !sumQ_mul, <- sumQ_add. apply sumQ_ext. intros g Hg.
  rewrite (sumQ_ext _ (fun o => a * val u1 (off s x o) + b * val u2 (off s x o))%Qc) by (intros o Ho; apply F; eapply H; eauto). rewrite sumQ_add, !sumQ_mul. ring.
Qed.
Lemma coarse_loops s : 0 < s -> exists rs, map_opt (fun a => loop (2 * s) (2 * s) (a_x1 a - 1)) axs = Some rs /\ forall x, In x (nest rs) <-> inside ls (2 * s) x.
Proof.
  intros Hs. destruct (inner_ok ls (2 * s) ltac:(lia)) as (xs & E & _ & I). unfold inner in E. destruct (map_opt _ axs) as [rs|]; [|discriminate]. cbn [bind] in E. injection E as <-. exists rs. auto.
Qed.
Definition full_for : list (Qc * list (list Z)) := if (length ls =? 2)%nat then full2 else full3.
Definition smallb (n : nat) (o : list Z) : bool := ((length o =? n)%nat && forallb (fun k => (k =? 0) || (k =? 1) || (k =? -1)) o)%bool.
Lemma full_small g o : (length ls = 2 \/ length ls = 3)%nat -> In g full_for -> In o (snd g) -> length o = length ls /\ small o.
Proof.
  intros D Hg Ho.
  assert (forallb (smallb (length ls)) (flat_map snd full_for) = true) as A by (unfold full_for; destruct D as [-> | ->]; reflexivity).
  rewrite forallb_forall in A. specialize (A o). rewrite in_flat_map in A. specialize (A (ex_intro _ g (conj Hg Ho))). unfold smallb in A. apply andb_true_iff in A as (A & B). apply Nat.eqb_eq in A. split; [auto|].
  apply Forall_forall. intros k Hk. rewrite forallb_forall in B. specialize (B k Hk). apply orb_true_iff in B as [B|B]; [apply orb_true_iff in B as [B|B]|]; apply Z.eqb_eq in B; auto.
Qed.
Lemma coarsen_as s d : coarsen axs s d = (if ((length ls =? 2) || (length ls =? 3))%nat%bool then do rs <- map_opt (fun a => loop (2 * s) (2 * s) (a_x1 a - 1)) axs; assign axs (nest rs) (combination axs s full_for) d else Some d).
Proof. clear Hl Hne Hdx. unfold coarsen, full_for. destruct ls as [|l1 [|l2 [|l3 [|l4 m]]]]; reflexivity. Qed.
Lemma inside_double s x : 0 < s -> inside ls (2 * s) x -> inside ls s x.
Proof. intros Hs H. unfold inside in *. clear Hl Hne Hdx. induction H as [|l c m x (Hc & k & E) _ IH]; constructor; [|exact IH]. split; [lia|]. exists (2 * k). lia. Qed.
Lemma coarsen_lin s a b d1 d2 d3 : 0 < s -> divides ls (2 * s) -> lin a b (inside ls s) d1 d2 d3 ->
  exists r1 r2 r3, coarsen axs s d1 = Some r1 /\ coarsen axs s d2 = Some r2 /\ coarsen axs s d3 = Some r3 /\ lin a b (inside ls (2 * s)) r1 r2 r3.
Proof.
  clear Hne Hdx dx.
  intros Hs Hd L. rewrite !coarsen_as. destruct ((length ls =? 2) || (length ls =? 3))%nat%bool eqn:ED.
  - assert (length ls = 2 \/ length ls = 3)%nat as HD by (apply orb_true_iff in ED as [E|E]; apply Nat.eqb_eq in E; auto).
    destruct (coarse_loops s Hs) as (rs & -> & I). cbn [bind].
    assert (forall x g o, In x (nest rs) -> In g full_for -> In o (snd g) -> inside ls s (off s x o)) as HO.
    { intros x g o Hx Hg Ho. destruct (full_small g o HD Hg Ho). apply off_inside; auto. now apply I. }
    destruct (assign_lin a b (inside ls s) (nest rs) (combination axs s full_for) (combination axs s full_for) (combination axs s full_for)) with (u1 := d1) (u2 := d2) (u3 := d3) as (r1 & r2 & r3 & E1 & E2 & E3 & L'); auto.
    + intros x Hx. eapply inside_node; eauto.
    + intros x Hx. apply I in Hx. apply (inside_node ls Hl (2 * s)); auto. lia.
    + intros u1 u2 u3 x Hx Lu. pose proof Lu as (S1 & S2 & S3 & _). exists (combo s full_for (val u1) x), (combo s full_for (val u2) x), (combo s full_for (val u3) x).
      rewrite !combination_eq by (auto; intros; apply (inside_node ls Hl s); auto; eapply HO; eauto). repeat split; auto. apply combo_lin; auto. intros; eapply HO; eauto.
    + exists r1, r2, r3. repeat split; auto; try apply L'. intros x Hx. apply L'. left. now apply inside_double.
  - exists d1, d2, d3. repeat split; auto; try apply L. intros x Hx. apply L. now apply inside_double.
Qed.

(* interpolation *)
Definition mid (s i : Z) (x : list Z) : Prop := inside ls s x /\ (2 * s | nth (Z.to_nat i) x 0 - s) /\ forall j, i < j < zlen ls -> (2 * s | nth (Z.to_nat j) x 0).
Lemma get_axs j : 0 <= j < zlen ls -> exists a, get axs j = Some a /\ a_x1 a = l_x1 (nth (Z.to_nat j) ls lim0).
Proof.
  intros Hj. destruct (get_ok axs j) as (a & E); [now rewrite zlen_axs|]. exists a. split; [auto|].
  assert (get (map a_x1 axs) j = Some (a_x1 a)) as G.
  { unfold get in *. destruct (j <? 0); [discriminate|]. now apply map_nth_error. }
  rewrite map_x1_lay in G. rewrite (get_nth _ j (l_x1 lim0)) in G by (rewrite zlen_map; auto). injection G as G. rewrite <- G. apply (map_nth l_x1 ls lim0).
Qed.
Lemma between_ok s i : 0 < s -> 0 <= i < zlen ls -> exists xs, between axs s i = Some xs /\ forall x, In x xs <-> mid s i x.
Proof.
  intros Hs Hi. unfold between. rewrite zlen_axs.
  set (R := fun (j : Z) (r : list Z) => forall c, In c r <-> s <= c < l_x1 (nth (Z.to_nat j) ls lim0) - 1 /\ (s | c) /\ (j = i -> (2 * s | c - s)) /\ (i < j -> (2 * s | c))).
  destruct (map_opt_forall (fun j => do a <- get axs j; if j <? i then loop s s (a_x1 a - 1) else if j =? i then loop s (2 * s) (a_x1 a - 1) else loop (2 * s) (2 * s) (a_x1 a - 1)) R dims) as (rs & -> & F).
  { intros j Hj. apply in_zrange in Hj. destruct (get_axs j Hj) as (a & -> & Ea). cbn [bind]. rewrite Ea. unfold R. destruct (Z.ltb_spec j i); [|destruct (Z.eqb_spec j i)].
    - destruct (loop_ok s s (l_x1 (nth (Z.to_nat j) ls lim0) - 1) Hs) as (r & -> & _ & I). exists r. split; [auto|]. intros c. rewrite I. split.
      + intros (H1 & k & Ek). repeat split; try lia. exists (k + 1). lia.
      + intros (H1 & (k & Ek) & _). split; [auto|]. exists (k - 1). lia.
    - destruct (loop_ok s (2 * s) (l_x1 (nth (Z.to_nat j) ls lim0) - 1) ltac:(lia)) as (r & -> & _ & I). exists r. split; [auto|]. intros c. rewrite I. split.
      + intros (H1 & k & Ek). repeat split; try lia. * exists (2 * k + 1). lia. * intros _. exists k. lia.
      + intros (H1 & _ & H2 & _). auto.
    - destruct (loop_ok (2 * s) (2 * s) (l_x1 (nth (Z.to_nat j) ls lim0) - 1) ltac:(lia)) as (r & -> & _ & I). exists r. split; [auto|]. intros c. rewrite I. split.
      + intros (H1 & k & Ek). repeat split; try lia. * exists (2 * k + 2). lia. * intros _. exists (k + 1). lia.
      + intros (H1 & _ & _ & H2). destruct (H2 ltac:(lia)) as (k & Ek). split; [|exists (k - 1); lia]. assert (1 <= k) by nia. nia. }
  cbn [bind]. exists (nest rs). split; [auto|]. intros x. rewrite nest_in. rewrite (Forall2_iff_nth _ _ _ 0 []) in F. destruct F as (LR & F). rewrite length_zrange, Z.sub_0_r in LR, F.
  assert (Z.to_nat (zlen ls) = length ls) as Ez by (unfold zlen; lia). rewrite Ez in LR, F.
  assert (forall n, (n < length ls)%nat -> R (Z.of_nat n) (nth n rs [])) as F'. { intros n Hn. specialize (F n Hn). rewrite nth_zrange in F by (unfold zlen; lia). exact F. }
  rewrite (Forall2_iff_nth _ _ _ [] 0). unfold mid, inside. rewrite (Forall2_iff_nth _ _ _ lim0 0). rewrite <- LR. split.
  - intros (L & H). split; [|split].
    + split; [auto|]. intros n Hn. specialize (H n Hn). apply (F' n Hn) in H. rewrite Nat2Z.id in H. tauto.
    + assert (Z.to_nat i < length ls)%nat as Hn by lia. specialize (H _ Hn). apply (F' _ Hn) in H. apply H. lia.
    + intros j Hj. assert (Z.to_nat j < length ls)%nat as Hn by lia. specialize (H _ Hn). apply (F' _ Hn) in H. apply H. lia.
  - intros ((L & H) & H1 & H2). split; [auto|]. intros n Hn. apply (F' n Hn). rewrite Nat2Z.id. specialize (H n Hn). repeat split; try tauto.
    + intros E. assert (Z.to_nat i = n) by lia. subst n. exact H1.
    + intros E. specialize (H2 (Z.of_nat n) ltac:(unfold zlen; lia)). now rewrite Nat2Z.id in H2.
Qed.
Lemma refine_lin m s a b u1 u2 u3 : 0 < s ->
  (forall i x v1 v2 v3, 0 <= i < zlen ls -> mid s i x -> lin a b (node ls) v1 v2 v3 -> exists w1 w2 w3, m s i v1 x = Some w1 /\ m s i v2 x = Some w2 /\ m s i v3 x = Some w3 /\ w3 = (a * w1 + b * w2)%Qc) ->
  lin a b (node ls) u1 u2 u3 ->
  exists r1 r2 r3, refine axs m s u1 = Some r1 /\ refine axs m s u2 = Some r2 /\ refine axs m s u3 = Some r3 /\ lin a b (node ls) r1 r2 r3.
Proof.
  clear dx Hdx. intros Hs Hm L.
  assert (exists r1 r2 r3, fold_opt (fun u i => do xs <- between axs s i; assign axs xs (m s i) u) (zrange 0 (zlen axs)) u1 = Some r1 /\ fold_opt (fun u i => do xs <- between axs s i; assign axs xs (m s i) u) (zrange 0 (zlen axs)) u2 = Some r2 /\
    fold_opt (fun u i => do xs <- between axs s i; assign axs xs (m s i) u) (zrange 0 (zlen axs)) u3 = Some r3 /\ lin a b (node ls) r1 r2 r3) as A.
  { revert u1 u2 u3 L. apply fold_lin. intros i u1 u2 u3 Hi L. rewrite zlen_axs in Hi. apply in_zrange in Hi. destruct (between_ok s i Hs Hi) as (xs & -> & I). cbn [bind].
    destruct (assign_lin a b (node ls) xs (m s i) (m s i) (m s i)) with (u1 := u1) (u2 := u2) (u3 := u3) as (r1 & r2 & r3 & E1 & E2 & E3 & L'); auto.
    - intros x Hx. apply I in Hx as (Hx & _). eapply inside_node; eauto.
    - intros v1 v2 v3 x Hx Lv. apply Hm; auto. now apply I.
    - exists r1, r2, r3. repeat split; auto; try apply L'. intros x Hx. apply L'. auto. }
  unfold refine. destruct ls as [|l1 [|l2 m']]; [congruence| |exact A]. exists u1, u2, u3. auto.
Qed.
Lemma midpoint_eq s i u x : 0 < s -> divides ls s -> 0 <= i < zlen ls -> sized ls u -> inside ls s x -> midpoint axs s i u x = Some (num 1 2 * (val u (nb x i s) + val u (nb x i (- s))))%Qc.
Proof.
  intros Hs Hd Hi Su Hx. unfold midpoint. pose proof (inside_len ls s x Hx). rewrite !(rd_at_value ls Hl) by (auto; apply (near ls Hl s); auto). reflexivity.
Qed.
Lemma midpoint_lin s a b i x v1 v2 v3 : 0 < s -> divides ls s -> 0 <= i < zlen ls -> mid s i x -> lin a b (node ls) v1 v2 v3 ->
  exists w1 w2 w3, midpoint axs s i v1 x = Some w1 /\ midpoint axs s i v2 x = Some w2 /\ midpoint axs s i v3 x = Some w3 /\ w3 = (a * w1 + b * w2)%Qc.
Proof.
  intros Hs Hd Hi (Hx & _) (S1 & S2 & S3 & F). rewrite !midpoint_eq by auto. do 3 eexists. repeat (split; [reflexivity|]). rewrite !F by (apply (near ls Hl s); auto). ring.
Qed.
Lemma far s i k x : 0 < s -> 0 <= i < zlen ls -> inside ls s x -> 0 <= nth (Z.to_nat i) x 0 + k < l_x1 (nth (Z.to_nat i) ls lim0) -> node ls (nb x i k).
Proof. intros Hs Hi Hx H. apply (node_set ls Hl); [eapply inside_node; eauto|unfold zlen in Hi; lia|auto]. Qed.
(* the four values used by the cubic formula and their weights *)
Definition cub (s i : Z) (x : list Z) : list (Qc * Z) :=
  let c := nth (Z.to_nat i) x 0 in
  if c =? s then [(num 5 16, -1); ((- num 5 16)%Qc, 3); (num 15 16, 1); (num 1 16, 5)]
  else if c =? l_x1 (nth (Z.to_nat i) ls lim0) - 1 - s then [(num 1 16, -5); (num 15 16, -1); (num 5 16, 1); ((- num 5 16)%Qc, -3)]
  else [(num 9 16, -1); (num 9 16, 1); ((- num 1 16)%Qc, -3); ((- num 1 16)%Qc, 3)].
Definition eight (s : Z) : Prop := Forall (fun l => (2 * s | l_x1 l - 1) /\ 8 * s <= l_x1 l - 1) ls.
Lemma cub_node s i x q : 0 < s -> eight s -> 0 <= i < zlen ls -> mid s i x -> In q (cub s i x) -> node ls (nb x i (snd q * s)).
Proof.
  intros Hs H8 Hi (Hx & (k & Ek) & _) Hq. assert (Z.to_nat i < length ls)%nat as Hn by (unfold zlen in Hi; lia).
  pose proof (Forall2_nth _ _ _ _ lim0 0 Hx Hn) as (Hc & _). pose proof (Forall_nth_in _ _ _ lim0 H8 Hn) as ((b & Eb) & H8'). cbn beta in *. apply (far s); auto. unfold cub in Hq.
  set (c := nth (Z.to_nat i) x 0) in *. set (X := l_x1 (nth (Z.to_nat i) ls lim0)) in *. assert (k < b) by nia. assert (0 <= k) by nia.
  destruct (Z.eqb_spec c s); [|destruct (Z.eqb_spec c (X - 1 - s))]; cbn [In] in Hq.
  - repeat (destruct Hq as [<-|Hq]; [cbn [snd]; lia|]). destruct Hq.
  - repeat (destruct Hq as [<-|Hq]; [cbn [snd]; lia|]). destruct Hq.
  - assert (1 <= k) by nia. assert (k + 1 < b) by nia. repeat (destruct Hq as [<-|Hq]; [cbn [snd]; nia|]). destruct Hq.
Qed.
Lemma cubic_eq s i u x : 0 < s -> eight s -> 0 <= i < zlen ls -> sized ls u -> mid s i x -> cubic axs s i u x = Some (sumQ (map (fun q => fst q * val u (nb x i (snd q * s)))%Qc (cub s i x))).
Proof.
  intros Hs H8 Hi Su Hm. pose proof (inside_len ls s x (proj1 Hm)) as Lx. unfold cubic. rewrite (get_nth x i 0) by (unfold zlen in *; lia). cbn [bind].
  destruct (get_axs i Hi) as (a & -> & Ea). cbn [bind]. cbv zeta. rewrite Ea. clear Ea. pose proof (fun q => cub_node s i x q Hs H8 Hi Hm) as N. unfold cub in *.
  destruct (nth (Z.to_nat i) x 0 =? s); [|destruct (nth (Z.to_nat i) x 0 =? l_x1 (nth (Z.to_nat i) ls lim0) - 1 - s)];
    (rewrite !(rd_at_value ls Hl) by (auto; match goal with |- node ls (nb x i (?k * s)) => eapply (N (_, k)); cbn; eauto 6 end)); cbn [bind map sumQ fst snd]; f_equal; ring.
Qed.
Lemma cubic_lin s a b i x v1 v2 v3 : 0 < s -> eight s -> 0 <= i < zlen ls -> mid s i x -> lin a b (node ls) v1 v2 v3 ->
  exists w1 w2 w3, cubic axs s i v1 x = Some w1 /\ cubic axs s i v2 x = Some w2 /\ cubic axs s i v3 x = Some w3 /\ w3 = (a * w1 + b * w2)%Qc.
Proof.
  intros Hs H8 Hi Hm (S1 & S2 & S3 & F). rewrite !cubic_eq by auto. do 3 eexists. repeat (split; [reflexivity|]). rewrite <- !sumQ_mul, <- sumQ_add. apply sumQ_ext. intros q Hq. rewrite F by (eapply cub_node; eauto). ring.
Qed.
End Grid.
