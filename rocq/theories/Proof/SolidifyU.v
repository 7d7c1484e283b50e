(* the solidification program on uniform fields *)
From Coq Require Import QArith.QArith QArith.Qcanon Lqa.
From Verif Require Import Model.Base Model.Boundary Model.Layout Model.Access Model.Stencil Model.Evolve Model.Dynamics Spec.Box Spec.Access Spec.Stencil Spec.Dynamics
  Proof.BaseL Proof.LayoutL Proof.AccessL Proof.StencilL Proof.StencilS Proof.StencilQ Proof.StencilM Proof.EndianF Proof.RandomL Proof.DynamicsL Proof.DynamicsF Proof.DynamicsB Proof.MultiphaseL Proof.SolidifyL.
Local Open Scope list_scope.
Local Open Scope Z_scope.

Section Uniform.
Context (ls : list limits) (dx : list Qc) (Hs : Forall serial_axis ls) (Hd : length dx = length ls) (Hz : Forall (fun h => h <> 0%Qc) dx) (Two : zlen ls = 2).
Notation N := (nodes (lay 0 ls)).
Notation C := (cells (lay 0 ls)).
Definition flat {T} (c : T) : list T := repeat c (Z.to_nat C).
Lemma C_nonneg : 0 <= C. Proof. rewrite cells_nodes_0. now apply N_nonneg. Qed.
Lemma flat_len {T} (c : T) : zlen (flat c) = C.
Proof. unfold zlen, flat. rewrite repeat_length. pose proof C_nonneg. lia. Qed.
Lemma flat_all {T} (c d : T) : In d (flat c) -> d = c.
Proof. intros I. now apply repeat_spec in I. Qed.
Lemma read_flat {T} (c : T) x : length x = length ls -> box ls (cbs ls x) -> grid_read false (lay 0 ls) (flat c) x = Some c.
Proof.
  intros Lx B. rewrite read_idx by auto. pose proof (idx_bounds ls _ Hs B). destruct (get_ok (flat c) (idx ls (cbs ls x))) as [d E]; [rewrite flat_len; lia|]. rewrite E.
  f_equal. apply flat_all. unfold get in E. destruct (_ <? _); [discriminate|]. eapply nth_error_In; eauto.
Qed.
Lemma get_flat {T} (c : T) i : 0 <= i < N -> get (flat c) i = Some c.
Proof.
  intros Hi. destruct (get_ok (flat c) i) as [d E]; [rewrite flat_len, cells_nodes_0; auto|]. rewrite E. f_equal. apply flat_all. unfold get in E. destruct (_ <? _); [discriminate|]. eapply nth_error_In; eauto.
Qed.
Lemma map_flat {T} (c : T) : map (fun _ => c) (zrange 0 N) = flat c.
Proof.
  symmetry. apply list_get; [rewrite flat_len; apply cells_nodes_0|]. intros i Hi. now apply get_flat.
Qed.
Lemma list_flat {T} (c : T) l : zlen l = C -> (forall i, 0 <= i < N -> get l i = Some c) -> l = flat c.
Proof. intros L H. rewrite <- map_flat. apply list_get; auto. rewrite <- cells_nodes_0. auto. Qed.
Lemma flat_vgrid c : zlen c = 2 -> vgrid ls 2 (flat c).
Proof. intros L. split; [apply flat_len|]. apply Forall_forall. intros d I. apply flat_all in I as ->. auto. Qed.

Lemma lap_flat v i : 0 <= i < N -> lap ls dx (flat v) (position (lay 0 ls) i) = 0%Qc.
Proof.
  intros Hi. destruct (lap_bounds ls dx Hs Hd Hz (flat v) v v i (flat_len v) Hi) as [A B].
  { apply Forall_forall. intros d I. apply flat_all in I as ->. split; apply Qcle_refl. }
  pose proof (get_flat v i Hi) as G. rewrite (BaseL.get_nth (flat v) i 0%Qc) in G by (rewrite flat_len, cells_nodes_0; auto). injection G as G. rewrite G in A, B.
  replace ((v - v) * sumQ (map (fun h => Q2Qc (2 # 1) / (h * h)) dx))%Qc with 0%Qc in A, B by ring. apply Qcle_antisym; auto.
Qed.
Lemma field_flat j c : field j (flat c) = flat (comp j c).
Proof. unfold field, flat. generalize (Z.to_nat C). induction n as [|k IH]; cbn; congruence. Qed.

Lemma uniform_step flux melt tau dt DiffT phi u r phi' new : vgrid ls 2 new -> dt <> 0%Qc -> new_phase melt tau dt phi u 0 = Some phi' ->
  solidify_step false (lay 0 ls) dx flux melt tau dt DiffT (flat [phi; u], new, flat r) = Some (flat [phi'; u + (phi - r)]%Qc, flat [phi; u], flat phi).
Proof.
  intros Gn Ndt Ph. unfold solidify_step. destruct (flux 0%Qc 0%Qc) as [fx fy] eqn:Fl.
  rewrite (for_cells_eq ls _ (fun _ => [fx; fy])).
  2:{ unfold zlen. rewrite repeat_length. apply flat_len. }
  2:{ intros i c Hi I. apply repeat_spec in I as ->. unfold heat_flux. pose proof (pos_box ls Hs i Hi) as B. pose proof (local_len ls _ B) as Lx.
      set (x := position (lay 0 ls) i) in *. rewrite read_flat by (auto; now rewrite cbs_in). cbn [bind]. change (get [phi; u] 0) with (Some phi). cbn [bind].
      rewrite (map_opt_map _ (fun _ => 0%Qc)).
      - rewrite (zlen_lay ls), Two. cbn [bind]. change (map (fun _ : Z => 0%Qc) (zrange 0 2)) with [0; 0]%Qc. change (get [0; 0]%Qc 0) with (Some 0%Qc). change (get [0; 0]%Qc 1) with (Some 0%Qc).
        cbn [bind]. rewrite Fl. reflexivity.
      - intros d Id. apply in_zrange in Id. rewrite (zlen_lay ls) in Id. rewrite shift_eq by (unfold zlen in *; lia). cbn [bind].
        rewrite read_flat by (try apply nb_box; auto; now rewrite nb_len). cbn [bind]. change (get [phi; u] 0) with (Some phi). cbn [bind].
        rewrite spacing_get by (unfold zlen in *; lia). cbn [bind]. rewrite recip_eq by (apply spacing_nz; auto; unfold zlen in *; lia). cbn [bind]. f_equal. ring. }
  cbn [bind]. rewrite map_flat. set (D := flat [fx; fy]).
  destruct (fold_inv (fun m st => vgrid ls 2 (fst st) /\ zlen (snd st) = C /\ (forall j, 0 <= j < m -> get (fst st) j = Some [phi'; u + (phi - r)]%Qc /\ get (snd st) j = Some phi) /\
      (forall j, m <= j < N -> get (snd st) j = Some r))
    (solidify_node false (lay 0 ls) dx melt tau dt DiffT (flat [phi; u]) D) 0 N (new, flat r)) as ([n1 r1] & E & G1 & L1 & J & _).
  - now apply N_nonneg.
  - cbn [fst snd]. split; [auto|]. split; [apply flat_len|]. split; intros; [lia|now apply get_flat].
  - intros i [n2 r2] Hi (G2 & L2 & J & K). cbn [fst snd] in *.
    assert (vgrid ls 2 (flat [phi; u])) as Go by now apply flat_vgrid.
    unfold solidify_node. pose proof (pos_box ls Hs i Hi) as B. pose proof (local_len ls _ B) as Lx.
    rewrite (read_pos ls Hs (flat [phi; u]) i), (read_pos ls Hs D i), (read_pos ls Hs n2 i) by (auto; first [apply flat_len | apply G2]).
    unfold D. rewrite !get_flat by auto. cbn [bind]. change (get [phi; u] 0) with (Some phi). change (get [phi; u] 1) with (Some u). cbn [bind].
    destruct G2 as [Ln2 Fn2]. destruct (get_cell ls 2 n2 i Ln2 Fn2 Hi) as [G3 L3]. rewrite G3. cbn [bind].
    rewrite (fold_sumQ _ (fun _ => 0%Qc)).
    2:{ intros d a Id. apply in_zrange in Id. rewrite (zlen_lay ls) in Id. rewrite shift_eq by (unfold zlen in *; lia). cbn [bind].
        rewrite read_flat by (try apply nb_box; auto; now rewrite nb_len). cbn [bind]. assert (d = 0 \/ d = 1) as Hdd by lia.
        destruct (get_ok [fx; fy] d) as [v Ev]; [change (zlen [fx; fy]) with 2; lia|]. rewrite Ev. cbn [bind].
        rewrite spacing_get by (unfold zlen in *; lia). cbn [bind]. rewrite recip_eq by (apply spacing_nz; auto; unfold zlen in *; lia). cbn [bind]. f_equal. ring. }
    cbn [bind]. rewrite sumQ_zero, Qcplus_0_l. rewrite Ph. cbn [bind].
    rewrite put_ok by lia. cbn [bind]. rewrite (flaplacian_serial ls dx Hs Hd Hz 2) by (auto; try lia; apply Go). cbn [bind]. rewrite field_flat, lap_flat by auto.
    unfold grid_read_int, addr_int. rewrite K by lia. cbn [bind]. rewrite recip_eq by auto. cbn [bind].
    rewrite put_ok by (unfold zlen in *; rewrite length_set_nth; lia). cbn [bind].
    set (c' := set_nth _ _ _). assert (c' = [phi'; u + (phi - r)]%Qc) as Ec'.
    { unfold c'. destruct (nth (Z.to_nat i) n2 []) as [|a [|b [|? ?]]]; try (unfold zlen in L3; cbn [length] in L3; lia). change (Z.to_nat 1) with 1%nat. change (Z.to_nat 0) with 0%nat. cbn [set_nth]. do 2 f_equal. field. auto. }
    rewrite Ec'. rewrite write_pos by auto. unfold grid_write_int, addr_int.
    assert (put n2 i [phi'; u + (phi - r)]%Qc = Some (set_nth (Z.to_nat i) n2 [phi'; u + (phi - r)]%Qc)) as P1 by (apply put_ok; rewrite Ln2, cells_nodes_0; auto).
    assert (put r2 i phi = Some (set_nth (Z.to_nat i) r2 phi)) as P2 by (apply put_ok; rewrite L2, cells_nodes_0; auto).
    rewrite P1, P2. cbn [bind]. eexists. split; [reflexivity|]. cbn [fst snd].
    pose proof (put_len _ _ _ _ P1). pose proof (put_len _ _ _ _ P2). split; [split; [lia|]|split; [lia|split]].
    + apply Forall_forall. intros c I. rewrite Forall_forall in Fn2. clear - I Fn2.
      revert I. generalize (Z.to_nat i). induction n2 as [|a l IH]; intros [|k] I; simpl in I; try easy.
      * destruct I as [<-|I]; auto. apply Fn2. now right.
      * destruct I as [<-|I]; [apply Fn2; now left|]. apply (IH (fun x H => Fn2 x (or_intror H)) k I).
    + intros j Hj. destruct (Z.eq_dec j i) as [->|Nj]; [rewrite (get_put_eq _ _ _ _ P1), (get_put_eq _ _ _ _ P2); auto|].
      rewrite (get_put_ne _ _ _ _ _ P1), (get_put_ne _ _ _ _ _ P2) by lia. apply J. lia.
    + intros j Hj. rewrite (get_put_ne _ _ _ _ _ P2) by lia. apply K. lia.
  - cbn [fst snd] in *. rewrite E. cbn [bind]. rewrite (list_flat [phi'; u + (phi - r)]%Qc n1), (list_flat phi r1); auto; try apply G1; intros i Hi; apply J; auto.
Qed.

Lemma start_flat phi u ref : zlen ref = C -> solidify_start false (lay 0 ls) (flat [phi; u]) ref = Some (flat phi).
Proof.
  intros L. unfold solidify_start. rewrite (for_nodes_eq ls _ (fun _ => phi)); auto.
  - f_equal. apply map_flat.
  - intros i Hi. unfold grid_read_int, addr_int. rewrite get_flat by auto. reflexivity.
Qed.
End Uniform.

(* the phase of a uniform field stays between 0 and 1 *)
Lemma new_phase_range melt tau dt phi u : (0 < tau / dt)%Qc -> (0 <= phi <= 1)%Qc -> exists phi', new_phase melt tau dt phi u 0 = Some phi' /\ (0 <= phi' <= 1)%Qc.
Proof.
  intros Ht [P0 P1]. unfold new_phase. set (m := (phi - half - melt u)%Qc). set (t := (tau / dt)%Qc) in *.
  assert (forall a b, 0 < b -> 0 <= a <= b -> exists q, (do r <- recip b; Some (a * r)%Qc) = Some q /\ 0 <= q <= 1)%Qc as H.
  { intros a b Hb [A0 A1]. assert (b <> 0)%Qc as Nz by (intros E; rewrite E in Hb; discriminate). rewrite recip_eq by auto. cbn [bind]. eexists. split; [reflexivity|].
    assert (0 < / b)%Qc as Hi by (unfold Qclt in *; rewrite this_inv; change (this 0) with 0%Q in *; now apply Qinv_lt_0_compat).
    assert (b * / b = 1)%Qc as E by (field; auto). unfold Qcle, Qclt in *. apply (f_equal this) in E. assert (this b * this (/ b) == 1)%Q as E' by (rewrite <- this_mul, E; reflexivity).
    rewrite this_mul. change (this 0) with 0%Q in *. change (this 1) with 1%Q in *. split; nra. }
  destruct (qgt m 0) eqn:G.
  - apply qgt_spec in G. apply H.
    + unfold Qclt, Qcle in *. rewrite this_add, this_mul. change (this 0) with 0%Q in *. nra.
    + unfold Qclt, Qcle in *. rewrite !this_add, !this_mul, !this_add. change (this 0) with 0%Q in *. change (this 1) with 1%Q in *. split; nra.
  - assert (m <= 0)%Qc as M by (apply Qcnot_lt_le; intros X; apply qgt_spec in X; congruence). apply H.
    + unfold Qclt, Qcle in *. rewrite this_sub, this_mul, this_sub. change (this 0) with 0%Q in *. change (this 1) with 1%Q in *. nra.
    + unfold Qclt, Qcle in *. rewrite this_sub, !this_add, !this_mul, !this_sub. change (this 0) with 0%Q in *. change (this 1) with 1%Q in *. split; nra.
Qed.
(* from 1/2 it moves unless melt is 0 *)
Lemma new_phase_moves melt tau dt u phi' : (0 < tau / dt)%Qc -> melt u <> 0%Qc -> new_phase melt tau dt half u 0 = Some phi' -> phi' <> half.
Proof.
  intros Ht Nm E. unfold new_phase in E. replace (half - half - melt u)%Qc with (- melt u)%Qc in E by ring. set (m := (- melt u)%Qc) in *. set (t := (tau / dt)%Qc) in *.
  assert (m <> 0%Qc) as Nz. { intros H. apply Nm. unfold m in H. rewrite <- (Qcopp_involutive (melt u)), H. reflexivity. }
  destruct (qgt m 0).
  - unfold recip in E. destruct (Qc_eq_dec (t + half * m) 0) as [|Nd]; [discriminate|]. cbn [bind] in E. injection E as <-. intros H. apply Nz.
    assert ((m + t) * half = half * (t + half * m))%Qc as K. { rewrite <- H at 2. field. auto. }
    assert (half * half * m = 0)%Qc as Z. { transitivity ((m + t) * half - half * (t + half * m))%Qc; [|rewrite K; ring]. assert (half = 1 / (1 + 1))%Qc as -> by (apply qc_this_eq; reflexivity). field. intros X; discriminate. }
    apply Qcmult_integral in Z as [Z|Z]; [discriminate|auto].
  - unfold recip in E. destruct (Qc_eq_dec (t - (1 - half) * m) 0) as [|Nd]; [discriminate|]. cbn [bind] in E. injection E as <-. intros H. apply Nz.
    assert (half * t = half * (t - (1 - half) * m))%Qc as K. { rewrite <- H at 2. field. auto. }
    assert (half * (1 - half) * m = 0)%Qc as Z. { transitivity (half * t - half * (t - (1 - half) * m))%Qc; [ring|rewrite <- K; ring]. }
    apply Qcmult_integral in Z as [Z|Z]; [discriminate|auto].
Qed.

(* at the start of a call the reference takes the phase field *)
Lemma start_field ls (dx : list Qc) (F : Forall serial_axis ls) (Ld : length dx = length ls) old ref : vgrid ls 2 old -> zlen ref = cells (lay 0 ls) ->
  solidify_start false (lay 0 ls) old ref = Some (field 0 old).
Proof.
  intros [L Fo] Lr. unfold solidify_start. rewrite (for_nodes_eq ls _ (fun i => nth (Z.to_nat i) (field 0 old) 0%Qc)); auto.
  - f_equal. rewrite <- cells_nodes_0, <- L, <- (field_len 0 old). symmetry. apply list_tab.
  - intros i Hi. destruct (get_cell ls 2 old i L Fo Hi) as [G2 L2]. unfold grid_read_int, addr_int. rewrite G2. cbn [bind]. rewrite (comp_get' _ _ 2) by (auto; lia). now rewrite field_nth.
Qed.
