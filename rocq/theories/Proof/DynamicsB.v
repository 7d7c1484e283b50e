(* ranges of the order parameters *)
From Coq Require Import QArith.QArith QArith.Qcanon Lqa.
From Verif Require Import Model.Base Model.Boundary Model.Layout Model.Access Model.Stencil Model.Evolve Model.Dynamics Spec.Box Spec.Access Spec.Stencil Spec.Dynamics
  Proof.BaseL Proof.LayoutL Proof.AccessL Proof.StencilL Proof.StencilS Proof.StencilQ Proof.StencilM Proof.EndianF Proof.RandomL Proof.DynamicsL Proof.DynamicsF.
Local Open Scope list_scope.

Local Open Scope Q_scope.
Lemma well_high (a phi k u K w T : Q) : 0 <= k -> 0 <= u -> 0 <= K -> phi <= a -> - a <= phi -> k * (2 * (u * a * a) + K * w) <= 1 -> T <= (a - phi) * w ->
  phi + k * (u * a * a * phi - u * (phi * phi * phi) + K * T) <= a.
Proof.
  intros Hk Hu HK H1 H2 H3 HT.
  assert (0 <= (a - phi) * (2 * a + phi)) as A by (apply Qmult_le_0_compat; lra).
  assert (0 <= k * u) as B by (apply Qmult_le_0_compat; auto).
  assert (0 <= k * u * ((a - phi) * (2 * a + phi))) as D by (apply Qmult_le_0_compat; auto).
  assert (0 <= 1 - k * u * (phi * (a + phi)) - k * K * w) as E.
  { assert (k * u * ((a - phi) * (2 * a + phi)) == k * (2 * (u * a * a)) - k * u * (phi * (a + phi))) as X by ring. rewrite X in D. lra. }
  assert (0 <= (a - phi) * (1 - k * u * (phi * (a + phi)) - k * K * w)) as G by (apply Qmult_le_0_compat; [lra|auto]).
  assert (0 <= k * K * ((a - phi) * w - T)) as I by (apply Qmult_le_0_compat; [apply Qmult_le_0_compat; auto|lra]).
  assert ((a - phi) * (1 - k * u * (phi * (a + phi)) - k * K * w) + k * K * ((a - phi) * w - T) ==
          a - (phi + k * (u * a * a * phi - u * (phi * phi * phi) + K * T))) as X by ring.
  lra.
Qed.
Lemma well_low (a phi k u K w T : Q) : 0 <= k -> 0 <= u -> 0 <= K -> phi <= a -> - a <= phi -> k * (2 * (u * a * a) + K * w) <= 1 -> (- a - phi) * w <= T ->
  - a <= phi + k * (u * a * a * phi - u * (phi * phi * phi) + K * T).
Proof.
  intros Hk Hu HK H1 H2 H3 HT. pose proof (well_high a (- phi) k u K w (- T) Hk Hu HK) as W.
  assert (- phi <= a) as A1 by lra. assert (- a <= - phi) as A2 by lra. assert (- T <= (a - - phi) * w) as A3 by lra. specialize (W A1 A2 H3 A3).
  assert (- phi + k * (u * a * a * - phi - u * (- phi * - phi * - phi) + K * - T) == - (phi + k * (u * a * a * phi - u * (phi * phi * phi) + K * T))) as X by ring. lra.
Qed.

Lemma grain_high (phi k w s T : Q) : 0 <= k -> 0 <= phi -> phi <= 1 -> phi * phi <= s -> k * (2 + 2 * w) <= 1 -> T <= (1 - phi) * w ->
  phi - k * (- phi - phi * phi * phi + 2 * (phi * s - T)) <= 1.
Proof.
  intros Hk H0 H1 Hs Hw HT. pose proof (well_high 1 phi k 1 2 w T Hk) as W.
  assert (phi + k * (1 * 1 * 1 * phi - 1 * (phi * phi * phi) + 2 * T) <= 1) as A by (apply W; lra).
  assert (0 <= k * (phi * (s - phi * phi))) as B by (apply Qmult_le_0_compat; [auto|]; apply Qmult_le_0_compat; lra).
  assert (phi - k * (- phi - phi * phi * phi + 2 * (phi * s - T)) == phi + k * (1 * 1 * 1 * phi - 1 * (phi * phi * phi) + 2 * T) - 2 * (k * (phi * (s - phi * phi)))) as X by ring.
  lra.
Qed.
Lemma grain_low (phi k w s m T : Q) : 0 <= k -> 0 <= phi -> s <= m -> k * (2 * m + 2 * w) <= 1 -> (0 - phi) * w <= T ->
  0 <= phi - k * (- phi - phi * phi * phi + 2 * (phi * s - T)).
Proof.
  intros Hk H0 Hs Hw HT.
  assert (0 <= k * (T - (0 - phi) * w)) as A by (apply Qmult_le_0_compat; lra).
  assert (0 <= k * phi) as B by (apply Qmult_le_0_compat; lra).
  assert (0 <= phi * phi) as F by (apply Qmult_le_0_compat; lra).
  assert (0 <= k * phi * (phi * phi)) as D by (apply Qmult_le_0_compat; auto).
  assert (0 <= k * (m - s)) as E by (apply Qmult_le_0_compat; lra).
  assert (0 <= phi * (1 - k * (2 * s + 2 * w))) as G by (apply Qmult_le_0_compat; [lra|]; assert (k * (2 * s + 2 * w) == k * (2 * m + 2 * w) - 2 * (k * (m - s))) by ring; lra).
  assert (phi - k * (- phi - phi * phi * phi + 2 * (phi * s - T)) == phi * (1 - k * (2 * s + 2 * w)) + k * phi + k * phi * (phi * phi) + 2 * (k * (T - (0 - phi) * w))) as X by ring.
  lra.
Qed.
Local Close Scope Q_scope.
Local Open Scope Z_scope.

Lemma Qc_le_this a b : (a <= b)%Qc <-> (this a <= this b)%Q. Proof. reflexivity. Qed.
Ltac unqc := unfold Qcle, cube, sq in *; repeat (rewrite ?this_add, ?this_sub, ?this_mul, ?this_opp in *).

Lemma nth_range data m M i : 0 <= i < zlen data -> Forall (fun v => m <= v <= M)%Qc data -> (m <= nth (Z.to_nat i) data 0 <= M)%Qc.
Proof. intros H F. rewrite Forall_forall in F. apply F, nth_In. unfold zlen in H. lia. Qed.
Lemma tab_forall (P : Qc -> Prop) n t : (forall i, 0 <= i < n -> P (t i)) -> Forall P (tab n t).
Proof. intros H. unfold tab. apply Forall_forall. intros v Hv. apply in_map_iff in Hv as (i & <- & Hi). apply in_zrange in Hi. auto. Qed.

Lemma sumQ_le_n (f : Z -> Qc) n : 0 <= n -> (forall j, 0 <= j < n -> f j <= 1)%Qc -> (sumQ (map f (zrange 0 n)) <= Qc_of n)%Qc.
Proof.
  intros Hn H. revert Hn H. apply (natlike_ind (fun n => (forall j, 0 <= j < n -> f j <= 1)%Qc -> (sumQ (map f (zrange 0 n)) <= Qc_of n)%Qc)).
  - intros _. rewrite zrange_nil by lia. apply Qcle_refl.
  - clear n. intros n Hn IH H. rewrite <- Z.add_1_r. rewrite zrange_snoc by lia. rewrite map_app, sumQ_app. cbn [map sumQ]. rewrite Qc_of_add, Qc_of_1.
    apply Qcplus_le_compat; [apply IH; intros; apply H; lia|]. rewrite Qcplus_0_r. apply H. lia.
Qed.
Lemma sumQ_ge_one (f : Z -> Qc) n j : (forall j, 0 <= j < n -> 0 <= f j)%Qc -> 0 <= j < n -> (f j <= sumQ (map f (zrange 0 n)))%Qc.
Proof.
  intros H Hj. rewrite (zrange_app 0 j n), (zrange_cons j n) by lia. rewrite map_app, sumQ_app. cbn [map sumQ].
  assert (0 <= sumQ (map f (zrange 0 j)))%Qc as A by (apply sumQ_ge_0; intros i Hi; apply in_zrange in Hi; apply H; lia).
  assert (0 <= sumQ (map f (zrange (j + 1) n)))%Qc as B by (apply sumQ_ge_0; intros i Hi; apply in_zrange in Hi; apply H; lia).
  unqc. change (this 0) with 0%Q in *. lra.
Qed.

Section Bounds.
Context (ls : list limits) (dx : list Qc) (Hs : Forall serial_axis ls) (Hd : length dx = length ls) (Hz : Forall (fun h => h <> 0%Qc) dx).
Notation N := (nodes (lay 0 ls)).
Notation C := (cells (lay 0 ls)).

Lemma next_A_range a u K M dt old : (0 <= dt * M)%Qc -> (0 <= u)%Qc -> (0 <= K)%Qc ->
  (dt * M * (Q2Qc (2 # 1) * (u * a * a) + K * stiffness dx) <= 1)%Qc -> zlen old = C -> Forall (fun v => - a <= v <= a)%Qc old ->
  Forall (fun v => - a <= v <= a)%Qc (next_A ls dx (u * a * a) u K M dt (fun _ => 0%Qc) old).
Proof.
  intros Hk Hu HK Hb L F. apply tab_forall. intros i Hi. assert (0 <= i < zlen old) as Hi' by (rewrite L, cells_nodes_0; auto).
  pose proof (nth_range old _ _ i Hi' F) as [P1 P2]. destruct (lap_bounds ls dx Hs Hd Hz old (- a) a i L Hi F) as [Lo Up]. fold (stiffness dx) in Lo, Up.
  set (phi := nth (Z.to_nat i) old 0%Qc) in *. set (T := lap ls dx old (position (lay 0 ls) i)) in *.
  replace (phi - dt * M * (- (u * a * a) * phi + u * cube phi - K * T + 0))%Qc with (phi + dt * M * ((u * a * a) * phi - u * (phi * phi * phi) + K * T))%Qc by (unfold cube; ring).
  generalize dependent (dt * M)%Qc. intros k Hk Hb. unqc. change (this (Q2Qc (2 # 1))) with 2%Q in *. change (this 1) with 1%Q in *. change (this 0) with 0%Q in *. split.
  - now apply well_low with (w := this (stiffness dx)).
  - now apply well_high with (w := this (stiffness dx)).
Qed.

Lemma next_G_range dt pinned n old : 1 <= n -> (0 <= dt)%Qc -> (dt * (Q2Qc (2 # 1) * Qc_of n + Q2Qc (2 # 1) * stiffness dx) <= 1)%Qc -> vgrid ls n old ->
  Forall (Forall (fun v => 0 <= v <= 1)%Qc) old -> Forall (Forall (fun v => 0 <= v <= 1)%Qc) (next_G ls dx n dt pinned old).
Proof.
  intros Hn Hk Hb (L & F) R. unfold next_G, vtab. apply Forall_forall. intros c Ic. apply in_map_iff in Ic as (i & <- & Ii). apply in_zrange in Ii.
  destruct (read_cell ls n old L F i Ii) as (c & _ & Lc & Ec & Ic). rewrite <- Ec. assert (Forall (fun v => 0 <= v <= 1)%Qc c) as Rc by (rewrite Forall_forall in R; auto).
  apply tab_forall. intros j Hj. cbv zeta.
  assert (forall k, 0 <= k < n -> 0 <= comp k c <= 1)%Qc as Rk by (intros k Hkk; apply nth_range; auto; lia).
  destruct (pinned && (j =? 0)); [now apply Rk|].
  assert (Forall (fun v => 0 <= v <= 1)%Qc (field j old)) as Rf.
  { unfold field. apply Forall_forall. intros v Iv. apply in_map_iff in Iv as (c' & <- & I'). rewrite Forall_forall in R, F. apply nth_range; auto. rewrite F by auto. lia. }
  destruct (lap_bounds ls dx Hs Hd Hz (field j old) 0%Qc 1%Qc i ltac:(rewrite field_len; auto) Ii Rf) as [Lo Up]. fold (stiffness dx) in Lo, Up.
  rewrite field_nth, <- Ec in Lo, Up. destruct (Rk j Hj) as [P0 P1].
  assert (forall k, 0 <= k < n -> 0 <= sq (comp k c) <= 1)%Qc as Rs.
  { intros k Hkk. destruct (Rk k Hkk) as [A B]. unqc. change (this 1) with 1%Q in *. change (this 0) with 0%Q in *. split; nra. }
  pose proof (sumQ_le_n (fun k => sq (comp k c)) n ltac:(lia) (fun k H => proj2 (Rs k H))) as S1. fold (sum_sq n 0 c) in S1.
  pose proof (sumQ_ge_one (fun k => sq (comp k c)) n j (fun k H => proj1 (Rs k H)) Hj) as S2. fold (sum_sq n 0 c) in S2.
  assert (1 <= Qc_of n)%Qc as On. { unfold Qcle, Qc_of, Q2Qc. cbn [this]. rewrite !Qred_correct. change 1%Q with (inject_Z 1). rewrite <- Zle_Qle. lia. }
  set (T := lap ls dx (field j old) (position (lay 0 ls) i)) in *. set (phi := comp j c) in *. set (s := sum_sq n 0 c) in *.
  generalize dependent (Qc_of n). intros m S1 Hb On. unfold c2. unqc. change (this (Q2Qc (2 # 1))) with 2%Q in *. change (this 1) with 1%Q in *. change (this 0) with 0%Q in *. split.
  - apply grain_low with (w := this (stiffness dx)) (m := this m); auto.
  - apply grain_high with (w := this (stiffness dx)); auto.
    assert (0 <= this dt * (this m - 1))%Q by (apply Qmult_le_0_compat; lra). nra.
Qed.
Lemma next_G_pinned dt n old i : 0 < n -> zlen old = C -> 0 <= i < N ->
  comp 0 (nth (Z.to_nat i) (next_G ls dx n dt true old) []) = comp 0 (nth (Z.to_nat i) old []).
Proof.
  intros Hn L Hi. rewrite <- !field_nth. unfold next_G. rewrite vtab_field by lia. cbv zeta. change (true && (0 =? 0)) with true. cbv iota.
  rewrite field_nth. change (comp i (tab N (fun i => comp 0 (nth (Z.to_nat i) old []))) = comp 0 (nth (Z.to_nat i) old [])). now apply comp_tab.
Qed.
End Bounds.
