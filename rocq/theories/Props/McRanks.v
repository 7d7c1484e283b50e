(* C101: Monte Carlo grain growth on several ranks *)
From Coq Require Import QArith.QArith QArith.Qcanon.
From Verif Require Import Model.Base Model.Boundary Model.Layout Model.Access Model.Setup Model.Codec Model.MPI Model.Ghostswap Model.Colour Model.Spin Model.Gradient Model.McRanks
  Spec.Box Spec.Access Spec.Bytes Spec.Decomp Spec.Schedule Spec.Stencil Spec.Spin Spec.McRanks
  Proof.BaseL Proof.CodecL Proof.ExecL Proof.McRanksL Proof.McRanksF Props.Spin.
Local Open Scope list_scope.
Local Open Scope Z_scope.

(* C101.  The sides of the domain are even and every rank has at least two nodes along every axis; the ranks hold the nodes of the serial grid
   D0; the numbers that rand() yields after srand with the clock of rank 0 pick every cell again and again.  Then there are attempts, made by the
   ranks at nodes of their own with numbers of that sequence, as many in every sweep as the rank has counted, such that:
   - one process that makes the attempts one after the other, sweep by sweep and in a sweep rank by rank, turns D0 into D0';
   - D0' has no spin that D0 has not, and no more energy at temperature zero;
   - under every schedule all ranks end, and hold the values of D0': at their own nodes, and in the ghost cells those of the periodic images. *)
Theorem C101_serial_order : forall (c : codec Z) valid np gs B hot (sel : list axis -> list Z -> Z -> bool) rand clock steps (D : Z -> list Z) D0,
  let w := map serial_limits gs in
  serialises c valid -> 0 < np -> (length gs = 2 \/ length gs = 3)%nat -> 0 <= B -> (forall v, valid v -> c_size c v <= B) ->
  Forall (fun g => gx_0 g < gx_1 g /\ Z.even (gx_1 g - gx_0 g) = true) gs ->
  (forall r ge, 0 <= r < np -> setup_mpi np gs 1 r = Some ge ->
     zlen (D r) = cells (ge_axes ge) /\ Forall valid (D r) /\ cells (ge_axes ge) * B <= int_max /\ Forall (fun a => a_x0 a + 2 <= a_x1 a) (ge_axes ge) /\
     (forall y, owns ge y -> grid_read true (ge_axes ge) (D r) y = grid_read false (lay 0 w) D0 y) /\
     (forall t s, fair (num_lattice_cells (ge_axes ge)) (rand (clock 0 t s))) /\ (forall x rd, sel (ge_axes ge) x rd = sel (lay 0 w) x rd)) ->
  zlen D0 = cells (lay 0 w) -> (forall seed k, 0 <= rand seed k) -> (forall t s, 0 <= clock 0 t s < 2 ^ 64) ->
  exists Ls D0',
    Forall2 (fun ts L => forall r ge, 0 <= r < np -> setup_mpi np gs 1 r = Some ge ->
        drawn ge (snd ts) (rand (clock 0 (fst ts) (snd ts))) 0 (L r) /\ zlen (L r) = to_flip (ge_axes ge) (snd ts)) (turns (length gs) steps) Ls /\
    attempts (lay 0 w) hot (sel (lay 0 w)) (flat_map (fun L => flat_map L (zrange 0 np)) Ls) D0 = Some D0' /\
    Forall (fun v => In v D0) D0' /\ ((forall r dE, 0 < dE -> hot r dE = false) -> grain_energy2 w (value_at w D0') <= grain_energy2 w (value_at w D0)) /\
    exists fuel0, forall fuel, (fuel0 <= fuel)%nat -> exists D' f, finished np D' f /\
      inevitable (ranks np (rank_growth c hot sel rand fuel np gs clock steps D), no_chans) f /\
      forall r ge y, 0 <= r < np -> setup_mpi np gs 1 r = Some ge ->
        (in_box (map a_s0 (ge_axes ge)) (map a_s1 (ge_axes ge)) y -> grid_read true (ge_axes ge) (D' r) y = grid_read false (lay 0 w) D0' (wrap gs y)) /\
        (owns ge y -> grid_read true (ge_axes ge) (D' r) y = grid_read false (lay 0 w) D0' y).
Proof. exact ranks_serial. Qed.
Print Assumptions C101_serial_order.

(* the condition on sel holds for the temperature gradient of the anisotropic example: every rank selects nodes as one process does *)
Theorem C101_gradient : forall ex top np gs r ge x rd, 0 < np -> gs <> [] -> Forall (fun g => gx_0 g <= gx_1 g) gs -> 0 <= r < np -> setup_mpi np gs 1 r = Some ge ->
  selected ex top (ge_axes ge) x rd = selected ex top (lay 0 (map serial_limits gs)) x rd.
Proof.
  intros ex top np gs r ge x rd Hnp Hne Hg Hr E. destruct (rank_shape np gs r ge Hnp Hne Hg Hr E) as (ls & _ & _ & E0 & E1). unfold selected. do 2 f_equal. unfold selection_probability. cbv zeta. do 3 f_equal. unfold temperature.
  destruct gs as [|g gs]; [congruence|]. destruct (ge_axes ge) as [|a axs]; [discriminate|]. cbn in E0, E1. injection E0 as E0 _. injection E1 as E1 _. cbn [map lay serial_limits l_x0 l_x1 l_g0 l_g1 a_g0 a_g1]. now rewrite E0, E1.
Qed.
Print Assumptions C101_gradient.

(* In every step every node has its turn, once: the sublattices of a step are different, and exactly one of them contains the node *)
Lemma sub_of (x : list Z) : (length x = 2 \/ length x = 3)%nat -> exists s, 0 <= s < 2 ^ zlen x /\ of_sublattice s x /\ forall s', 0 <= s' < 2 ^ zlen x -> of_sublattice s' x -> s' = s.
Proof.
  intros [L|L].
  - destruct x as [|a [|b [|]]]; try discriminate. change (2 ^ zlen [a; b]) with 4.
    assert (forall s, of_sublattice s [a; b] <-> Z.odd a = Z.testbit s 1 /\ Z.odd b = Z.testbit s 0) as I.
    { intros s. split; [intros H; split; [apply (H 0%nat)|apply (H 1%nat)]; cbn; lia|]. intros [H0 H1] [|[|j]] Hj; cbn in Hj; try lia; auto. }
    exists (2 * Z.b2z (Z.odd a) + Z.b2z (Z.odd b)). split; [destruct (Z.odd a), (Z.odd b); cbn; lia|]. rewrite I. split; [destruct (Z.odd a), (Z.odd b); cbn; auto|].
    intros s Hs. rewrite I. assert (s = 0 \/ s = 1 \/ s = 2 \/ s = 3) as [-> |[-> |[-> | ->]]] by lia; cbn; intros (-> & ->); reflexivity.
  - destruct x as [|a [|b [|d [|]]]]; try discriminate. change (2 ^ zlen [a; b; d]) with 8.
    assert (forall s, of_sublattice s [a; b; d] <-> Z.odd a = Z.testbit s 2 /\ Z.odd b = Z.testbit s 1 /\ Z.odd d = Z.testbit s 0) as I.
    { intros s. split; [intros H; split; [|split]; [apply (H 0%nat)|apply (H 1%nat)|apply (H 2%nat)]; cbn; lia|]. intros (H0 & H1 & H2) [|[|[|j]]] Hj; cbn in Hj; try lia; auto. }
    exists (4 * Z.b2z (Z.odd a) + 2 * Z.b2z (Z.odd b) + Z.b2z (Z.odd d)). split; [destruct (Z.odd a), (Z.odd b), (Z.odd d); cbn; lia|]. rewrite I. split; [destruct (Z.odd a), (Z.odd b), (Z.odd d); cbn; auto|].
    intros s Hs. rewrite I. assert (s = 0 \/ s = 1 \/ s = 2 \/ s = 3 \/ s = 4 \/ s = 5 \/ s = 6 \/ s = 7) as [-> |[-> |[-> |[-> |[-> |[-> |[-> | ->]]]]]]] by lia; cbn; intros (-> & -> & ->); reflexivity.
Qed.
Lemma in_turns d steps t s : (d = 2 \/ d = 3)%nat -> (In (t, s) (turns d steps) <-> 0 <= t < steps /\ 0 <= s < 2 ^ Z.of_nat d).
Proof.
  intros Hd. unfold turns. rewrite in_flat_map. split.
  - intros (t' & Ht & H). apply in_map_iff in H as (s' & H & Hs). injection H as -> ->. apply in_zrange in Ht, Hs. split; [exact Ht|]. destruct Hd as [-> | ->]; exact Hs.
  - intros [Ht Hs]. exists t. split; [now apply in_zrange|]. apply in_map. apply in_zrange. destruct Hd as [-> | ->]; exact Hs.
Qed.
Theorem C101_every_node : forall d steps, (d = 2 \/ d = 3)%nat ->
  NoDup (turns d steps) /\ (forall t s, In (t, s) (turns d steps) -> 0 <= t < steps) /\
  forall t x, 0 <= t < steps -> length x = d -> exists s, In (t, s) (turns d steps) /\ of_sublattice s x /\ forall s', In (t, s') (turns d steps) -> of_sublattice s' x -> s' = s.
Proof.
  intros d steps Hd. split; [|split].
  - unfold turns. set (n := if Nat.eqb d 2 then 4 else if Nat.eqb d 3 then 8 else 0). clearbody n. clear Hd. pose proof (NoDup_zrange 0 steps) as N. induction N as [|t l Ht N IH]; [constructor|]. cbn [flat_map].
    assert (forall l (t s : Z), In (t, s) (flat_map (fun t => map (pair t) (zrange 0 n)) l) -> In t l) as X.
    { clear. intros l t s H. apply in_flat_map in H as (t' & H & H'). apply in_map_iff in H' as (s' & H' & _). injection H' as -> ->. exact H. }
    assert (forall l : list (Z * Z), NoDup (map (pair t) (zrange 0 n) ++ l) <-> NoDup l /\ forall s, 0 <= s < n -> ~ In (t, s) l) as Y.
    { clear. intros l. pose proof (NoDup_zrange 0 n) as M. assert (forall s, In s (zrange 0 n) <-> 0 <= s < n) as I by (intros; apply in_zrange). revert M I. generalize (zrange 0 n) as q. intros q M I.
      assert (NoDup (map (pair t) q ++ l) <-> NoDup l /\ forall s, In s q -> ~ In (t, s) l) as ->; [|split; intros [H0 H1]; split; auto; intros s Hs; apply H1, I, Hs].
      clear I. induction M as [|a q Ha M IH]; cbn; [split; [intros; split; [auto|contradiction]|tauto]|]. rewrite NoDup_cons_iff, IH, in_app_iff. split.
      - intros (H1 & H2 & H3). split; [auto|]. intros s [-> | Hs]; [tauto|now apply H3].
      - intros (H1 & H2). split; [|split; [auto|intros s Hs; apply H2; now right]]. intros [H|H]; [|now apply (H2 a); [left|]]. apply in_map_iff in H as (a' & H & Ha'). injection H as ->. contradiction. }
    apply Y. split; [exact IH|]. intros s _ H. apply Ht. eapply X; eauto.
  - intros t s H. now apply in_turns in H.
  - intros t x Ht L. destruct (sub_of x ltac:(lia)) as (s & Hs & Os & U). assert (2 ^ zlen x = 2 ^ Z.of_nat d) as E by (unfold zlen; now rewrite L). rewrite E in *.
    exists s. split; [now apply in_turns|]. split; [exact Os|]. intros s' H' O'. apply U; [|exact O']. apply in_turns in H'; tauto.
Qed.
Print Assumptions C101_every_node.

Lemma fair_count n seed : 0 < n -> fair n (fun k => seed + Z.of_nat k).
Proof.
  intros Hn c k Hc. exists (k + Z.to_nat ((c - seed - Z.of_nat k) mod n))%nat. split; [lia|]. pose proof (Z.mod_pos_bound (c - seed - Z.of_nat k) n Hn).
  rewrite Nat2Z.inj_add, Z2Nat.id by lia. rewrite Z.add_assoc, Zplus_mod_idemp_r. replace (seed + Z.of_nat k + (c - seed - Z.of_nat k)) with c by lia. now apply Z.mod_small.
Qed.
(* two ranks with 2 x 2 nodes each; the random numbers are clock, clock+1, ...; the program runs, and changes spins *)
Definition case_D (r : Z) : list Z := let n := 4 * r in [0; 0; 0; 0; 0; n + 1; n + 2; 0; 0; n + 3; n + 4; 0; 0; 0; 0; 0].
Example C101_case : let gs := [mkG 0 4; mkG (-2) 0] in let w := map serial_limits gs in let D0 := zrange 1 9 in
  let rand seed k := seed + Z.of_nat k in let clock (r t s : Z) := 1000 + 7 * t + s in
  Forall (fun g => gx_0 g < gx_1 g /\ Z.even (gx_1 g - gx_0 g) = true) gs /\ zlen D0 = cells (lay 0 w) /\ (forall t s, 0 <= t < 10 -> 0 <= s < 4 -> 0 <= clock 0 t s < 2 ^ 64) /\
  (forall r ge, 0 <= r < 2 -> setup_mpi 2 gs 1 r = Some ge ->
     zlen (case_D r) = cells (ge_axes ge) /\ Forall int_range (case_D r) /\ cells (ge_axes ge) * 4 <= int_max /\ Forall (fun a => a_x0 a + 2 <= a_x1 a) (ge_axes ge) /\
     (forall y, owns ge y -> grid_read true (ge_axes ge) (case_D r) y = grid_read false (lay 0 w) D0 y) /\ (forall t s, fair (num_lattice_cells (ge_axes ge)) (rand (clock 0 t s)))) /\
  exists d0 d1, results (fst (run 2000 (ranks 2 (rank_growth (pod_codec pod_int) never (fun _ => always) rand 60 2 gs clock 2 case_D), no_chans))) = Some [d0; d1] /\ get d0 5 <> get (case_D 0) 5.
Proof.
  cbv zeta. split; [repeat constructor|]. split; [reflexivity|]. split; [intros; lia|]. split.
  - intros r ge Hr E. assert (r = 0 \/ r = 1) as [-> | ->] by lia; vm_compute in E; injection E as <-;
    (split; [reflexivity|]; split; [repeat constructor; vm_compute; congruence|]; split; [vm_compute; discriminate|]; split; [repeat constructor; vm_compute; discriminate|]; split; [|intros t s; apply fair_count; vm_compute; reflexivity]);
    (intros [|a [|b [|? ?]]] O; cbn in O; try tauto; destruct O as (O1 & O2 & _)).
    + assert (a = 0 \/ a = 1) as [-> | ->] by lia; assert (b = -2 \/ b = -1) as [-> | ->] by lia; vm_compute; reflexivity.
    + assert (a = 2 \/ a = 3) as [-> | ->] by lia; assert (b = -2 \/ b = -1) as [-> | ->] by lia; vm_compute; reflexivity.
  - do 2 eexists. split; [vm_compute; reflexivity|vm_compute; discriminate].
Qed.

(* The width of two nodes is needed: two ranks on 2 x 2 nodes have one row each.  Rank 0 counts nodes of sublattice 1 beyond its row
   (isOutsideDomain lets the upper limit pass), and the sweep of that sublattice never ends, whatever the random numbers. *)
Theorem C101_thin_refuted : exists gs ge, Forall (fun g => gx_0 g < gx_1 g /\ Z.even (gx_1 g - gx_0 g) = true) gs /\ setup_mpi 2 gs 1 0 = Some ge /\
  Forall (fun a => a_x0 a < a_x1 a) (ge_axes ge) /\ (forall steps, 1 <= steps -> In (0, 1) (turns (length gs) steps)) /\
  forall hot sel rnd data fuel, (forall k, 0 <= rnd k) -> sweep true (ge_axes ge) hot sel fuel rnd 1 (0, data, 0%nat) = Some None.
Proof.
  exists [mkG 0 2; mkG 0 2]. eexists. split; [repeat constructor|]. split; [vm_compute; reflexivity|]. split; [repeat constructor|]. split.
  { intros steps Hs. unfold turns. apply in_flat_map. exists 0. split; [apply in_zrange; lia|]. apply in_map. apply in_zrange. cbn. lia. }
  intros hot sel rnd data fuel R. generalize 0%nat as k. induction fuel as [|f IH]; intros k; [reflexivity|]. cbn [sweep].
  match goal with |- (if 0 <? to_flip ?axs 1 then _ else _) = _ => change (0 <? to_flip axs 1) with true end. cbv beta iota. unfold pass.
  match goal with |- context [num_lattice_cells ?axs] => change (num_lattice_cells axs) with 2 end. cbn [Z.eqb negb guard bind].
  pose proof (Z.rem_bound_pos (rnd k) 2 (R k) ltac:(lia)) as X. assert (Z.rem (rnd k) 2 = 0 \/ Z.rem (rnd k) 2 = 1) as [-> | ->] by lia;
    match goal with |- context [outside ?axs ?x] => change (outside axs x) with true end; cbv iota; cbn [bind]; apply (IH (S k)).
Qed.
Print Assumptions C101_thin_refuted.

(* Even sides are needed: one rank on 3 x 2 nodes.  All sweeps end, but the exchange of sublattice 2 unpacks cells that nobody has sent (C18). *)
Theorem C101_odd_refuted : exists gs ge D, Forall (fun g => gx_0 g < gx_1 g) gs /\ setup_mpi 1 gs 1 0 = Some ge /\ zlen D = cells (ge_axes ge) /\ Forall int_range D /\
  Forall (fun a => a_x0 a + 2 <= a_x1 a) (ge_axes ge) /\
  let rand seed k := seed + Z.of_nat k in
  (forall s, 0 <= s < 4 -> sweep true (ge_axes ge) never always 60 (rand 1000) s (0, D, 0%nat) = Some (Some D)) /\
  exists f, inevitable (ranks 1 (rank_growth (pod_codec pod_int) never (fun _ => always) rand 60 1 gs (fun _ _ _ => 1000) 1 (fun _ => D)), no_chans) f /\ fst f = [Fail].
Proof.
  exists [mkG 0 3; mkG 0 2]. eexists. exists (repeat 7 20). split; [repeat constructor|]. split; [vm_compute; reflexivity|]. split; [reflexivity|]. split; [repeat constructor; vm_compute; congruence|]. split; [repeat constructor; vm_compute; discriminate|].
  cbv zeta. split; [intros s Hs; assert (s = 0 \/ s = 1 \/ s = 2 \/ s = 3) as [-> |[-> |[-> | ->]]] by lia; vm_compute; reflexivity|].
  eexists. split; [apply (run_halts 500); vm_compute; reflexivity|vm_compute; reflexivity].
Qed.
Print Assumptions C101_odd_refuted.
