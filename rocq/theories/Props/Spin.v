(* C47-C49: the Monte Carlo examples *)
From Verif Require Import Model.Base Model.Boundary Model.Layout Model.Access Model.Spin Spec.Box Spec.Stencil Spec.Spin
  Proof.BaseL Proof.SpinL Proof.SpinF Proof.GrowthL Proof.GrowthF.
Local Open Scope list_scope.
Local Open Scope Z_scope.

(* a periodic box that starts at the origin *)
Definition tor (sides : list Z) : list limits := map (fun n => mkLim 0 n 0 n periodic periodic) sides.
Definition never (r dE : Z) : bool := false.
(* the selection of the isotropic program: double(rd)/double(RAND_MAX) never exceeds 1.0 *)
Definition always (x : list Z) (rd : Z) : bool := true.

(* C47, Ising: whatever the random numbers, the temperature, the boundary conditions and the number of steps, the update is
   defined and all spins stay +1 or -1 *)
Theorem C47_ising_spins : forall ls hot rnd steps data k, Forall serial_axis ls -> (forall n, 0 <= rnd n) ->
  zlen data = cells (lay 0 ls) -> Forall (fun s => s = 1 \/ s = -1) data ->
  exists data' k', ising_update (lay 0 ls) hot rnd steps (data, k) = Some (data', k') /\ zlen data' = cells (lay 0 ls) /\ Forall (fun s => s = 1 \/ s = -1) data'.
Proof.
  intros ls hot rnd steps data k F R L S2. destruct (sweeps_keep (fun st : list Z * nat => zlen (fst st) = cells (lay 0 ls) /\ Forall spin2 (fst st)) (ising_attempt (lay 0 ls) hot rnd) (nodes (lay 0 ls)) steps (data, k)) as ([d' k'] & E & Ld & Sd).
  - intros [d n] [Ld Sd]. destruct (ising_keeps ls hot rnd d n F Ld Sd R) as (d' & E & L' & S'). exists (d', S (S n)). auto.
  - auto.
  - exists d', k'. auto.
Qed.
Print Assumptions C47_ising_spins.

(* C47, Potts: the same for the spins 0 .. 19 *)
Theorem C47_potts_spins : forall ls hot rnd steps data k, Forall serial_axis ls -> (forall n, 0 <= rnd n) ->
  zlen data = cells (lay 0 ls) -> Forall (fun s => 0 <= s < 20) data ->
  exists data' k', potts_update (lay 0 ls) hot rnd steps (data, k) = Some (data', k') /\ zlen data' = cells (lay 0 ls) /\ Forall (fun s => 0 <= s < 20) data'.
Proof.
  intros ls hot rnd steps data k F R L S2. destruct (sweeps_keep (fun st : list Z * nat => zlen (fst st) = cells (lay 0 ls) /\ Forall (fun s => 0 <= s < 20) (fst st)) (potts_attempt (lay 0 ls) hot rnd) (nodes (lay 0 ls)) steps (data, k)) as ([d' k'] & E & Ld & Sd).
  - intros [d n] [Ld Sd]. destruct (potts_keeps ls hot rnd d n F Ld Sd R) as (d' & E & L' & S'). exists (d', S (S (S n))). auto.
  - auto.
  - exists d', k'. auto.
Qed.
Print Assumptions C47_potts_spins.

(* C47, Ising: every attempt follows the Metropolis rule of the antiferromagnet in a field: one node is flipped when that does not
   raise the energy, or else when the random number says so *)
Theorem C47_ising_metropolis : forall ls hot rnd data k, big_torus ls -> 1 <= zlen ls <= 3 -> zlen data = cells (lay 0 ls) ->
  Forall (fun s => s = 1 \/ s = -1) data -> 0 <= rnd k ->
  exists x data' dE, in_box (map l_x0 ls) (map l_x1 ls) x /\ zlen data' = cells (lay 0 ls) /\
    value_at ls data' x = - value_at ls data x /\ (forall y, in_box (map l_x0 ls) (map l_x1 ls) y -> y <> x -> value_at ls data' y = value_at ls data y) /\
    antiferromagnet2 ls (value_at ls data') - antiferromagnet2 ls (value_at ls data) = 2 * dE /\
    ising_attempt (lay 0 ls) hot rnd (data, k) = Some (if (dE <=? 0) || hot (rnd (S k)) dE then data' else data, S (S k)).
Proof.
  intros ls hot rnd data k T D L S2 R. destruct (ising_attempt_ok ls hot rnd data k T D L S2 R) as (d' & dE & L' & _ & E & O & A & St). pose proof (torus_serial ls T) as F.
  exists (position (lay 0 ls) (Z.rem (rnd k) (nodes (lay 0 ls)))), d', dE. split; [apply site_ok; auto; apply p_ok; auto|]. auto.
Qed.
Print Assumptions C47_ising_metropolis.
(* so at temperature zero the energy of the antiferromagnet never rises *)
Theorem C47_ising_descends : forall ls hot rnd steps data k, big_torus ls -> 1 <= zlen ls <= 3 -> zlen data = cells (lay 0 ls) ->
  Forall (fun s => s = 1 \/ s = -1) data -> (forall n, 0 <= rnd n) -> (forall r dE, 0 < dE -> hot r dE = false) ->
  exists data' k', ising_update (lay 0 ls) hot rnd steps (data, k) = Some (data', k') /\ antiferromagnet2 ls (value_at ls data') <= antiferromagnet2 ls (value_at ls data).
Proof.
  intros ls hot rnd steps data k T D L S2 R Cold.
  destruct (sweeps_keep (fun st : list Z * nat => zlen (fst st) = cells (lay 0 ls) /\ Forall spin2 (fst st) /\ antiferromagnet2 ls (value_at ls (fst st)) <= antiferromagnet2 ls (value_at ls data)) (ising_attempt (lay 0 ls) hot rnd) (nodes (lay 0 ls)) steps (data, k)) as ([d' k'] & E & Ld & Sd & En).
  - intros [d n] (Ld & Sd & En). cbn [fst] in *. destruct (ising_attempt_ok ls hot rnd d n T D Ld Sd (R n)) as (d' & dE & L' & S' & _ & _ & A & St). eexists. split; [exact St|]. cbn [fst].
    destruct (Z.leb_spec dE 0) as [H|H]; cbn [orb]; [|rewrite Cold by auto; auto]. change (spins ls) with (value_at ls) in A. split; [auto|]. split; [auto|lia].
  - cbn [fst]. split; [auto|]. split; [auto|lia].
  - exists d', k'. auto.
Qed.
Print Assumptions C47_ising_descends.
Example C47_ising_case : let ls := tor [4; 3] in let data := [1; -1; 1; 1; 1; -1; -1; -1; 1; 1; 1; -1] in
  big_torus ls /\ Forall serial_axis ls /\ 1 <= zlen ls <= 3 /\ zlen data = cells (lay 0 ls) /\ Forall (fun s => s = 1 \/ s = -1) data /\
  (exists st, ising_update (lay 0 ls) never (fun k => Z.of_nat (k * 7)) 2 (data, 0%nat) = Some st /\ fst st <> data).
Proof.
  cbv zeta. assert (big_torus (tor [4; 3])) as T by (repeat constructor; cbn; lia). split; [exact T|]. split; [now apply torus_serial|]. split; [vm_compute; split; discriminate|]. split; [reflexivity|]. split; [repeat constructor; lia|].
  eexists. split; [vm_compute; reflexivity|vm_compute; discriminate].
Qed.

(* C47 is false of the ferromagnet the example announces (notes:1, "the classical Ising model of ferromagnetism"): at
   temperature zero the attempt turns a spin of the ground state, all spins up, although that raises the energy *)
Theorem C47_ising_ferromagnet_refuted : exists ls data data' rnd, big_torus ls /\ zlen ls = 2 /\ zlen data = cells (lay 0 ls) /\ Forall (fun s => s = 1) data /\ (forall n, 0 <= rnd n) /\
  ising_attempt (lay 0 ls) never rnd (data, 0%nat) = Some (data', 2%nat) /\ ferromagnet2 ls (value_at ls data) < ferromagnet2 ls (value_at ls data').
Proof.
  exists (tor [3; 3]), (repeat 1 9), (-1 :: repeat 1 8), (fun _ => 0). split; [repeat constructor; cbn; lia|]. split; [reflexivity|]. split; [reflexivity|]. split; [repeat constructor|]. split; [lia|]. split; vm_compute; reflexivity.
Qed.
Print Assumptions C47_ising_ferromagnet_refuted.

(* C47, Potts in three dimensions: the Metropolis rule, with the number of pairs of unlike neighbours as energy *)
Theorem C47_potts_metropolis : forall ls hot rnd data k, big_torus ls -> zlen ls = 3 -> zlen data = cells (lay 0 ls) -> 0 <= rnd k ->
  exists x data' dE, in_box (map l_x0 ls) (map l_x1 ls) x /\ zlen data' = cells (lay 0 ls) /\
    value_at ls data' x = Z.rem (rnd (S k)) 20 /\ (forall y, in_box (map l_x0 ls) (map l_x1 ls) y -> y <> x -> value_at ls data' y = value_at ls data y) /\
    potts_energy2 ls (value_at ls data') - potts_energy2 ls (value_at ls data) = 2 * dE /\
    potts_attempt (lay 0 ls) hot rnd (data, k) = Some (if (dE <=? 0) || hot (rnd (S (S k))) dE then data' else data, S (S (S k))).
Proof.
  intros ls hot rnd data k T D L R. destruct (potts_attempt_ok ls hot rnd data k T D L R) as (d' & dE & L' & E & O & A & St). pose proof (torus_serial ls T) as F.
  exists (position (lay 0 ls) (Z.rem (rnd k) (nodes (lay 0 ls)))), d', dE. split; [apply site_ok; auto; apply p_ok; auto|]. auto.
Qed.
Print Assumptions C47_potts_metropolis.
Theorem C47_potts_descends : forall ls hot rnd steps data k, big_torus ls -> zlen ls = 3 -> zlen data = cells (lay 0 ls) ->
  (forall n, 0 <= rnd n) -> (forall r dE, 0 < dE -> hot r dE = false) ->
  exists data' k', potts_update (lay 0 ls) hot rnd steps (data, k) = Some (data', k') /\ potts_energy2 ls (value_at ls data') <= potts_energy2 ls (value_at ls data).
Proof.
  intros ls hot rnd steps data k T D L R Cold.
  destruct (sweeps_keep (fun st : list Z * nat => zlen (fst st) = cells (lay 0 ls) /\ potts_energy2 ls (value_at ls (fst st)) <= potts_energy2 ls (value_at ls data)) (potts_attempt (lay 0 ls) hot rnd) (nodes (lay 0 ls)) steps (data, k)) as ([d' k'] & E & Ld & En).
  - intros [d n] (Ld & En). cbn [fst] in *. destruct (potts_attempt_ok ls hot rnd d n T D Ld (R n)) as (d' & dE & L' & _ & _ & A & St). eexists. split; [exact St|]. cbn [fst].
    destruct (Z.leb_spec dE 0) as [H|H]; cbn [orb]; [|rewrite Cold by auto; auto]. change (spins ls) with (value_at ls) in A. split; [auto|lia].
  - cbn [fst]. split; [auto|lia].
  - exists d', k'. auto.
Qed.
Print Assumptions C47_potts_descends.
Example C47_potts_case : let ls := tor [2; 3; 2] in let data := [1; 2; 3; 4; 5; 6; 7; 8; 9; 10; 11; 12] in
  big_torus ls /\ Forall serial_axis ls /\ zlen ls = 3 /\ zlen data = cells (lay 0 ls) /\ Forall (fun s => 0 <= s < 20) data /\
  (exists st, potts_update (lay 0 ls) never (fun k => Z.of_nat (k * 7)) 2 (data, 0%nat) = Some st /\ fst st <> data).
Proof.
  cbv zeta. assert (big_torus (tor [2; 3; 2])) as T by (repeat constructor; cbn; lia). split; [exact T|]. split; [now apply torus_serial|]. split; [reflexivity|]. split; [reflexivity|]. split; [repeat constructor; lia|].
  eexists. split; [vm_compute; reflexivity|vm_compute; discriminate].
Qed.

(* C47 is false of the Potts example in two dimensions, where only the neighbours along the first axis are counted, and in one,
   where none are: at temperature zero an attempt raises the energy *)
Theorem C47_potts_two_dim_refuted : exists ls data data' rnd, big_torus ls /\ zlen ls = 2 /\ zlen data = cells (lay 0 ls) /\ Forall (fun s => 0 <= s < 20) data /\ (forall n, 0 <= rnd n) /\
  potts_attempt (lay 0 ls) never rnd (data, 0%nat) = Some (data', 3%nat) /\ potts_energy2 ls (value_at ls data) < potts_energy2 ls (value_at ls data').
Proof.
  exists (tor [3; 3]), [1; 1; 1; 0; 1; 1; 1; 1; 1], [0; 1; 1; 0; 1; 1; 1; 1; 1], (fun _ => 0). split; [repeat constructor; cbn; lia|]. split; [reflexivity|]. split; [reflexivity|]. split; [repeat constructor; lia|]. split; [lia|]. split; vm_compute; reflexivity.
Qed.
Print Assumptions C47_potts_two_dim_refuted.
Theorem C47_potts_one_dim_refuted : exists ls data data' rnd, big_torus ls /\ zlen ls = 1 /\ zlen data = cells (lay 0 ls) /\ Forall (fun s => 0 <= s < 20) data /\ (forall n, 0 <= rnd n) /\
  potts_attempt (lay 0 ls) never rnd (data, 0%nat) = Some (data', 3%nat) /\ potts_energy2 ls (value_at ls data) < potts_energy2 ls (value_at ls data').
Proof.
  exists (tor [4]), [1; 1; 1; 1], [0; 1; 1; 1], (fun _ => 0). split; [repeat constructor; cbn; lia|]. split; [reflexivity|]. split; [reflexivity|]. split; [repeat constructor; lia|]. split; [lia|]. split; vm_compute; reflexivity.
Qed.
Print Assumptions C47_potts_one_dim_refuted.

(* C47, grain growth: the update is defined; when it ends, every spin is one of the spins of the beginning; and at temperature
   zero the energy has not risen *)
Theorem C47_growth_spins : forall ls hot sel fuel rnd steps data, whole ls -> zlen ls = 2 \/ zlen ls = 3 -> (forall a b k, 0 <= rnd a b k) -> zlen data = cells (lay 0 ls) ->
  exists r, growth_update (lay 0 ls) hot sel fuel rnd steps data = Some r /\
    forall data', r = Some data' -> zlen data' = cells (lay 0 ls) /\ Forall (fun s => In s data) data'.
Proof.
  intros ls hot sel fuel rnd steps data W D R L. destruct (update_defined ls W hot sel (Forall (fun s => In s data)) (keeps_spins ls hot sel W _) fuel rnd steps data R (cells_pos ls D W) L) as [->|(d' & -> & L' & I')].
  - apply Forall_forall. auto.
  - exists None. split; [reflexivity|discriminate].
  - exists (Some d'). split; [reflexivity|]. intros ? [= <-]. auto.
Qed.
Print Assumptions C47_growth_spins.
Theorem C47_growth_descends : forall ls hot sel fuel rnd steps data data', whole ls -> zlen ls = 2 \/ zlen ls = 3 -> (forall a b k, 0 <= rnd a b k) -> zlen data = cells (lay 0 ls) ->
  (forall r dE, 0 < dE -> hot r dE = false) -> growth_update (lay 0 ls) hot sel fuel rnd steps data = Some (Some data') ->
  grain_energy2 ls (value_at ls data') <= grain_energy2 ls (value_at ls data).
Proof.
  intros ls hot sel fuel rnd steps data data' W D R L Cold E. destruct (update_defined ls W hot sel _ (keeps_energy ls hot sel W (grain_energy2 ls (value_at ls data)) Cold) fuel rnd steps data R (cells_pos ls D W) L (Z.le_refl _)) as [E'|(d' & E' & L' & I')]; rewrite E in E'; [discriminate|].
  injection E' as ->. exact I'.
Qed.
Print Assumptions C47_growth_descends.

(* C48: two nodes of the same sublattice are never neighbours *)
Theorem C48_apart : forall ls s i j, zlen ls = 2 \/ zlen ls = 3 -> in_box (map l_x0 ls) (map l_x1 ls) (site_of (lay 0 ls) s i) ->
  ~ In (site_of (lay 0 ls) s j) (box_neighbours ls (site_of (lay 0 ls) s i)).
Proof. intros ls s i j D B. apply parity_apart; auto. now apply sites_parity. Qed.
Print Assumptions C48_apart.
(* every node of the domain belongs to one sublattice and one cell *)
Theorem C48_partition : forall ls x, whole ls -> zlen ls = 2 \/ zlen ls = 3 -> in_box (map l_x0 ls) (map l_x1 ls) x ->
  exists s j, (0 <= s < num_sublattices (lay 0 ls) /\ 0 <= j < num_lattice_cells (lay 0 ls) /\ site_of (lay 0 ls) s j = x) /\
    forall s' j', 0 <= s' < num_sublattices (lay 0 ls) -> 0 <= j' -> site_of (lay 0 ls) s' j' = x -> s' = s /\ j' = j.
Proof.
  intros ls x W D B. destruct (sites_cover ls x D B) as (s & j & Hs & Hj & E). exists s, j. split; [auto|]. intros s' j' Hs' Hj' E'. apply (sites_unique ls); auto; [lia|congruence].
Qed.
Print Assumptions C48_partition.
(* attempts at nodes of one sublattice can be made in any order, with the random numbers of every attempt: when the attempts at
   every single node come in the same order, the grid is the same *)
Theorem C48_any_order : forall ls hot sel s data l1 l2, whole ls -> zlen ls = 2 \/ zlen ls = 3 -> zlen data = cells (lay 0 ls) ->
  Forall (fun a => (exists j, at_site a = site_of (lay 0 ls) s j) /\ in_box (map l_x0 ls) (map l_x1 ls) (at_site a) /\ 0 <= a_n a) (l1 ++ l2) ->
  (forall x, filter (fun a => if list_eq_dec Z.eq_dec (at_site a) x then true else false) l1 = filter (fun a => if list_eq_dec Z.eq_dec (at_site a) x then true else false) l2) ->
  exists data', zlen data' = cells (lay 0 ls) /\ attempts (lay 0 ls) hot sel l1 data = Some data' /\ attempts (lay 0 ls) hot sel l2 data = Some data'.
Proof.
  intros ls hot sel s data l1 l2 W D L F E. apply Forall_app in F as [F1 F2].
  assert (forall l, Forall (fun a => (exists j, at_site a = site_of (lay 0 ls) s j) /\ in_box (map l_x0 ls) (map l_x1 ls) (at_site a) /\ 0 <= a_n a) l -> forall a b, In a l -> In b l -> same_parity (at_site a) (at_site b)) as P.
  { intros l F a b Ha Hb. rewrite Forall_forall in F. destruct (F a Ha) as ((i & ->) & _), (F b Hb) as ((j & ->) & _). now apply sites_parity. }
  apply (attempts_order ls hot sel W); auto; try (eapply Forall_impl; [|eassumption]; cbn; tauto); eauto.
Qed.
Print Assumptions C48_any_order.
(* the loop of the sweep makes such attempts one after the other *)
Theorem C48_pass : forall ls hot sel rnd s hh data k hh' data' k', whole ls -> pass false (lay 0 ls) hot sel rnd s (hh, data, k) = Some (hh', data', k') ->
  (hh' = hh /\ data' = data) \/
  exists j, in_box (map l_x0 ls) (map l_x1 ls) (site_of (lay 0 ls) s j) /\ hh' = hh + 1 /\
    attempts (lay 0 ls) hot sel [mkAttempt (site_of (lay 0 ls) s j) (rnd (S k)) (rnd (S (S k))) (rnd (S (S (S k))))] data = Some data'.
Proof.
  intros ls hot sel rnd s hh data k hh' data' k' W E. unfold pass in E. destruct (guard _); [|discriminate]. cbn [bind] in E. rewrite outside_ok in E by apply site_length.
  destruct (in_boxb _ _) eqn:Bx; cbn [negb] in E; [|left; injection E as <- <- <-; split; [lia|reflexivity]]. right. exists (Z.rem (rnd k) (num_lattice_cells (lay 0 ls))). split; [now apply in_boxb_ok|].
  unfold attempts. cbn [fold_opt]. unfold attempt_at. cbn [at_site a_d a_n a_r]. destruct (visit _ _ _ _ _ _ _ _) as [v|]; [|discriminate]. cbn [bind] in *. destruct (grid_write _ _ _ _ _) as [d|]; [|discriminate]. cbn [bind] in *. injection E as <- <- _. auto.
Qed.
Print Assumptions C48_pass.
Example C48_case : let ls := map (fun n => mkLim 3 (3 + n) 3 (3 + n) 0 0) [3; 4] in let data := zrange 0 12 in
  let a := mkAttempt [3; 3] 0 5 1 in let b := mkAttempt [5; 3] 0 7 2 in let c := mkAttempt [3; 5] 0 2 3 in
  whole ls /\ zlen data = cells (lay 0 ls) /\ Forall (fun a => (exists j, at_site a = site_of (lay 0 ls) 3 j) /\ in_box (map l_x0 ls) (map l_x1 ls) (at_site a) /\ 0 <= a_n a) ([a; b; c; a] ++ [c; a; a; b]) /\
  (exists d, attempts (lay 0 ls) never always [a; b; c; a] data = Some d /\ attempts (lay 0 ls) never always [c; a; a; b] data = Some d /\ d <> data).
Proof.
  cbv zeta. split; [repeat constructor; cbn; lia|]. split; [reflexivity|]. split.
  - repeat apply Forall_cons; try apply Forall_nil; cbn [at_site a_n]; (split; [|split; [vm_compute; repeat split; discriminate|lia]]).
    all: match goal with |- exists j, ?l = _ => let r := eval cbv in l in first [exists 0; vm_compute; reflexivity|exists 3; vm_compute; reflexivity|exists 1; vm_compute; reflexivity] end.
  - eexists. split; [vm_compute; reflexivity|]. split; [vm_compute; reflexivity|discriminate].
Qed.

(* C49: when no side is shorter than two nodes and the random numbers pick every cell again and again, every sweep ends; it has
   attempted at most as many changes as there are cells *)
Theorem C49_terminates : forall ls hot sel rnd steps data, whole ls -> zlen ls = 2 \/ zlen ls = 3 -> Forall (fun l => l_x0 l + 2 <= l_x1 l) ls ->
  (forall a b k, 0 <= rnd a b k) -> (forall a b, fair (num_lattice_cells (lay 0 ls)) (rnd a b)) -> zlen data = cells (lay 0 ls) ->
  (forall s, to_flip (lay 0 ls) s <= num_lattice_cells (lay 0 ls)) /\
  exists fuel data', growth_update (lay 0 ls) hot sel fuel rnd steps data = Some (Some data') /\ zlen data' = cells (lay 0 ls).
Proof.
  intros ls hot sel rnd steps data W D S2 R F L. pose proof (cells_pos ls D W) as N. split.
  - intros s. unfold to_flip. set (f := fun j => _). assert (forall l, zlen (filter f l) <= zlen l) as X by (induction l as [|a l IH]; cbn [filter]; [lia|]; destruct (f a); rewrite ?zlen_cons; lia). specialize (X (zrange 0 (num_lattice_cells (lay 0 ls)))). rewrite zlen_zrange in X by lia. lia.
  - destruct (update_ends ls W hot sel (Forall (fun _ => True)) (keeps_spins ls hot sel W _) rnd steps R N) with (data := data) as (f & d' & E & L' & _); auto; [|apply Forall_forall; auto|eauto].
    intros a b k Hb. apply fair_hits; auto.
Qed.
Print Assumptions C49_terminates.
Example C49_case : let ls := map (fun n => mkLim 3 (3 + n) 3 (3 + n) 0 0) [2; 3] in
  whole ls /\ Forall (fun l => l_x0 l + 2 <= l_x1 l) ls /\ num_lattice_cells (lay 0 ls) = 6 /\ fair 6 Z.of_nat /\
  (exists d, growth_update (lay 0 ls) never always 40 (fun _ _ => Z.of_nat) 1 [1; 2; 3; 4; 5; 6] = Some (Some d) /\ d <> [1; 2; 3; 4; 5; 6]).
Proof.
  cbv zeta. split; [repeat constructor; cbn; lia|]. split; [repeat constructor; cbn; lia|]. split; [reflexivity|]. split.
  - intros c k H. exists (6 * k + Z.to_nat c)%nat. split; [lia|]. rewrite Nat2Z.inj_add, Nat2Z.inj_mul, Z2Nat.id by lia. change (Z.of_nat 6) with 6. rewrite Z.add_comm, Z.mul_comm, Z.mod_add by lia. apply Z.mod_small. lia.
  - eexists. split; [vm_compute; reflexivity|vm_compute; discriminate].
Qed.

(* C49 is false of domains with a side of one node that starts at an even coordinate: the loop runs for ever, for every
   sequence of random numbers *)
Theorem C49_thin_refuted : forall ls hot sel rnd steps data, whole ls -> zlen ls = 2 \/ zlen ls = 3 -> Exists (fun l => Z.rem (l_x0 l) 2 = 0 /\ l_x1 l = l_x0 l + 1) ls ->
  (forall a b k, 0 <= rnd a b k) -> zlen data = cells (lay 0 ls) -> 1 <= steps ->
  forall fuel, growth_update (lay 0 ls) hot sel fuel rnd steps data = Some None.
Proof.
  intros ls hot sel rnd steps data W D X R L St fuel. apply thin_stuck; auto. apply Exists_exists in X as (l & Hl & E0 & E1). apply Exists_exists. exists l. split; [auto|]. unfold thin. now rewrite E0, E1, !Z.eqb_refl.
Qed.
Print Assumptions C49_thin_refuted.
Example C49_thin_case : let ls := map (fun n => mkLim 0 n 0 n 0 0) [5; 1] in
  whole ls /\ Exists (fun l => Z.rem (l_x0 l) 2 = 0 /\ l_x1 l = l_x0 l + 1) ls /\ growth_update (lay 0 ls) never always 100 (fun _ _ => Z.of_nat) 1 [1; 2; 3; 4; 5] = Some None.
Proof. cbv zeta. split; [repeat constructor; cbn; lia|]. split; [|vm_compute; reflexivity]. apply Exists_cons_tl, Exists_cons_hd. split; reflexivity. Qed.

(* nor is there a bound for all random sequences: the loop never ends when the same cell outside the domain is picked for ever *)
Theorem C49_unfair_refuted : exists ls rnd, whole ls /\ zlen ls = 2 /\ Forall (fun l => l_x0 l + 2 <= l_x1 l) ls /\ (forall a b k, 0 <= rnd a b k) /\
  forall hot sel data fuel, zlen data = cells (lay 0 ls) -> growth_update (lay 0 ls) hot sel fuel rnd 1 data = Some None.
Proof.
  exists (map (fun n => mkLim 0 n 0 n 0 0) [2; 2]), (fun _ _ _ => 3). split; [repeat constructor; cbn; lia|]. split; [reflexivity|]. split; [repeat constructor; cbn; lia|]. split; [lia|].
  intros hot sel data fuel L. set (ls := map _ _) in *.
  assert (forall s d, 0 <= s < 4 -> sweep false (lay 0 ls) hot sel fuel (fun _ => 3) s (0, d, 0%nat) = Some None) as X.
  { intros s d Hs. apply (sweep_stuck ls hot sel (fun _ => 3) s); [lia|reflexivity| |].
    - intros _ B. assert (s = 0 \/ s = 1 \/ s = 2 \/ s = 3) as [-> |[-> |[-> | ->]]] by lia; vm_compute in B; destruct B as ((_ & B) & _); discriminate.
    - assert (s = 0 \/ s = 1 \/ s = 2 \/ s = 3) as [-> |[-> |[-> | ->]]] by lia; reflexivity. }
  unfold growth_update. change (zrange 0 1) with [0]. change (zrange 0 (num_sublattices (lay 0 ls))) with [0; 1; 2; 3]. cbn [fold_opt]. rewrite X by lia. reflexivity.
Qed.
Print Assumptions C49_unfair_refuted.
