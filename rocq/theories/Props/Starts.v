(* C108: example grids made by several processes. *)
From Coq Require Import QArith.QArith QArith.Qcanon.
From Verif Require Import Model.Base Model.Num Model.Text Model.Boundary Model.Layout Model.Access Model.Setup Model.Codec Model.MPI Model.Ghostswap Model.Sparse Model.Evolve Model.File Model.Jobs Model.Stencil Model.Simulate Model.Dynamics Model.Generate Model.Program Model.Runs Model.Starts
  Spec.Box Spec.Access Spec.Bytes Spec.Decomp Spec.File Spec.Schedule Spec.Stencil Spec.Jobs Spec.Evolve Spec.Program Spec.Runs Spec.Generate Spec.Starts
  Proof.BaseL Proof.LayoutL Proof.CodecL Proof.ProgramT Proof.StencilQ Proof.SimulateL Proof.StagesL Proof.StartsL Proof.StartsF Proof.StartsS Proof.StartsP Props.File Props.Program Props.Jobs Props.Runs Props.Start.
Import Model.Layout.
Local Open Scope Z_scope.

Local Notation every := (fun _ : list gaxis => True).
Local Notation ints := (fun v : Z => int_range v).
Local Notation numbers := (fun _ : Qc => True).
Local Notation vectors n := (fun v : list Qc => zlen v = n).
Local Notation empty := (fun o : sobj Qc => o = []).

Lemma two_cell (P : list Qc -> Prop) : (forall a b, P [a; b]) -> forall c, zlen c = 2 -> P c.
Proof. intros H [|a [|b [|]]] E; unfold zlen in E; cbn in E; try lia. apply H. Qed.
Lemma four_cell (P : list Qc -> Prop) : (forall a b c d, P [a; b; c; d]) -> forall c, zlen c = 4 -> P c.
Proof. intros H [|a [|b [|c [|d [|]]]]] E; unfold zlen in E; cbn in E; try lia. apply H. Qed.
Lemma brick_range x : 0 <= brick x < 4.
Proof. destruct x as [|a [|b [|]]]; cbn [brick]; repeat (destruct (_ || _)); repeat (destruct (_ <? _)); lia. Qed.
(* random spins and numbers *)
Theorem C108_ising : same_start ints ints every 1 (fun mpi axs rnd => ising_start mpi axs rnd).
Proof.
  intros np gs gh rnd memory memory0 Gr _ Fm Lm F0. split; [exists (merge np gs gh 1 rnd); eapply merge_ok; exact Gr|]. intros rnd' Mg.
  apply (loop_computes np gs gh 0 Gr ints ints (fun r axs n _ => Some (2 * Z.rem (rnd r (Z.to_nat n)) 2 - 1)) (fun n _ => Some (2 * Z.rem (rnd' (Z.to_nat n)) 2 - 1))); auto.
  - eauto.
  - intros n c v _ _ E. injection E as <-. pose proof (Z.rem_bound_abs (rnd' (Z.to_nat n)) 2). unfold int_range. lia.
  - intros r ge i n a b Hr Eg _ Hi Hn Ep _ _. specialize (Mg r ge i n O Hr Eg Hi Hn Ep ltac:(lia)). rewrite !Nat.mul_1_l, !Nat.add_0_r in Mg. now rewrite Mg.
Qed.
Print Assumptions C108_ising.
Theorem C108_potts : same_start ints ints every 1 (fun mpi axs rnd => potts_start mpi axs rnd).
Proof.
  intros np gs gh rnd memory memory0 Gr _ Fm Lm F0. split; [exists (merge np gs gh 1 rnd); eapply merge_ok; exact Gr|]. intros rnd' Mg.
  apply (loop_computes np gs gh 0 Gr ints ints (fun r axs n _ => Some (Z.rem (rnd r (Z.to_nat n)) 20)) (fun n _ => Some (Z.rem (rnd' (Z.to_nat n)) 20))); auto.
  - eauto.
  - intros n c v _ _ E. injection E as <-. pose proof (Z.rem_bound_abs (rnd' (Z.to_nat n)) 20). unfold int_range. lia.
  - intros r ge i n a b Hr Eg Lg Hi Hn Ep Ba Bb. specialize (Mg r ge i n O Hr Eg Hi Hn Ep ltac:(lia)). rewrite !Nat.mul_1_l, !Nat.add_0_r in Mg. now rewrite Mg.
Qed.
Print Assumptions C108_potts.
Theorem C108_growth : same_start ints ints every 1 (fun mpi axs rnd => growth_start mpi axs rnd).
Proof.
  intros np gs gh rnd memory memory0 Gr _ Fm Lm F0. split; [exists (merge np gs gh 1 rnd); eapply merge_ok; exact Gr|]. intros rnd' Mg.
  apply (loop_computes np gs gh 0 Gr ints ints (fun r axs n _ => Some (Z.rem (rnd r (Z.to_nat n)) (if zlen axs =? 1 then 100 else 20))) (fun n _ => Some (Z.rem (rnd' (Z.to_nat n)) (if zlen (serial_grid gs) =? 1 then 100 else 20)))); auto.
  - eauto.
  - intros n c v _ _ E. injection E as <-. pose proof (Z.rem_bound_abs (rnd' (Z.to_nat n)) (if zlen (serial_grid gs) =? 1 then 100 else 20)). unfold int_range. destruct (_ =? 1); lia.
  - intros r ge i n a b Hr Eg Lg Hi Hn Ep Ba Bb. specialize (Mg r ge i n O Hr Eg Hi Hn Ep ltac:(lia)). rewrite !Nat.mul_1_l, !Nat.add_0_r in Mg. rewrite Mg. unfold zlen. rewrite (serial_length np gs gh 0 Gr), Lg. reflexivity.
Qed.
Print Assumptions C108_growth.
(* direction a b: the unit vector made of two random numbers *)
Theorem C108_heisenberg : forall (valid : list Qc -> Prop) direction, (forall a b, valid (direction a b)) -> same_start valid valid every 2 (fun mpi axs rnd => heisenberg_start mpi axs rnd direction).
Proof.
  intros valid direction Hd np gs gh rnd memory memory0 Gr _ Fm Lm F0. split; [exists (merge np gs gh 2 rnd); eapply merge_ok; exact Gr|]. intros rnd' Mg.
  apply (loop_computes np gs gh 0 Gr valid valid (fun r axs n _ => Some (direction (rnd r (2 * Z.to_nat n)%nat) (rnd r (S (2 * Z.to_nat n))))) (fun n _ => Some (direction (rnd' (2 * Z.to_nat n)%nat) (rnd' (S (2 * Z.to_nat n)))))); auto.
  - eauto.
  - intros n c v _ _ E. injection E as <-. auto.
  - intros r ge i n a b Hr Eg Lg Hi Hn Ep Ba Bb. pose proof (Mg r ge i n O Hr Eg Hi Hn Ep ltac:(lia)) as M0. pose proof (Mg r ge i n 1%nat Hr Eg Hi Hn Ep ltac:(lia)) as M1. rewrite Nat.add_0_r, Nat.add_0_r in M0. rewrite !Nat.add_1_r in M1. now rewrite M0, M1.
Qed.
Print Assumptions C108_heisenberg.
Theorem C108_noise : forall top, same_start numbers numbers every 1 (fun mpi axs rnd => noise_start mpi axs rnd top).
Proof.
  intros top np gs gh rnd memory memory0 Gr _ Fm Lm F0. split; [exists (merge np gs gh 1 rnd); eapply merge_ok; exact Gr|]. intros rnd' Mg.
  apply (loop_computes np gs gh 0 Gr numbers numbers (fun r axs n _ => Some (1 - Q2Qc (2 # 1) * unit_random (rnd r) top n)%Qc) (fun n _ => Some (1 - Q2Qc (2 # 1) * unit_random rnd' top n)%Qc)); auto.
  - eauto.
  - intros r ge i n a b Hr Eg Lg Hi Hn Ep Ba Bb. specialize (Mg r ge i n O Hr Eg Hi Hn Ep ltac:(lia)). rewrite !Nat.mul_1_l, !Nat.add_0_r in Mg. unfold unit_random. now rewrite Mg.
Qed.
Print Assumptions C108_noise.
Theorem C108_ostwald : forall top, same_start (vectors 2) (vectors 2) every 1 (fun mpi axs rnd => ostwald_start mpi axs rnd top).
Proof.
  intros top np gs gh rnd memory memory0 Gr _ Fm Lm F0. split; [exists (merge np gs gh 1 rnd); eapply merge_ok; exact Gr|]. intros rnd' Mg.
  apply (loop_computes np gs gh 0 Gr (vectors 2) (vectors 2) (fun r axs n c => let x := unit_random (rnd r) top n in do c <- put c 0 x; put c 1 (1 - x)%Qc) (fun n c => let x := unit_random rnd' top n in do c <- put c 0 x; put c 1 (1 - x)%Qc)); auto.
  - intros n c _ Hc. pattern c. revert c Hc. apply two_cell. intros p q. cbn. eauto.
  - intros n c v _ Hc. revert v. pattern c. revert c Hc. apply two_cell. intros p q v E. cbn in E. injection E as <-. reflexivity.
  - intros r ge i n a b Hr Eg Lg Hi Hn Ep Ba Bb. specialize (Mg r ge i n O Hr Eg Hi Hn Ep ltac:(lia)). rewrite !Nat.mul_1_l, !Nat.add_0_r in Mg. unfold unit_random. rewrite Mg. pattern a. revert a Ba. apply two_cell. intros a1 a2. pattern b. revert b Bb. apply two_cell. intros b1 b2. reflexivity.
Qed.
Print Assumptions C108_ostwald.

(* fields given by the position of the nodes *)
Theorem C108_zero : same_start numbers numbers every 0 (fun mpi axs _ => zero_start mpi axs).
Proof.
  intros np gs gh rnd memory memory0 Gr _ Fm Lm F0. split; [exists (merge np gs gh 0 rnd); eapply merge_ok; exact Gr|]. intros rnd' Mg.
  apply (loop_computes np gs gh 0 Gr numbers numbers (fun r axs _ _ => Some 0%Qc) (fun _ _ => Some 0%Qc)); auto.
  - eauto.
Qed.
Print Assumptions C108_zero.
Theorem C108_poisson : forall value, same_start numbers numbers every 0 (fun mpi axs _ => poisson_start value mpi axs).
Proof.
  intros value np gs gh rnd memory memory0 Gr _ Fm Lm F0. split; [exists (merge np gs gh 0 rnd); eapply merge_ok; exact Gr|]. intros rnd' Mg.
  apply (loop_computes np gs gh 0 Gr numbers numbers (fun r axs n _ => Some (value (position axs n))) (fun n _ => Some (value (position (serial_grid gs) n)))); auto.
  - eauto.
  - intros r ge i n a b Hr Eg Lg Hi Hn Ep Ba Bb. rewrite Ep. reflexivity.
Qed.
Print Assumptions C108_poisson.
Theorem C108_two_grains : same_start (vectors 2) (vectors 2) every 0 (fun mpi axs _ => two_grains_start mpi axs).
Proof.
  intros np gs gh rnd memory memory0 Gr _ Fm Lm F0. split; [exists (merge np gs gh 0 rnd); eapply merge_ok; exact Gr|]. intros rnd' Mg.
  apply (loop_computes np gs gh 0 Gr (vectors 2) (vectors 2) (fun r axs n c => if disc (position axs n) then do c <- put c 0 0%Qc; put c 1 1%Qc else do c <- put c 0 1%Qc; put c 1 0%Qc) (fun n c => if disc (position (serial_grid gs) n) then do c <- put c 0 0%Qc; put c 1 1%Qc else do c <- put c 0 1%Qc; put c 1 0%Qc)); auto.
  - intros n c _ Hc. pattern c. revert c Hc. apply two_cell. intros p q. destruct (disc _); cbn; eauto.
  - intros n c v _ Hc. revert v. pattern c. revert c Hc. apply two_cell. intros p q v E. cbn in E. destruct (disc _); injection E as <-; reflexivity.
  - intros r ge i n a b Hr Eg Lg Hi Hn Ep Ba Bb. rewrite Ep. pattern a. revert a Ba. apply two_cell. intros a1 a2. pattern b. revert b Bb. apply two_cell. intros b1 b2. reflexivity.
Qed.
Print Assumptions C108_two_grains.
Lemma bricks_cell c g : zlen c = 4 -> 0 <= g < 4 -> exists v, (do c <- fold_opt (fun c h => put c h 0%Qc) (zrange 0 4) c; put c g 1%Qc) = Some v /\ zlen v = 4 /\
  forall c', zlen c' = 4 -> (do c <- fold_opt (fun c h => put c h 0%Qc) (zrange 0 4) c'; put c g 1%Qc) = Some v.
Proof.
  intros Lc Hg. assert (forall c, zlen c = 4 -> fold_opt (fun c h => put c h 0%Qc) (zrange 0 4) c = Some [0; 0; 0; 0]%Qc) as E by (apply four_cell; intros; reflexivity).
  rewrite (E c Lc). cbn [bind]. destruct (ProgramL.put_ex [0; 0; 0; 0]%Qc g 1%Qc Hg) as (v & Ev & Lv). exists v. split; [exact Ev|]. split; [rewrite Lv; reflexivity|]. intros c' Lc'. rewrite (E c' Lc'). exact Ev.
Qed.
Theorem C108_bricks : same_start (vectors 4) (vectors 4) every 0 (fun mpi axs _ => bricks_start mpi axs).
Proof.
  intros np gs gh rnd memory memory0 Gr _ Fm Lm F0. split; [exists (merge np gs gh 0 rnd); eapply merge_ok; exact Gr|]. intros rnd' Mg.
  apply (loop_computes np gs gh 0 Gr (vectors 4) (vectors 4) (fun r axs n c => do c <- fold_opt (fun c h => put c h 0%Qc) (zrange 0 4) c; put c (brick (position axs n)) 1%Qc) (fun n c => do c <- fold_opt (fun c h => put c h 0%Qc) (zrange 0 4) c; put c (brick (position (serial_grid gs) n)) 1%Qc)); auto.
  - intros n c _ Hc. destruct (bricks_cell c _ Hc (brick_range (position (serial_grid gs) n))) as (v & E & _). eauto.
  - intros n c v _ Hc E. destruct (bricks_cell c _ Hc (brick_range (position (serial_grid gs) n))) as (v' & E' & L & _). congruence.
  - intros r ge i n a b Hr Eg Lg Hi Hn Ep Ba Bb. rewrite Ep. destruct (bricks_cell b _ Bb (brick_range (position (serial_grid gs) n))) as (v & -> & _ & H). now apply H.
Qed.
Print Assumptions C108_bricks.
Lemma set_empty (k : Z) : exists v, sset_op num_Qc [] k (fun _ => 1%Qc) = Some v.
Proof. change (@nil (option (Z * Qc))) with (map (@Some (Z * Qc)) []). rewrite SparseL.sset_op_map. eauto. Qed.
Theorem C108_two_grains_sparse : same_start (indexed 2) empty every 0 (fun mpi axs _ => two_grains_sparse_start mpi axs).
Proof.
  intros np gs gh rnd memory memory0 Gr _ Fm Lm F0. split; [exists (merge np gs gh 0 rnd); eapply merge_ok; exact Gr|]. intros rnd' Mg.
  apply (loop_computes np gs gh 0 Gr (indexed 2) empty (fun r axs n c => sset_op num_Qc c (if disc_sparse (position axs n) then 1 else 0) (fun _ => 1%Qc)) (fun n c => sset_op num_Qc c (if disc_sparse (position (serial_grid gs) n) then 1 else 0) (fun _ => 1%Qc))); auto.
  - intros v ->. exists []. repeat constructor.
  - intros n c _ ->. apply set_empty.
  - intros n c v _ Hc E. eapply (few_set num_Qc); [exact Hc| |exact E]. destruct (disc_sparse _); lia.
  - intros r ge i n a b Hr Eg Lg Hi Hn Ep Ba Bb. rewrite Ep. now rewrite Ba, Bb.
Qed.
Print Assumptions C108_two_grains_sparse.
Theorem C108_bricks_sparse : same_start (indexed 4) empty every 0 (fun mpi axs _ => bricks_sparse_start mpi axs).
Proof.
  intros np gs gh rnd memory memory0 Gr _ Fm Lm F0. split; [exists (merge np gs gh 0 rnd); eapply merge_ok; exact Gr|]. intros rnd' Mg.
  apply (loop_computes np gs gh 0 Gr (indexed 4) empty (fun r axs n c => sset_op num_Qc c (brick (position axs n)) (fun _ => 1%Qc)) (fun n c => sset_op num_Qc c (brick (position (serial_grid gs) n)) (fun _ => 1%Qc))); auto.
  - intros v ->. exists []. repeat constructor.
  - intros n c _ ->. apply set_empty.
  - intros n c v _ Hc E. eapply (few_set num_Qc); [exact Hc| |exact E]. apply brick_range.
  - intros r ge i n a b Hr Eg Lg Hi Hn Ep Ba Bb. rewrite Ep. now rewrite Ba, Bb.
Qed.
Print Assumptions C108_bricks_sparse.
Theorem C108_seed : forall L undercooling, same_start (vectors 2) (vectors 2) (fun gs => length gs = 2%nat) 0 (fun mpi axs _ => seed_start mpi axs L undercooling).
Proof.
  intros L undercooling np gs gh rnd memory memory0 Gr Su Fm Lm F0. split; [exists (merge np gs gh 0 rnd); eapply merge_ok; exact Gr|]. intros rnd' Mg.
  apply (loop_computes np gs gh 0 Gr (vectors 2) (vectors 2) (fun r axs n c => do c <- put c 1 undercooling; match position axs n with [x; y] => let r := Z.sqrt ((x - Z.quot L 2) * (x - Z.quot L 2) + (y - Z.quot L 2) * (y - Z.quot L 2)) in put c 0 (if r <=? 5 then 1%Qc else 0%Qc) | _ => None end) (fun n c => do c <- put c 1 undercooling; match position (serial_grid gs) n with [x; y] => let r := Z.sqrt ((x - Z.quot L 2) * (x - Z.quot L 2) + (y - Z.quot L 2) * (y - Z.quot L 2)) in put c 0 (if r <=? 5 then 1%Qc else 0%Qc) | _ => None end)); auto.
  - intros n c Hn Hc. pattern c. revert c Hc. apply two_cell. intros p q. cbn [put set_nth bind]. pose proof (node_length np gs gh 0 Gr n Hn) as Ln. rewrite Su in Ln. destruct (position (serial_grid gs) n) as [|x [|y [|]]]; cbn in Ln; try lia. unfold put; cbn; eauto.
  - intros n c v _ Hc. revert v. pattern c. revert c Hc. apply two_cell. intros p q v E. destruct (position (serial_grid gs) n) as [|x [|y [|]]]; try discriminate E. cbn in E. injection E as <-; reflexivity.
  - intros r ge i n a b Hr Eg Lg Hi Hn Ep Ba Bb. rewrite Ep. pattern a. revert a Ba. apply two_cell. intros a1 a2. pattern b. revert b Bb. apply two_cell. intros b1 b2. reflexivity.
Qed.
Print Assumptions C108_seed.

(* the start of the convex-splitting program, with an exchange of ghost cells between its loops.  comp r axs i: the composition that rank r gives its
   node i, by noise or by the position *)
Theorem C108_split : forall np gs gh B (c : codec (list Qc)) h dfdc K comp comp0 memory memory0, grids np gs (faces gs) gh B ->
  serialises c (vectors 2) -> (forall v, zlen v = 2 -> c_size c v <= B) -> h <> 0%Qc ->
  filled (vectors 2) np gs gh memory -> zlen memory0 = cells (serial_grid gs) -> Forall (vectors 2) memory0 ->
  (forall r ge i n, 0 <= r < np -> setup_mpi np gs gh r = Some ge -> 0 <= i < nodes (ge_axes ge) -> 0 <= n < nodes (serial_grid gs) ->
    position (ge_axes ge) i = position (serial_grid gs) n -> comp r (ge_axes ge) i = comp0 n) ->
  exists D, split_start false (serial_grid gs) (repeat h (length gs)) dfdc K comp0 memory0 = Some D /\
    computes (vectors 2) np gs (faces gs) gh (split_filling np gs gh c (repeat h (length gs)) dfdc K comp memory) D.
Proof.
  intros np gs gh B c h dfdc K comp comp0 memory memory0 Gr Sc HB Hh Fm Lm F0 Hc.
  destruct (Props.Start.C91_potential (whole_lims gs (faces gs)) h dfdc K comp0 (Sa np gs gh B Gr) Hh memory0) as (D & ED & _); [rewrite <- (grid_lay np gs gh B Gr); exact Lm|exact F0|].
  rewrite length_whole in ED by apply (Lb np gs gh B Gr). rewrite <- (grid_lay np gs gh B Gr) in ED. exists D. split; [exact ED|]. eapply split_computes; eauto.
Qed.
Print Assumptions C108_split.
Theorem C108_split_noise : forall np gs gh B (c : codec (list Qc)) h dfdc K C0 top rnd rnd' memory memory0, grids np gs (faces gs) gh B ->
  serialises c (vectors 2) -> (forall v, zlen v = 2 -> c_size c v <= B) -> h <> 0%Qc ->
  filled (vectors 2) np gs gh memory -> zlen memory0 = cells (serial_grid gs) -> Forall (vectors 2) memory0 -> merged 1 np gs gh rnd rnd' ->
  exists D, split_start false (serial_grid gs) (repeat h (length gs)) dfdc K (split_noise rnd' top C0) memory0 = Some D /\
    computes (vectors 2) np gs (faces gs) gh (split_filling np gs gh c (repeat h (length gs)) dfdc K (fun r _ => split_noise (rnd r) top C0) memory) D.
Proof.
  intros np gs gh B c h dfdc K C0 top rnd rnd' memory memory0 Gr Sc HB Hh Fm Lm F0 Mg. eapply C108_split; eauto.
  intros r ge i n Hr Eg Hi Hn Ep. specialize (Mg r ge i n O Hr Eg Hi Hn Ep ltac:(lia)). rewrite !Nat.mul_1_l, !Nat.add_0_r in Mg. unfold split_noise, unit_random. now rewrite Mg.
Qed.
Print Assumptions C108_split_noise.

(* the file: whatever fills the grids with the field of D *)
Theorem C108_file : forall T (c : codec T) valid fresh S (dshow : S -> list byte) dparse raw compress uncompress name fields gs dx gh,
  storable c valid fresh dshow dparse compress uncompress name fields gs dx (faces gs) gh ->
  forall np fill D, usable c valid gs gh np -> computes valid np gs (faces gs) gh fill D -> can_write c valid raw compress gs (faces gs) gh np D ->
  makes c valid dshow dparse raw compress name fields gs dx gh np fill D.
Proof. intros T c valid fresh S dshow dparse raw compress uncompress name fields gs dx gh [] np fill D Hu Hc Hw. eapply makes_file; eauto. Qed.
Print Assumptions C108_file.
(* and a campaign of jobs that starts from it ends with a checkpoint of what the serial program has *)
Theorem C108_campaign : forall T (c : codec T) valid fresh S (dshow : S -> list byte) dparse raw compress uncompress name fields gs dx gh,
  storable c valid fresh dshow dparse compress uncompress name fields gs dx (faces gs) gh ->
  forall np fill D jobs D', usable c valid gs gh np -> computes valid np gs (faces gs) gh fill D -> can_write c valid raw compress gs (faces gs) gh np D ->
  Forall (faithful valid gs (faces gs) gh) jobs -> possible c valid raw compress gs (faces gs) gh np D jobs -> serial_jobs jobs D = Some D' ->
  exists W f, finished np W f /\ inevitable (ranks np (example_mpi c dshow raw compress np name fields gs gh dx fill), no_chans) f /\
    forall file, produces np (fun r => [W r]) 0 file ->
      (exists np' file', leads c fresh dshow dparse raw compress uncompress name gs gh np file jobs np' file') /\
      forall np' file', leads c fresh dshow dparse raw compress uncompress name gs gh np file jobs np' file' ->
        checkpoint c valid dshow dparse raw compress name fields gs dx (faces gs) gh np' D' file'.
Proof.
  intros T c valid fresh S dshow dparse raw compress uncompress name fields gs dx gh St np fill D jobs D' Hu Hc Hw Fj Ps E.
  destruct (C108_file T c valid fresh S dshow dparse raw compress uncompress name fields gs dx gh St np fill D Hu Hc Hw) as (W & f & Ff & If & H). exists W, f. split; [auto|]. split; [auto|]. intros file Hp.
  eapply C106_campaign; eauto. apply Hc.
Qed.
Print Assumptions C108_campaign.

(* particles: every rank stamps its own, within its own nodes *)
Theorem C108_particles : forall np gs gh rnd memory, grids np gs (faces gs) gh 0 -> (1 <= length gs <= 3)%nat -> Forall (fun g => 0 <= gx_0 g) gs -> (forall r n, 0 <= rnd r n) ->
  filled ints np gs gh memory -> pinned (fun c k => c = k) np gs gh rnd (filling np gs gh (fun r axs => zener_start true axs (rnd r)) memory).
Proof.
  intros np gs gh rnd memory Gr D3 P0 R Fm. apply (pinned_ok np gs gh 0 Gr D3 P0 ints (fun _ => True) _ (fun b _ => Some (if b then 2 else 1)) (fun _ => Some 0) (fun _ => 0)); auto.
  intros b c _. eexists. split; [reflexivity|]. auto.
Qed.
Print Assumptions C108_particles.
(* sparse cells: field k is 1, the others 0 *)
Definition sparse_phase (c : sobj Qc) (k : Z) : Prop := at_index (Spec.AnisoSparse.stored c) k = 1%Qc /\ forall j, j <> k -> at_index (Spec.AnisoSparse.stored c) j = 0%Qc.
Theorem C108_particles_sparse : forall np gs gh rnd memory, grids np gs (faces gs) gh 0 -> (1 <= length gs <= 3)%nat -> Forall (fun g => 0 <= gx_0 g) gs -> (forall r n, 0 <= rnd r n) ->
  filled empty np gs gh memory -> pinned sparse_phase np gs gh rnd (filling np gs gh (fun r axs => zener_sparse_start true axs (rnd r)) memory).
Proof.
  intros np gs gh rnd memory Gr D3 P0 R Fm. set (bare := [Some (0, 1%Qc); Some (1, 0%Qc); Some (2, 0%Qc)]). set (pure := fun k : Z => [Some (k, 1%Qc)]). set (over := fun k : Z => [Some (k, 0%Qc); Some (0, 1%Qc); Some (3 - k, 0%Qc)]).
  apply (pinned_ok np gs gh 0 Gr D3 P0 empty (fun c => c = [] \/ c = bare \/ c = pure 1 \/ c = pure 2 \/ c = over 1 \/ c = over 2) _ (fun b c => sset_op num_Qc c (if b then 2 else 1) (fun _ => 1%Qc))
    (fun c => do c <- sset_op num_Qc c 0 (fun _ => 1%Qc); do c <- sset_op num_Qc c 1 (fun _ => 0%Qc); sset_op num_Qc c 2 (fun _ => 0%Qc)) (fun c => match c with Some (1, _) :: _ => over 1 | Some (2, _) :: _ => over 2 | _ => bare end)); auto.
  - intros c [-> | [-> | [-> | [-> | [-> | ->]]]]]; (split; [reflexivity|]); split; auto 8.
  - intros b c ->. destruct b; [exists (pure 2)|exists (pure 1)]; (split; [reflexivity|]); (split; [auto 8|]); cbn [pure];
      (split; [split; [reflexivity|]|]; [|change (sparse_phase [Some (2, 0%Qc); Some (0, 1%Qc); Some (1, 0%Qc)] 0) || change (sparse_phase [Some (1, 0%Qc); Some (0, 1%Qc); Some (2, 0%Qc)] 0); split; [reflexivity|]]);
      intros j Hj; unfold at_index, pure; cbn [Spec.AnisoSparse.stored flat_map app find fst snd];
      repeat match goal with |- context [?a =? ?b] => destruct (Z.eqb_spec a b); [reflexivity || lia|] end; reflexivity.
Qed.
Print Assumptions C108_particles_sparse.
Theorem C108_particles_dense : forall np gs gh rnd memory, grids np gs (faces gs) gh 0 -> (1 <= length gs <= 3)%nat -> Forall (fun g => 0 <= gx_0 g) gs -> (forall r n, 0 <= rnd r n) ->
  filled (vectors 3) np gs gh memory -> pinned (fun c k => k = 0 /\ c = [1; 0; 0]%Qc \/ k = 2 /\ c = [0; 0; 1]%Qc \/ k = 1 /\ exists m, c = [0; 1; m]%Qc) np gs gh rnd (filling np gs gh (fun r axs => zener_dense_start true axs (rnd r)) memory).
Proof.
  intros np gs gh rnd memory Gr D3 P0 R Fm. apply (pinned_ok np gs gh 0 Gr D3 P0 (vectors 3) (vectors 3) _ (fun b c => do c <- put c 0 0%Qc; do c <- put c 1 0%Qc; if b then put c 2 1%Qc else put c 1 1%Qc) (fun c => do c <- put c 0 1%Qc; do c <- put c 1 0%Qc; put c 2 0%Qc) (fun _ => [1; 0; 0]%Qc)); auto.
  - intros c Hc. destruct c as [|x [|y [|z [|]]]]; unfold zlen in Hc; cbn in Hc; try lia. split; [reflexivity|]. auto.
  - intros b c Hc. destruct c as [|x [|y [|z [|]]]]; unfold zlen in Hc; cbn in Hc; try lia. destruct b; eexists; (split; [reflexivity|]); (split; [reflexivity|]); split; eauto 8.
Qed.
Print Assumptions C108_particles_dense.
(* every rank draws at least as many nodes as the serial program draws in all *)
Theorem C108_more_particles : forall np gs gh, grids np gs (faces gs) gh 0 -> forall r ge, 0 <= r < np -> setup_mpi np gs gh r = Some ge -> n_drawn (serial_grid gs) <= n_drawn (ge_axes ge).
Proof.
  intros np gs gh Gr r ge Hr Eg. rewrite (made np gs gh 0 Gr r Hr) in Eg. injection Eg as <-. destruct (lims_r np gs gh 0 Gr r Hr) as (ls & Ea & Ff & Lo & _). cbv beta in Ea. rewrite Ea, (grid_lay np gs gh 0 Gr).
  assert (0 < nodes (lay gh ls) <= nodes (lay 0 (whole_lims gs (faces gs)))) as H.
  { clear Ea. assert (0 < prodZ (map (fun l => l_x1 l - l_x0 l) ls) <= prodZ (map (fun l => l_x1 l - l_x0 l) (whole_lims gs (faces gs)))) as H.
    { revert Ff. generalize (whole_lims gs (faces gs)). intros w Ff. induction Ff as [|l v ls' w Hf _ IH]; [split; reflexivity || discriminate|]. inversion Lo; subst. specialize (IH ltac:(assumption)). destruct Hf as (f1 & f2 & f3 & _). cbn [map]. rewrite !prodZ_cons. nia. }
    assert (forall g ms, nodes (lay g ms) = prodZ (map (fun l => l_x1 l - l_x0 l) ms)) as N by (intros g [|m ms]; [reflexivity|]; cbn [lay nodes map a_xx a_x0 a_x1]; rewrite prodZ_cons; ring). now rewrite !N. }
  unfold n_drawn. pose proof (Z.div_le_compat_l 409600 _ _ ltac:(lia) H). lia.
Qed.
Print Assumptions C108_more_particles.
(* so the field is not that of the serial program, even with one process and the same random numbers: a particle at node 0 of a periodic row reaches
   the last node in the serial program only *)
Theorem C108_particles_refuted : exists gs gh (rnd : nat -> Z), grids 1 gs (faces gs) gh 0 /\ (forall n, 0 <= rnd n) /\
  forall memory memory0, filled ints 1 gs gh memory -> zlen memory0 = cells (serial_grid gs) ->
  exists D D0, always_ends 1 (filling 1 gs gh (fun _ axs => zener_start true axs rnd) memory) D /\ zener_start false (serial_grid gs) rnd memory0 = Some D0 /\ ~ same_field 1 gs (faces gs) gh D D0.
Proof.
  set (gs := [mkG 0 64]). exists gs, 1, (fun _ => 0).
  assert (grids 1 gs (faces gs) 1 0) as Gr. 
  { split; [lia|]. split; [discriminate|]. split; [lia|]. split; [lia|]. split; [repeat constructor; cbn; unfold serial_side, periodic, Neumann, Dirichlet, mirror, glen; cbn; auto; lia|].
    intros r ge Hr E. assert (r = 0) as -> by lia. vm_compute in E. injection E as <-. split; [repeat constructor; cbn; lia|vm_compute; discriminate]. }
  split; [exact Gr|]. split; [intros; lia|]. intros memory memory0 Fm Lm.
  destruct (C108_particles 1 gs 1 (fun _ _ => 0) memory Gr ltac:(cbn; lia) ltac:(repeat constructor; cbn; lia) ltac:(intros; lia) Fm) as (D & ED & HD).
  destruct (Props.Generate.C91_particles (whole_lims gs (faces gs)) (fun _ => 0)) with (memory := memory0) as (D0 & E0 & L0 & V0).
  { repeat constructor; cbn; lia. }
  { vm_compute; split; discriminate. }
  { repeat constructor; cbn; lia. }
  { intros n; lia. }
  { exact Lm. }
  { apply Forall_forall; intros; exact I. }
  exists D, D0. split; [exact ED|]. split; [exact E0|]. intros Sf. destruct (setup_mpi 1 gs 1 0) as [ge|] eqn:Eg; [|vm_compute in Eg; discriminate].
  assert (owns ge [63]) as Oy by (vm_compute in Eg; injection Eg as <-; cbn; lia).
  destruct (Sf 0 ge [63] ltac:(lia) Eg Oy) as (v & R1 & R2). destruct (HD 0 ge [63] ltac:(lia) Eg Oy) as (v' & R1' & _ & H2 & _). assert (v' = v) as -> by congruence.
  assert (v = 2) as ->.
  { apply H2; [|cbn; lia]. assert (position (ge_axes ge) (0 mod nodes (ge_axes ge)) = [0]) as Ep by (vm_compute in Eg; injection Eg as <-; reflexivity). intros (x & (j & _ & ->) & N). rewrite Ep in N. inversion N; subst. lia. }
  destruct (V0 [63]) as (H0 & _); [cbn; lia|]. assert (Spin.value_at (whole_lims gs (faces gs)) D0 [63] = 0) as V by (apply H0; exists [0], [-1]; split; [|split; [now left|reflexivity]]; unfold drawn; apply in_map_iff; exists 0%nat; split; [reflexivity|]; apply in_seq; set (N := 409600 / _); clearbody N; lia).
  unfold Spin.value_at in V. change (lay 0 (whole_lims gs (faces gs))) with (serial_grid gs) in V. change (whole gs (faces gs)) with (serial_grid gs) in R2. rewrite R2 in V. discriminate V.
Qed.
Print Assumptions C108_particles_refuted.

(* a periodic rod of six nodes filled with noise by two ranks, written, and continued by two, one and three ranks; the random numbers of rank r are
   r, r + 1, ...; top is 8 *)
Local Notation rod_memory := (fun r : Z => repeat (Qz 99) 5).
Local Notation rod_rnd := (fun (r : Z) (n : nat) => r + Z.of_nat n).
Lemma rod_grids : grids 2 ex_gs (faces ex_gs) 1 0.
Proof.
  split; [lia|]. split; [discriminate|]. split; [lia|]. split; [lia|]. split; [repeat constructor; cbn; unfold serial_side, periodic, Neumann, Dirichlet, mirror, glen; cbn; auto; lia|].
  intros r ge Hr E. assert (r = 0 \/ r = 1) as [-> | ->] by lia; vm_compute in E; injection E as <-; (split; [repeat constructor; cbn; lia|vm_compute; discriminate]).
Qed.
Lemma ring_storable : storable rod_codec numbers (fun _ => 0%Qc) show_int ex_parse (fun x => x) (fun y _ => Some y) rod_name 1 ex_gs [2] (faces ex_gs) 1.
Proof.
  destruct rod_storable. split; auto.
  - repeat constructor; simpl; unfold serial_side, Neumann, Dirichlet, periodic, mirror, glen; simpl; auto; lia.
  - repeat constructor; cbn; unfold periodic; discriminate.
Qed.
Lemma ring_can_write np D : np = 1 \/ np = 2 \/ np = 3 -> can_write rod_codec numbers true (fun x => x) ex_gs (faces ex_gs) 1 np D.
Proof.
  intros H. eapply (C106_raw_builds _ _ _ _ _ _ _ _ _ _ _ _ _ _ _ ring_storable np 2); [now apply rod_usable|lia|intros; simpl; lia|].
  intros r ge Hr E. destruct H as [-> | [-> | ->]]; (assert (r = 0 \/ r = 1 \/ r = 2) as [-> | [-> | ->]] by lia); try lia; vm_compute in E; inversion E; subst ge; vm_compute; reflexivity.
Qed.
Definition ring_job (np : Z) (turns inc : nat) : job_of := {| j_ranks := np; j_turns := turns;
  j_update := update_one (fun _ => allen_cahn_program [1%Qc] 1%Qc 0%Qc 1%Qc 1%Qc eighth) rod_codec inc (rod_junk np);
  j_serial := serial_one (fun _ => allen_cahn_program [1%Qc] 1%Qc 0%Qc 1%Qc 1%Qc eighth) (whole ex_gs (faces ex_gs)) inc (fun _ => repeat (Qz 7) 6) |}.
Lemma ring_faithful np turns inc : np = 1 \/ np = 2 \/ np = 3 -> faithful numbers ex_gs (faces ex_gs) 1 (ring_job np turns inc).
Proof.
  intros H. eapply C106_allen_cahn; [exact ring_storable|now apply rod_usable| |intros; reflexivity].
  intros r ge i Hr E. unfold rod_junk. rewrite E. split; [|now apply Forall_forall].
  destruct H as [-> | [-> | ->]]; (assert (r = 0 \/ r = 1 \/ r = 2) as [-> | [-> | ->]] by lia); try lia; vm_compute in E; inversion E; subst ge; reflexivity.
Qed.
Definition ring_jobs : list (job_of (T := Qc)) := [ring_job 2 1 1; ring_job 1 0 2; ring_job 3 1 1].
Definition ring_numbers : nat -> Z := fun n => if (n <? 3)%nat then Z.of_nat n else 1 + Z.of_nat (n - 3).
Lemma ring_merged : merged 1 2 ex_gs 1 rod_rnd ring_numbers.
Proof.
  intros r ge i n j Hr E Hi Hn Ep Hj. assert (j = 0)%nat as -> by lia. rewrite !Nat.mul_1_l, !Nat.add_0_r. change (nodes (serial_grid ex_gs)) with 6 in Hn.
  assert (r = 0 \/ r = 1) as [-> | ->] by lia; vm_compute in E; injection E as <-; cbn in Hi; (assert (i = 0 \/ i = 1 \/ i = 2) as [-> | [-> | ->]] by lia);
    (assert (n = 0 \/ n = 1 \/ n = 2 \/ n = 3 \/ n = 4 \/ n = 5) as [-> | [-> | [-> | [-> | [-> | ->]]]]] by lia); vm_compute in Ep; (discriminate Ep || reflexivity).
Qed.
Example C108_case : exists D D' W f file np' file',
  noise_start false (serial_grid ex_gs) ring_numbers 8 (repeat (Qz 99) 6) = Some D /\ serial_jobs ring_jobs D = Some D' /\
  hd_error (map this D) <> hd_error (map this (tl D)) /\
  finished 2 W f /\ inevitable (ranks 2 (example_mpi rod_codec show_int true (fun x => x) 2 rod_name 1 ex_gs 1 [2] (filling 2 ex_gs 1 (fun r axs => noise_start true axs (rod_rnd r) 8) rod_memory)), no_chans) f /\
  produces 2 (fun r => [W r]) 0 file /\
  leads rod_codec (fun _ => 0%Qc) show_int ex_parse true (fun x => x) (fun y _ => Some y) rod_name ex_gs 1 2 file ring_jobs np' file' /\
  checkpoint rod_codec numbers show_int ex_parse true (fun x => x) rod_name 1 ex_gs [2] (faces ex_gs) 1 np' D' file'.
Proof.
  destruct (C108_noise 8 2 ex_gs 1 rod_rnd rod_memory (repeat (Qz 99) 6) rod_grids I) as [_ H].
  { intros r ge Hr E. split; [|now apply Forall_forall]. assert (r = 0 \/ r = 1) as [-> | ->] by lia; vm_compute in E; injection E as <-; reflexivity. }
  { reflexivity. }
  { now apply Forall_forall. }
  destruct (H ring_numbers ring_merged) as (D & ED & Hc).
  assert (match noise_start false (serial_grid ex_gs) ring_numbers 8 (repeat (Qz 99) 6) with Some D => match serial_jobs ring_jobs D with Some D' => hd_error (map this D) <> hd_error (map this (tl D)) | None => False end | None => False end) as V by (vm_compute; discriminate).
  rewrite ED in V. destruct (serial_jobs ring_jobs D) as [D'|] eqn:EJ; [|easy].
  assert (possible rod_codec numbers true (fun x => x) ex_gs (faces ex_gs) 1 2 D ring_jobs) as Fe.
  { destruct ex_even as (E1 & E2 & E3). unfold ring_jobs. cbn [possible ring_job j_ranks j_turns].
    split; [apply rod_usable; auto|]. split; [exact E1|]. split; [intros; apply ring_can_write; auto|]. intros D1 _.
    split; [apply rod_usable; auto|]. split; [exact E2|]. split; [intros; apply ring_can_write; auto|]. intros D2 _.
    split; [apply rod_usable; auto|]. split; [exact E3|]. split; [intros; apply ring_can_write; auto|]. auto. }
  assert (Forall (faithful numbers ex_gs (faces ex_gs) 1) ring_jobs) as Fa by (repeat (constructor; [apply ring_faithful; auto|]); constructor).
  destruct (C108_campaign Qc rod_codec numbers (fun _ => 0%Qc) Z show_int ex_parse true (fun x => x) (fun y _ => Some y) rod_name 1 ex_gs [2] 1 ring_storable 2 _ D ring_jobs D' ltac:(apply rod_usable; auto) Hc ltac:(apply ring_can_write; auto) Fa Fe EJ) as (W & f & Ff & If & K).
  assert (exists file, produces 2 (fun r => [W r]) 0 file) as [file Pf] by (eexists; eexists; eexists; split; [apply Proof.JobsL.carries_self|split; [apply Proof.JobsL.carries_self|reflexivity]]).
  destruct (K file Pf) as ((np' & file' & Le) & Ck). exists D, D', W, f, file, np', file'. auto 12.
Qed.

(* the convex-splitting start on the same rod: rank r gives node x the composition x *)
Example C108_split_case : exists D, computes (vectors 2) 2 ex_gs (faces ex_gs) 1 (split_filling 2 ex_gs 1 fractions (repeat 1%Qc 1) full_vanilla 1%Qc (fun _ axs i => Qz (hd 0 (position axs i))) (fun _ => repeat [Qz 99; Qz 98] 5)) D /\
  map (fun v => map this v) (firstn 1 D) = [[0; -6]]%Q.
Proof.
  destruct (C108_split 2 ex_gs 1 100 fractions 1%Qc full_vanilla 1%Qc (fun _ axs i => Qz (hd 0 (position axs i))) (fun i => Qz i) (fun _ => repeat [Qz 99; Qz 98] 5) (repeat [Qz 5; Qz 4] 6)) as (D & ED & HD).
  { destruct rod_grids as (a & b & c & _ & d & e). split; [auto|]. split; [auto|]. split; [auto|]. split; [lia|]. split; [auto|].
    intros r ge Hr E. split; [apply (e r ge Hr E)|]. assert (r = 0 \/ r = 1) as [-> | ->] by lia; vm_compute in E; injection E as <-; vm_compute; discriminate. }
  { apply fractions_ok. unfold int_max. lia. }
  { intros v Hv. cbn. unfold zlen in *. lia. }
  { discriminate. }
  { intros r ge Hr E. split; [|repeat constructor]. assert (r = 0 \/ r = 1) as [-> | ->] by lia; vm_compute in E; injection E as <-; reflexivity. }
  { reflexivity. }
  { repeat constructor. }
  { intros r ge i n Hr E Hi Hn Ep. rewrite Ep. change (nodes (serial_grid ex_gs)) with 6 in Hn. assert (n = 0 \/ n = 1 \/ n = 2 \/ n = 3 \/ n = 4 \/ n = 5) as [-> | [-> | [-> | [-> | [-> | ->]]]]] by lia; reflexivity. }
  exists D. split; [exact HD|].
  assert (match split_start false (serial_grid ex_gs) (repeat 1%Qc (length ex_gs)) full_vanilla 1%Qc (fun i => Qz i) (repeat [Qz 5; Qz 4] 6) with Some D => map (fun v => map this v) (firstn 1 D) = [[0; -6]]%Q | None => False end) as V by (vm_compute; reflexivity).
  rewrite ED in V. exact V.
Qed.
(* two ranks on a row of 64 nodes that both draw their first node only: rank 0 has particles at 0 and 1, rank 1 at 32 and 33; the serial program would
   have stamped 31 and 63 too *)
Example C108_particles_case : let gs := [mkG 0 64] in grids 2 gs (faces gs) 1 0 /\ forall r ge, 0 <= r < 2 -> setup_mpi 2 gs 1 r = Some ge ->
  forall y, owns ge [y] -> stamped_by (ge_axes ge) (fun _ => 0) [y] <-> y = 0 \/ y = 1 \/ y = 32 \/ y = 33.
Proof.
  cbv zeta. split.
  - split; [lia|]. split; [discriminate|]. split; [lia|]. split; [lia|]. split; [repeat constructor; cbn; unfold serial_side, periodic, Neumann, Dirichlet, mirror, glen; cbn; auto; lia|].
    intros r ge Hr E. assert (r = 0 \/ r = 1) as [-> | ->] by lia; vm_compute in E; injection E as <-; (split; [repeat constructor; cbn; lia|vm_compute; discriminate]).
  - intros r ge Hr E y Oy. assert (position (ge_axes ge) (0 mod nodes (ge_axes ge)) = [32 * r] /\ 32 * r <= y < 32 * r + 32 /\ (0 < Z.to_nat (n_drawn (ge_axes ge)))%nat) as (Ep & Ry & Pn).
    { assert (r = 0 \/ r = 1) as [-> | ->] by lia; vm_compute in E; injection E as <-; cbn in Oy; (split; [reflexivity|]); (split; [lia|]); unfold n_drawn; set (N := 409600 / _); clearbody N; lia. }
    split.
    + intros (x & (j & _ & ->) & N). rewrite Ep in N. inversion N; subst. lia.
    + intros H. exists [32 * r]. split; [exists 0%nat; auto|]. constructor; [lia|constructor].
Qed.
