(* C22: output to file systems with large blocks, where a few ranks collect the data of the others and write whole blocks. *)
From Verif Require Import Model.Base Model.Codec Model.MPI Model.Ghostswap Model.File Model.Gpfs Spec.Schedule Spec.File
  Proof.BaseL Proof.MPIL Proof.ExecL Proof.WriteL Proof.GpfsL.
Local Open Scope list_scope.

(* [head] is the header with the number of blocks, [blk r] the data of rank r, [bs] the block size of the file system.
   Holds if every part boundary lies strictly inside the data of a rank other than 0, and no two in those of the same rank.
   Missing: the other cases.  They fail, see the refutations below. *)
Theorem C22_aligned_partial : forall np bs head (blk : Z -> list byte),
  let pos := position head blk in let F := pos np in let part := boundary np F bs in let nw := writers_of np F bs in
  0 < np -> 0 < bs -> (forall r, 0 <= r < np -> 0 < zlen (blk r) < int_max) -> F + bs < 2 ^ 64 ->
  (forall w, 0 <= w < nw -> Z.min F (part (w + 1)) - part w <= int_max) ->
  (forall w, 0 < w < nw -> exists r, 0 < r < np /\ pos r < part w < pos (r + 1)) ->
  (forall w w' r, 0 < w < nw -> 0 < w' < nw -> pos r < part w < pos (r + 1) -> pos r < part w' < pos (r + 1) -> w = w') ->
  exists W f, finished np W f /\
    inevitable (ranks np (fun r => output_gpfs np bs head (blk r) r), no_chans) f /\
    forall ps, carries_out ps (flat_map W (zrange 0 np)) -> fold_left write_at ps [] = head ++ concat (map blk (zrange 0 np)).
Proof.
  intros np bs head blk pos F part nw Hnp Hbs Hblk Hs Hfit Hin Hone.
  set (rho := fun w => if w =? 0 then 0 else zlen (filter (fun r => pos r <=? part w - 1) (zrange 1 np))).
  assert (forall r q, 0 <= r < q -> q <= np -> pos r < pos q) as Mono.
  { intros r q H Hq. replace q with (r + 1 + Z.of_nat (Z.to_nat (q - r - 1))) in * by lia. revert Hq. generalize (Z.to_nat (q - r - 1)) as k.
    induction k as [|k IH]; intros Hq.
    - replace (r + 1 + Z.of_nat 0) with (r + 1) by lia. unfold pos. rewrite (pos_S np bs head blk rho) by lia. specialize (Hblk r ltac:(lia)). lia.
    - replace (r + 1 + Z.of_nat (S k)) with (r + 1 + Z.of_nat k + 1) in * by lia. unfold pos in *. rewrite (pos_S np bs head blk rho) by lia.
      specialize (IH ltac:(lia)). specialize (Hblk (r + 1 + Z.of_nat k) ltac:(lia)). lia. }
  assert (forall w, 0 < w < nw -> 0 < rho w < np /\ pos (rho w) < part w < pos (rho w + 1)) as Hrho.
  { intros w Hw. destruct (Hin w Hw) as (r & Hr & L). unfold rho. destruct (Z.eqb_spec w 0); [lia|].
    destruct (count_spec pos (part w - 1) np) as (B & L1 & G).
    - lia.
    - pose proof (Mono 0 r ltac:(lia) ltac:(lia)). lia.
    - intros u v H1 H2. apply Mono; lia.
    - cbv zeta in *. set (c := zlen _) in *. assert (c = r) as ->; [|auto].
      destruct (Z.lt_trichotomy c r) as [H|[H|H]]; [|auto|].
      + specialize (G r ltac:(lia)). lia.
      + destruct (Z.eq_dec (r + 1) c) as [E|E]; [rewrite E in L; lia|]. pose proof (Mono (r + 1) c ltac:(lia) ltac:(lia)). lia. }
  eexists. apply (aligned_output np bs head blk rho); auto.
  intros w w' H H'. change (w' < nw) in H'. destruct (Z.eq_dec w 0) as [->|N].
  - destruct (Hrho w' ltac:(lia)). unfold rho at 1. cbn. lia.
  - destruct (Hrho w ltac:(lia)) as [B L], (Hrho w' ltac:(lia)) as [B' L'].
    assert (part w < part w') as La by (apply (a_mono np bs head blk rho); auto; lia).
    destruct (Z_lt_le_dec (rho w) (rho w')) as [|Le]; [auto|]. exfalso.
    destruct (Z.eq_dec (rho w) (rho w')) as [E|E].
    + rewrite <- E in L'. specialize (Hone w w' (rho w) ltac:(lia) ltac:(lia) L L'). lia.
    + destruct (Z.eq_dec (rho w' + 1) (rho w)) as [E1|E1]; [rewrite E1 in L'; lia|]. pose proof (Mono (rho w' + 1) (rho w) ltac:(lia) ltac:(lia)). lia.
Qed.
Print Assumptions C22_aligned_partial.

(* three ranks with 4, 7 and 6 bytes and a header of 3 bytes on blocks of 8 bytes: 20 bytes, three blocks; the
   boundaries (8 and 16) are after the first byte of rank 1 and after the second of rank 2 *)
Example C22_case : let head := [1; 2; 3] in let blk := fun r => repeat r (Z.to_nat (if r =? 0 then 4 else if r =? 1 then 7 else 6)) in
  exists W f, finished 3 W f /\ inevitable (ranks 3 (fun r => output_gpfs 3 8 head (blk r) r), no_chans) f /\
    forall ps, carries_out ps (flat_map W (zrange 0 3)) -> fold_left write_at ps [] = [1; 2; 3; 0; 0; 0; 0; 1; 1; 1; 1; 1; 1; 1; 2; 2; 2; 2; 2; 2].
Proof.
  intros head blk.
  assert (position head blk 1 = 7 /\ position head blk 2 = 14 /\ position head blk 3 = 20) as (P1 & P2 & P3) by (vm_compute; auto).
  assert (writers_of 3 20 8 = 3 /\ boundary 3 20 8 0 = 0 /\ boundary 3 20 8 1 = 8 /\ boundary 3 20 8 2 = 16 /\ boundary 3 20 8 3 = 24)
    as (N & B0 & B1 & B2 & B3) by (vm_compute; auto).
  apply (C22_aligned_partial 3 8 head blk); rewrite ?P3, ?N.
  - lia.
  - lia.
  - intros r Hr. assert (r = 0 \/ r = 1 \/ r = 2) as [->|[->| ->]] by lia; vm_compute; auto.
  - lia.
  - intros w Hw. unfold int_max. assert (w = 0 \/ w = 1 \/ w = 2) as [->|[->| ->]] by lia; change (0 + 1) with 1; change (1 + 1) with 2; change (2 + 1) with 3; lia.
  - intros w Hw. assert (w = 1 \/ w = 2) as [->| ->] by lia; [exists 1|exists 2]; change (0 + 1) with 1; change (1 + 1) with 2; change (2 + 1) with 3; lia.
  - intros w w' r Hw Hw' L L'.
    assert (2 <= r -> 14 <= position head blk r) as M2 by (intros; rewrite <- P2; apply (pos_mono 0 0 head blk (fun x => x)); lia).
    assert (r < 0 -> position head blk (r + 1) = 3) as M0 by (intros; unfold position; rewrite zrange_nil by lia; reflexivity).
    assert (r = 0 -> position head blk (r + 1) = 7) as M1 by (intros ->; exact P1).
    assert (r = 1 -> position head blk (r + 1) = 14) as M3 by (intros ->; exact P2).
    assert (w = w' \/ (w = 1 /\ w' = 2) \/ (w = 2 /\ w' = 1)) as [->|[[-> ->]|[-> ->]]] by lia; lia.
Qed.

(* C22 fails for every block size if the header and the data of rank 0 fill a block exactly: neither rank survives,
   whatever the schedule (the request that MPI_Wait waits for was never started) *)
Theorem C22_exact_boundary_refuted : forall bs head b0 b1, 0 < zlen b0 -> zlen head + zlen b0 = bs -> 0 < zlen b1 <= bs -> 2 * bs < int_max ->
  inevitable (ranks 2 (fun r => output_gpfs 2 bs head (if r =? 0 then b0 else b1) r), no_chans) ([Fail; Fail], no_chans).
Proof.
  intros bs head b0 b1 H0 Hs H1 Hi. pose proof (zlen_nonneg head). unfold int_max in Hi.
  eapply inevitable_of_gsteps with (n := (4 + 2)%nat).
  2:{ apply halted_stuck. reflexivity. }
  eapply gsteps_app. { apply (start_up 2 bs head (fun r => if r =? 0 then b0 else b1)); [lia|lia|]. intros r Hr. unfold int_max. destruct (r =? 0); lia. }
  change (map (fun r => zlen (if r =? 0 then b0 else b1)) (zrange 0 2)) with [zlen b0; zlen b1].
  assert (make_plan 2 bs (zlen head) [zlen b0; zlen b1] = Some (mkPlan (bs + zlen b1) 2 bs 0 [0; bs] [0; 1; 1])) as P.
  { unfold make_plan. change (sumZ [zlen b0; zlen b1]) with (zlen b0 + (zlen b1 + 0)). replace (zlen head + (zlen b0 + (zlen b1 + 0))) with (bs + zlen b1) by lia.
    rewrite Z.quot_div_nonneg by lia.
    assert ((if (bs + zlen b1) / bs * bs <? bs + zlen b1 then (bs + zlen b1) / bs + 1 else (bs + zlen b1) / bs) = 2) as ->.
    { destruct (Z.eq_dec (zlen b1) bs) as [E|E].
      - rewrite E. replace (bs + bs) with (2 * bs) by lia. rewrite Z.div_mul by lia. rewrite Z.ltb_irrefl. reflexivity.
      - rewrite <- (Z.div_unique (bs + zlen b1) bs 1 (zlen b1)) by lia. destruct (Z.ltb_spec (1 * bs) (bs + zlen b1)); lia. }
    change (2 <? 2) with false. cbv iota zeta. change (Z.quot 2 2) with 1. change (Z.rem 2 2) with 0. rewrite Z.mul_1_r.
    change (gpfs_offsets (zlen head) [zlen b0; zlen b1]) with [0; zlen head + zlen b0]. cbn [combine map fst snd]. rewrite Hs.
    change (Z.to_nat 2) with 2%nat. cbn [writers]. change (0 <=? 0) with true. change (0 <? 0) with false. change (Z.to_nat 0) with 0%nat. cbn [skipn scan].
    destruct (Z.ltb_spec (0 + zlen b0) 0); [lia|]. cbn [bind]. change (0 + 1 <=? 0) with false. change (0 <? 0 + 1) with true. cbv iota. change (Z.to_nat (0 + 1)) with 1%nat. cbn [skipn scan].
    destruct (Z.ltb_spec (bs + zlen b1) (bs + 0)); [lia|]. cbn [bind map fst snd app]. rewrite Z.add_0_r. reflexivity. }
  set (K := fun (r prev next ws : Z) (ms : list msg) => barrier (aggregate 2 head (if r =? 0 then b0 else b1) r [zlen b0; zlen b1] (mkPlan (bs + zlen b1) 2 bs 0 [0; bs] [0; 1; 1])
    prev next ws (map (pd_dec pod_ulong) ms))).
  refine (eq_ind_r (fun p => gsteps 2 (p, no_chans) _) _ (ranks_ext 2 _ (fun r => Coll 2 (pd_enc pod_ulong 0)
    (K r 0 (r + 1) (if r =? 0 then bs else zlen b1))) _)).
  2:{ intros r Hr. unfold align. cbn [tl forallb]. unfold int_max. destruct (Z.ltb_spec (zlen b1) 2147483647); [|lia]. cbn [andb guard lift]. rewrite P. cbn [lift].
      change (gpfs_offsets (zlen head) [zlen b0; zlen b1]) with [0; zlen head + zlen b0]. rewrite Hs. unfold rank_plan.
      cbn [pl_nwriters pl_writeranks pl_aoffsets pl_excess pl_writesize pl_filesize].
      assert (r = 0 \/ r = 1) as [->| ->] by lia.
      - cbn. unfold K. reflexivity.
      - change (1 =? 0) with false. change (prev_writer (Z.to_nat 2) [0; 1; 1] 1) with (Some 0). cbv iota. cbn [bind].
        change (get [0; 1; 1] (2 - 1)) with (Some 1). cbn [bind]. change (1 <=? 1) with true. change (0 <? 1) with true. cbv iota. cbn [bind].
        change (get [0; bs] (2 - 1)) with (Some bs). change (get [0; bs] 0) with (Some 0). change (get [0; bs] 1) with (Some bs).
        change (get [zlen b0; zlen b1] 1) with (Some (zlen b1)). change (0 <=? 0) with true. cbv iota. cbn [bind].
        replace (0 + bs - bs) with 0 by lia. change (0 mod 2 ^ 64) with 0. replace (bs + zlen b1 - bs) with (zlen b1) by lia.
        destruct (Z.ltb_spec (zlen b1) 0); [lia|]. reflexivity. }
  refine (gsteps_S _ _ _ _ (all_coll 2 2 (fun _ => pd_enc pod_ulong 0) (fun r => K r 0 (r + 1) (if r =? 0 then bs else zlen b1)) no_chans ltac:(lia)) _).
  set (AG := fun r => aggregate 2 head (if r =? 0 then b0 else b1) r [zlen b0; zlen b1] (mkPlan (bs + zlen b1) 2 bs 0 [0; bs] [0; 1; 1]) 0 (r + 1) (if r =? 0 then bs else zlen b1)
    (map (pd_dec pod_ulong) (map (fun _ => pd_enc pod_ulong 0) (zrange 0 2)))).
  assert (ranks 2 AG = [Fail; Fail]) as <-; [|apply gsteps_1; exact (all_barrier 2 AG no_chans ltac:(lia))].
  unfold ranks, AG. change (zrange 0 2) with [0; 1]. cbn [map]. change (pd_dec pod_ulong (pd_enc pod_ulong 0)) with 0.
  change (0 =? 0) with true. change (1 =? 0) with false. cbv iota. unfold aggregate. cbn [pl_nwriters pl_writeranks]. f_equal; [|f_equal].
  - change (get [0; 1; 1] (0 + 1)) with (Some 1). change (get [0; 1; 1] 0) with (Some 0). change (get [0; 0] 0) with (Some 0).
    change (get [zlen b0; zlen b1] 0) with (Some (zlen b0)). cbn [lift]. change (existsb (Z.eqb 0) (firstn (Z.to_nat 2) [0; 1; 1])) with true. cbv iota.
    destruct (Z.ltb_spec 0 (zlen b0)); [|lia]. cbn [negb]. change (map_opt (get [0; 0]) (zrange (0 + 1) (1 + 1))) with (Some [0]). reflexivity.
  - change (get [0; 1; 1] (1 + 1)) with (Some 1). change (get [0; 1; 1] 0) with (Some 0). change (get [0; 0] 1) with (Some 0).
    change (get [zlen b0; zlen b1] 1) with (Some (zlen b1)). cbn [lift]. change (existsb (Z.eqb 1) (firstn (Z.to_nat 2) [0; 1; 1])) with true. cbv iota.
    destruct (Z.ltb_spec 0 (zlen b1)); [|lia]. cbn [negb]. change (map_opt (get [0; 0]) (zrange (1 + 1) (1 + 1))) with (Some (@nil Z)). cbn [lift existsb].
    cbv zeta. destruct (Z.ltb_spec (zlen b1) (zlen (((if 1 =? 0 then head else []) ++ skipn (Z.to_nat 0) b1)) + sumZ [])); [reflexivity|].
    change (0 <? 1) with true. reflexivity.
Qed.
Print Assumptions C22_exact_boundary_refuted.

(* C22 fails for every block size if the header and the data of rank 0 need more than two blocks and the rest fits in the third:
   writer 1 would have to start inside the data of rank 0 *)
Theorem C22_large_first_rank_refuted : forall bs head b0 b1, 0 < bs -> 2 * bs < zlen head + zlen b0 -> 0 < zlen b1 ->
  zlen head + zlen b0 + zlen b1 <= 3 * bs -> 3 * bs < int_max ->
  inevitable (ranks 2 (fun r => output_gpfs 2 bs head (if r =? 0 then b0 else b1) r), no_chans) ([Fail; Fail], no_chans).
Proof.
  intros bs head b0 b1 Hb H0 H1 Hs Hi. pose proof (zlen_nonneg head). pose proof (zlen_nonneg b0). unfold int_max in Hi.
  eapply inevitable_of_gsteps with (n := (4 + 2)%nat).
  2:{ apply halted_stuck. reflexivity. }
  eapply gsteps_app. { apply (start_up 2 bs head (fun r => if r =? 0 then b0 else b1)); [lia|lia|]. intros r Hr. unfold int_max. destruct (r =? 0); lia. }
  change (map (fun r => zlen (if r =? 0 then b0 else b1)) (zrange 0 2)) with [zlen b0; zlen b1].
  set (F := zlen head + zlen b0 + zlen b1) in *.
  assert (make_plan 2 bs (zlen head) [zlen b0; zlen b1] = Some (mkPlan F 2 bs 1 [0; bs + bs] [0; 1; 1])) as P.
  { unfold make_plan. change (sumZ [zlen b0; zlen b1]) with (zlen b0 + (zlen b1 + 0)). replace (zlen head + (zlen b0 + (zlen b1 + 0))) with F by lia.
    rewrite Z.quot_div_nonneg by lia.
    assert ((if F / bs * bs <? F then F / bs + 1 else F / bs) = 3) as ->.
    { destruct (Z.eq_dec F (3 * bs)) as [E|E].
      - rewrite E. rewrite Z.div_mul by lia. rewrite Z.ltb_irrefl. reflexivity.
      - rewrite <- (Z.div_unique F bs 2 (F - 2 * bs)) by lia. destruct (Z.ltb_spec (2 * bs) F); lia. }
    change (2 <? 3) with true. cbv iota zeta. change (Z.quot 3 2) with 1. change (Z.rem 3 2) with 1. rewrite Z.mul_1_r.
    change (gpfs_offsets (zlen head) [zlen b0; zlen b1]) with [0; zlen head + zlen b0]. cbn [combine map fst snd].
    change (Z.to_nat 2) with 2%nat. cbn [writers]. change (0 <=? 1) with true. change (0 <? 0) with false. change (Z.to_nat 0) with 0%nat. cbn [skipn scan].
    destruct (Z.ltb_spec (0 + zlen b0) 0); [lia|]. cbn [bind]. change (0 + 1 <=? 1) with true. change (0 <? 0 + 1) with true. cbv iota. change (Z.to_nat (0 + 1)) with 1%nat. cbn [skipn scan].
    destruct (Z.ltb_spec (zlen head + zlen b0 + zlen b1) (bs + bs + 0)); [lia|]. cbn [bind map fst snd app]. rewrite Z.add_0_r. reflexivity. }
  set (K := fun (r prev next ws : Z) (ms : list msg) => barrier (aggregate 2 head (if r =? 0 then b0 else b1) r [zlen b0; zlen b1] (mkPlan F 2 bs 1 [0; bs + bs] [0; 1; 1])
    prev next ws (map (pd_dec pod_ulong) ms))).
  refine (eq_ind_r (fun p => gsteps 2 (p, no_chans) _) _ (ranks_ext 2 _ (fun r => Coll 2 (pd_enc pod_ulong (if r =? 0 then 0 else zlen b1))
    (K r 0 (r + 1) (if r =? 0 then bs + bs else F - (bs + bs)))) _)).
  2:{ intros r Hr. unfold align. cbn [tl forallb]. unfold int_max. destruct (Z.ltb_spec (zlen b1) 2147483647); [|lia]. cbn [andb guard lift]. rewrite P. cbn [lift].
      change (gpfs_offsets (zlen head) [zlen b0; zlen b1]) with [0; zlen head + zlen b0]. unfold rank_plan.
      cbn [pl_nwriters pl_writeranks pl_aoffsets pl_excess pl_writesize pl_filesize].
      assert (r = 0 \/ r = 1) as [->| ->] by lia.
      - cbn. unfold K. reflexivity.
      - change (1 =? 0) with false. change (prev_writer (Z.to_nat 2) [0; 1; 1] 1) with (Some 0). cbv iota. cbn [bind].
        change (get [0; 1; 1] (2 - 1)) with (Some 1). cbn [bind]. change (1 <=? 1) with true. change (0 <? 1) with true. cbv iota. cbn [bind].
        change (get [0; bs + bs] (2 - 1)) with (Some (bs + bs)). change (get [0; bs + bs] 0) with (Some 0). change (get [0; zlen head + zlen b0] 1) with (Some (zlen head + zlen b0)).
        change (get [zlen b0; zlen b1] 1) with (Some (zlen b1)). change (1 <=? 0) with false. cbv iota. cbn [bind].
        rewrite <- (Z.mod_add _ 1 (2 ^ 64)) by lia. rewrite Z.mod_small by lia.
        destruct (Z.ltb_spec (zlen b1) (0 + (bs + bs) - (zlen head + zlen b0) + 1 * 2 ^ 64)); [|lia]. reflexivity. }
  refine (gsteps_S _ _ _ _ (all_coll 2 2 (fun r => pd_enc pod_ulong (if r =? 0 then 0 else zlen b1)) (fun r => K r 0 (r + 1) (if r =? 0 then bs + bs else F - (bs + bs))) no_chans ltac:(lia)) _).
  set (AG := fun r => aggregate 2 head (if r =? 0 then b0 else b1) r [zlen b0; zlen b1] (mkPlan F 2 bs 1 [0; bs + bs] [0; 1; 1]) 0 (r + 1) (if r =? 0 then bs + bs else F - (bs + bs))
    (map (pd_dec pod_ulong) (map (fun r => pd_enc pod_ulong (if r =? 0 then 0 else zlen b1)) (zrange 0 2)))).
  assert (ranks 2 AG = [Fail; Fail]) as <-; [|apply gsteps_1; exact (all_barrier 2 AG no_chans ltac:(lia))].
  unfold ranks, AG. change (zrange 0 2) with [0; 1]. cbn [map]. change (0 =? 0) with true. change (1 =? 0) with false. cbv iota. rewrite !ulong_back by lia.
  unfold aggregate. cbn [pl_nwriters pl_writeranks]. f_equal; [|f_equal].
  - change (get [0; 1; 1] (0 + 1)) with (Some 1). change (get [0; 1; 1] 0) with (Some 0). change (get [0; zlen b1] 0) with (Some 0).
    change (get [zlen b0; zlen b1] 0) with (Some (zlen b0)). cbn [lift]. change (existsb (Z.eqb 0) (firstn (Z.to_nat 2) [0; 1; 1])) with true. cbv iota.
    destruct (Z.ltb_spec 0 (zlen b0)); [|reflexivity]. cbn [negb]. change (map_opt (get [0; zlen b1]) (zrange (0 + 1) (1 + 1))) with (Some [zlen b1]). cbn [lift existsb].
    destruct (Z.eqb_spec 0 (zlen b1)); [lia|]. cbn [orb]. change (0 =? 0) with true. cbv zeta iota. change (skipn (Z.to_nat 0) b0) with b0. rewrite zlen_app.
    change (sumZ [zlen b1]) with (zlen b1 + 0). destruct (Z.ltb_spec (bs + bs) (zlen head + zlen b0 + (zlen b1 + 0))); [reflexivity|lia].
  - change (get [0; 1; 1] (1 + 1)) with (Some 1). change (get [0; 1; 1] 0) with (Some 0). change (get [0; zlen b1] 1) with (Some (zlen b1)).
    change (get [zlen b0; zlen b1] 1) with (Some (zlen b1)). cbn [lift]. change (existsb (Z.eqb 1) (firstn (Z.to_nat 2) [0; 1; 1])) with true. cbv iota.
    rewrite Z.ltb_irrefl. reflexivity.
Qed.
Print Assumptions C22_large_first_rank_refuted.

(* the hypotheses of both are met with blocks of one megabyte, from which on this path is used: data of 1048564 bytes
   on rank 0 after a header of 12 bytes; data of 2.5 megabytes on rank 0 *)
Example C22_refuted_case : exists head b0 b1 c0 c1 : list byte,
  zlen head + zlen b0 = 1048576 /\ 0 < zlen b1 <= 1048576 /\
  2 * 1048576 < zlen head + zlen c0 /\ 0 < zlen c1 /\ zlen head + zlen c0 + zlen c1 <= 3 * 1048576.
Proof.
  exists (repeat 0 (Z.to_nat 12)), (repeat 0 (Z.to_nat 1048564)), (repeat 0 (Z.to_nat 1000)), (repeat 0 (Z.to_nat 2621440)), (repeat 0 (Z.to_nat 1000)).
  unfold zlen. rewrite !repeat_length, !Z2Nat.id by lia. lia.
Qed.
