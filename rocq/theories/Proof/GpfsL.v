From Verif Require Import Model.Base Model.Codec Model.MPI Model.Ghostswap Model.File Model.Gpfs Spec.Schedule Spec.File
  Spec.Bytes Proof.BaseL Proof.CodecL Proof.MPIL Proof.FileL Proof.WriteL.
Local Open Scope list_scope.

(* ---- several steps of every rank ---- *)
Inductive lruns {A} (np r : Z) : proc A -> chans -> proc A -> chans -> Prop :=
| lruns_0 p c : lruns np r p c p c
| lruns_S p c q c1 p' c' : lstep np r true p c q c1 -> lruns np r q c1 p' c' -> lruns np r p c p' c'.

Section Runs.
Context {A : Type}.
Lemma lruns_app np r (p q s : proc A) c c1 c2 : lruns np r p c q c1 -> lruns np r q c1 s c2 -> lruns np r p c s c2.
Proof. induction 1; auto. intros. econstructor; eauto. Qed.

Lemma one_rank_runs (np : Z) r p c q c' : 0 <= r < np -> lruns np r p c q c' ->
  forall P : Z -> proc A, P r = p ->
  exists n, gsteps n (ranks np P, c) (ranks np (fun x => if x =? r then q else P x), c').
Proof.
  intros Hr H. induction H as [p c|p c q c1 p' c' H H1 IH]; intros P E.
  - exists O. erewrite ranks_ext; [constructor|]. intros x Hx. simpl. destruct (Z.eqb_spec x r) as [->|]; auto.
  - destruct (IH (fun x => if x =? r then q else P x)) as [n G]; [now rewrite Z.eqb_refl|].
    exists (S n). eapply gsteps_S.
    + eapply (step_local _ r p q); [rewrite get_ranks, E by lia; reflexivity| |apply put_ranks; lia].
      rewrite zlen_ranks by lia. exact H.
    + erewrite (ranks_ext np (fun x => if x =? r then p' else P x)); [exact G|].
      intros x Hx. simpl. destruct (x =? r); auto.
Qed.

Lemma all_runs (np : Z) (P Q : Z -> proc A) (I : Z -> chans -> Prop) (ch : chans) : 0 <= np -> I 0 ch ->
  (forall r c, 0 <= r < np -> I r c -> exists c', lruns np r (P r) c (Q r) c' /\ I (r + 1) c') ->
  exists n ch', gsteps n (ranks np P, ch) (ranks np Q, ch') /\ I np ch'.
Proof.
  intros Hnp H0 HS.
  assert (forall k : nat, Z.of_nat k <= np -> exists n ch',
    gsteps n (ranks np P, ch) (ranks np (fun r => if r <? Z.of_nat k then Q r else P r), ch') /\ I (Z.of_nat k) ch') as X.
  { induction k as [|k IH]; intros Hk.
    - exists O, ch. split; [|exact H0]. erewrite ranks_ext; [constructor|].
      intros r Hr. simpl. destruct (Z.ltb_spec r (Z.of_nat 0)); [lia|auto].
    - destruct IH as (n & ch1 & G & HI); [lia|].
      destruct (HS (Z.of_nat k) ch1 ltac:(lia) HI) as (ch2 & L & HI').
      destruct (one_rank_runs np (Z.of_nat k) _ _ _ _ ltac:(lia) L (fun r => if r <? Z.of_nat k then Q r else P r)) as [m G2].
      { rewrite Z.ltb_irrefl. reflexivity. }
      exists (n + m)%nat, ch2. split; [|now replace (Z.of_nat (S k)) with (Z.of_nat k + 1) by lia].
      eapply gsteps_app; [exact G|]. erewrite (ranks_ext np (fun r => if r <? Z.of_nat (S k) then Q r else P r)); [exact G2|].
      intros r Hr. simpl. destruct (Z.eqb_spec r (Z.of_nat k)) as [->|].
      + destruct (Z.ltb_spec (Z.of_nat k) (Z.of_nat (S k))); [auto|lia].
      + destruct (Z.ltb_spec r (Z.of_nat (S k))), (Z.ltb_spec r (Z.of_nat k)); auto; lia. }
  destruct (X (Z.to_nat np)) as (n & ch' & G & HI); [lia|]. rewrite Z2Nat.id in * by lia.
  exists n, ch'. split; [|exact HI]. erewrite (ranks_ext np Q); [exact G|].
  intros r Hr. simpl. destruct (Z.ltb_spec r np); [auto|lia].
Qed.

(* receiving from a list of ranks *)
Lemma recv_all_runs (np r : Z) srcs mis (msg_of : Z -> list byte) (k : list byte -> proc A) : NoDup srcs ->
  (forall s, In s srcs -> 0 <= s < np /\ get mis s = Some (zlen (msg_of s))) ->
  forall acc c, (forall s, In s srcs -> chan c s r s = [msg_of s]) ->
  exists c', lruns np r (recv_all srcs mis acc k) c (k (acc ++ concat (map msg_of srcs))) c' /\
    forall s d t, chan c' s d t = if (s =? t) && (d =? r) && existsb (Z.eqb s) srcs then [] else chan c s d t.
Proof.
  induction srcs as [|s srcs IH]; intros ND Hs acc c Hc.
  - exists c. cbn. rewrite app_nil_r. split; [constructor|]. intros. now rewrite andb_false_r.
  - apply NoDup_cons_iff in ND as [N1 N2]. cbn [recv_all]. destruct (Hs s (or_introl eq_refl)) as [B ->]. cbn [lift].
    destruct (IH N2 (fun s' H => Hs s' (or_intror H)) (acc ++ msg_of s) (set_chan c s r s [])) as (c' & L & E).
    { intros s' H'. rewrite chan_set. destruct (Z.eqb_spec s' s) as [->|]; [contradiction|]. simpl. apply Hc. now right. }
    exists c'. split.
    + eapply lruns_S.
      * eapply step_recv; [exact B|]. rewrite (Hc s (or_introl eq_refl)). reflexivity.
      * cbv beta. rewrite Z.ltb_irrefl. rewrite Z.sub_diag. change (Z.to_nat 0) with O. cbn [repeat]. rewrite app_nil_r.
        cbn [map concat]. rewrite app_assoc. exact L.
    + intros x d t. rewrite E, chan_set. cbn [existsb].
      destruct (Z.eqb_spec x s), (Z.eqb_spec d r), (Z.eqb_spec x t), (Z.eqb_spec t s); subst; simpl; try lia; auto;
      rewrite ?andb_false_r; auto. destruct (existsb _ srcs); auto.
Qed.
End Runs.

(* ---- the plan ---- *)
Lemma nth_skipn {X} n (l : list X) i : nth_error (skipn n l) i = nth_error l (n + i).
Proof. revert l; induction n as [|n IH]; intros [|x l]; auto; [now destruct i|apply IH]. Qed.

Lemma scan_ok a l t k e : (forall i e', (i < k)%nat -> nth_error l i = Some e' -> e' < a) -> nth_error l k = Some e -> a <= e ->
  scan a l t = Some (t + Z.of_nat k).
Proof.
  revert t k; induction l as [|x l IH]; intros t k H E L; [destruct k; discriminate|]. cbn [scan]. destruct k as [|k].
  - cbn in E. inversion E; subst. destruct (Z.ltb_spec e a); [lia|]. f_equal. lia.
  - destruct (Z.ltb_spec x a) as [_|B]; [|specialize (H O x ltac:(lia) eq_refl); lia].
    rewrite (IH (t + 1) k); [f_equal; lia| |auto|auto]. intros i e' Hi. apply (H (S i)). lia.
Qed.

Lemma prev_writer_ok n wr r w t : (w <= n)%nat -> nth_error wr w = Some t -> t < r ->
  (forall i, (w < i <= n)%nat -> exists t', nth_error wr i = Some t' /\ r <= t') -> prev_writer n wr r = Some (Z.of_nat w).
Proof.
  induction n as [|n IH]; intros Hn E Ht H.
  - assert (w = O) as -> by lia. cbn [prev_writer]. rewrite E. cbn [bind]. destruct (Z.ltb_spec t r); [auto|lia].
  - cbn [prev_writer]. destruct (Nat.eq_dec w (S n)) as [->|Hne].
    + rewrite E. cbn [bind]. destruct (Z.ltb_spec t r); [auto|lia].
    + destruct (H (S n) ltac:(lia)) as (t' & -> & B). cbn [bind]. destruct (Z.ltb_spec t' r); [lia|].
      apply IH; auto; [lia|]. intros i Hi. apply H. lia.
Qed.

Lemma next_writer_ok wr r w0 w t : nth_error wr w = Some t -> r < t ->
  (forall i t', (i < w)%nat -> nth_error wr i = Some t' -> t' <= r) -> next_writer wr r w0 = Some (w0 + Z.of_nat w).
Proof.
  revert w0 w; induction wr as [|x wr IH]; intros w0 w E Ht H; [destruct w; discriminate|]. cbn [next_writer]. destruct w as [|w].
  - cbn in E. inversion E; subst. destruct (Z.leb_spec t r); [lia|]. f_equal. lia.
  - destruct (Z.leb_spec x r) as [_|B]; [|specialize (H O x ltac:(lia) eq_refl); lia].
    rewrite (IH (w0 + 1) w); auto; [f_equal; lia|]. intros i t' Hi. apply (H (S i)). lia.
Qed.

Lemma nth_map_zrange {X} (f : Z -> X) n i : 0 <= i < n -> nth_error (map f (zrange 0 n)) (Z.to_nat i) = Some (f i).
Proof. intros H. rewrite nth_error_map, nth_error_zrange by lia. cbn. f_equal. f_equal. lia. Qed.
Lemma get_map_zrange {X} (f : Z -> X) n i : 0 <= i < n -> get (map f (zrange 0 n)) i = Some (f i).
Proof. intros H. unfold get. destruct (Z.ltb_spec i 0); [lia|]. now apply nth_map_zrange. Qed.

Lemma count_spec (rho : Z -> Z) r n : 1 <= n -> rho 0 <= r -> (forall w w', 0 <= w < w' -> w' < n -> rho w < rho w') ->
  let c := zlen (filter (fun w => rho w <=? r) (zrange 1 n)) in
  0 <= c < n /\ rho c <= r /\ forall w, c < w < n -> r < rho w.
Proof.
  intros Hn H0. revert n Hn.
  assert (forall k : nat, let n := 1 + Z.of_nat k in (forall w w', 0 <= w < w' -> w' < n -> rho w < rho w') ->
    let c := zlen (filter (fun w => rho w <=? r) (zrange 1 n)) in
    0 <= c < n /\ rho c <= r /\ forall w, c < w < n -> r < rho w) as X.
  { induction k as [|k IH]; intros n Hi c.
    - unfold c, n. rewrite zrange_nil by lia. cbn. unfold zlen; simpl. split; [lia|]. split; [auto|]. intros; lia.
    - cbv zeta in IH. destruct IH as (B & L & G); [intros; apply Hi; lia|].
      unfold c. unfold n. replace (1 + Z.of_nat (S k)) with (1 + Z.of_nat k + 1) by lia. rewrite zrange_snoc by lia.
      rewrite filter_app, zlen_app. cbn [filter]. set (c0 := zlen (filter _ (zrange 1 (1 + Z.of_nat k)))) in *.
      destruct (Z.leb_spec (rho (1 + Z.of_nat k)) r) as [Hr|Hr].
      + assert (c0 = Z.of_nat k) as ->.
        { destruct (Z.eq_dec c0 (Z.of_nat k)) as [|Ne]; [auto|]. exfalso.
          specialize (G (Z.of_nat k) ltac:(lia)). specialize (Hi (Z.of_nat k) (1 + Z.of_nat k)). lia. }
        change (zlen [1 + Z.of_nat k]) with 1. rewrite Z.add_comm. split; [lia|]. split; [auto|]. intros; lia.
      + change (zlen (@nil Z)) with 0. rewrite Z.add_0_r. split; [lia|]. split; [auto|].
        intros w Hw. destruct (Z.eq_dec w (1 + Z.of_nat k)) as [->|]; [auto|]. apply G. lia. }
  intros n Hn Hi. specialize (X (Z.to_nat (n - 1))). cbv zeta in X. replace (1 + Z.of_nat (Z.to_nat (n - 1))) with n in X by lia.
  apply X. auto.
Qed.

Lemma bracket (f : Z -> Z) n x : 0 < n -> f 0 <= x -> exists w, 0 <= w < n /\ f w <= x /\ (w + 1 < n -> x < f (w + 1)).
Proof.
  intros Hn H0. replace n with (1 + Z.of_nat (Z.to_nat (n - 1))) by lia. clear Hn. generalize (Z.to_nat (n - 1)) as k.
  induction k as [|k IH].
  - exists 0. split; [lia|]. split; [auto|]. lia.
  - destruct IH as (w & B & L & G). destruct (Z_lt_le_dec x (f (w + 1))) as [H|H].
    + exists w. split; [lia|]. auto.
    + destruct (Z_lt_le_dec (w + 1) (1 + Z.of_nat k)) as [H1|H1]; [specialize (G H1); lia|].
      exists (w + 1). split; [lia|]. split; [auto|]. lia.
Qed.

Lemma ulong_back v : 0 <= v < 2 ^ 64 -> pd_dec pod_ulong (pd_enc pod_ulong v) = v.
Proof. intros H. destruct (pod_uint_ok 8) as [_ P]. change pod_ulong with (pod_uint 8). apply P. change (256 ^ Z.of_nat 8) with (2 ^ 64). lia. Qed.

Lemma all_barrier {A} np (P : Z -> proc A) ch : 0 < np -> step true (ranks np (fun r => barrier (P r)), ch) (ranks np P, ch).
Proof. apply (all_coll np 0 (fun _ => []) (fun r _ => P r)). Qed.

Lemma start_up np bs hd (blk : Z -> list byte) : 0 < np -> zlen hd < 2 ^ 64 -> (forall r, 0 <= r < np -> zlen (blk r) < int_max) ->
  gsteps 4 (ranks np (fun r => output_gpfs np bs hd (blk r) r), no_chans)
  (ranks np (fun r => align np bs hd (blk r) r (zlen hd) (map (fun r => zlen (blk r)) (zrange 0 np))), no_chans).
Proof.
  intros Hnp Hh Hblk. pose proof (zlen_nonneg hd).
  set (K2 := fun r ho sizes => barrier (align np bs hd (blk r) r ho (map (pd_dec pod_ulong) sizes))).
  set (K1 := fun r (ms : list msg) => lift (get ms 0) (fun mm => barrier (Coll 2 (pd_enc pod_ulong (zlen (blk r))) (K2 r (pd_dec pod_ulong mm))))).
  eapply gsteps_S. { apply (all_coll np 1 (fun r => pd_enc pod_ulong (if r =? 0 then zlen hd else 0)) K1). lia. }
  refine (eq_ind_r (fun p => gsteps 3 (p, no_chans) _) _ (ranks_ext np _ (fun r => barrier (Coll 2 (pd_enc pod_ulong (zlen (blk r))) (K2 r (zlen hd)))) _)).
  2:{ intros r Hr. unfold K1. rewrite get_map_zrange by lia. cbn [lift]. rewrite Z.eqb_refl, ulong_back by lia. reflexivity. }
  eapply gsteps_S; [now apply all_barrier|].
  eapply gsteps_S. { apply (all_coll np 2 (fun r => pd_enc pod_ulong (zlen (blk r))) (fun r => K2 r (zlen hd))). lia. }
  refine (eq_ind_r (fun p => gsteps 1 (p, no_chans) _) _ (ranks_ext np _ (fun r => barrier (align np bs hd (blk r) r (zlen hd) (map (fun r => zlen (blk r)) (zrange 0 np)))) _)).
  2:{ intros r Hr. unfold K2. rewrite map_map. do 2 f_equal. apply map_ext_in. intros q Hq. apply in_zrange in Hq. apply ulong_back.
      pose proof (Hblk q Hq) as Q. pose proof (zlen_nonneg (blk q)). unfold int_max in Q. lia. }
  apply gsteps_1. now apply all_barrier.
Qed.

Section Plan.
Context (np bs : Z) (hd : list byte) (blk : Z -> list byte) (rho : Z -> Z).
Let s r := zlen (blk r).
Let pos := position hd blk.
Let F := pos np.
Let nb := blocks_of F bs.
Let nw := writers_of np F bs.
Let a := boundary np F bs.

Lemma pos_0 : pos 0 = zlen hd.
Proof. unfold pos, position. rewrite zrange_nil by lia. cbn. now rewrite app_nil_r. Qed.
Lemma pos_S r : 0 <= r -> pos (r + 1) = pos r + s r.
Proof.
  intros. unfold pos, position, s. rewrite zrange_snoc by lia. rewrite map_app, concat_app. cbn [map concat].
  rewrite app_nil_r, app_assoc, zlen_app. reflexivity.
Qed.
Lemma pos_mono r q : 0 <= r <= q -> pos r <= pos q.
Proof.
  intros H. replace q with (r + Z.of_nat (Z.to_nat (q - r))) by lia. generalize (Z.to_nat (q - r)) as k.
  induction k as [|k IH]; [replace (r + Z.of_nat 0) with r by lia; lia|].
  replace (r + Z.of_nat (S k)) with (r + Z.of_nat k + 1) by lia. rewrite pos_S by lia. unfold s. pose proof (zlen_nonneg (blk (r + Z.of_nat k))). lia.
Qed.
Lemma pos_nonneg r : 0 <= pos r.
Proof. apply zlen_nonneg. Qed.
Hypothesis Hnp : 0 < np.
Hypothesis Hbs : 0 < bs.
Hypothesis Hblk : forall r, 0 <= r < np -> 0 < zlen (blk r) < int_max.
Lemma F_pos : 0 < F.
Proof.
  unfold F. pose proof (pos_mono 1 np ltac:(lia)) as M. pose proof (pos_S 0 ltac:(lia)) as P.
  change (0 + 1) with 1 in P. pose proof (pos_nonneg 0). pose proof (Hblk 0 ltac:(lia)). unfold s in P. lia.
Qed.
Lemma nb_spec : F <= nb * bs < F + bs /\ 0 < nb.
Proof.
  pose proof F_pos. unfold nb, blocks_of.
  pose proof (Z.div_mod (F + bs - 1) bs ltac:(lia)). pose proof (Z.mod_pos_bound (F + bs - 1) bs ltac:(lia)).
  assert (0 < (F + bs - 1) / bs) by (apply Z.div_str_pos; lia). nia.
Qed.
Lemma nw_pos : 0 < nw.
Proof. pose proof nb_spec. unfold nw, writers_of. fold nb. lia. Qed.

Lemma a_eq w : a w = bs * (w * (nb / nw) + Z.min w (nb mod nw)).
Proof. reflexivity. Qed.
Lemma a_0 : a 0 = 0.
Proof. rewrite a_eq. pose proof nw_pos. pose proof (Z.mod_pos_bound nb nw ltac:(lia)). rewrite Z.min_l by lia. lia. Qed.
Lemma a_S w : a (w + 1) = a w + (if w + 1 <=? nb mod nw then bs * (nb / nw) + bs else bs * (nb / nw)).
Proof. rewrite !a_eq. destruct (Z.leb_spec (w + 1) (nb mod nw)); [rewrite !Z.min_l by lia|rewrite !Z.min_r by lia]; lia. Qed.
Lemma a_end : a nw = bs * nb.
Proof.
  rewrite a_eq. pose proof nw_pos. pose proof (Z.mod_pos_bound nb nw ltac:(lia)). rewrite Z.min_r by lia.
  pose proof (Z.div_mod nb nw ltac:(lia)). f_equal. lia.
Qed.
Lemma a_step w : 0 <= w -> a w < a (w + 1).
Proof.
  intros. rewrite a_S. pose proof nw_pos. pose proof nb_spec.
  assert (0 < nb / nw) by (apply Z.div_str_pos; unfold nw, writers_of; fold nb; lia).
  destruct (_ <=? _); nia.
Qed.
Lemma a_mono w w' : 0 <= w -> w < w' -> a w < a w'.
Proof.
  intros H L. replace w' with (w + 1 + Z.of_nat (Z.to_nat (w' - w - 1))) by lia. generalize (Z.to_nat (w' - w - 1)) as k.
  induction k as [|k IH]; [replace (w + 1 + Z.of_nat 0) with (w + 1) by lia; now apply a_step|].
  replace (w + 1 + Z.of_nat (S k)) with (w + 1 + Z.of_nat k + 1) by lia. pose proof (a_step (w + 1 + Z.of_nat k) ltac:(lia)). lia.
Qed.
Hypothesis Hsize : F + bs < 2 ^ 64.
Hypothesis Hrho0 : rho 0 = 0.
Hypothesis Hrho : forall w, 0 < w < nw -> 0 < rho w < np /\ pos (rho w) < a w < pos (rho w + 1).
Hypothesis Hinc : forall w w', 0 <= w < w' -> w' < nw -> rho w < rho w'.
Hypothesis Hfit : forall w, 0 <= w < nw -> Z.min F (a (w + 1)) - a w <= int_max.
Lemma a_last : a (nw - 1) < F.
Proof.
  destruct (Z.eq_dec nw 1) as [E|E]; [rewrite E; change (1 - 1) with 0; rewrite a_0; apply F_pos|].
  pose proof nw_pos. destruct (Hrho (nw - 1) ltac:(lia)) as [B [_ L]]. unfold F. pose proof (pos_mono (rho (nw - 1) + 1) np ltac:(lia)). lia.
Qed.
Lemma a_lt_F w : 0 <= w < nw -> a w < F.
Proof.
  intros H. pose proof a_last. destruct (Z.eq_dec w (nw - 1)) as [->|]; [auto|]. pose proof (a_mono w (nw - 1) ltac:(lia) ltac:(lia)). lia.
Qed.

(* the data sizes and offsets as the ranks see them *)
Let ds := map s (zrange 0 np).
Let ofs r := if r =? 0 then 0 else pos r.
Lemma block_offsets_map h l : block_offsets h (map s (zrange l np)) = map (fun r => h + (pos r - pos l)) (zrange l np) \/ l < 0.
Proof.
  destruct (Z_lt_le_dec l 0) as [|Hl]; [now right|left]. 
  remember (Z.to_nat (np - l)) as n eqn:En. revert l h Hl En. induction n as [|n IH]; intros l h Hl En.
  - rewrite zrange_nil by lia. reflexivity.
  - rewrite zrange_cons by lia. cbn [map block_offsets]. f_equal; [lia|]. rewrite IH by lia. apply map_ext. intros r. rewrite (pos_S l) by lia. lia.
Qed.
Lemma offsets_eq : gpfs_offsets (zlen hd) ds = map ofs (zrange 0 np).
Proof.
  unfold gpfs_offsets, ds. destruct (block_offsets_map (zlen hd) 0) as [->|]; [|lia].
  rewrite (zrange_cons 0 np) by lia. cbn [map]. unfold ofs at 1. rewrite Z.eqb_refl. f_equal. apply map_ext_in. intros r Hr. apply in_zrange in Hr.
  unfold ofs. destruct (Z.eqb_spec r 0); [lia|]. rewrite pos_0. lia.
Qed.
Let en r := if r =? 0 then s 0 else pos (r + 1).
Lemma ends_eq : map (fun p => fst p + snd p) (combine (map ofs (zrange 0 np)) ds) = map en (zrange 0 np).
Proof.
  unfold ds. assert (forall l, (forall r, In r l -> 0 <= r) -> map (fun p => fst p + snd p) (combine (map ofs l) (map s l)) = map en l) as X.
  { induction l as [|r l IH]; intros H; [reflexivity|]. cbn [map combine]. rewrite IH by (intros; apply H; now right). f_equal.
    specialize (H r (or_introl eq_refl)). cbn [fst snd]. unfold ofs, en. destruct (Z.eqb_spec r 0) as [->|]; [lia|]. rewrite pos_S by lia. reflexivity. }
  apply X. intros r Hr. apply in_zrange in Hr. lia.
Qed.
Lemma sum_ds : zlen hd + sumZ ds = F.
Proof.
  unfold F, pos, position, ds, s. rewrite zlen_app, <- sum_zlen, map_map. reflexivity.
Qed.

Lemma writers_eq n w prev t : 0 <= w -> w + Z.of_nat n = nw -> (0 < w -> prev = a (w - 1)) -> t = (if w =? 0 then 0 else rho (w - 1) + 1) ->
  writers n w (bs * (nb / nw)) bs (nb mod nw) (map en (zrange 0 np)) prev t = Some (map (fun w => (a w, rho w)) (zrange w nw)).
Proof.
  revert w prev t. induction n as [|n IH]; intros w prev t Hw Hn Hp Ht.
  - rewrite (zrange_nil w nw) by lia. reflexivity.
  - cbn [writers]. rewrite (zrange_cons w nw) by lia. cbn [map].
    assert ((if 0 <? w then (if w <=? nb mod nw then bs * (nb / nw) + bs else bs * (nb / nw)) + prev else 0) = a w) as ->.
    { destruct (Z.ltb_spec 0 w) as [H|H].
      - rewrite Hp by auto. pose proof (a_S (w - 1)) as E. replace (w - 1 + 1) with w in E by lia. rewrite E. lia.
      - assert (w = 0) as -> by lia. now rewrite a_0. }
    assert (0 <= rho w < np /\ t <= rho w) as [B Bt].
    { destruct (Z.eqb_spec w 0) as [->|N]; [lia|]. destruct (Hrho w ltac:(lia)). specialize (Hinc (w - 1) w ltac:(lia) ltac:(lia)). lia. }
    assert (0 <= t) as T0.
    { destruct (Z.eqb_spec w 0) as [->|N]; [lia|]. destruct (Z.eq_dec w 1) as [->|]; [rewrite Ht; change (1 - 1) with 0; lia|].
      destruct (Hrho (w - 1) ltac:(lia)). lia. }
    rewrite (scan_ok _ _ t (Z.to_nat (rho w - t)) (en (rho w))).
    + cbn [bind]. replace (t + Z.of_nat (Z.to_nat (rho w - t))) with (rho w) by lia.
      rewrite IH; [reflexivity|lia|lia|intros; f_equal; lia|]. destruct (Z.eqb_spec (w + 1) 0); [lia|]. f_equal. f_equal. lia.
    + intros i e' Hi E. rewrite nth_skipn in E. replace (Z.to_nat t + i)%nat with (Z.to_nat (t + Z.of_nat i)) in E by lia.
      rewrite nth_map_zrange in E by lia. inversion E; subst e'. clear E.
      destruct (Z.eqb_spec w 0) as [->|N]; [lia|]. destruct (Hrho w ltac:(lia)) as [_ [L _]].
      unfold en. assert (0 < t + Z.of_nat i).
      { destruct (Z.eq_dec w 1) as [->|]; [rewrite Ht; change (1 - 1) with 0; lia|]. destruct (Hrho (w - 1) ltac:(lia)). lia. }
      destruct (Z.eqb_spec (t + Z.of_nat i) 0); [lia|]. pose proof (pos_mono (t + Z.of_nat i + 1) (rho w) ltac:(lia)). lia.
    + rewrite nth_skipn. replace (Z.to_nat t + Z.to_nat (rho w - t))%nat with (Z.to_nat (rho w)) by lia. now apply nth_map_zrange.
    + unfold en. destruct (Z.eqb_spec w 0) as [->|N].
      * rewrite Hrho0, a_0. cbn. unfold s. apply zlen_nonneg.
      * destruct (Hrho w ltac:(lia)) as [? [_ L]]. destruct (Z.eqb_spec (rho w) 0); lia.
Qed.

Let wr := map rho (zrange 0 nw) ++ [np - 1].
Let pl := mkPlan F nw (bs * (nb / nw)) (nb mod nw) (map a (zrange 0 nw)) wr.

Lemma make_plan_eq : make_plan np bs (zlen hd) ds = Some pl.
Proof.
  unfold make_plan. rewrite sum_ds, offsets_eq, ends_eq. pose proof F_pos. pose proof nw_pos. pose proof nb_spec.
  rewrite (Z.quot_div_nonneg F bs) by lia.
  assert ((if F / bs * bs <? F then F / bs + 1 else F / bs) = nb) as ->.
  { pose proof (Z.div_mod F bs ltac:(lia)). pose proof (Z.mod_pos_bound F bs ltac:(lia)). destruct (Z.ltb_spec (F / bs * bs) F); nia. }
  assert ((if np <? nb then np else nb) = nw) as ->.
  { unfold nw, writers_of. fold nb. destruct (Z.ltb_spec np nb); lia. }
  rewrite Z.quot_div_nonneg, Z.rem_mod_nonneg by lia. cbv zeta.
  rewrite (writers_eq (Z.to_nat nw) 0 0 0) by (try lia; reflexivity). cbn [bind]. rewrite !map_map. reflexivity.
Qed.

(* the writer in whose part the data of rank r begin, or that starts inside the data of rank r *)
Let sg r := zlen (filter (fun w => rho w <=? r) (zrange 1 nw)).
Lemma sg_spec r : 0 <= r -> 0 <= sg r < nw /\ rho (sg r) <= r /\ forall w, sg r < w < nw -> r < rho w.
Proof. intros H. apply count_spec; [pose proof nw_pos; lia|lia|auto]. Qed.
Lemma sg_unique r w : 0 <= r -> 0 <= w < nw -> rho w <= r -> (w + 1 < nw -> r < rho (w + 1)) -> sg r = w.
Proof.
  intros Hr Hw L G. destruct (sg_spec r Hr) as (B & L' & G'). destruct (Z.lt_trichotomy (sg r) w) as [H|[H|H]]; [|auto|].
  - specialize (G' w ltac:(lia)). lia.
  - specialize (G ltac:(lia)). destruct (Z.eq_dec (w + 1) (sg r)) as [E|E]; [rewrite E in G; lia|].
    specialize (Hinc (w + 1) (sg r) ltac:(lia) ltac:(lia)). lia.
Qed.
Lemma sg_rho w : 0 <= w < nw -> sg (rho w) = w.
Proof.
  intros H. apply sg_unique; auto; [|lia|].
  - destruct (Z.eq_dec w 0) as [->|]; [lia|]. destruct (Hrho w ltac:(lia)). lia.
  - intros H1. apply Hinc; lia.
Qed.
Let writer r := rho (sg r) =? r.
Lemma sg_prev_writer r : 0 < r -> writer r = true -> sg (r - 1) = sg r - 1 /\ 0 < sg r.
Proof.
  unfold writer. intros H E. apply Z.eqb_eq in E. destruct (sg_spec r ltac:(lia)) as (B & L & G).
  assert (0 < sg r) by (destruct (Z.eq_dec (sg r) 0) as [E0|]; [rewrite E0 in E; lia|lia]).
  split; [|auto]. apply sg_unique; [lia|lia| |].
  - specialize (Hinc (sg r - 1) (sg r) ltac:(lia) ltac:(lia)). lia.
  - intros _. replace (sg r - 1 + 1) with (sg r) by lia. lia.
Qed.
Lemma sg_prev_silent r : 0 < r -> writer r = false -> sg (r - 1) = sg r.
Proof.
  unfold writer. intros H E. apply Z.eqb_neq in E. destruct (sg_spec r ltac:(lia)) as (B & L & G).
  apply sg_unique; [lia|lia|lia|]. intros H1. specialize (G (sg r + 1) ltac:(lia)). lia.
Qed.
Lemma writer_0 : writer 0 = true /\ sg 0 = 0.
Proof.
  assert (sg 0 = 0) as E by (rewrite <- Hrho0 at 1; apply sg_rho; pose proof nw_pos; lia).
  unfold writer. rewrite E, Hrho0. auto.
Qed.

Let mis r := if r =? 0 then 0 else Z.min (s r) (a (sg (r - 1) + 1) - pos r).
Let ws r := Z.min F (a (sg r + 1)) - a (sg r).
Let lastr w := if w + 1 <? nw then rho (w + 1) else np - 1.

Lemma a_next r : 0 < r < np -> pos r <= a (sg (r - 1) + 1).
Proof.
  intros H. destruct (sg_spec (r - 1) ltac:(lia)) as (B & L & G). destruct (Z.eq_dec (sg (r - 1) + 1) nw) as [E|E].
  - rewrite E, a_end. pose proof nb_spec. pose proof (pos_mono r np ltac:(lia)). fold F in H1. lia.
  - specialize (G (sg (r - 1) + 1) ltac:(lia)). destruct (Hrho (sg (r - 1) + 1) ltac:(lia)).
    pose proof (pos_mono r (rho (sg (r - 1) + 1)) ltac:(lia)). lia.
Qed.
Lemma mis_writer r : 0 < r < np -> writer r = true -> mis r = a (sg r) - pos r /\ 0 < mis r < s r.
Proof.
  intros H W. destruct (sg_prev_writer r ltac:(lia) W) as [E P]. destruct (sg_spec r ltac:(lia)) as (B & _).
  apply Z.eqb_eq in W. destruct (Hrho (sg r) ltac:(lia)) as [_ Q]. rewrite W in Q. rewrite pos_S in Q by lia.
  unfold mis. destruct (Z.eqb_spec r 0); [lia|]. rewrite E. replace (sg r - 1 + 1) with (sg r) by lia. lia.
Qed.
Lemma mis_silent r : 0 < r < np -> writer r = false -> mis r = s r.
Proof.
  intros H W. pose proof (sg_prev_silent r ltac:(lia) W) as E. destruct (sg_spec r ltac:(lia)) as (B & _ & G).
  unfold mis. destruct (Z.eqb_spec r 0); [lia|]. rewrite E. apply Z.min_l.
  assert (pos (r + 1) <= a (sg r + 1)); [|rewrite pos_S in * by lia; lia].
  destruct (Z.eq_dec (sg r + 1) nw) as [E1|E1].
  - rewrite E1, a_end. pose proof nb_spec. pose proof (pos_mono (r + 1) np ltac:(lia)). fold F in H1. lia.
  - specialize (G (sg r + 1) ltac:(lia)). destruct (Hrho (sg r + 1) ltac:(lia)).
    pose proof (pos_mono (r + 1) (rho (sg r + 1)) ltac:(lia)). lia.
Qed.
Lemma mis_range r : 0 <= r < np -> 0 <= mis r <= s r.
Proof.
  intros H. destruct (Z.eq_dec r 0) as [->|]; [unfold mis; cbn; unfold s; pose proof (zlen_nonneg (blk 0)); lia|].
  destruct (writer r) eqn:W; [destruct (mis_writer r ltac:(lia) W); lia|rewrite mis_silent by (auto; lia); unfold s; pose proof (zlen_nonneg (blk r)); lia].
Qed.

Lemma wr_nth w : 0 <= w <= nw -> nth_error wr (Z.to_nat w) = Some (if w <? nw then rho w else np - 1).
Proof.
  intros H. unfold wr. destruct (Z.ltb_spec w nw).
  - rewrite nth_error_app1 by (rewrite map_length, length_zrange; lia). apply nth_map_zrange. lia.
  - rewrite nth_error_app2 by (rewrite map_length, length_zrange; lia). rewrite map_length, length_zrange.
    replace (Z.to_nat w - Z.to_nat (nw - 0))%nat with O by lia. reflexivity.
Qed.
Lemma wr_get w : 0 <= w <= nw -> get wr w = Some (if w <? nw then rho w else np - 1).
Proof. intros H. unfold get. destruct (Z.ltb_spec w 0); [lia|]. now apply wr_nth. Qed.

Let prevw r := if r =? 0 then 0 else sg (r - 1).
Lemma rank_plan_eq r : 0 <= r < np ->
  rank_plan bs pl (gpfs_offsets (zlen hd) ds) ds r = Some (prevw r, sg r + 1, ws r, mis r).
Proof.
  intros Hr. rewrite offsets_eq. unfold rank_plan. cbn [pl_nwriters pl_writeranks pl_aoffsets pl_excess pl_writesize pl_filesize pl].
  pose proof nw_pos. destruct (sg_spec r ltac:(lia)) as (B & L & G).
  assert ((if r =? 0 then Some 0 else prev_writer (Z.to_nat nw) wr r) = Some (prevw r)) as ->.
  { unfold prevw. destruct (Z.eqb_spec r 0); [auto|]. destruct (sg_spec (r - 1) ltac:(lia)) as (B1 & L1 & G1).
    rewrite (prev_writer_ok _ _ _ (Z.to_nat (sg (r - 1))) (rho (sg (r - 1)))).
    - f_equal. lia.
    - lia.
    - rewrite wr_nth by lia. destruct (Z.ltb_spec (sg (r - 1)) nw); [auto|lia].
    - lia.
    - intros i Hi. replace i with (Z.to_nat (Z.of_nat i)) by lia. rewrite wr_nth by lia. eexists; split; [reflexivity|].
      destruct (Z.ltb_spec (Z.of_nat i) nw); [|lia]. specialize (G1 (Z.of_nat i) ltac:(lia)). lia. }
  cbn [bind]. rewrite wr_get by lia. destruct (Z.ltb_spec (nw - 1) nw); [|lia]. cbn [bind].
  assert ((if rho (nw - 1) <=? r then Some nw else next_writer wr r 0) = Some (sg r + 1)) as ->.
  { destruct (Z.leb_spec (rho (nw - 1)) r) as [H1|H1].
    - f_equal. rewrite (sg_unique r (nw - 1)); [lia|lia|lia|lia|lia].
    - assert (sg r + 1 < nw) as H2.
      { destruct (Z.eq_dec (sg r) (nw - 1)) as [E|]; [rewrite E in L; lia|lia]. }
      rewrite (next_writer_ok _ _ _ (Z.to_nat (sg r + 1)) (rho (sg r + 1))).
      + f_equal. lia.
      + rewrite wr_nth by lia. destruct (Z.ltb_spec (sg r + 1) nw); [auto|lia].
      + apply G. lia.
      + intros i t' Hi E. replace i with (Z.to_nat (Z.of_nat i)) in E by lia. rewrite wr_nth in E by lia.
        destruct (Z.ltb_spec (Z.of_nat i) nw); [|lia]. inversion E; subst t'.
        destruct (Z.eq_dec (Z.of_nat i) (sg r)) as [E1|]; [rewrite E1; lia|]. specialize (Hinc (Z.of_nat i) (sg r) ltac:(lia) ltac:(lia)). lia. }
  cbn [bind]. rewrite get_map_zrange by lia. cbn [bind].
  assert ((if rho (nw - 1) <=? r then F - a (nw - 1) else if sg r + 1 <=? nb mod nw then bs * (nb / nw) + bs else bs * (nb / nw)) = ws r) as ->.
  { unfold ws. destruct (Z.leb_spec (rho (nw - 1)) r) as [H1|H1].
    - rewrite (sg_unique r (nw - 1)) by lia. replace (nw - 1 + 1) with nw by lia. rewrite a_end. pose proof nb_spec. rewrite Z.min_l by lia. lia.
    - assert (sg r + 1 < nw) as H2.
      { destruct (Z.eq_dec (sg r) (nw - 1)) as [E|]; [rewrite E in L; lia|lia]. }
      pose proof (a_lt_F (sg r + 1) ltac:(lia)). rewrite Z.min_r by lia. rewrite a_S. lia. }
  assert ((if 0 <? r then do a0 <- get (map a (zrange 0 nw)) (prevw r);
       do o <- get (map ofs (zrange 0 np)) r; do size <- get ds r;
       Some (if size <? (a0 + (if nb mod nw <=? prevw r then bs * (nb / nw) else bs * (nb / nw) + bs) - o) mod 2 ^ 64 then size
             else (a0 + (if nb mod nw <=? prevw r then bs * (nb / nw) else bs * (nb / nw) + bs) - o) mod 2 ^ 64)
     else Some 0) = Some (mis r)) as ->; [|reflexivity].
  destruct (Z.ltb_spec 0 r) as [H1|H1].
  - destruct (sg_spec (r - 1) ltac:(lia)) as (B1 & _). unfold prevw. destruct (Z.eqb_spec r 0); [lia|].
    rewrite get_map_zrange by lia. cbn [bind]. rewrite get_map_zrange by lia. cbn [bind]. unfold ds. rewrite get_map_zrange by lia. cbn [bind].
    unfold ofs. destruct (Z.eqb_spec r 0); [lia|].
    assert (a (sg (r - 1)) + (if nb mod nw <=? sg (r - 1) then bs * (nb / nw) else bs * (nb / nw) + bs) = a (sg (r - 1) + 1)) as ->.
    { rewrite a_S. destruct (Z.leb_spec (nb mod nw) (sg (r - 1))), (Z.leb_spec (sg (r - 1) + 1) (nb mod nw)); lia. }
    pose proof (a_next r ltac:(lia)). pose proof (pos_nonneg r). pose proof nb_spec.
    assert (a (sg (r - 1) + 1) <= a nw) by (destruct (Z.eq_dec (sg (r - 1) + 1) nw) as [->|]; [lia|]; pose proof (a_mono (sg (r - 1) + 1) nw ltac:(lia) ltac:(lia)); lia).
    rewrite a_end in *. rewrite Z.mod_small by lia. unfold mis. destruct (Z.eqb_spec r 0); [lia|].
    f_equal. destruct (Z.ltb_spec (s r) (a (sg (r - 1) + 1) - pos r)); lia.
  - assert (r = 0) as -> by lia. reflexivity.
Qed.

(* ---- the contents of the parts ---- *)
Let file := hd ++ concat (map blk (zrange 0 np)).
Let pre x := firstn (Z.to_nat x) file.
Lemma pre_pos r : 0 <= r <= np -> pre (pos r) = hd ++ concat (map blk (zrange 0 r)).
Proof.
  intros H. unfold pre, file. rewrite (zrange_app 0 r np) by lia. rewrite map_app, concat_app, app_assoc.
  unfold pos, position. rewrite firstn_app. unfold zlen. rewrite Nat2Z.id, Nat.sub_diag, firstn_O, app_nil_r. apply firstn_all.
Qed.
Lemma pre_add r k : 0 <= r < np -> 0 <= k <= s r -> pre (pos r + k) = pre (pos r) ++ firstn (Z.to_nat k) (blk r).
Proof.
  intros H Hk. rewrite pre_pos by lia. unfold pre, file. rewrite (zrange_app 0 r np) by lia. rewrite (zrange_cons r np) by lia.
  rewrite map_app, concat_app, app_assoc. cbn [map concat]. pose proof (pos_nonneg r).
  assert (length (hd ++ concat (map blk (zrange 0 r))) = Z.to_nat (pos r)) as L by (unfold pos, position, zlen; lia).
  rewrite firstn_app, firstn_all2 by lia. f_equal. rewrite L. replace (Z.to_nat (pos r + k) - Z.to_nat (pos r))%nat with (Z.to_nat k) by lia.
  rewrite firstn_app. unfold s, zlen in Hk. replace (Z.to_nat k - length (blk r))%nat with O by lia. now rewrite firstn_O, app_nil_r.
Qed.
Lemma pre_S r : 0 <= r < np -> pre (pos (r + 1)) = pre (pos r) ++ blk r.
Proof.
  intros H. rewrite pos_S by lia. rewrite pre_add; [|auto|unfold s; pose proof (zlen_nonneg (blk r)); lia].
  f_equal. apply firstn_all2. unfold s, zlen. lia.
Qed.
Lemma zlen_file : zlen file = F.
Proof. reflexivity. Qed.
Lemma zlen_pre x : 0 <= x <= F -> zlen (pre x) = x.
Proof. intros H. rewrite <- zlen_file in H. unfold pre, zlen in *. rewrite firstn_length. lia. Qed.

Let m r := firstn (Z.to_nat (mis r)) (blk r).
Let own r := (if r =? 0 then hd else []) ++ skipn (Z.to_nat (mis r)) (blk r).
Let srcs r := zrange (r + 1) (lastr (sg r) + 1).
Lemma zlen_m r : 0 <= r < np -> zlen (m r) = mis r.
Proof. intros H. pose proof (mis_range r H). unfold m, s, zlen in *. rewrite firstn_length. lia. Qed.

Lemma lastr_range r : 0 <= r < np -> r <= lastr (sg r) < np.
Proof.
  intros H. destruct (sg_spec r ltac:(lia)) as (B & L & G). unfold lastr. destruct (Z.ltb_spec (sg r + 1) nw); [|lia].
  specialize (G (sg r + 1) ltac:(lia)). destruct (Hrho (sg r + 1) ltac:(lia)). lia.
Qed.
(* the ranks a writer receives from *)
Lemma src_sg r q : 0 <= r < np -> writer r = true -> r < q <= lastr (sg r) -> sg (q - 1) = sg r.
Proof.
  intros Hr W Hq. destruct (sg_spec r ltac:(lia)) as (B & L & G). apply sg_unique; [lia|lia|lia|].
  intros H1. unfold lastr in Hq. destruct (Z.ltb_spec (sg r + 1) nw); lia.
Qed.
Lemma content r : 0 <= r < np -> writer r = true ->
  pre (a (sg r)) ++ own r ++ concat (map m (srcs r)) = pre (Z.min F (a (sg r + 1))).
Proof.
  intros Hr W.
  assert (pre (a (sg r)) ++ own r = pre (pos (r + 1))) as E1.
  { rewrite pre_S by lia. unfold own. destruct (Z.eqb_spec r 0) as [->|N].
    - destruct writer_0 as [_ ->]. rewrite a_0. change (pre 0) with (@nil byte). change (mis 0) with 0. change (Z.to_nat 0) with O. cbn [skipn app].
      rewrite pre_pos by lia. rewrite zrange_nil by lia. cbn. now rewrite app_nil_r.
    - destruct (mis_writer r ltac:(lia) W) as [E B]. replace (a (sg r)) with (pos r + mis r) by lia.
      rewrite pre_add by lia. cbn [app]. rewrite <- app_assoc. f_equal. apply firstn_skipn. }
  rewrite app_assoc, E1. pose proof (lastr_range r Hr) as B. destruct (sg_spec r ltac:(lia)) as (Bs & L & G).
  assert (forall j : nat, r + 1 + Z.of_nat j <= np -> (forall q, r < q < r + 1 + Z.of_nat j -> writer q = false) ->
    pre (pos (r + 1)) ++ concat (map m (zrange (r + 1) (r + 1 + Z.of_nat j))) = pre (pos (r + 1 + Z.of_nat j))) as X.
  { induction j as [|j IH]; intros Hj Hw.
    - rewrite zrange_nil by lia. cbn. rewrite app_nil_r. f_equal. f_equal. lia.
    - replace (r + 1 + Z.of_nat (S j)) with (r + 1 + Z.of_nat j + 1) by lia. rewrite zrange_snoc by lia.
      rewrite map_app, concat_app, app_assoc, IH by (try lia; intros; apply Hw; lia). cbn [map concat]. rewrite app_nil_r.
      rewrite pre_S by lia. f_equal. unfold m. rewrite mis_silent by (try apply Hw; lia). apply firstn_all2. unfold s, zlen. lia. }
  assert (forall q, r < q -> q < rho (sg r + 1) \/ nw <= sg r + 1 -> writer q = false) as Sil.
  { intros q Hq H. unfold writer. apply Z.eqb_neq. intros E. assert (sg q = sg r) as E2.
    { apply sg_unique; [lia|lia|lia|]. intros; lia. }
    apply Z.eqb_eq in W. rewrite E2 in E. lia. }
  unfold srcs, lastr in *. destruct (Z.ltb_spec (sg r + 1) nw) as [H1|H1].
  - destruct (Hrho (sg r + 1) ltac:(lia)) as [_ Q]. pose proof (a_lt_F (sg r + 1) ltac:(lia)). rewrite Z.min_r by lia.
    pose proof (sg_rho (sg r + 1) ltac:(lia)) as Er. set (q := rho (sg r + 1)) in *.
    assert (r < q) by (apply G; lia).
    rewrite zrange_snoc by lia. rewrite map_app, concat_app, app_assoc.
    specialize (X (Z.to_nat (q - r - 1))). replace (r + 1 + Z.of_nat (Z.to_nat (q - r - 1))) with q in X by lia.
    rewrite X by (try lia; intros; apply Sil; lia). cbn [map concat]. rewrite app_nil_r.
    assert (writer q = true) as Wq by (unfold writer; rewrite Er; apply Z.eqb_refl).
    destruct (mis_writer q ltac:(lia) Wq) as [E B']. rewrite Er in E.
    replace (a (sg r + 1)) with (pos q + mis q) by lia. rewrite pre_add by lia. reflexivity.
  - replace (sg r + 1) with nw by lia. rewrite a_end. pose proof nb_spec. rewrite Z.min_l by lia.
    specialize (X (Z.to_nat (np - r - 1))). replace (r + 1 + Z.of_nat (Z.to_nat (np - r - 1))) with (np - 1 + 1) in X by lia.
    rewrite X by (try lia; intros; apply Sil; lia). unfold F. f_equal. f_equal. lia.
Qed.
Lemma content_len r : 0 <= r < np -> writer r = true -> zlen (own r ++ concat (map m (srcs r))) = ws r.
Proof.
  intros Hr W. pose proof (content r Hr W) as E. apply (f_equal zlen) in E. rewrite zlen_app in E.
  destruct (sg_spec r ltac:(lia)) as (B & _). pose proof (a_lt_F (sg r) ltac:(lia)). pose proof (a_mono (sg r) (sg r + 1) ltac:(lia) ltac:(lia)).
  assert (0 <= a (sg r)) by (destruct (Z.eq_dec (sg r) 0) as [->|]; [rewrite a_0; lia|pose proof (a_mono 0 (sg r) ltac:(lia) ltac:(lia)); rewrite a_0 in *; lia]).
  rewrite !zlen_pre in E by lia. unfold ws. lia.
Qed.

(* ---- the communication ---- *)
Let wp r := rho (prevw r).
Let W r : list write := if writer r then [(a (sg r), own r ++ concat (map m (srcs r)))] else [].
Let tailp r := barrier (barrier (barrier (barrier (Ret (W r))))).
Let wait r (p : proc (list write)) := if 0 <? r then WaitSend (wp r) r p else p.
Let misl := map mis (zrange 0 np).
Let rest r := if writer r
  then recv_all (srcs r) misl (own r) (fun buf => wait r (barrier (file_write pl r (ws r) (Some (buf ++ repeat 0 (Z.to_nat (ws r - zlen buf)))))))
  else wait r (barrier (file_write pl r (ws r) None)).
Let act r := if 0 <? r then Isend (wp r) r (m r) (rest r) else rest r.

Lemma prevw_range r : 0 <= r < np -> 0 <= prevw r < nw.
Proof.
  intros H. unfold prevw. destruct (Z.eqb_spec r 0); [pose proof nw_pos; lia|]. apply sg_spec. lia.
Qed.
Lemma rho_range w : 0 <= w < nw -> 0 <= rho w < np.
Proof. intros H. destruct (Z.eq_dec w 0) as [->|]; [lia|]. destruct (Hrho w ltac:(lia)). lia. Qed.
Lemma wp_lt r : 0 < r < np -> 0 <= wp r < r.
Proof.
  intros H. pose proof (prevw_range r ltac:(lia)). pose proof (rho_range (prevw r) ltac:(lia)). unfold wp in *. split; [lia|].
  unfold prevw. destruct (Z.eqb_spec r 0); [lia|]. destruct (sg_spec (r - 1) ltac:(lia)). lia.
Qed.
Lemma writer_in r : 0 <= r < np -> existsb (Z.eqb r) (firstn (Z.to_nat nw) wr) = writer r.
Proof.
  intros Hr. unfold wr. rewrite firstn_app, firstn_all2 by (rewrite map_length, length_zrange; lia).
  rewrite map_length, length_zrange. replace (Z.to_nat nw - Z.to_nat (nw - 0))%nat with O by lia. rewrite firstn_O, app_nil_r.
  destruct (sg_spec r ltac:(lia)) as (B & _). destruct (writer r) eqn:Wr.
  - apply existsb_exists. exists (rho (sg r)). split; [apply in_map, in_zrange; lia|]. unfold writer in Wr. lia.
  - apply not_true_iff_false. intros E. apply existsb_exists in E as (x & Hx & Ex). apply in_map_iff in Hx as (w & <- & Hw). apply in_zrange in Hw.
    apply Z.eqb_eq in Ex. subst r. unfold writer in Wr. rewrite sg_rho in Wr by lia. lia.
Qed.

Lemma aggregate_eq r : 0 <= r < np -> aggregate np hd (blk r) r ds pl (prevw r) (sg r + 1) (ws r) misl = act r.
Proof.
  intros Hr. unfold aggregate. cbn [pl_nwriters pl_writeranks pl]. destruct (sg_spec r ltac:(lia)) as (B & _).
  pose proof (prevw_range r Hr) as Bp. pose proof (mis_range r Hr) as Bm.
  rewrite !wr_get by lia. destruct (Z.ltb_spec (prevw r) nw); [|lia].
  unfold misl at 1, ds. rewrite !get_map_zrange by lia. cbn [lift]. rewrite writer_in by auto. fold (lastr (sg r)). fold (wp r). fold (srcs r). fold (own r).
  destruct (Hblk r Hr) as [Bb _]. fold (s r) in Bb.
  unfold act, rest. destruct (writer r) eqn:Wr.
  - assert (mis r < s r /\ (0 < r -> 0 < mis r)) as [Lm Lp].
    { destruct (Z.eq_dec r 0) as [->|]; [change (mis 0) with 0; lia|]. destruct (mis_writer r ltac:(lia) Wr). lia. }
    destruct (Z.ltb_spec (mis r) (s r)); [|lia]. cbn [negb].
    pose proof (lastr_range r Hr) as Bl.
    assert (map_opt (get misl) (srcs r) = Some (map mis (srcs r))) as ->.
    { apply map_opt_map. intros q Hq. apply in_zrange in Hq. unfold misl. apply get_map_zrange. lia. }
    cbn [lift].
    assert (existsb (Z.eqb 0) (map mis (srcs r)) = false) as ->.
    { apply not_true_iff_false. intros E. apply existsb_exists in E as (x & Hx & Ex). apply in_map_iff in Hx as (q & <- & Hq). apply in_zrange in Hq.
      destruct (Hblk q ltac:(lia)) as [Bq _]. fold (s q) in Bq. destruct (writer q) eqn:Wq; [destruct (mis_writer q ltac:(lia) Wq)|rewrite mis_silent in Ex by (auto; lia)]; lia. }
    assert (zlen (own r) + sumZ (map mis (srcs r)) = ws r) as ->.
    { rewrite <- (content_len r Hr Wr), zlen_app. f_equal. rewrite <- sum_zlen, map_map. f_equal. apply map_ext_in.
      intros q Hq. apply in_zrange in Hq. symmetry. apply zlen_m. lia. }
    rewrite Z.ltb_irrefl. unfold wait. destruct (Z.ltb_spec 0 r) as [Hz|Hz].
    + destruct (Z.eqb_spec (mis r) 0); [lia|]. pose proof (wp_lt r ltac:(lia)). destruct (Z.ltb_spec (wp r) r); [|lia]. reflexivity.
    + reflexivity.
  - assert (0 < r) as H0 by (destruct (Z.eq_dec r 0) as [->|]; [destruct writer_0; congruence|lia]).
    rewrite mis_silent by (auto; lia). rewrite Z.ltb_irrefl. pose proof (wp_lt r ltac:(lia)).
    destruct (Z.ltb_spec (wp r) r); [|lia]. destruct (Z.ltb_spec (wp r) np); [|lia]. cbn [negb andb]. unfold wait.
    destruct (Z.ltb_spec 0 r); [|lia]. f_equal. unfold m. rewrite mis_silent by (auto; lia). symmetry. apply firstn_all2. unfold s, zlen. lia.
Qed.

Lemma file_write_eq r : 0 <= r < np -> writer r = true ->
  let buf := own r ++ concat (map m (srcs r)) in
  barrier (file_write pl r (ws r) (Some (buf ++ repeat 0 (Z.to_nat (ws r - zlen buf))))) = tailp r.
Proof.
  intros Hr Wr buf. unfold buf at 2. rewrite content_len by auto. rewrite Z.sub_diag. change (Z.to_nat 0) with O. cbn [repeat]. rewrite app_nil_r.
  unfold file_write, tailp. do 3 f_equal. destruct (sg_spec r ltac:(lia)) as (B & L & G). cbn [pl_nwriters pl_writeranks pl_aoffsets pl_filesize pl].
  pose proof Wr as E. apply Z.eqb_eq in E.
  rewrite (next_writer_ok _ _ _ (Z.to_nat (sg r)) r).
  2:{ rewrite wr_nth by lia. destruct (Z.ltb_spec (sg r) nw); [f_equal; auto|lia]. }
  2:{ lia. }
  2:{ intros i t' Hi Ei. replace i with (Z.to_nat (Z.of_nat i)) in Ei by lia. rewrite wr_nth in Ei by lia.
      destruct (Z.ltb_spec (Z.of_nat i) nw); [|lia]. inversion Ei; subst t'.
      specialize (Hinc (Z.of_nat i) (sg r) ltac:(lia) ltac:(lia)). lia. }
  cbn [lift]. replace (0 + Z.of_nat (Z.to_nat (sg r))) with (sg r) by lia. rewrite get_map_zrange by lia. cbn [lift].
  destruct (Z.ltb_spec (sg r) nw); [|lia]. cbn [negb orb].
  assert ((sg r =? nw - 1) && negb (F - a (sg r) =? ws r) = false) as ->.
  { destruct (Z.eqb_spec (sg r) (nw - 1)) as [E1|]; [|reflexivity]. cbn [andb]. unfold ws. replace (sg r + 1) with nw by lia. rewrite a_end.
    pose proof nb_spec. rewrite Z.min_l by lia. rewrite Z.eqb_refl. reflexivity. }
  specialize (Hfit (sg r) ltac:(lia)). fold (ws r) in Hfit. destruct (Z.ltb_spec int_max (ws r)); [lia|]. cbn [orb].
  unfold W. rewrite Wr. reflexivity.
Qed.

Lemma transfers : exists n ch, quiet ch /\ gsteps n (ranks np act, no_chans) (ranks np tailp, ch).
Proof.
  destruct (all_runs np act rest (fun r c => forall x d t, chan c x d t = if (x =? t) && (0 <? x) && (x <? r) && (d =? wp x) then [m x] else [])
    no_chans) as (n1 & c1 & G1 & I1).
  { lia. }
  { intros x d t. rewrite quiet_empty. destruct (Z.ltb_spec 0 x), (Z.ltb_spec x 0); try lia; rewrite ?andb_false_r; auto. }
  { intros r c Hr Hc. unfold act. destruct (Z.ltb_spec 0 r) as [H|H].
    - pose proof (wp_lt r ltac:(lia)). eexists. split.
      + eapply lruns_S; [|apply lruns_0]. apply step_isend. lia.
      + intros x d t. rewrite chan_set. rewrite !Hc.
        destruct (Z.eqb_spec x r), (Z.eqb_spec d (wp r)), (Z.eqb_spec t r), (Z.eqb_spec x t); subst; cbn [andb]; try lia; auto;
        rewrite ?Z.eqb_refl, ?Z.ltb_irrefl; cbn [andb];
        repeat match goal with |- context [?u <? ?v] => destruct (Z.ltb_spec u v) end; cbn [andb]; try lia; auto;
        repeat match goal with |- context [?u =? ?v] => destruct (Z.eqb_spec u v) end; cbn [andb]; try lia; auto.
    - exists c. split; [constructor|]. intros x d t. rewrite Hc.
      repeat match goal with |- context [?u <? ?v] => destruct (Z.ltb_spec u v) end; rewrite ?andb_false_r; auto; lia. }
  destruct (all_runs np rest (fun r => wait r (tailp r))
    (fun r c => forall x d t, chan c x d t = if (x =? t) && (0 <? x) && (x <? np) && (d =? wp x) && (r <=? d) then [m x] else []) c1) as (n2 & c2 & G2 & I2).
  { lia. }
  { intros x d t. rewrite I1. destruct (Z.eqb_spec x t), (Z.ltb_spec 0 x), (Z.ltb_spec x np), (Z.eqb_spec d (wp x)); cbn [andb]; auto.
    pose proof (wp_lt x ltac:(lia)). destruct (Z.leb_spec 0 d); [auto|lia]. }
  { intros r c Hr Hc. unfold rest. destruct (sg_spec r ltac:(lia)) as (B & L & G). destruct (writer r) eqn:Wr.
    - pose proof (lastr_range r Hr) as Bl.
      assert (forall x, 0 < x < np -> wp x = r <-> In x (srcs r)) as S.
      { intros x Hx. unfold srcs. rewrite in_zrange. unfold wp, prevw. destruct (Z.eqb_spec x 0); [lia|]. destruct (sg_spec (x - 1) ltac:(lia)) as (B1 & L1 & G9). split.
        - intros E. assert (sg r = sg (x - 1)) as E1 by (rewrite <- E; apply sg_rho; lia). split; [lia|].
          unfold lastr. destruct (Z.ltb_spec (sg r + 1) nw); [|lia]. specialize (G9 (sg r + 1) ltac:(lia)). lia.
        - intros H. rewrite (src_sg r x) by (auto; lia). unfold writer in Wr. lia. }
      destruct (recv_all_runs np r (srcs r) misl m (fun buf => wait r (barrier (file_write pl r (ws r) (Some (buf ++ repeat 0 (Z.to_nat (ws r - zlen buf)))))))
        (NoDup_zrange _ _)) with (acc := own r) (c := c) as (c' & R & Ec).
      + intros x Hx. apply in_zrange in Hx as Hx'. unfold misl. rewrite get_map_zrange by lia. rewrite zlen_m by lia. split; [lia|auto].
      + intros x Hx. apply in_zrange in Hx as Hx'. rewrite Hc. apply S in Hx as E; [|lia]. rewrite E.
        rewrite !Z.eqb_refl. destruct (Z.ltb_spec 0 x), (Z.ltb_spec x np), (Z.leb_spec r r); cbn [andb]; auto; lia.
      + exists c'. split.
        * rewrite file_write_eq in R by auto. exact R.
        * intros x d t. rewrite Ec, Hc.
          destruct (Z.eqb_spec x t) as [<-|]; cbn [andb]; [|auto].
          destruct (Z.ltb_spec 0 x), (Z.ltb_spec x np); cbn [andb]; try (destruct ((d =? r) && _); reflexivity).
          destruct (Z.eqb_spec d (wp x)) as [->|]; cbn [andb]; [|destruct ((d =? r) && _); reflexivity].
          destruct (Z.eqb_spec (wp x) r) as [E|E]; cbn [andb].
          -- assert (existsb (Z.eqb x) (srcs r) = true) as ->.
             { apply existsb_exists. exists x. split; [apply S; auto; lia|apply Z.eqb_refl]. }
             rewrite E. destruct (Z.leb_spec (r + 1) r); [lia|auto].
          -- destruct (Z.leb_spec r (wp x)), (Z.leb_spec (r + 1) (wp x)); auto; lia.
    - exists c. split.
      + replace (barrier (file_write pl r (ws r) None)) with (tailp r) by (unfold tailp, W; now rewrite Wr). constructor.
      + intros x d t. rewrite Hc. destruct (Z.eqb_spec x t) as [<-|]; cbn [andb]; [|auto].
        destruct (Z.ltb_spec 0 x), (Z.ltb_spec x np); cbn [andb]; auto. destruct (Z.eqb_spec d (wp x)) as [->|]; cbn [andb]; [|auto].
        destruct (Z.leb_spec r (wp x)), (Z.leb_spec (r + 1) (wp x)); auto; try lia.
        assert (r = wp x) as -> by lia. unfold writer, wp in Wr. rewrite sg_rho in Wr by (apply prevw_range; lia). lia. }
  destruct (all_runs np (fun r => wait r (tailp r)) tailp (fun _ => quiet) c2) as (n3 & c3 & G3 & I3).
  { lia. }
  { intros x d t. rewrite I2. destruct (Z.eqb_spec x t), (Z.ltb_spec 0 x), (Z.ltb_spec x np), (Z.eqb_spec d (wp x)); cbn [andb]; auto.
    pose proof (wp_lt x ltac:(lia)). destruct (Z.leb_spec np d); [lia|auto]. }
  { intros r c Hr Hc. exists c. split; [|auto]. unfold wait. destruct (0 <? r); [|constructor].
    eapply lruns_S; [apply step_wait; apply Hc|constructor]. }
  exists (n1 + (n2 + n3))%nat, c3. split; [auto|]. eapply gsteps_app; [exact G1|]. eapply gsteps_app; eauto.
Qed.

Theorem aligned_output : exists f, finished np W f /\
  inevitable (ranks np (fun r => output_gpfs np bs hd (blk r) r), no_chans) f /\
  forall ps, carries_out ps (flat_map W (zrange 0 np)) -> fold_left write_at ps [] = file.
Proof.
  destruct transfers as (n & ch & Q & G).
  assert (gsteps (6 + (n + 4)) (ranks np (fun r => output_gpfs np bs hd (blk r) r), no_chans) (ranks np (fun r => Ret (W r)), ch)) as GG.
  { change (6 + (n + 4))%nat with (4 + (1 + (1 + (n + 4))))%nat. eapply gsteps_app.
    { apply (start_up np bs hd blk); [auto| |intros; now apply Hblk]. pose proof (pos_mono 0 np ltac:(lia)) as M. rewrite pos_0 in M. fold F in M. lia. }
    fold s. fold ds.
    refine (eq_ind_r (fun p => gsteps _ (p, no_chans) _) _ (ranks_ext np _ (fun r => Coll 2 (pd_enc pod_ulong (mis r))
      (fun ms => barrier (aggregate np hd (blk r) r ds pl (prevw r) (sg r + 1) (ws r) (map (pd_dec pod_ulong) ms)))) _)).
    2:{ intros r Hr. unfold align.
        assert (forallb (fun n => n <? int_max) (tl ds) = true) as ->.
        { apply forallb_forall. intros x Hx. unfold ds in Hx. rewrite zrange_cons in Hx by lia. cbn [map tl] in Hx.
          apply in_map_iff in Hx as (q & <- & Hq). apply in_zrange in Hq. apply Z.ltb_lt. apply Hblk. lia. }
        cbn [guard lift]. rewrite make_plan_eq. cbn [lift]. rewrite rank_plan_eq by auto. reflexivity. }
    eapply gsteps_app.
    { apply gsteps_1. apply (all_coll np 2 (fun r => pd_enc pod_ulong (mis r)) (fun r ms => barrier (aggregate np hd (blk r) r ds pl (prevw r) (sg r + 1) (ws r) (map (pd_dec pod_ulong) ms)))). lia. }
    refine (eq_ind_r (fun p => gsteps _ (p, no_chans) _) _ (ranks_ext np _ (fun r => barrier (act r)) _)).
    2:{ intros r Hr. rewrite <- aggregate_eq by auto. f_equal. f_equal. unfold misl. rewrite map_map. apply map_ext_in. intros q Hq. apply in_zrange in Hq. apply ulong_back.
        pose proof (mis_range q Hq). pose proof (Hblk q Hq) as Hb. unfold s in *. unfold int_max in Hb. lia. }
    eapply gsteps_app; [apply gsteps_1; now apply all_barrier|].
    eapply gsteps_app; [exact G|].
    do 4 (eapply gsteps_S; [now apply all_barrier|]). constructor. }
  destruct (conclude np _ W _ _ _ Hnp Q GG) as (f & F1 & F2). exists f. split; [auto|]. split; [auto|].
  intros ps C. eapply carried_make; [| |exact C].
  - intros w Hw. apply in_flat_map in Hw as (r & Hr & Hw). apply in_zrange in Hr. unfold W in Hw. destruct (writer r) eqn:Wr; [|contradiction].
    destruct Hw as [<-|[]]. cbn [fst snd]. exists (pre (a (sg r))), (skipn (Z.to_nat (Z.min F (a (sg r + 1)))) file). split.
    + rewrite app_assoc, content by auto. symmetry. apply firstn_skipn.
    + destruct (sg_spec r ltac:(lia)) as (B & _). pose proof (a_lt_F (sg r) ltac:(lia)).
      assert (0 <= a (sg r)) by (destruct (Z.eq_dec (sg r) 0) as [->|]; [rewrite a_0; lia|pose proof (a_mono 0 (sg r) ltac:(lia) ltac:(lia)); rewrite a_0 in *; lia]).
      rewrite zlen_pre by lia. reflexivity.
  - intros k Hk. rewrite zlen_file in Hk. pose proof nw_pos.
    destruct (bracket a nw k ltac:(lia) ltac:(rewrite a_0; lia)) as (w & Bw & L & G1).
    pose proof (rho_range w Bw) as Br. pose proof (sg_rho w Bw) as Es.
    assert (writer (rho w) = true) as Wr by (unfold writer; rewrite Es; apply Z.eqb_refl).
    exists (a w, own (rho w) ++ concat (map m (srcs (rho w)))). split.
    + apply in_flat_map. exists (rho w). split; [apply in_zrange; lia|]. unfold W. rewrite Wr, Es. now left.
    + cbn [fst snd]. rewrite content_len by auto. unfold ws. rewrite Es. split; [auto|].
      destruct (Z_lt_le_dec (w + 1) nw) as [H1|H1]; [specialize (G1 H1); lia|].
      replace (w + 1) with nw by lia. rewrite a_end. pose proof nb_spec. lia.
Qed.
End Plan.
