From Verif Require Import Model.Base Model.Text Model.Boundary Model.Layout Model.Setup Model.Codec Model.Region
  Model.MPI Model.Ghostswap Model.File Spec.Bytes Spec.Schedule Spec.File
  Proof.BaseL Proof.CodecL Proof.MPIL Proof.FileL.
Local Open Scope list_scope.

Lemma zlen_write_at f off bs : 0 <= off -> zlen (write_at f (off, bs)) = Z.max (zlen f) (off + zlen bs).
Proof.
  intros H. unfold write_at, zlen. rewrite !app_length, firstn_length, skipn_length, app_length, repeat_length. lia.
Qed.

Lemma nth_write_at f off bs k : 0 <= off -> 0 <= k ->
  nth (Z.to_nat k) (write_at f (off, bs)) 0 =
    if (off <=? k) && (k <? off + zlen bs) then nth (Z.to_nat (k - off)) bs 0 else nth (Z.to_nat k) f 0.
Proof.
  intros Ho Hk. unfold write_at.
  assert (length (firstn (Z.to_nat off) (f ++ repeat 0 (Z.to_nat off))) = Z.to_nat off) as L.
  { rewrite firstn_length, app_length, repeat_length. lia. }
  destruct (Z.leb_spec off k) as [H1|H1]; cbn [andb].
  - rewrite app_nth2 by lia. rewrite L. replace (Z.to_nat k - Z.to_nat off)%nat with (Z.to_nat (k - off)) by lia.
    destruct (Z.ltb_spec k (off + zlen bs)) as [H2|H2]; unfold zlen in *.
    + rewrite app_nth1 by lia. reflexivity.
    + rewrite app_nth2 by lia.
      replace (Z.to_nat (off + Z.of_nat (length bs))) with (Z.to_nat off + length bs)%nat by lia.
      rewrite <- (firstn_skipn (Z.to_nat off + length bs) f) at 2.
      destruct (Nat.le_gt_cases (Z.to_nat off + length bs) (length f)).
      * rewrite (app_nth2 (firstn _ f)); rewrite firstn_length; [|lia]. f_equal. lia.
      * rewrite !nth_overflow; auto; rewrite ?skipn_length, ?app_length, ?firstn_length, ?skipn_length; lia.
  - rewrite app_nth1 by lia.
    assert (forall (l : list byte) n i, (i < n)%nat -> nth i (firstn n l) 0 = nth i l 0) as NF.
    { induction l as [|a l IH]; intros [|n] [|i] Hi; simpl; auto; try lia. apply IH. lia. }
    rewrite NF by lia. destruct (Nat.le_gt_cases (length f) (Z.to_nat k)).
    + rewrite app_nth2 by lia. rewrite nth_repeat. now rewrite nth_overflow.
    + now rewrite app_nth1.
Qed.

(* writes that agree with the file F and cover it produce F, in any order *)
Lemma writes_make F ps : 
  (forall p, In p ps -> exists pre post, F = pre ++ snd p ++ post /\ fst p = zlen pre) ->
  (forall k, 0 <= k < zlen F -> exists p, In p ps /\ fst p <= k < fst p + zlen (snd p)) ->
  fold_left write_at ps [] = F.
Proof.
  intros A C.
  assert (forall qs f, (forall p, In p qs -> exists pre post, F = pre ++ snd p ++ post /\ fst p = zlen pre) ->
    zlen f <= zlen F ->
    zlen (fold_left write_at qs f) <= zlen F /\
    (forall k, 0 <= k < zlen F -> 
      ((k < zlen f /\ nth (Z.to_nat k) f 0 = nth (Z.to_nat k) F 0) \/ exists p, In p qs /\ fst p <= k < fst p + zlen (snd p)) ->
      k < zlen (fold_left write_at qs f) /\ nth (Z.to_nat k) (fold_left write_at qs f) 0 = nth (Z.to_nat k) F 0)) as X.
  { clear A C. induction qs as [|[off bs] qs IH]; intros f A L.
    { simpl. split; [auto|]. intros k Hk [H|(p & [] & _)]. exact H. }
    cbn [fold_left]. destruct (A (off, bs) (or_introl eq_refl)) as (pre & post & E & Eo). simpl in E, Eo.
    pose proof (zlen_nonneg pre). pose proof (zlen_nonneg post). pose proof (zlen_nonneg bs). pose proof (zlen_nonneg f).
    assert (zlen F = zlen pre + zlen bs + zlen post) as EL by (rewrite E, !zlen_app; lia).
    destruct (IH (write_at f (off, bs))) as [I1 I2].
    - intros p Hp. apply A. simpl. auto.
    - rewrite zlen_write_at by lia. lia.
    - split; [auto|]. intros k Hk Hc. apply I2; [auto|].
      rewrite zlen_write_at by lia. rewrite nth_write_at by lia.
      destruct (Z.leb_spec off k), (Z.ltb_spec k (off + zlen bs)); cbn [andb].
      + left. split; [lia|]. rewrite E. unfold zlen in *. rewrite app_nth2 by lia. rewrite app_nth1 by lia. f_equal. lia.
      + destruct Hc as [[H5 H6]|(p & [<-|Hp] & Hk')]; [left; split; [lia|auto]|simpl in Hk'; lia|right; eauto].
      + destruct Hc as [[H5 H6]|(p & [<-|Hp] & Hk')]; [left; split; [lia|auto]|simpl in Hk'; lia|right; eauto].
      + destruct Hc as [[H5 H6]|(p & [<-|Hp] & Hk')]; [left; split; [lia|auto]|simpl in Hk'; lia|right; eauto]. }
  destruct (X ps []) as [L N]; [exact A|rewrite zlen_nil; apply zlen_nonneg|].
  assert (zlen (fold_left write_at ps []) = zlen F) as LL.
  { destruct (Z.eq_dec (zlen F) 0) as [e|e]; [pose proof (zlen_nonneg (fold_left write_at ps [])); lia|].
    pose proof (zlen_nonneg F). destruct (N (zlen F - 1)) as [H1 _]; [lia| |lia]. right. apply C. lia. }
  apply nth_ext with (d := 0) (d' := 0); [unfold zlen in LL; lia|].
  intros k Hk. destruct (N (Z.of_nat k)) as [_ H]; [unfold zlen in *; lia| |].
  - right. apply C. unfold zlen in *. lia.
  - now rewrite Nat2Z.id in H.
Qed.

Lemma carried_make F ws ps :
  (forall w, In w ws -> exists pre post, F = pre ++ snd w ++ post /\ fst w = zlen pre) ->
  (forall k, 0 <= k < zlen F -> exists w, In w ws /\ fst w <= k < fst w + zlen (snd w)) ->
  carries_out ps ws -> fold_left write_at ps [] = F.
Proof.
  intros A C [P1 P2]. apply writes_make.
  - intros p Hp. destruct (P1 p Hp) as (w & Hw & pre & post & E & O). destruct (A w Hw) as (u & v & EF & Ow).
    exists (u ++ pre), (post ++ v). rewrite EF, E, <- !app_assoc. split; [reflexivity|]. rewrite zlen_app. lia.
  - intros k Hk. destruct (C k Hk) as (w & Hw & Hb). destruct (P2 w Hw (k - fst w)) as (p & Hp & _ & Hr); [lia|].
    exists p. split; [auto|]. lia.
Qed.

Lemma carries_app ps ps' ws ws' : carries_out ps ws -> carries_out ps' ws' -> carries_out (ps ++ ps') (ws ++ ws').
Proof.
  intros [A1 A2] [B1 B2]. split.
  - intros p Hp. apply in_app_iff in Hp as [Hp|Hp]; [destruct (A1 p Hp) as (w & ? & ?)|destruct (B1 p Hp) as (w & ? & ?)];
      exists w; rewrite in_app_iff; auto.
  - intros w Hw k Hk. apply in_app_iff in Hw as [Hw|Hw]; [destruct (A2 w Hw k Hk) as (p & ? & ?)|destruct (B2 w Hw k Hk) as (p & ? & ?)];
      exists p; rewrite in_app_iff; auto.
Qed.

Lemma block_offsets_get off sizes r : 0 <= r < zlen sizes ->
  get (block_offsets off sizes) r = Some (off + sumZ (firstn (Z.to_nat r) sizes)).
Proof.
  revert off r; induction sizes as [|n sizes IH]; intros off r Hr; [unfold zlen in Hr; simpl in Hr; lia|].
  rewrite zlen_cons in Hr. cbn [block_offsets]. unfold get. destruct (Z.ltb_spec r 0); [lia|].
  destruct (Z.eq_dec r 0) as [->|e]; [simpl; f_equal; unfold sumZ; simpl; lia|].
  replace (Z.to_nat r) with (Datatypes.S (Z.to_nat (r - 1))) by lia. cbn [nth_error firstn].
  specialize (IH (off + n) (r - 1) ltac:(lia)). unfold get in IH. destruct (Z.ltb_spec (r - 1) 0); [lia|].
  rewrite IH. unfold sumZ. simpl. f_equal. lia.
Qed.

Lemma sum_zlen (l : list (list byte)) : sumZ (map zlen l) = zlen (concat l).
Proof. induction l as [|a l IH]; [reflexivity|]. cbn [concat map]. rewrite zlen_app. unfold sumZ in *. simpl. lia. Qed.

Section Tiles.
Context {T : Type} (c : codec T) (raw : bool) (compress : list byte -> list byte).
Context {D : Type} (dshow : D -> list byte).

Theorem tiles np name fields (axs : Z -> list axis) dx (data : Z -> list T) blk :
  0 < np -> (forall r, 0 <= r < np -> write_buffer c raw compress (axs r) (data r) = Some (blk r) /\ zlen (blk r) < int_max) ->
  let hd := header dshow name fields (map (fun a => mkG (a_g0 a) (a_g1 a)) (axs 0)) dx in
  zlen hd + 4 < 2 ^ 64 ->
  exists W f, finished np W f /\
    inevitable (ranks np (fun r => output_mpi c dshow raw compress np name fields (axs r) dx (data r) r), no_chans) f /\
    (forall ps1 ps2, carries_out ps1 (flat_map (fun r => fst (W r)) (zrange 0 np)) ->
                     carries_out ps2 (flat_map (fun r => snd (W r)) (zrange 0 np)) ->
       fold_left write_at (ps1 ++ ps2) [] = hd ++ pd_enc pod_int np ++ concat (map blk (zrange 0 np))) /\
    forall r, 0 <= r < np -> snd (W r) = [(zlen hd + 4 + sumZ (map (fun q => zlen (blk q)) (zrange 0 r)), blk r)].
Proof.
  intros Hnp Hb hd Hh.
  set (off := fun r => zlen hd + 4 + sumZ (map (fun q => zlen (blk q)) (zrange 0 r))).
  set (W := fun r => ((if r =? 0 then [(0, hd); (zlen hd, pd_enc pod_int np)] else []) : list write, [(off r, blk r)] : list write)).
  assert (forall r, 0 <= r < np -> W r = (if r =? 0 then [(0, header dshow name fields (map (fun a => mkG (a_g0 a) (a_g1 a)) (axs r)) dx);
    (zlen (header dshow name fields (map (fun a => mkG (a_g0 a) (a_g1 a)) (axs r)) dx), pd_enc pod_int np)] else [], [(off r, blk r)])) as EW.
  { intros r Hr. unfold W. destruct (Z.eqb_spec r 0) as [->|]; reflexivity. }
  assert (gsteps 8 (ranks np (fun r => output_mpi c dshow raw compress np name fields (axs r) dx (data r) r), no_chans)
    (ranks np (fun r => Ret (W r)), no_chans)) as G.
  { set (first := fun r => (if r =? 0 then [(0, header dshow name fields (map (fun a => mkG (a_g0 a) (a_g1 a)) (axs r)) dx);
      (zlen (header dshow name fields (map (fun a => mkG (a_g0 a) (a_g1 a)) (axs r)) dx), pd_enc pod_int np)] else []) : list write).
    set (ho := fun r => if r =? 0 then zlen (header dshow name fields (map (fun a => mkG (a_g0 a) (a_g1 a)) (axs r)) dx) + 4 else 0).
    set (E2 := fun r (ms : list msg) => let datasizes := map (pd_dec pod_ulong) ms in
        lift (guard (forallb (fun n => n <? int_max) (tl datasizes))) (fun _ =>
        let offsets := block_offsets (zlen hd + 4) datasizes in
        lift (get offsets r) (fun o => barrier (barrier (barrier (Ret (first r, [(o, blk r) : write]))))))).
    set (E1 := fun r (ms : list msg) => lift (get ms 0) (fun m =>
        let header_offset := pd_dec pod_ulong m in
        lift (write_buffer c raw compress (axs r) (data r)) (fun buffer =>
        Coll 2 (pd_enc pod_ulong (zlen buffer)) (fun ms => let datasizes := map (pd_dec pod_ulong) ms in
        lift (guard (forallb (fun n => n <? int_max) (tl datasizes))) (fun _ =>
        let offsets := block_offsets header_offset datasizes in
        lift (get offsets r) (fun o => barrier (barrier (barrier (Ret (first r, [(o, buffer) : write])))))))))).
    eapply gsteps_S. { apply (all_coll np 0 (fun _ => []) (fun r _ => barrier (barrier (Coll 1 (pd_enc pod_ulong (ho r)) (E1 r))))). lia. }
    eapply gsteps_S. { apply (all_coll np 0 (fun _ => []) (fun r _ => barrier (Coll 1 (pd_enc pod_ulong (ho r)) (E1 r)))). lia. }
    eapply gsteps_S. { apply (all_coll np 0 (fun _ => []) (fun r _ => Coll 1 (pd_enc pod_ulong (ho r)) (E1 r))). lia. }
    eapply gsteps_S. { apply (all_coll np 1 (fun r => pd_enc pod_ulong (ho r)) E1). lia. }
    refine (eq_ind_r (fun p => gsteps 4 (p, no_chans) _) _ (ranks_ext np (fun r => E1 r (map (fun r => pd_enc pod_ulong (ho r)) (zrange 0 np)))
      (fun r => Coll 2 (pd_enc pod_ulong (zlen (blk r))) (E2 r)) _)).
    2:{ intros r Hr. unfold E1. rewrite zrange_cons by lia. cbn [map get nth_error]. unfold get at 1. cbn [Z.ltb nth_error].
        change (0 <? 0) with false. change (Z.to_nat 0) with O. cbn [nth_error lift].
        destruct (Hb r Hr) as [-> _]. cbn [lift]. destruct (pod_uint_ok 8) as [_ P].
        assert (ho 0 = zlen hd + 4) as -> by reflexivity.
        pose proof (zlen_nonneg hd).
        destruct (P (zlen hd + 4) ltac:(change (256 ^ Z.of_nat 8) with (2 ^ 64); lia)) as [_ Q]. change pod_ulong with (pod_uint 8). cbv zeta. rewrite Q. reflexivity. }
    eapply gsteps_S. { apply (all_coll np 2 (fun r => pd_enc pod_ulong (zlen (blk r))) E2). lia. }
    refine (eq_ind_r (fun p => gsteps 3 (p, no_chans) _) _ (ranks_ext np (fun r => E2 r (map (fun r => pd_enc pod_ulong (zlen (blk r))) (zrange 0 np)))
      (fun r => barrier (barrier (barrier (Ret (first r, [(off r, blk r) : write]))))) _)).
    2:{ intros r Hr. unfold E2. rewrite map_map.
        assert (map (fun x => pd_dec pod_ulong (pd_enc pod_ulong (zlen (blk x)))) (zrange 0 np) = map (fun x => zlen (blk x)) (zrange 0 np)) as ->.
        { apply map_ext_in. intros x Hx. apply in_zrange in Hx. destruct (Hb x Hx) as [_ Hs]. destruct (pod_uint_ok 8) as [_ P].
          apply (P (zlen (blk x))). pose proof (zlen_nonneg (blk x)). unfold int_max in Hs. change (256 ^ Z.of_nat 8) with (2 ^ 64). lia. }
        cbv zeta.
        assert (forallb (fun n => n <? int_max) (tl (map (fun x => zlen (blk x)) (zrange 0 np))) = true) as ->.
        { apply forallb_forall. intros n Hn. rewrite zrange_cons in Hn by lia. cbn [map tl] in Hn.
          apply in_map_iff in Hn as (x & <- & Hx). apply in_zrange in Hx. apply Z.ltb_lt. apply Hb. lia. }
        cbn [guard lift]. rewrite block_offsets_get by (rewrite zlen_map, zlen_zrange; lia).
        cbn [lift]. unfold off. rewrite firstn_map. repeat f_equal.
        rewrite (zrange_app 0 r np) by lia. rewrite firstn_app. rewrite firstn_all2 by (rewrite length_zrange; lia).
        rewrite length_zrange. replace (Z.to_nat r - Z.to_nat (r - 0))%nat with O by lia. now rewrite firstn_O, app_nil_r. }
    eapply gsteps_S. { apply (all_coll np 0 (fun _ => []) (fun r _ => barrier (barrier (Ret (first r, [(off r, blk r) : write]))))). lia. }
    eapply gsteps_S. { apply (all_coll np 0 (fun _ => []) (fun r _ => barrier (Ret (first r, [(off r, blk r) : write])))). lia. }
    eapply gsteps_S. { apply (all_coll np 0 (fun _ => []) (fun r _ => Ret (first r, [(off r, blk r) : write]))). lia. }
    refine (eq_ind_r (fun p => gsteps 0 (p, no_chans) _) _ (ranks_ext np (fun r => Ret (first r, [(off r, blk r) : write])) (fun r => Ret (W r)) _)); [constructor|].
    intros r Hr. rewrite EW by auto. reflexivity. }
  destruct (conclude np _ W 8 no_chans no_chans Hnp quiet_empty G) as (f & F1 & F2).
  exists W, f. split; [auto|]. split; [auto|]. split; [|reflexivity].
  intros ps1 ps2 C1 C2. pose proof (carries_app _ _ _ _ C1 C2) as C.
  set (F := hd ++ pd_enc pod_int np ++ concat (map blk (zrange 0 np))).
  assert (flat_map (fun r => fst (W r)) (zrange 0 np) = [(0, hd); (zlen hd, pd_enc pod_int np)]) as E1.
  { rewrite zrange_cons by lia. cbn [flat_map]. change (fst (W 0)) with [(0, hd); (zlen hd, pd_enc pod_int np)].
    assert (forall l, (forall x, In x l -> 0 < x) -> flat_map (fun r => fst (W r)) l = []) as H0.
    { induction l as [|a l IH]; intros H; [reflexivity|]. cbn [flat_map]. rewrite IH by (intros; apply H; simpl; auto).
      unfold W. cbn [fst]. specialize (H a (or_introl eq_refl)). destruct (Z.eqb_spec a 0); [lia|]. reflexivity. }
    rewrite H0; [reflexivity|]. intros x Hx. apply in_zrange in Hx. lia. }
  assert (zlen (pd_enc pod_int np) = 4) as L4 by apply zlen_int_enc.
  assert (forall w, 0 <= w < np -> In (off w, blk w) (flat_map (fun r => snd (W r)) (zrange 0 np))) as Inw.
  { intros w Hw. apply in_flat_map. exists w. split; [apply in_zrange; lia|simpl; auto]. }
  rewrite E1 in C. eapply carried_make; [| |exact C].
  - intros w Hw. apply in_app_iff in Hw as [[<-|[<-|[]]]|Hw].
    + exists [], (pd_enc pod_int np ++ concat (map blk (zrange 0 np))). auto.
    + exists hd, (concat (map blk (zrange 0 np))). auto.
    + apply in_flat_map in Hw as (r & Hr & [<-|[]]). apply in_zrange in Hr. cbn [fst snd].
      exists (hd ++ pd_enc pod_int np ++ concat (map blk (zrange 0 r))), (concat (map blk (zrange (r + 1) np))).
      split.
      * unfold F. rewrite (zrange_app 0 r np) by lia. rewrite (zrange_cons r np) by lia.
        rewrite map_app, concat_app. cbn [map concat]. now rewrite <- !app_assoc.
      * unfold off. rewrite !zlen_app, L4. rewrite <- (sum_zlen (map blk (zrange 0 r))), map_map. lia.
  - intros k Hk. unfold F in Hk. rewrite !zlen_app, L4 in Hk.
    destruct (Z.lt_ge_cases k (zlen hd)) as [H1|H1].
    { exists (0, hd). split; [apply in_app_iff; simpl; auto|simpl; lia]. }
    destruct (Z.lt_ge_cases k (zlen hd + 4)) as [H2|H2].
    { exists (zlen hd, pd_enc pod_int np). split; [apply in_app_iff; simpl; auto|cbn [fst snd]; lia]. }
    assert (forall m, 0 <= m <= np -> k < zlen hd + 4 + sumZ (map (fun q => zlen (blk q)) (zrange 0 m)) ->
      exists w, 0 <= w < m /\ off w <= k < off w + zlen (blk w)) as Find.
    { intros m Hm. assert (m = Z.of_nat (Z.to_nat m)) as -> by lia. generalize (Z.to_nat m) as n. clear Hm.
      induction n as [|n IH]; intros Hs.
      - rewrite zrange_nil in Hs by lia. unfold sumZ in Hs. simpl in Hs. lia.
      - destruct (Z.lt_ge_cases k (zlen hd + 4 + sumZ (map (fun q => zlen (blk q)) (zrange 0 (Z.of_nat n))))) as [H3|H3].
        + destruct (IH H3) as (w & Hw & Hk'). exists w. split; [lia|auto].
        + exists (Z.of_nat n). split; [lia|]. unfold off. replace (Z.of_nat (Datatypes.S n)) with (Z.of_nat n + 1) in Hs by lia.
          rewrite zrange_snoc, map_app, sumZ_app in Hs by lia. unfold sumZ at 2 in Hs. simpl in Hs. lia. }
    destruct (Find np) as (w & Hw & Hr); [lia| |].
    { rewrite <- (map_map blk zlen), sum_zlen. lia. }
    exists (off w, blk w). split; [apply in_app_iff; right; apply Inw; lia|exact Hr].
Qed.
End Tiles.
