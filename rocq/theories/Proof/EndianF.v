(* native files as sequences of numbers *)
From Coq Require Import String Permutation.
From Verif Require Import Model.Base Model.Text Model.Boundary Model.Layout Model.Access Model.Setup Model.Codec Model.Region Model.File Model.Endian Spec.Bytes Spec.Access Spec.File Spec.Endian
  Proof.BaseL Proof.CodecL Proof.RegionL Proof.EndianL.
Local Open Scope list_scope.
Local Open Scope Z_scope.

Lemma zrange_blocks lo hi p q n : 0 <= n -> lo <= hi -> q = p + (hi - lo) * n -> flat_map (fun x => zrange (p + (x - lo) * n) (p + (x - lo) * n + n)) (zrange lo hi) = zrange p q.
Proof.
  intros Hn H ->. replace hi with (lo + Z.of_nat (Z.to_nat (hi - lo))) by lia. induction (Z.to_nat (hi - lo)) as [|k IH].
  - rewrite Z.add_0_r, Z.sub_diag. cbn [Z.mul]. rewrite Z.add_0_r, !zrange_nil by lia. reflexivity.
  - replace (lo + Z.of_nat (S k)) with (lo + Z.of_nat k + 1) by lia. rewrite zrange_snoc, flat_map_app, IH by lia. cbn [flat_map]. rewrite app_nil_r.
    replace (lo + Z.of_nat k + 1 - lo) with (Z.of_nat k + 1) by lia. replace (lo + Z.of_nat k - lo) with (Z.of_nat k) by lia.
    rewrite (zrange_app p (p + Z.of_nat k * n) (p + (Z.of_nat k + 1) * n)) by nia. do 2 f_equal. lia.
Qed.
Lemma cells_nonneg0 axs : wf_axes 0 axs -> 0 <= cells axs.
Proof. induction axs as [|a axs IH]; cbn; [lia|]. intros (-> & -> & H & -> & _ & W). specialize (IH W). nia. Qed.
Lemma addrs_all axs : axs <> [] -> wf_axes 0 axs -> forall p, addrs zrange axs (map a_x0 axs) (map a_x1 axs) p = zrange p (p + cells axs).
Proof.
  induction axs as [|a axs IH]; [easy|]. intros _ (S0 & S1 & H & SX & _ & W) p. rewrite Z.sub_0_r in S0. rewrite Z.add_0_r in S1. destruct axs as [|b axs].
  - cbn [addrs map cells]. cbn in SX. rewrite SX, S0, S1. rewrite <- (zrange_blocks (a_x0 a) (a_x1 a) p (p + 1 * (a_x1 a - a_x0 a)) 1) by lia.
    induction (zrange (a_x0 a) (a_x1 a)) as [|x l IHl]; [reflexivity|]. cbn [map flat_map]. rewrite IHl, zrange_cons, zrange_nil by lia. reflexivity.
  - cbn [map]. rewrite addrs_cons. change (a_x0 b :: map a_x0 axs) with (map a_x0 (b :: axs)). change (a_x1 b :: map a_x1 axs) with (map a_x1 (b :: axs)).
    rewrite (flat_map_ext_in _ (fun x => zrange (p + (x - a_x0 a) * cells (b :: axs)) (p + (x - a_x0 a) * cells (b :: axs) + cells (b :: axs)))).
    + apply zrange_blocks; [now apply cells_nonneg0|lia|]. change (cells (a :: b :: axs)) with (a_sx a * (a_s1 a - a_s0 a)). rewrite SX, S0, S1. lia.
    + intros x _. rewrite IH by (auto; discriminate). rewrite S0, SX. reflexivity.
Qed.
Lemma get_all {A} (l : list A) : map_opt (get l) (zrange 0 (zlen l)) = Some l.
Proof.
  induction l as [|v l IH] using rev_ind; [reflexivity|]. rewrite zlen_app. change (zlen [v]) with 1. rewrite zrange_snoc by apply zlen_nonneg. rewrite map_opt_app.
  replace (map_opt (get (l ++ [v])) (zrange 0 (zlen l))) with (Some l).
  - cbn [bind map_opt]. unfold get. pose proof (zlen_nonneg l). destruct (Z.ltb_spec (zlen l) 0); [lia|]. rewrite to_nat_zlen, nth_error_app2, Nat.sub_diag by lia. reflexivity.
  - rewrite <- IH at 1. clear IH. assert (forall i, In i (zrange 0 (zlen l)) -> 0 <= i < zlen l) as B by (intros i; now rewrite in_zrange). revert B.
    induction (zrange 0 (zlen l)) as [|i is IHi]; intros B; [reflexivity|]. cbn [map_opt]. rewrite IHi by (intros; apply B; now right). clear IHi.
    f_equal. unfold get. specialize (B i (or_introl eq_refl)). unfold zlen in B. destruct (Z.ltb_spec i 0); [reflexivity|]. now rewrite nth_error_app1 by lia.
Qed.

Definition numbered {T} (c : codec T) (nums : T -> list (list byte)) (v : T) : Prop :=
  c_size c v = zlen (concat (nums v)) /\
  forall pre old post, zlen old = zlen (concat (nums v)) ->
    c_to c v (pre ++ old ++ post) (zlen pre) = Some (pre ++ concat (nums v) ++ post, zlen (concat (nums v))).
Lemma numbered_scalar w v : zlen v = w -> numbered (pod_codec (pod_raw w)) scalar_numbers v.
Proof.
  intros H. unfold numbered, scalar_numbers. cbn [concat]. rewrite app_nil_r. split; [cbn; lia|]. intros pre old post L. cbn [c_to pod_codec pd_enc pd_size pod_raw]. rewrite blit_at by auto. cbn [bind]. now rewrite H.
Qed.
Lemma numbered_arr {T} (p : pod T) v : Forall (fun e => zlen (pd_enc p e) = pd_size p) v -> numbered (vector_codec p) (fun v => pd_enc pod_int (zlen v) :: map (pd_enc p) v) v.
Proof.
  intros H. unfold numbered. cbn [concat]. rewrite zlen_app, zlen_int_enc. replace (concat (map (pd_enc p) v)) with (arr_enc p v) by apply flat_map_concat_map.
  assert (zlen (arr_enc p v) = zlen v * pd_size p) as E. { clear - H. induction H as [|e v H _ IH]; [cbn; unfold zlen; cbn; lia|]. unfold arr_enc in *. cbn [flat_map]. rewrite zlen_app, zlen_cons, IH. lia. }
  cbn [c_size c_to vector_codec]. rewrite E. split; [reflexivity|]. intros pre old post L. pose proof (zlen_nonneg (arr_enc p v)). destruct (split_at old 0 4) as (q0 & q & r & Eo & L0 & Lq); try lia.
  unfold zlen in L0. destruct q0; [|cbn in L0; lia]. cbn [app] in Eo. subst old. rewrite zlen_app in L. rewrite <- app_assoc.
  rewrite blit_at by (rewrite zlen_int_enc; lia). cbn [bind]. rewrite app_assoc. replace (zlen pre + 4) with (zlen (pre ++ pd_enc pod_int (zlen v))) by (rewrite zlen_app, zlen_int_enc; lia).
  rewrite blit_at by lia. cbn [bind]. rewrite <- !app_assoc. reflexivity.
Qed.
Lemma numbered_vector w v : Forall (fun e => zlen e = w) v -> numbered (vector_codec (pod_raw w)) vector_numbers v.
Proof. intros H. generalize (numbered_arr (pod_raw w) v H). unfold numbered, vector_numbers. cbn beta. change (pd_enc (pod_raw w)) with (fun x : list byte => x). now rewrite map_id. Qed.
Lemma numbered_sparse w v : Forall (fun it => zlen (snd it) = w) v -> numbered (sparse_codec [] (pod_raw w)) sparse_numbers v.
Proof.
  intros H. assert (Forall (fun e => zlen (pd_enc (item_pod [] (pod_raw w)) e) = pd_size (item_pod [] (pod_raw w))) v) as H'.
  { eapply Forall_impl; [|exact H]. intros it E. cbn [item_pod pd_enc pd_size pod_raw app]. rewrite zlen_app, zlen_int_enc, E. reflexivity. }
  generalize (numbered_arr _ v H'). unfold numbered, sparse_codec, sparse_numbers.
  assert (concat (map (pd_enc (item_pod [] (pod_raw w))) v) = concat (flat_map (fun it : Z * list byte => [pd_enc pod_int (fst it); snd it]) v)) as E.
  { clear. induction v as [|it v IH]; [reflexivity|]. cbn [map flat_map concat app]. rewrite IH. cbn [item_pod pd_enc pod_raw app]. now rewrite <- app_assoc. }
  cbn [concat]. rewrite E. auto.
Qed.
Lemma write_numbers {T} (c : codec T) nums vs : Forall (numbered c nums) vs -> forall pre old post, zlen old = zlen (concat (flat_map nums vs)) ->
  write_all c vs (pre ++ old ++ post) (zlen pre) = Some (pre ++ concat (flat_map nums vs) ++ post, zlen pre + zlen old) /\ total c vs = zlen old.
Proof.
  induction 1 as [|v vs [S W] _ IH]; intros pre old post L; cbn [flat_map] in *.
  - unfold zlen in L. destruct old; [|cbn in L; lia]. cbn [write_all concat app]. rewrite Z.add_0_r. auto.
  - rewrite concat_app, zlen_app in L. pose proof (zlen_nonneg (concat (nums v))). pose proof (zlen_nonneg (concat (flat_map nums vs))).
    destruct (split_at old 0 (zlen (concat (nums v)))) as (q0 & q & r & Eo & L0 & Lq); try lia. unfold zlen in L0. destruct q0; [|cbn in L0; lia]. cbn [app] in Eo. subst old. rewrite zlen_app in *.
    cbn [write_all]. rewrite <- app_assoc, W by auto. cbn [bind fst snd]. destruct (IH (pre ++ concat (nums v)) r post) as [I1 I2]; [lia|]. rewrite zlen_app, <- app_assoc in I1.
    rewrite I1, total_cons, I2, S, concat_app, <- !app_assoc. split; [do 2 f_equal; lia|lia].
Qed.
(* the file written by a serial program is the sequence of the numbers of its cells, in the native order *)
Lemma native_file {T} (c : codec T) nums {D} (dshow : D -> list byte) raw compress name fields axs dx data :
  axs <> [] -> wf_axes 0 axs -> zlen data = cells axs -> Forall (numbered c nums) data ->
  zlen (compress (concat (flat_map nums data))) <= 9 * zlen (concat (flat_map nums data)) / 8 + 12 ->
  output_serial c dshow raw compress name fields axs dx data =
    Some (stored_file (fun x => x) (if raw then fun x => x else compress) (header dshow name fields (map (fun a => mkG (a_g0 a) (a_g1 a)) axs) dx)
      [mkBlock (map (fun a => (a_x0 a, a_x1 a)) axs) (map (fun a => (a_b0 a, a_b1 a)) axs) (flat_map nums data)]).
Proof.
  intros Ne W Ld N ZC. unfold output_serial, write_buffer. set (bs := concat (flat_map nums data)) in *.
  assert (map_opt (get data) (addrs zrange axs (map a_x0 axs) (map a_x1 axs) 0) = Some data) as E by (rewrite addrs_all by auto; rewrite Z.add_0_l, <- Ld; apply get_all).
  rewrite (buffer_size_flat _ _ _ _ _ _ _ _ E). cbn [bind].
  assert (total c data = zlen bs) as Et by (now destruct (write_numbers c nums data N [] bs [] eq_refl)). rewrite Et.
  set (old := repeat 0 (Z.to_nat (zlen bs))). assert (@zlen byte old = zlen bs) as Lo by (unfold old, zlen; rewrite repeat_length; lia).
  destruct (write_numbers c nums data N [] old [] Lo) as [Wr _]. fold bs in Wr. cbn [app] in Wr. rewrite !app_nil_r in Wr. change (zlen (@nil byte)) with 0 in Wr. rewrite Z.add_0_l, Lo in Wr.
  rewrite (to_buffer_flat _ _ _ _ _ _ _ _ _ _ _ E Wr). cbn [bind fst snd]. rewrite ?Z.sub_0_r, to_nat_zlen, firstn_all.
  replace (if raw then bs else compress bs) with ((if raw then fun x => x else compress) bs) by (now destruct raw).
  assert (raw || (zlen ((if raw then fun x => x else compress) bs) <=? 9 * zlen bs / 8 + 12) = true) as -> by (destruct raw; cbn [orb]; [reflexivity|now apply Z.leb_le]).
  cbn [guard bind]. set (pk := if raw then fun x => x else compress). unfold stored_file, stored_block. cbn [map concat bk_lims bk_bcs bk_numbers]. rewrite !stored_same. fold bs.
  cbn [concat]. rewrite !app_nil_r. change (zlen [_]) with 1. do 3 f_equal. rewrite flat_map_app, !concat_app. cbn [concat]. rewrite !flat_map_map, app_nil_r, <- !app_assoc.
  assert (forall f : axis -> Z * Z, flat_map (fun a => pd_enc pod_int (fst (f a)) ++ pd_enc pod_int (snd (f a))) axs = concat (flat_map (fun a => [pd_enc pod_int (fst (f a)); pd_enc pod_int (snd (f a))]) axs)) as G.
  { intros f. clear. induction axs as [|a axs IH]; [reflexivity|]. cbn [flat_map concat app]. rewrite IH, <- app_assoc. reflexivity. }
  rewrite <- (G (fun a => (a_x0 a, a_x1 a))), <- (G (fun a => (a_b0 a, a_b1 a))). reflexivity.
Qed.

Lemma cell_type_ok k w T (c : codec T) nums valid : cell_type k w T c nums valid -> forall v, valid v -> numbered c nums v /\ cell_numbers k w (nums v).
Proof.
  intros H. destruct H; intros v Hv.
  - split; [now apply numbered_scalar|now constructor].
  - destruct Hv. split; [now apply numbered_vector|now constructor].
  - destruct Hv. split; [now apply numbered_sparse|now constructor].
Qed.

Lemma read_n_split w s v r : read_n w s = Some (v, r) -> s = v ++ r /\ zlen v = w.
Proof.
  unfold read_n. destruct (0 <=? w) eqn:E1; cbn [andb]; [|discriminate]. destruct (w <=? zlen s) eqn:E2; [|discriminate]. intros H. injection H as <- <-.
  rewrite firstn_skipn. split; [reflexivity|]. apply Z.leb_le in E1, E2. unfold zlen in *. rewrite firstn_length. lia.
Qed.
Lemma swap_buffer_twice n w : forall s a r, swap_buffer n w s = Some (a, r) -> exists b, s = b ++ r /\ swap_buffer n w (a ++ r) = Some (b, r).
Proof.
  induction n as [|n IH]; cbn [swap_buffer]; intros s a r H; [injection H as <- <-; exists []; auto|].
  destruct (read_n w s) as [[v s1]|] eqn:E; cbn [bind] in H; [|discriminate]. destruct (swap_buffer n w s1) as [[l s2]|] eqn:E2; cbn [bind] in H; [|discriminate]. injection H as <- <-.
  destruct (IH _ _ _ E2) as (b & -> & Hb). destruct (read_n_split _ _ _ _ E) as [-> Hw]. exists (v ++ b). rewrite <- !app_assoc. split; [reflexivity|].
  rewrite TextL.read_n_app by (unfold swap_endian; now rewrite zlen_rev). cbn [bind]. rewrite Hb. cbn [bind]. unfold swap_endian. now rewrite rev_involutive.
Qed.
Lemma scalars_mono w : forall f s a, swap_scalars f w s = Some a -> forall f', (f <= f')%nat -> swap_scalars f' w s = Some a.
Proof.
  induction f as [|f IH]; intros s a H f' L; destruct s as [|x s]; cbn [swap_scalars] in *; try discriminate; [destruct f'; exact H|destruct f'; exact H|].
  destruct f' as [|f']; [lia|]. cbn [swap_scalars]. destruct (read_n w (x :: s)) as [[v s1]|]; cbn [bind] in *; [|discriminate].
  destruct (swap_scalars f w s1) as [l|] eqn:E; cbn [bind] in *; [|discriminate]. rewrite (IH _ _ E) by lia. exact H.
Qed.
Lemma scalars_twice w : forall f s a, swap_scalars f w s = Some a -> zlen a = zlen s /\ swap_scalars f w a = Some s.
Proof.
  induction f as [|f IH]; intros s a H; destruct s as [|x s]; cbn [swap_scalars] in H; try discriminate; [injection H as <-; auto..|].
  destruct (read_n w (x :: s)) as [[v s1]|] eqn:E; cbn [bind] in H; [|discriminate]. destruct (swap_scalars f w s1) as [l|] eqn:E2; cbn [bind] in H; [|discriminate]. injection H as <-.
  destruct (IH _ _ E2) as [L B]. destruct (read_n_split _ _ _ _ E) as [Es Hw]. assert (zlen (swap_endian v ++ l) = zlen (x :: s)) as Z by (rewrite Es, !zlen_app, L; unfold swap_endian; now rewrite zlen_rev).
  split; [exact Z|]. destruct (swap_endian v ++ l) as [|y t] eqn:Ea; [unfold zlen in Z; cbn in Z; lia|]. cbn [swap_scalars]. rewrite <- Ea.
  rewrite TextL.read_n_app by (unfold swap_endian; now rewrite zlen_rev). cbn [bind]. rewrite B. cbn [bind]. unfold swap_endian. rewrite rev_involutive. now rewrite Es.
Qed.
Lemma blocks_undef compress uncompress n type dim s : (0 < n)%nat -> convert_block compress uncompress type dim s = Undef -> convert_blocks compress uncompress n type dim s = Undef.
Proof. intros H E. destruct n as [|[|n]]; [lia| |]; cbn [convert_blocks]; rewrite E; reflexivity. Qed.
