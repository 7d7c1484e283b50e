From Coq Require Import String Permutation.
From Verif Require Import Model.Base Model.Text Model.Setup Model.Codec Model.File Model.Endian Spec.Bytes Spec.File Spec.Endian
  Proof.BaseL Proof.CodecL Proof.TextL Proof.FileL.
Local Open Scope list_scope.
Local Open Scope Z_scope.

Notation same := (fun l : list byte => l).
Lemma stored_app o a b : stored o (a ++ b) = stored o a ++ stored o b.
Proof. unfold stored. now rewrite map_app, concat_app. Qed.
Lemma stored_cons o a b : stored o (a :: b) = o a ++ stored o b.
Proof. reflexivity. Qed.
Lemma stored_same ws : stored same ws = concat ws.
Proof. unfold stored. now rewrite map_id. Qed.
Lemma zlen_rev {A} (l : list A) : zlen (rev l) = zlen l.
Proof. unfold zlen. now rewrite rev_length. Qed.
Lemma zlen_stored o ws : (forall l, zlen (o l) = zlen l) -> zlen (stored o ws) = zlen (concat ws).
Proof. intros H. induction ws as [|a ws IH]; [reflexivity|]. rewrite stored_cons. cbn [concat]. rewrite !zlen_app, H, IH. reflexivity. Qed.

Lemma swap_buffer_ok w ws rest : Forall (fun e => zlen e = w) ws -> swap_buffer (length ws) w (stored (@rev byte) ws ++ rest) = Some (stored same ws, rest).
Proof.
  induction 1 as [|e ws He _ IH]; [reflexivity|]. cbn [length swap_buffer]. rewrite !stored_cons, <- app_assoc.
  rewrite read_n_app by (now rewrite zlen_rev). cbn [bind]. rewrite IH. cbn [bind]. unfold swap_endian. rewrite rev_involutive. reflexivity.
Qed.
Lemma singles ws : Forall (fun e : list byte => zlen e = 1) ws -> stored (@rev byte) ws = stored same ws /\ zlen (stored same ws) = zlen ws.
Proof.
  induction 1 as [|e ws He _ [IH1 IH2]]; [auto|]. rewrite !stored_cons, IH1, zlen_app, IH2, zlen_cons, He. split; [|lia]. f_equal.
  unfold zlen in He. destruct e as [|x [|y e]]; cbn in He; try lia. reflexivity.
Qed.
Lemma count_byte n : 0 <= n < 256 -> get (pd_enc pod_int n) 0 = Some n.
Proof.
  intros H. change (get (pd_enc pod_int n) 0) with (Some ((n mod 256 ^ Z.of_nat 4) mod 256)). f_equal.
  change (256 ^ Z.of_nat 4) with 4294967296. rewrite !Z.mod_small; lia.
Qed.
Lemma swap_items_ok w v rest : Forall (fun it : Z * list byte => zlen (snd it) = w) v ->
  swap_items (length v) w (stored (@rev byte) (flat_map (fun it => [pd_enc pod_int (fst it); snd it]) v) ++ rest) =
  Some (stored same (flat_map (fun it => [pd_enc pod_int (fst it); snd it]) v), rest).
Proof.
  induction 1 as [|it v He _ IH]; [reflexivity|]. cbn [length swap_items flat_map app]. rewrite !stored_cons, <- !app_assoc.
  rewrite read_n_app by (rewrite zlen_rev; apply zlen_int_enc). cbn [bind]. rewrite read_n_app by (now rewrite zlen_rev). cbn [bind]. rewrite IH. cbn [bind].
  unfold swap_endian. rewrite !rev_involutive. do 3 f_equal. f_equal. destruct (Z.eqb_spec w 1) as [E|E]; [|reflexivity].
  destruct (singles [snd it]) as [S _]; [repeat constructor; lia|]. rewrite !stored_cons in S. cbn [stored map concat] in S. rewrite !app_nil_r in S. exact S.
Qed.

(* a cell is not empty *)
Lemma cell_length k w ws : 0 < w -> cell_numbers k w ws -> (0 < length (stored (@rev byte) ws))%nat.
Proof.
  intros Hw H. destruct H as [w v H|w v H H0|w v H H0]; unfold scalar_numbers, vector_numbers, sparse_numbers; rewrite stored_cons, app_length, rev_length.
  - unfold zlen in H. lia.
  - pose proof (zlen_int_enc (zlen v)) as L. unfold zlen at 1 in L. lia.
  - pose proof (zlen_int_enc (zlen v)) as L. unfold zlen at 1 in L. lia.
Qed.
Definition loop_of (k : cells_kind) : nat -> Z -> list byte -> option (list byte) :=
  match k with Scalars => swap_scalars | Vectors => swap_vectors | Sparses => swap_sparses end.
Lemma loop_nil k fuel w : loop_of k fuel w [] = Some [].
Proof. destruct k, fuel; reflexivity. Qed.
Lemma loop_step k w ws fuel rest : 0 < w -> cell_numbers k w ws ->
  loop_of k (S fuel) w (stored (@rev byte) ws ++ rest) = do r <- loop_of k fuel w rest; Some (stored same ws ++ r).
Proof.
  intros Hw H. pose proof (cell_length k w ws Hw H) as L. destruct (stored (@rev byte) ws ++ rest) as [|x s] eqn:E; [destruct (stored (@rev byte) ws); cbn in *; [lia|discriminate]|].
  destruct H as [w v H|w v H H0|w v H H0]; unfold scalar_numbers, vector_numbers, sparse_numbers in *; cbn [loop_of swap_scalars swap_vectors swap_sparses]; rewrite <- E; rewrite !stored_cons, <- !app_assoc.
  - cbn [stored map concat app]. rewrite read_n_app by (now rewrite zlen_rev). cbn [bind]. unfold swap_endian. rewrite rev_involutive, app_nil_r. reflexivity.
  - rewrite read_n_app by (rewrite zlen_rev; apply zlen_int_enc). cbn [bind]. unfold swap_endian. rewrite rev_involutive. pose proof (zlen_nonneg v).
    rewrite count_byte by lia. cbn [bind]. destruct (Z.eqb_spec w 1) as [->|N].
    + destruct (singles v H) as [S1 S2]. rewrite S1, read_n_app by exact S2. cbn [bind]. destruct (swap_vectors fuel 1 rest); cbn [bind]; [rewrite app_assoc|]; reflexivity.
    + replace (Z.to_nat (zlen v)) with (length v) by (unfold zlen; lia). rewrite swap_buffer_ok by auto. cbn [bind].
      destruct (swap_vectors fuel w rest); cbn [bind]; [rewrite app_assoc|]; reflexivity.
  - rewrite read_n_app by (rewrite zlen_rev; apply zlen_int_enc). cbn [bind]. unfold swap_endian. rewrite rev_involutive. pose proof (zlen_nonneg v).
    rewrite count_byte by lia. cbn [bind]. replace (Z.to_nat (zlen v)) with (length v) by (unfold zlen; lia). rewrite swap_items_ok by auto. cbn [bind].
    destruct (swap_sparses fuel w rest); cbn [bind]; [rewrite app_assoc|]; reflexivity.
Qed.
Lemma loop_ok k w cs : 0 < w -> Forall (cell_numbers k w) cs -> forall fuel, (length (stored (@rev byte) (concat cs)) <= fuel)%nat ->
  loop_of k fuel w (stored (@rev byte) (concat cs)) = Some (stored same (concat cs)).
Proof.
  intros Hw. induction 1 as [|ws cs H _ IH]; intros fuel L; [apply loop_nil|]. cbn [concat] in *. rewrite !stored_app in *. rewrite app_length in L.
  pose proof (cell_length k w ws Hw H). destruct fuel as [|fuel]; [lia|]. rewrite loop_step by auto. rewrite IH by lia. reflexivity.
Qed.

Lemma supported_ok t k w : In (t, k, w) supported -> kind_of (bytes t) = k /\ width_of (bytes t) = Some w /\ 0 < w /\ (k = Scalars -> w <> 1) /\
  prefix_of (bytes "grid") (bytes t) = true /\ Forall (fun b => b <> 10) (bytes t).
Proof.
  assert (forallb (fun '(t, k, w) => match kind_of (bytes t), k with Scalars, Scalars | Vectors, Vectors | Sparses, Sparses => true | _, _ => false end &&
    match width_of (bytes t) with Some w' => w' =? w | None => false end && (0 <? w) && match k with Scalars => negb (w =? 1) | _ => true end &&
    prefix_of (bytes "grid") (bytes t) && forallb (fun b => negb (b =? 10)) (bytes t)) supported = true) as X by (vm_compute; reflexivity).
  rewrite forallb_forall in X. intros H. specialize (X _ H). cbn beta iota in X. rewrite !andb_true_iff in X. destruct X as (((((X1 & X2) & X3) & X4) & X5) & X6).
  split; [destruct (kind_of (bytes t)), k; congruence|]. split; [destruct (width_of (bytes t)); [apply Z.eqb_eq in X2; congruence|discriminate]|].
  split; [now apply Z.ltb_lt|]. split; [intros ->; apply negb_true_iff in X4; now apply Z.eqb_neq|]. split; [exact X5|].
  rewrite forallb_forall in X6. apply Forall_forall. intros b Hb. specialize (X6 b Hb). apply negb_true_iff, Z.eqb_neq in X6. exact X6.
Qed.
Lemma swap_cells_ok t k w cs : In (t, k, w) supported -> Forall (cell_numbers k w) cs ->
  swap_cells (bytes t) (stored (@rev byte) (concat cs)) = Done (stored same (concat cs)).
Proof.
  intros H F. destruct (supported_ok t k w H) as (K & W & P & S & _). unfold swap_cells. rewrite W, K.
  pose proof (loop_ok k w cs P F (length (stored (@rev byte) (concat cs))) (le_n _)) as L. destruct k; cbn [loop_of] in L.
  - replace (w =? 1) with false by (symmetry; apply Z.eqb_neq; auto). now rewrite L.
  - now rewrite L.
  - now rewrite L.
Qed.

Section Convert.
Context (compress : list byte -> list byte) (uncompress : list byte -> Z -> option (list byte)) (pack : list byte -> list byte).
Context (ZC : forall x, zlen (compress x) <= 5 * zlen x / 4 + 12) (UP : unpacks pack uncompress).
Context (t : string) (k : cells_kind) (w : Z) (HT : In (t, k, w) supported) (dim : Z).

(* a block of this file *)
Definition fits (b : block) : Prop :=
  zlen (bk_lims b) = dim /\ zlen (bk_bcs b) = dim /\ (exists cs, bk_numbers b = concat cs /\ Forall (cell_numbers k w) cs) /\ well_sized (@rev byte) pack b.

Lemma zlen_pairs ls : zlen (flat_map (fun l : Z * Z => [pd_enc pod_int (fst l); pd_enc pod_int (snd l)]) ls) = 2 * zlen ls.
Proof. induction ls as [|l ls IH]; [reflexivity|]. cbn [flat_map app]. rewrite !zlen_cons, IH. lia. Qed.
Lemma four_pairs ls : Forall (fun e : list byte => zlen e = 4) (flat_map (fun l : Z * Z => [pd_enc pod_int (fst l); pd_enc pod_int (snd l)]) ls).
Proof. induction ls as [|l ls IH]; [constructor|]. cbn [flat_map app]. repeat (constructor; [apply zlen_int_enc|]). exact IH. Qed.
Lemma stored_len4 o ws : (forall l, zlen (o l) = zlen l) -> Forall (fun e : list byte => zlen e = 4) ws -> zlen (stored o ws) = 4 * zlen ws.
Proof. intros O. induction 1 as [|e ws He _ IH]; [reflexivity|]. rewrite stored_cons, zlen_app, zlen_cons, O, IH. lia. Qed.
Lemma ulong_rev n : 0 <= n < 2 ^ 64 -> le_dec (swap_endian (rev (pd_enc pod_ulong n))) = n.
Proof. intros H. unfold swap_endian. rewrite rev_involutive. apply le_dec_enc. exact H. Qed.
Lemma read_back x n d : 0 <= n -> (zlen (pack x) = zlen x -> pack x = x) -> n = zlen x -> d = pack x ->
  (if zlen d =? n then Done d else req (uncompress d (9 * n / 8 + 12))) = Done x.
Proof.
  intros Hn S -> ->. destruct (Z.eqb_spec (zlen (pack x)) (zlen x)) as [E|E]; [now rewrite S|]. rewrite UP; [reflexivity|]. pose proof (zlen_nonneg x).
  assert (zlen x * 8 / 8 <= 9 * zlen x / 8) by (apply Z.div_le_mono; lia). rewrite Z.div_mul in H0 by lia. lia.
Qed.
Lemma convert_block_ok b rest : fits b ->
  convert_block compress uncompress (bytes t) dim (stored_block (@rev byte) pack b ++ rest) = Done (stored_block same compress b).
Proof.
  intros (L1 & L2 & (cs & Ec & Fc) & W1 & W2 & W3). unfold convert_block, stored_block. set (hd := flat_map _ (bk_lims b ++ bk_bcs b)).
  assert (Z.to_nat (4 * dim) = length hd) as El.
  { pose proof (zlen_pairs (bk_lims b ++ bk_bcs b)) as P. fold hd in P. rewrite zlen_app in P. unfold zlen in P, L1, L2. lia. }
  rewrite !stored_app, <- !app_assoc, El. rewrite swap_buffer_ok by apply four_pairs. cbn [req obind]. cbn [stored map concat]. rewrite app_nil_r, <- !app_assoc.
  set (data := stored (@rev byte) (bk_numbers b)) in *. pose proof (zlen_nonneg data). pose proof (zlen_nonneg (pack data)).
  change (@concat byte (map (@rev byte) (bk_numbers b))) with data. rewrite read_n_app by (rewrite zlen_rev; apply zlen_ulong). cbn [req obind].
  rewrite read_n_app by (rewrite zlen_rev; apply zlen_ulong). cbn [req obind]. cbv zeta. rewrite !ulong_rev by lia.
  rewrite read_n_app by reflexivity. cbn [req obind]. rewrite (read_back data) by auto. cbn [req obind].
  unfold data. rewrite Ec, (swap_cells_ok t k w) by auto. cbn [obind].
  replace (zlen (compress (stored same (concat cs))) <=? _) with true by (symmetry; apply Z.leb_le, ZC).
  change (@concat byte (map same (concat cs))) with (stored same (concat cs)). reflexivity.
Qed.
Lemma stored_block_len b rest : fits b -> exists a d c, stored_block (@rev byte) pack b ++ rest = a ++ d ++ c ++ rest /\ zlen a = 16 * dim + 8 /\ zlen d = 8 /\ le_dec (swap_endian d) = zlen c.
Proof.
  intros (L1 & L2 & (cs & Ec & Fc) & W1 & W2 & W3). unfold stored_block. set (hd := flat_map _ (bk_lims b ++ bk_bcs b)). rewrite stored_app. cbn [stored map concat]. rewrite app_nil_r.
  set (data := stored (@rev byte) (bk_numbers b)) in *. change (@concat byte (map (@rev byte) (bk_numbers b))) with data.
  exists (stored (@rev byte) hd ++ rev (pd_enc pod_ulong (zlen data))), (rev (pd_enc pod_ulong (zlen (pack data)))), (pack data).
  split; [rewrite <- !app_assoc; reflexivity|]. split.
  - rewrite zlen_app, zlen_rev, zlen_ulong, stored_len4 by (intros; try apply zlen_rev; apply four_pairs). unfold hd. rewrite zlen_pairs, zlen_app. lia.
  - split; [rewrite zlen_rev; apply zlen_ulong|]. apply ulong_rev. pose proof (zlen_nonneg (pack data)). lia.
Qed.
Lemma convert_blocks_ok bl : Forall fits bl ->
  convert_blocks compress uncompress (length bl) (bytes t) dim (concat (map (stored_block (@rev byte) pack) bl)) = Done (map (stored_block same compress) bl).
Proof.
  induction 1 as [|b bl Hb F IH]; [reflexivity|]. destruct bl as [|b2 bl].
  - cbn [length convert_blocks map concat]. rewrite convert_block_ok by auto. reflexivity.
  - change (length (b :: b2 :: bl)) with (S (S (length bl))). change (map (stored_block (@rev byte) pack) (b :: b2 :: bl)) with (stored_block (@rev byte) pack b :: map (stored_block (@rev byte) pack) (b2 :: bl)).
    cbn [concat]. set (rest := concat (map (stored_block (@rev byte) pack) (b2 :: bl))) in *. cbn [convert_blocks]. rewrite convert_block_ok by auto. cbn [obind].
    destruct (stored_block_len b rest Hb) as (a & d & c & -> & La & Ld & Lc). rewrite read_n_app by auto. cbn [req obind]. rewrite read_n_app by auto. cbn [req obind].
    rewrite read_n_app by auto. cbn [req obind]. change (length (b2 :: bl)) with (S (length bl)) in IH. cbn [convert_blocks] in IH |- *. rewrite IH. reflexivity.
Qed.

Context {D F : Type} (dshow : D -> list byte) (fshow : F -> list byte) (fparse : list byte -> option F).
Lemma convert_head fields gs dx fs (cnt rest : list byte) : 1 <= dim <= 3 -> zlen gs = dim -> int_range fields -> Forall int_box gs ->
  Forall2 (fun d f => dshow d = fshow f /\ exact_text fshow fparse f) dx fs -> length dx = length gs -> zlen cnt = 4 ->
  convert compress uncompress fshow fparse (header dshow (bytes t) fields gs dx ++ cnt ++ rest) =
    got l <- convert_blocks compress uncompress (Z.to_nat (sext 4 (le_dec (rev cnt)))) (bytes t) dim rest;
    Done (header dshow (bytes t) fields gs dx ++ rev cnt, l).
Proof.
  clear ZC UP pack. intros Hd Lg Hf Hg Hx Lx Hn. destruct (supported_ok t k w HT) as (_ & W & _ & _ & P & N10). unfold convert, header.
  assert (flat_map (fun d => dshow d ++ [10]) dx = flat_map (fun d => fshow d ++ [10]) fs /\ Forall (exact_text fshow fparse) fs /\ length fs = length dx) as (-> & Hfs & Lf).
  { clear - Hx. induction Hx as [|d f dx fs [E X] _ (IH1 & IH2 & IH3)]; [auto|]. cbn [flat_map length]. rewrite E, IH1. auto. }
  rewrite <- !app_assoc. change ([10 : byte] ++ ?l) with ((10 : byte) :: l) at 1. rewrite getline_app by auto. rewrite P, W. cbn [negb].
  change (show_int (zlen gs) ++ ?l) with ([] ++ show_int (zlen gs) ++ l). rewrite read_show; [|constructor|unfold int_range; lia|reflexivity].
  cbv beta iota. rewrite Lg. replace (dim <? 1) with false by (symmetry; apply Z.ltb_ge; lia). replace (3 <? dim) with false by (symmetry; apply Z.ltb_ge; lia). cbn [orb].
  rewrite read_show; [|apply ws10|auto|reflexivity]. cbn [req obind].
  change ([10 : byte] ++ ?l) with ((10 : byte) :: l) at 1. replace (Z.to_nat dim) with (length gs) by (unfold zlen in Lg; lia). rewrite read_gs_ok by auto. cbn [req obind].
  rewrite <- Lx, <- Lf, read_dx_ok by auto. cbn [req obind]. cbv zeta. change (ignore 10 ((10 : byte) :: ?l)) with l.
  rewrite read_n_app by auto. cbn [req obind]. unfold swap_endian. reflexivity.
Qed.
Lemma convert_ok fields gs dx fs bl : 1 <= dim <= 3 -> zlen gs = dim -> int_range fields -> Forall int_box gs ->
  Forall2 (fun d f => dshow d = fshow f /\ exact_text fshow fparse f) dx fs -> length dx = length gs -> zlen bl < 2147483648 -> Forall fits bl ->
  convert compress uncompress fshow fparse (stored_file (@rev byte) pack (header dshow (bytes t) fields gs dx) bl) =
    Done (header dshow (bytes t) fields gs dx ++ stored same [pd_enc pod_int (zlen bl)], map (stored_block same compress) bl).
Proof.
  intros Hd Lg Hf Hg Hx Lx Hn Fb. unfold stored_file. cbn [stored map concat]. rewrite !app_nil_r. rewrite (convert_head fields gs dx fs) by (auto; rewrite zlen_rev; apply zlen_int_enc).
  rewrite rev_involutive.
  change (sext 4 (le_dec (pd_enc pod_int (zlen bl)))) with (pd_dec pod_int (pd_enc pod_int (zlen bl))).
  destruct pod_int_ok as [_ PI]. destruct (PI (zlen bl)) as [_ ->]; [pose proof (zlen_nonneg bl); unfold int_range; lia|].
  replace (Z.to_nat (zlen bl)) with (length bl) by (unfold zlen; lia). rewrite convert_blocks_ok by auto. reflexivity.
Qed.
End Convert.

Lemma written_ok n l : (0 < n)%nat -> (exists out, written n l out) /\ forall out, written n l out -> exists p, Permutation l p /\ out = concat p.
Proof.
  intros Hn. split.
  - remember (length l) as m eqn:E. revert l E. induction m as [m IH] using lt_wf_ind. intros l E. destruct l as [|b l]; [exists []; constructor|].
    destruct (IH (length (skipn n (b :: l)))) with (l := skipn n (b :: l)) as (out & W); auto; [rewrite skipn_length; cbn in *; lia|].
    exists (concat (firstn n (b :: l)) ++ out). econstructor; [discriminate| |reflexivity|apply Permutation_refl|exact W]. now rewrite firstn_skipn.
  - intros out W. induction W as [|l l1 l2 p out Ne E E1 Pm W (q & Pq & ->)]; [exists []; auto|]. exists (p ++ q). subst l. rewrite concat_app. split; [|reflexivity].
    now apply Permutation_app.
Qed.
Lemma written_one l out : written 1 l out -> out = concat l.
Proof.
  induction 1 as [|l l1 l2 p out Ne E E1 Pm W ->]; [reflexivity|]. destruct l as [|b l]; [easy|]. cbn in E1. subst l1. apply Permutation_length_1_inv in Pm. subst p.
  cbn in E. inversion E; subst. cbn. now rewrite app_nil_r.
Qed.
