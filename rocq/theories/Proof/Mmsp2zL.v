From Coq Require Import String.
From Verif Require Import Model.Base Model.Text Model.Setup Model.Codec Model.File Model.Endian Model.Mmsp2z Spec.Bytes Spec.File Spec.Endian Spec.Mmsp2z
  Proof.BaseL Proof.TextL Proof.CodecL Proof.FileL Proof.EndianL.
Local Open Scope list_scope.
Local Open Scope Z_scope.

Lemma read_pairs_list ls rest : Forall (fun l => int_range (fst l) /\ int_range (snd l)) ls -> read_pairs (length ls) (ints ls ++ rest) = Done (ls, rest).
Proof.
  induction 1 as [|[a b] ls [Ha Hb] _ IH]; [reflexivity|]. cbn [length read_pairs ints flat_map fst snd]. rewrite <- !app_assoc. rewrite read_bin_int_ok by auto. cbn [obind]. rewrite read_bin_int_ok by auto. cbn [obind]. fold (ints ls). now rewrite IH.
Qed.

Section Pack.
Context (compress : list byte -> list byte) (ZC : forall x, zlen (compress x) <= 9 * zlen x / 8 + 12) (dim : Z).
Definition old_fits (b : list (Z * Z) * list byte) : Prop :=
  zlen (fst b) = dim /\ Forall (fun l => int_range (fst l) /\ int_range (snd l)) (fst b) /\ 8 <= zlen (snd b) < 2 ^ 64.
Lemma pack_block_ok b rest : old_fits b -> pack_block compress dim (plain_block b ++ rest) = Done (packed_block compress b, rest).
Proof.
  intros (L & Fl & S). destruct b as [ls data]. unfold pack_block, plain_block, packed_block. cbn [fst snd] in *. rewrite <- !app_assoc. replace (Z.to_nat dim) with (length ls) by (unfold zlen in L; lia).
  rewrite read_pairs_list by auto. cbn [obind]. rewrite read_bin_ulong_ok by lia. cbn [obind]. cbv zeta.
  assert (zlen data + 1 <= 9 * zlen data / 8) by (apply Z.div_le_lower_bound; lia). replace (9 * zlen data / 8 + 12 - 12 >? zlen data) with true by (symmetry; apply Z.gtb_lt; lia). cbn [negb].
  rewrite read_n_app by reflexivity. cbn [req obind]. specialize (ZC data). replace (zlen (compress data) >? 9 * zlen data / 8 + 12) with false by (symmetry; rewrite Z.gtb_ltb; apply Z.ltb_ge; lia). reflexivity.
Qed.
Lemma pack_blocks_ok bl : Forall old_fits bl -> pack_blocks compress (length bl) dim (concat (map plain_block bl)) = Done (concat (map (packed_block compress) bl)).
Proof. induction 1 as [|b bl H _ IH]; [reflexivity|]. cbn [length pack_blocks map concat]. rewrite pack_block_ok by auto. cbn [obind]. now rewrite IH. Qed.

Context {D F : Type} (dshow : D -> list byte) (fshow : F -> list byte) (fparse : list byte -> option F).
Lemma mmsp2z_head type fields gs dx fs n rest : Forall (fun b => b <> 10) type -> 1 <= dim <= 3 -> zlen gs = dim -> int_range fields -> Forall int_box gs ->
  Forall2 (fun d f => dshow d = fshow f /\ exact_text fshow fparse f) dx fs -> length dx = length gs -> int_range n ->
  mmsp2z compress fshow fparse (header dshow type fields gs dx ++ pd_enc pod_int n ++ rest) =
    got body <- pack_blocks compress (Z.to_nat n) dim rest; Done (header dshow type fields gs dx ++ pd_enc pod_int n ++ body).
Proof.
  clear ZC. intros N10 Hd Lg Hf Hg Hx Lx Hn. unfold mmsp2z, header.
  assert (flat_map (fun d => dshow d ++ [10]) dx = flat_map (fun d => fshow d ++ [10]) fs /\ Forall (exact_text fshow fparse) fs /\ length fs = length dx) as (-> & Hfs & Lf).
  { clear - Hx. induction Hx as [|d f dx fs [E X] _ (IH1 & IH2 & IH3)]; [auto|]. cbn [flat_map length]. rewrite E, IH1. auto. }
  rewrite <- !app_assoc. change ([10 : byte] ++ ?l) with ((10 : byte) :: l) at 1. rewrite getline_app by auto.
  unfold read_dim. change (show_int (zlen gs) ++ ?l) with ([] ++ show_int (zlen gs) ++ l). rewrite read_show; [|constructor|unfold int_range; lia|reflexivity].
  cbn [obind]. rewrite Lg. replace (dim <? 1) with false by (symmetry; apply Z.ltb_ge; lia). replace (3 <? dim) with false by (symmetry; apply Z.ltb_ge; lia). cbn [orb].
  rewrite read_show; [|apply ws10|auto|reflexivity]. cbn [req obind].
  change ([10 : byte] ++ ?l) with ((10 : byte) :: l) at 1. replace (Z.to_nat dim) with (length gs) by (unfold zlen in Lg; lia). rewrite read_gs_ok by auto. cbn [req obind].
  rewrite <- Lx, <- Lf, read_dx_ok by auto. cbn [req obind]. cbv zeta. change (ignore 10 ((10 : byte) :: ?l)) with l.
  rewrite read_bin_int_ok by auto. cbn [req obind]. destruct (pack_blocks _ _ _ _); cbn [obind app]; try reflexivity. f_equal. repeat (rewrite <- ?app_assoc; cbn [app]). reflexivity.
Qed.
End Pack.

(* a pair of ints read as one unsigned long *)
Lemma le_dec_app a b : le_dec (a ++ b) = le_dec a + 256 ^ zlen a * le_dec b.
Proof.
  induction a as [|x a IH]; [cbn [app le_dec]; change (zlen (@nil byte)) with 0; lia|]. cbn [app le_dec]. rewrite IH, zlen_cons. rewrite Z.pow_add_r by (pose proof (zlen_nonneg a); lia). lia.
Qed.
Lemma read_two_ints a b rest : 0 <= a < 2 ^ 31 -> 0 <= b < 2 ^ 31 -> read_bin_ulong (pd_enc pod_int a ++ pd_enc pod_int b ++ rest) = Done (a + 2 ^ 32 * b, rest).
Proof.
  intros Ha Hb. unfold read_bin_ulong. rewrite app_assoc. 
  assert (E : forall v, 0 <= v < 2 ^ 31 -> le_dec (pd_enc pod_int v) = v /\ zlen (pd_enc pod_int v) = 4).
  { intros v Hv. split; [|reflexivity]. cbn [pd_enc pod_int pod_sint]. change (256 ^ Z.of_nat 4) with (2 ^ 32). rewrite Z.mod_small by lia. cbn [le_enc le_dec]. Z.div_mod_to_equations. lia. }
  destruct (E a Ha) as [Ea La], (E b Hb) as [Eb Lb]. rewrite read_n_app by (rewrite zlen_app, La, Lb; reflexivity). cbn [req obind]. cbn [pd_dec pod_ulong pod_uint]. rewrite le_dec_app, Ea, Eb, La. reflexivity.
Qed.
Lemma pairs_stored ls : stored (fun x => x) (flat_map (fun l => [pd_enc pod_int (fst l); pd_enc pod_int (snd l)]) ls) = ints ls.
Proof. unfold stored, ints. rewrite map_id. induction ls as [|[a b] ls IH]; [reflexivity|]. cbn [flat_map app concat fst snd]. now rewrite IH, app_assoc. Qed.
Lemma stored_app order a b : stored order (a ++ b) = stored order a ++ stored order b.
Proof. unfold stored. now rewrite map_app, concat_app. Qed.
Lemma pairs_app a b : ints (a ++ b) = ints a ++ ints b.
Proof. apply flat_map_app. Qed.

(* a block of the present format: the first pair of boundary conditions is taken for the size *)
Lemma current_block compress pack dim b rest : 1 <= dim -> zlen (bk_lims b) = dim -> zlen (bk_bcs b) = dim ->
  Forall (fun l => int_range (fst l) /\ int_range (snd l)) (bk_lims b) -> Forall (fun l => 0 <= fst l <= 4 /\ 0 <= snd l <= 4) (bk_bcs b) ->
  zlen (stored_block (fun x => x) pack b ++ rest) < 2 ^ 32 ->
  pack_block compress dim (stored_block (fun x => x) pack b ++ rest) = Exit 134 \/ pack_block compress dim (stored_block (fun x => x) pack b ++ rest) = Undef.
Proof.
  intros Hd Ll Lb Hl Hb S. destruct (bk_bcs b) as [|[u v] bcs] eqn:EB; [unfold zlen in Lb; cbn in Lb; lia|]. inversion Hb as [|? ? [Hu Hv] _]; subst. cbn [fst snd] in *.
  assert (exists tail, stored_block (fun x => x) pack b ++ rest = ints (bk_lims b) ++ pd_enc pod_int u ++ pd_enc pod_int v ++ tail) as (tail & E).
  { unfold stored_block. rewrite stored_app, pairs_stored, EB, pairs_app. change (ints ((u, v) :: bcs)) with ((pd_enc pod_int u ++ pd_enc pod_int v) ++ ints bcs). eexists. rewrite <- !app_assoc. reflexivity. }
  rewrite E in *. unfold pack_block. replace (Z.to_nat (zlen (bk_lims b))) with (length (bk_lims b)) by (unfold zlen; lia). rewrite read_pairs_list by auto. cbn [obind].
  rewrite read_two_ints by lia. cbn [obind]. cbv zeta. destruct (Z.eq_dec v 0) as [->|V].
  - left. assert (9 * (u + 2 ^ 32 * 0) / 8 <= u + 2 ^ 32 * 0) as L. { assert (u = 0 \/ u = 1 \/ u = 2 \/ u = 3 \/ u = 4) as [-> | [-> | [-> | [-> | ->]]]] by lia; vm_compute; discriminate. }
    destruct (_ >? _) eqn:G; [apply Z.gtb_lt in G; lia|]. reflexivity.
  - destruct (negb _); [now left|right]. unfold read_n. replace (u + 2 ^ 32 * v <=? zlen tail) with false; [now rewrite andb_false_r|].
    symmetry. apply Z.leb_gt. rewrite !zlen_app in S. pose proof (zlen_nonneg (ints (bk_lims b))). pose proof (zlen_nonneg (pd_enc pod_int u)). pose proof (zlen_nonneg (pd_enc pod_int v)). lia.
Qed.
