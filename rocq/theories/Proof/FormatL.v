(* Lemmas for C119: byte layouts of numbers, and the header. *)
From Verif Require Import Model.Base Model.Text Model.Boundary Model.Layout Model.Access Model.Setup Model.Codec Model.File Model.Endian Spec.Endian Spec.Decimal Spec.Format Proof.BaseL Proof.TextL Proof.CodecL Proof.DecimalL.
Local Open Scope list_scope.
Local Open Scope Z_scope.

Lemma le_le n v : le_enc n v = le n v.
Proof.
  revert v. induction n as [|n IH]; intros v; [reflexivity|]. cbn [le_enc]. rewrite IH. unfold le. cbn [seq map]. f_equal; [now rewrite Z.pow_0_r, Z.div_1_r|].
  rewrite <- seq_shift, map_map. apply map_ext. intros i. rewrite Nat2Z.inj_succ, Z.pow_succ_r by lia. rewrite Z.div_div by lia. reflexivity.
Qed.
Lemma le_mod n v : le n (v mod 256 ^ Z.of_nat n) = le n v.
Proof.
  unfold le. apply map_ext_in. intros i I. apply in_seq in I. set (P := 256 ^ Z.of_nat i). assert (0 < P) as HP by (apply Z.pow_pos_nonneg; lia).
  assert (256 ^ Z.of_nat n = P * 256 * 256 ^ Z.of_nat (n - S i)) as E.
  { unfold P. rewrite <- (Z.pow_1_r 256) at 3. rewrite <- !Z.pow_add_r by lia. f_equal. lia. }
  set (R := 256 ^ Z.of_nat (n - S i)) in *. assert (0 < 256 ^ Z.of_nat n) as H0 by (apply Z.pow_pos_nonneg; lia).
  rewrite (Z.div_mod v (256 ^ Z.of_nat n)) at 2 by lia. rewrite E at 2. replace (P * 256 * R * (v / 256 ^ Z.of_nat n) + v mod 256 ^ Z.of_nat n) with (v mod 256 ^ Z.of_nat n + (256 * (R * (v / 256 ^ Z.of_nat n))) * P) by ring.
  rewrite Z.div_add by lia. rewrite (Z.mul_comm 256), Z.mod_add by lia. reflexivity.
Qed.
Lemma int_le v : pd_enc pod_int v = le 4 v.
Proof. change (pd_enc pod_int v) with (le_enc 4 (v mod 256 ^ Z.of_nat 4)). rewrite le_le. apply le_mod. Qed.
Lemma ulong_le v : pd_enc pod_ulong v = le 8 v.
Proof. apply (le_le 8). Qed.
Lemma header_ok {D} (dshow : D -> list byte) name fields gs dx :
  header_text name (zlen gs) fields (map (fun g => (gx_0 g, gx_1 g)) gs) (map dshow dx) (header dshow name fields gs dx).
Proof.
  exists (show_int (zlen gs)), (show_int fields), (map (fun g => show_int (gx_0 g) ++ [32] ++ show_int (gx_1 g)) gs). split; [apply show_decimal|]. split; [apply show_decimal|]. split.
  - induction gs as [|g gs IH]; cbn [map]; constructor; [|exact IH]. exists (show_int (gx_0 g)), (show_int (gx_1 g)). repeat split; apply show_decimal.
  - unfold header, line. rewrite <- !app_assoc. repeat f_equal.
    + rewrite flat_map_concat_map, flat_map_concat_map, map_map. f_equal. apply map_ext. intros g. now rewrite <- !app_assoc.
    + rewrite !flat_map_concat_map, map_map. reflexivity.
Qed.
Lemma concat_id (l : list (list byte)) : stored (fun x => x) l = concat l.
Proof. unfold stored. now rewrite map_id. Qed.
Lemma header_unique name dim fields ext sp h h' : header_text name dim fields ext sp h -> header_text name dim fields ext sp h' -> h = h'.
Proof.
  intros (d & f & es & Hd & Hf & He & ->) (d' & f' & es' & Hd' & Hf' & He' & ->). rewrite (decimal_unique _ _ _ Hd' Hd), (decimal_unique _ _ _ Hf' Hf).
  assert (es = es') as ->; [|reflexivity]. clear - He He'. revert es' He'. induction He as [|p e ps es (a & b & Ha & Hb & ->) _ IH]; intros es' He'; inversion He' as [|p' e' ps' es2 (a' & b' & Ha' & Hb' & ->) F]; subst; [reflexivity|].
  rewrite (decimal_unique _ _ _ Ha' Ha), (decimal_unique _ _ _ Hb' Hb). f_equal. now apply IH.
Qed.
