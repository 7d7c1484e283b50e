(* C52: the compression utility utility/mmsp2z.cpp. *)
From Coq Require Import String.
From Verif Require Import Model.Base Model.Text Model.Boundary Model.Layout Model.Setup Model.Codec Model.Region Model.File Model.Endian Model.Mmsp2z Spec.Bytes Spec.Access Spec.File Spec.Endian Spec.Mmsp2z
  Proof.BaseL Proof.CodecL Proof.EndianL Proof.EndianF Proof.Mmsp2zL.
Local Open Scope string_scope.
Local Open Scope list_scope.
Local Open Scope Z_scope.

(* C52, the part that holds: a file in the format without boundary conditions, whose blocks have at least 8 bytes, is converted
   into the compressed variant of that format; every header line, limit and size is unchanged, and the data of every block
   are recovered by decompression.  The library of this version reads neither of the two formats; see C52_refuted for its own. *)
Theorem C52_old_format_partial : forall compress uncompress D F (dshow : D -> list byte) (fshow : F -> list byte) fparse type fields gs dx fs bl,
  lossless compress uncompress -> Forall (fun b => b <> 10) type -> 1 <= zlen gs <= 3 -> int_range fields -> Forall int_box gs ->
  length dx = length gs -> Forall2 (fun d f => dshow d = fshow f /\ exact_text fshow fparse f) dx fs -> zlen bl < 2147483648 ->
  Forall (fun b => zlen (fst b) = zlen gs /\ Forall (fun l => int_range (fst l) /\ int_range (snd l)) (fst b) /\ 8 <= zlen (snd b) < 2 ^ 64) bl ->
  let head := header dshow type fields gs dx in
  mmsp2z compress fshow fparse (old_file plain_block head bl) = Done (old_file (packed_block compress) head bl) /\
  Forall (fun b => uncompress (compress (snd b)) (zlen (snd b)) = Some (snd b)) bl.
Proof.
  intros compress uncompress D F dshow fshow fparse type fields gs dx fs bl LL N10 Hd Hf Hg Lx Hx Hn Hb head. split.
  - unfold old_file, head. rewrite (mmsp2z_head compress (zlen gs) dshow fshow fparse type fields gs dx fs) by (auto; pose proof (zlen_nonneg bl); unfold int_range; lia).
    replace (Z.to_nat (zlen bl)) with (length bl) by (unfold zlen; lia). rewrite pack_blocks_ok; [reflexivity| |exact Hb]. intros x. apply LL.
  - apply Forall_forall. intros b _. apply LL.
Qed.
Print Assumptions C52_old_format_partial.

(* C52 is false for the format this version of the library writes: whatever the grid, the utility fails on the file, since the
   boundary conditions (0 to 4) on the first axis of the first block are taken for the number of bytes of the block *)
Theorem C52_refuted : forall compress pack D F (dshow : D -> list byte) (fshow : F -> list byte) fparse type fields gs dx fs b bl,
  Forall (fun b => b <> 10) type -> 1 <= zlen gs <= 3 -> int_range fields -> Forall int_box gs ->
  length dx = length gs -> Forall2 (fun d f => dshow d = fshow f /\ exact_text fshow fparse f) dx fs -> zlen (b :: bl) < 2147483648 ->
  zlen (bk_lims b) = zlen gs -> Forall (fun l => int_range (fst l) /\ int_range (snd l)) (bk_lims b) ->
  zlen (bk_bcs b) = zlen gs -> Forall (fun l => 0 <= fst l <= 4 /\ 0 <= snd l <= 4) (bk_bcs b) ->
  let file := stored_file (fun x => x) pack (header dshow type fields gs dx) (b :: bl) in
  zlen file < 2 ^ 32 ->
  mmsp2z compress fshow fparse file = Exit 134 \/ mmsp2z compress fshow fparse file = Undef.
Proof.
  intros compress pack D F dshow fshow fparse type fields gs dx fs b bl N10 Hd Hf Hg Lx Hx Hn Ll Hl Lb Hb file SZ.
  assert (file = header dshow type fields gs dx ++ pd_enc pod_int (zlen (b :: bl)) ++ stored_block (fun x => x) pack b ++ concat (map (stored_block (fun x => x) pack) bl)) as E.
  { unfold file, stored_file. unfold stored at 1. cbn [map concat]. now rewrite app_nil_r. }
  rewrite E in *. rewrite (mmsp2z_head compress (zlen gs) dshow fshow fparse type fields gs dx fs) by (auto; pose proof (zlen_nonneg (b :: bl)); unfold int_range; lia).
  replace (Z.to_nat (zlen (b :: bl))) with (S (length bl)) by (unfold zlen; cbn [length]; lia). cbn [pack_blocks].
  destruct (current_block compress pack (zlen gs) b (concat (map (stored_block (fun x => x) pack) bl))) as [P | P]; auto; try lia.
  - eapply Z.le_lt_trans; [|exact SZ]. assert (forall x y : list byte, zlen y <= zlen (x ++ y)) as A by (intros x y; rewrite zlen_app; pose proof (zlen_nonneg x); lia). etransitivity; [|apply A]. apply A.
  - rewrite P. now left.
  - rewrite P. now right.
Qed.
Print Assumptions C52_refuted.

(* in particular for every file of a program without MPI *)
Theorem C52_output_refuted : forall compress D F (dshow : D -> list byte) (fshow : F -> list byte) fparse t k w T c nums valid fields axs dx fs (data : list T) raw zip file,
  (forall x, zlen (compress x) <= 9 * zlen x / 8 + 12) -> cell_type k w T c nums valid -> Forall (fun b => b <> 10) (bytes t) ->
  1 <= zlen axs <= 3 -> int_range fields -> wf_axes 0 axs -> Forall (fun a => int_range (a_g0 a) /\ int_range (a_g1 a) /\ int_range (a_x0 a) /\ int_range (a_x1 a)) axs ->
  Forall (fun a => 0 <= a_b0 a <= 4 /\ 0 <= a_b1 a <= 4) axs ->
  length dx = length axs -> Forall2 (fun d f => dshow d = fshow f /\ exact_text fshow fparse f) dx fs ->
  zlen data = cells axs -> Forall valid data ->
  output_serial c dshow raw compress (bytes t) fields axs dx data = Some file -> zlen file < 2 ^ 32 ->
  mmsp2z zip fshow fparse file = Exit 134 \/ mmsp2z zip fshow fparse file = Undef.
Proof.
  intros compress D F dshow fshow fparse t k w T c nums valid fields axs dx fs data raw zip file LL CT N10 Hd Hf W Hi HB Lx Hx Ld Hv HO S.
  assert (axs <> []) as Ne by (intros ->; unfold zlen in Hd; cbn in Hd; lia).
  assert (Forall (numbered c nums) data) as N by (eapply Forall_impl; [|exact Hv]; intros v V; now apply (cell_type_ok k w T c nums valid CT)).
  rewrite (native_file c nums dshow raw compress (bytes t) fields axs dx data Ne W Ld N (LL _)) in HO. injection HO as <-.
  eapply C52_refuted with (fs := fs); auto.
  - now rewrite zlen_map.
  - apply Forall_map. eapply Forall_impl; [|exact Hi]. intros a (? & ? & _). split; auto.
  - now rewrite map_length.
  - reflexivity.
  - cbn [bk_lims]. now rewrite !zlen_map.
  - cbn [bk_lims]. apply Forall_map. eapply Forall_impl; [|exact Hi]. intros a (_ & _ & ? & ?). split; auto.
  - cbn [bk_bcs]. now rewrite !zlen_map.
  - cbn [bk_bcs]. apply Forall_map. exact HB.
Qed.
Print Assumptions C52_output_refuted.

(* the hypotheses are met: an old file with two blocks on a line of four nodes *)
Definition as_is (x : list byte) (n : Z) : option (list byte) := if zlen x <=? n then Some x else None.
Definition whole (s : list byte) : option Z := match read_int s with Some (v, []) => Some v | _ => None end.
Definition line_head := header show_int (bytes "grid:scalar:int") 1 [mkG 0 4] [1].
Definition line_blocks : list (list (Z * Z) * list byte) := [([(0, 2)], [5; 0; 0; 0; 6; 0; 0; 0]); ([(2, 4)], [7; 0; 0; 0; 8; 0; 0; 0])].
Example C52_case :
  lossless (fun x => x) as_is /\ Forall2 (fun d f => show_int d = show_int f /\ exact_text show_int whole f) [1] [1] /\
  Forall (fun b => zlen (fst b) = 1 /\ Forall (fun l => int_range (fst l) /\ int_range (snd l)) (fst b) /\ 8 <= zlen (snd b) < 2 ^ 64) line_blocks /\
  mmsp2z (fun x => x) show_int whole (old_file plain_block line_head line_blocks) = Done (old_file (packed_block (fun x => x)) line_head line_blocks).
Proof.
  split; [intros x; unfold as_is; rewrite Z.leb_refl; split; [reflexivity|]; pose proof (zlen_nonneg x); assert (zlen x * 8 / 8 <= 9 * zlen x / 8) by (apply Z.div_le_mono; lia); rewrite Z.div_mul in H0; lia|].
  split; [constructor; [|constructor]; split; [reflexivity|split; [vm_compute; reflexivity|split; [vm_compute; discriminate|change (show_int 1) with [49]; repeat (constructor; [lia|]); constructor]]]|].
  split; [|vm_compute; reflexivity]. repeat constructor; cbn; unfold int_range, zlen; cbn; lia.
Qed.
(* and a file of the present format, with periodic boundaries and with mirror boundaries *)
Example C52_refuted_case :
  let file bc := stored_file (fun x => x) (fun x => x) (header show_int (bytes "grid:scalar:int") 1 [mkG 0 2] [1])
    [mkBlock [(0, 2)] [(bc, bc)] [[5; 0; 0; 0]; [6; 0; 0; 0]]] in
  output_serial (pod_codec (pod_raw 4)) show_int true (fun x => x) (bytes "grid:scalar:int") 1 [mkAxis 0 2 0 2 0 2 1 1 2 2] [1] [[5; 0; 0; 0]; [6; 0; 0; 0]] = Some (file 2) /\
  zlen (file 2) < 2 ^ 32 /\ mmsp2z (fun x => x) show_int whole (file 2) = Undef /\ mmsp2z (fun x => x) show_int whole (file 0) = Exit 134.
Proof. cbv zeta. split; [vm_compute; reflexivity|]. split; [vm_compute; reflexivity|]. split; vm_compute; reflexivity. Qed.

(* nor does the library read what the utility makes of an old file: one node, whose 8 bytes are 0 *)
Theorem C52_library_refuted : exists out,
  mmsp2z (fun x => x) show_int whole (old_file plain_block (header show_int (bytes "grid:scalar:double") 1 [mkG 0 1] [1]) [([(0, 1)], repeat 0 8)]) = Done out /\
  forall raw l, input_serial (pod_codec (pod_raw 8)) (fun _ => []) whole raw as_is (bytes "grid:scalar:double") 1 out <> Done l.
Proof. eexists. split; [vm_compute; reflexivity|]. intros [|] l; vm_compute; discriminate. Qed.
Print Assumptions C52_library_refuted.
