(* C44: the endianness converter utility/wrongendian.cpp. *)
From Coq Require Import String Permutation.
From Verif Require Import Model.Base Model.Text Model.Boundary Model.Layout Model.Setup Model.Codec Model.Region Model.File Model.Endian Spec.Bytes Spec.Access Spec.File Spec.Endian
  Proof.BaseL Proof.CodecL Proof.EndianL Proof.EndianF.
Local Open Scope string_scope.
Local Open Scope list_scope.
Local Open Scope Z_scope.

(* C44, a file with any number of blocks.  [foreign] was written by a machine of the other byte order for a grid of a supported
   type, with or without compression ([pack]); the text of the spacings is reproduced when they are read as floats.  Then the
   conversion succeeds with any number of threads, and whatever the order in which the threads write, the result is the
   native header followed by the native blocks in some order. *)
Theorem C44_blocks : forall compress uncompress pack D F (dshow : D -> list byte) (fshow : F -> list byte) fparse t k w fields gs dx fs bl threads,
  (forall x, zlen (compress x) <= 5 * zlen x / 4 + 12) -> unpacks pack uncompress -> In (t, k, w) supported ->
  1 <= zlen gs <= 3 -> int_range fields -> Forall int_box gs -> length dx = length gs ->
  Forall2 (fun d f => dshow d = fshow f /\ exact_text fshow fparse f) dx fs ->
  zlen bl < 2147483648 ->
  Forall (fun b => zlen (bk_lims b) = zlen gs /\ zlen (bk_bcs b) = zlen gs /\
    (exists cs, bk_numbers b = concat cs /\ Forall (cell_numbers k w) cs) /\ well_sized (@rev byte) pack b) bl ->
  (0 < threads)%nat ->
  let head := header dshow (bytes t) fields gs dx in
  let foreign := stored_file (@rev byte) pack head bl in
  let native := stored_file (fun x => x) compress head in
  (exists out, converts compress uncompress fshow fparse threads foreign out) /\
  forall out, converts compress uncompress fshow fparse threads foreign out ->
    (exists bl', Permutation bl bl' /\ out = native bl') /\ (threads = 1%nat -> out = native bl).
Proof.
  intros compress uncompress pack D F dshow fshow fparse t k w fields gs dx fs bl threads ZC UP HT Hd Hf Hg Lx Hx Hn Hb Ht head foreign native.
  pose proof (convert_ok compress uncompress pack ZC UP t k w HT (zlen gs) dshow fshow fparse fields gs dx fs bl Hd eq_refl Hf Hg Hx Lx Hn Hb) as E. fold head foreign in E.
  destruct (written_ok threads (map (stored_block (fun x => x) compress) bl) Ht) as [(o & Ho) W]. split.
  - exists ((head ++ stored (fun x => x) [pd_enc pod_int (zlen bl)]) ++ o). do 3 eexists. split; [exact E|]. split; [exact Ho|reflexivity].
  - intros out (hd & l & body & E' & W' & ->). rewrite E in E'. injection E' as <- <-. split.
    + destruct (W _ W') as (p & Pp & ->). apply Permutation_sym, Permutation_map_inv in Pp. destruct Pp as (bl' & -> & Pb). exists bl'. split; [now apply Permutation_sym|].
      unfold native, stored_file. rewrite <- app_assoc. do 4 f_equal. unfold zlen. now rewrite (Permutation_length Pb).
    + intros ->. apply written_one in W'. subst body. unfold native, stored_file. now rewrite <- app_assoc.
Qed.
Print Assumptions C44_blocks.

(* C44, a file of a program without MPI: converting the file that a machine of the other byte order writes for a grid gives
   exactly the file that the native library writes for the same grid, for every grid of a supported type *)
Theorem C44_native : forall compress uncompress pack D F (dshow : D -> list byte) (fshow : F -> list byte) fparse t k w T c nums valid fields axs dx fs (data : list T) threads,
  lossless compress uncompress -> unpacks pack uncompress -> In (t, k, w) supported -> cell_type k w T c nums valid ->
  1 <= zlen axs <= 3 -> int_range fields -> wf_axes 0 axs -> Forall (fun a => int_range (a_g0 a) /\ int_range (a_g1 a)) axs ->
  length dx = length axs -> Forall2 (fun d f => dshow d = fshow f /\ exact_text fshow fparse f) dx fs ->
  zlen data = cells axs -> Forall valid data ->
  let head := header dshow (bytes t) fields (map (fun a => mkG (a_g0 a) (a_g1 a)) axs) dx in
  let b := mkBlock (map (fun a => (a_x0 a, a_x1 a)) axs) (map (fun a => (a_b0 a, a_b1 a)) axs) (flat_map nums data) in
  let foreign := stored_file (@rev byte) pack head [b] in
  well_sized (@rev byte) pack b -> (0 < threads)%nat ->
  output_serial c dshow false compress (bytes t) fields axs dx data = Some (stored_file (fun x => x) compress head [b]) /\
  exists native, output_serial c dshow false compress (bytes t) fields axs dx data = Some native /\
    converts compress uncompress fshow fparse threads foreign native /\
    forall out, converts compress uncompress fshow fparse threads foreign out -> out = native.
Proof.
  intros compress uncompress pack D F dshow fshow fparse t k w T c nums valid fields axs dx fs data threads LL UP HT CT Hd Hf W Hi Lx Hx Ld Hv head b foreign WS Ht.
  assert (axs <> []) as Ne by (intros ->; change (zlen (@nil axis)) with 0 in Hd; lia).
  assert (Forall (numbered c nums) data) as N by (eapply Forall_impl; [|exact Hv]; intros v V; now apply (cell_type_ok k w T c nums valid CT)).
  pose proof (native_file c nums dshow false compress (bytes t) fields axs dx data Ne W Ld N (proj2 (LL _))) as Nat. fold head b in Nat. split; [exact Nat|].
  assert (zlen (map (fun a => mkG (a_g0 a) (a_g1 a)) axs) = zlen axs) as Lm by apply zlen_map.
  destruct (C44_blocks compress uncompress pack D F dshow fshow fparse t k w fields (map (fun a => mkG (a_g0 a) (a_g1 a)) axs) dx fs [b] threads) as [(o & Ho) U]; auto.
  - intros x. pose proof (proj2 (LL x)). pose proof (zlen_nonneg x). assert (9 * zlen x / 8 <= 5 * zlen x / 4); [|lia].
    replace (5 * zlen x / 4) with (10 * zlen x / 8) by (replace (10 * zlen x) with (5 * zlen x * 2) by lia; change 8 with (4 * 2); apply Z.div_mul_cancel_r; lia). apply Z.div_le_mono; lia.
  - now rewrite Lm.
  - apply Forall_map. eapply Forall_impl; [|exact Hi]. intros a [? ?]. split; auto.
  - now rewrite map_length.
  - reflexivity.
  - constructor; [|constructor]. unfold b. cbn [bk_lims bk_bcs bk_numbers]. rewrite !zlen_map. split; [reflexivity|]. split; [reflexivity|]. split; [|exact WS].
    exists (map nums data). split; [now rewrite flat_map_concat_map|]. apply Forall_map. eapply Forall_impl; [|exact Hv]. intros v V. now apply (cell_type_ok k w T c nums valid CT).
  - exists o. destruct (U o Ho) as [(bl' & P & ->) _]. apply Permutation_length_1_inv in P. subst bl'. split; [exact Nat|]. split; [exact Ho|].
    intros out Hout. destruct (U out Hout) as [(bl' & P & ->) _]. apply Permutation_length_1_inv in P. now subst bl'.
Qed.
Print Assumptions C44_native.

(* C44: swapping a value, an array of values, or the cells of a scalar grid twice restores them *)
Theorem C44_twice :
  (forall v, swap_endian (swap_endian v) = v) /\
  (forall n w s a r, swap_buffer n w s = Some (a, r) -> exists b, s = b ++ r /\ swap_buffer n w (a ++ r) = Some (b, r)) /\
  (forall t s a, kind_of (bytes t) = Scalars -> swap_cells (bytes t) s = Done a -> swap_cells (bytes t) a = Done s).
Proof.
  split; [intros v; apply rev_involutive|]. split; [intros n w; apply swap_buffer_twice|]. intros t s a K H. unfold swap_cells in *. rewrite K in *.
  destruct (width_of (bytes t)) as [w|]; [|discriminate]. destruct (w =? 1); [discriminate|]. destruct (swap_scalars (length s) w s) as [a'|] eqn:E; cbn [req] in H; [|discriminate].
  injection H as ->. destruct (scalars_twice w _ _ _ E) as [L B]. unfold zlen in L. replace (length a) with (length s) by lia. now rewrite B.
Qed.
Print Assumptions C44_twice.

(* a number type without fractions for the text of the spacings, and a trivial compressor *)
Definition stored_as_is : list byte -> list byte := fun x => x.
Definition read_as_is (x : list byte) (n : Z) : option (list byte) := if zlen x <=? n then Some x else None.
Definition parse_int (s : list byte) : option Z := match read_int s with Some (v, []) => Some v | _ => None end.
Definition one_node : list axis := [mkAxis 0 1 0 1 0 1 1 1 1 1].
Definition one_head (t : string) := header show_int (bytes t) 1 [mkG 0 1] [1].
(* the file with one node whose cell consists of the given numbers, as stored by the other and by this machine *)
Definition foreign_one t numbers := stored_file (@rev byte) stored_as_is (one_head t) [mkBlock [(0, 1)] [(1, 1)] numbers].
Definition native_one t numbers := stored_file (fun x => x) stored_as_is (one_head t) [mkBlock [(0, 1)] [(1, 1)] numbers].
Definition converted t numbers : outcome (list byte) :=
  got r <- convert stored_as_is read_as_is show_int parse_int (foreign_one t numbers); Done (fst r ++ concat (snd r))%list.

(* the hypotheses are met: a 1 x 2 grid of vectors of shorts *)
Example C44_case :
  let axs := [mkAxis 0 1 0 1 0 1 2 2 1 1; mkAxis 3 5 3 5 3 5 1 1 1 1] in
  let data := [[[1; 2]]; [[3; 4]; [255; 0]]] in
  lossless stored_as_is read_as_is /\ unpacks stored_as_is read_as_is /\ In ("grid:vector:short", Vectors, 2) supported /\
  cell_type Vectors 2 _ (vector_codec (pod_raw 2)) vector_numbers (fun v => Forall (fun e => zlen e = 2) v /\ zlen v < 256) /\
  wf_axes 0 axs /\ zlen data = cells axs /\ Forall (fun v => Forall (fun e => zlen e = 2) v /\ zlen v < 256) data /\
  Forall2 (fun d f => show_int d = show_int f /\ exact_text show_int parse_int f) [1; 1] [1; 1] /\
  well_sized (@rev byte) stored_as_is (mkBlock [(0, 1); (3, 5)] [(1, 1); (1, 1)] (flat_map vector_numbers data)) /\
  converts stored_as_is read_as_is show_int parse_int 2 (stored_file (@rev byte) stored_as_is (header show_int (bytes "grid:vector:short") 1 [mkG 0 1; mkG 3 5] [1; 1])
      [mkBlock [(0, 1); (3, 5)] [(1, 1); (1, 1)] (flat_map vector_numbers data)])
    (stored_file (fun x => x) stored_as_is (header show_int (bytes "grid:vector:short") 1 [mkG 0 1; mkG 3 5] [1; 1])
      [mkBlock [(0, 1); (3, 5)] [(1, 1); (1, 1)] (flat_map vector_numbers data)]).
Proof.
  cbv zeta. unfold stored_as_is, read_as_is.
  split; [intros x; rewrite Z.leb_refl; split; [reflexivity|]; pose proof (zlen_nonneg x); assert (zlen x * 8 / 8 <= 9 * zlen x / 8) by (apply Z.div_le_mono; lia); rewrite Z.div_mul in H0; lia|].
  split; [intros x n H; apply Z.leb_le in H; now rewrite H|]. split; [cbn; tauto|]. split; [constructor|]. split; [cbn; repeat split; lia|]. split; [reflexivity|].
  split; [repeat (constructor; [split; [repeat (constructor; [reflexivity|]); constructor|reflexivity]|]); constructor|].
  split; [repeat (constructor; [split; [reflexivity|split; [vm_compute; reflexivity|split; [vm_compute; discriminate|change (show_int 1) with [49]; repeat (constructor; [lia|]); constructor]]]|]); constructor|].
  split; [unfold well_sized; cbv zeta; split; [vm_compute; reflexivity|split; [vm_compute; reflexivity|reflexivity]]|].
  do 3 eexists. split; [vm_compute; reflexivity|]. split; [econstructor; [discriminate| |reflexivity|apply Permutation_refl|constructor]; reflexivity|]. vm_compute. reflexivity.
Qed.

(* the tool on a single-node file of each of the types below: what it should give is [native_one] *)
Lemma wrong_or_not t numbers : (if (match converted t numbers with Done o => if list_eq_dec Z.eq_dec o (native_one t numbers) then true else false | _ => false end) then true else false) = false ->
  converted t numbers <> Done (native_one t numbers).
Proof. intros H E. rewrite E in H. destruct (list_eq_dec Z.eq_dec _ _); [discriminate|congruence]. Qed.

(* C44 is false of vectors with more than 255 elements: only the lowest byte of the length is looked at *)
Theorem C44_long_vector_refuted : exists v, Forall (fun e : list byte => zlen e = 1) v /\ zlen v = 256 /\
  converted "grid:vector:char" (vector_numbers v) <> Done (native_one "grid:vector:char" (vector_numbers v)).
Proof.
  exists ([7] :: repeat [0] 255)%list. split; [constructor; [reflexivity|]; apply Forall_forall; intros e H; apply repeat_spec in H; now subst e|]. split; [reflexivity|].
  apply wrong_or_not. vm_compute. reflexivity.
Qed.
Print Assumptions C44_long_vector_refuted.

(* C44 is false of sparse grids of doubles: the library writes 4 bytes of padding between index and value, the tool does not
   expect any.  The cell {index 1, value with bytes 0 0 0 0 0 0 1 1} *)
Theorem C44_sparse_double_refuted : exists it : Z * list byte, zlen (snd it) = 8 /\
  let pad := [0; 0; 0; 0] in
  let numbers := [pd_enc pod_int 1; pd_enc pod_int (fst it); pad; snd it] in
  output_serial (sparse_codec pad (pod_raw 8)) show_int true stored_as_is (bytes "grid:sparse:double") 1 one_node [1] [[it]] = Some (native_one "grid:sparse:double" numbers) /\
  converted "grid:sparse:double" numbers <> Done (native_one "grid:sparse:double" numbers).
Proof. exists (1, [0; 0; 0; 0; 0; 0; 1; 1]). split; [reflexivity|]. split; [vm_compute; reflexivity|]. apply wrong_or_not. vm_compute. reflexivity. Qed.
Print Assumptions C44_sparse_double_refuted.

(* C44 is false of long double: its name contains "long", it is taken for an 8-byte integer *)
Theorem C44_long_double_refuted : exists v : list byte, zlen v = 16 /\
  converted "grid:long double" (scalar_numbers v) <> Done (native_one "grid:long double" (scalar_numbers v)).
Proof. exists (1 :: repeat 0 15)%list. split; [reflexivity|]. apply wrong_or_not. vm_compute. reflexivity. Qed.
Print Assumptions C44_long_double_refuted.

(* C44 is false of grids of chars: the tool gives up, although the limits and sizes in the file need conversion *)
Theorem C44_char_refuted : exists v : list byte, zlen v = 1 /\ converted "grid:char" (scalar_numbers v) = Exit (-1).
Proof. exists [1]. split; [reflexivity|]. vm_compute. reflexivity. Qed.
Print Assumptions C44_char_refuted.

(* C44: the conversion is one-way.  Given a native file the tool takes the sizes for their swapped values: undefined behaviour
   for a file with one int; and swapping the cells of a vector grid a second time does not restore them *)
Theorem C44_involution_refuted :
  (exists file, output_serial (pod_codec (pod_raw 4)) show_int true stored_as_is (bytes "grid:int") 1 one_node [1] [[1; 0; 0; 0]] = Some file /\
     convert stored_as_is read_as_is show_int parse_int file = Undef) /\
  (exists s, swap_cells (bytes "grid:vector:char") (stored (@rev byte) (vector_numbers [[7]])) = Done s /\ swap_cells (bytes "grid:vector:char") s = Undef).
Proof.
  split.
  - exists (native_one "grid:int" [[1; 0; 0; 0]]). split; [vm_compute; reflexivity|].
    unfold native_one, stored_file, one_head. rewrite (convert_head stored_as_is read_as_is "grid:int" Scalars 4 ltac:(cbn; tauto) 1 show_int show_int parse_int 1 [mkG 0 1] [1] [1]);
      [|lia|reflexivity|unfold int_range; lia|repeat constructor; cbn; lia| |reflexivity|reflexivity].
    + replace (sext 4 _) with 16777216 by (vm_compute; reflexivity). rewrite blocks_undef; [reflexivity|change 0%nat with (Z.to_nat 0); apply Z2Nat.inj_lt; lia|]. vm_compute. reflexivity.
    + repeat constructor; try (vm_compute; congruence).
  - eexists. split; vm_compute; reflexivity.
Qed.
Print Assumptions C44_involution_refuted.
