(* C11, C12: serialisation of cells and of regions of a grid. *)
From Verif Require Import Model.Base Model.Layout Model.Codec Model.Region Spec.Box Spec.Access Spec.Bytes
  Proof.BaseL Proof.LayoutL Proof.CodecL Proof.RegionL Proof.SerialL.

(* C11: plain values and scalars, given that their representation has sizeof(T) bytes *)
Theorem C11_plain : forall T (p : pod T) valid, pod_ok p valid -> serialises (pod_codec p) valid.
Proof. exact @pod_serialises. Qed.
Print Assumptions C11_plain.

(* C11: the integer types and opaque types are such *)
Theorem C11_int : pod_ok pod_int int_range.
Proof. exact pod_int_ok. Qed.
Print Assumptions C11_int.
Theorem C11_uint : forall n, pod_ok (pod_uint n) (fun v => 0 <= v < 256 ^ Z.of_nat n).
Proof. exact pod_uint_ok. Qed.
Print Assumptions C11_uint.
Theorem C11_opaque : forall n, 0 <= n -> pod_ok (pod_raw n) (fun v => zlen v = n).
Proof. exact pod_raw_ok. Qed.
Print Assumptions C11_opaque.

(* C11: vectors *)
Theorem C11_vector : forall T (p : pod T) valid, pod_ok p valid ->
  serialises (vector_codec p) (fun v => Forall valid v /\ int_range (zlen v)).
Proof. exact @vector_serialises. Qed.
Print Assumptions C11_vector.

(* C11: sparse, whatever the padding inside struct item *)
Theorem C11_sparse : forall T pad (p : pod T) valid, pod_ok p valid ->
  serialises (sparse_codec pad p)
    (fun v => Forall (fun it => int_range (fst it) /\ valid (snd it)) v /\ int_range (zlen v)).
Proof. exact @sparse_serialises. Qed.
Print Assumptions C11_sparse.

(* C11: sequences decode unambiguously *)
Theorem C11_sequence : forall T (c : codec T) valid vs, serialises c valid -> Forall valid vs ->
  exists bs, zlen bs = sumZ (map (c_size c) vs) /\
    (forall pre old post, zlen old = zlen bs ->
       write_all c vs (pre ++ old ++ post) (zlen pre) = Some (pre ++ bs ++ post, zlen pre + zlen bs)) /\
    (forall pre post,
       read_all c (length vs) (pre ++ bs ++ post) (zlen pre) = Some (vs, zlen pre + zlen bs)).
Proof. exact @sequence. Qed.
Print Assumptions C11_sequence.

Example C11_case : c_to (sparse_codec [7;7] (pod_uint 2)) [(-1, 258); (5, 3)] [9;9;9;9;9;9;9;9;9;9;9;9;9;9;9;9;9;9;9;9;9;9;9] 1
  = Some ([9; 2;0;0;0; 255;255;255;255; 7;7; 2;1; 5;0;0;0; 7;7; 3;0; 9;9], 20) /\
  c_from (sparse_codec [7;7] (pod_uint 2)) [9; 2;0;0;0; 255;255;255;255; 0;1; 2;1; 5;0;0;0; 8;7; 3;0; 9;9] 1
  = Some ([(-1, 258); (5, 3)], 20).
Proof. split; reflexivity. Qed.

(* C12: packing a region of grid A and unpacking it into an equally shaped region of grid B *)
Theorem C12_region : forall T (c : codec T) valid gA gB axsA axsB mnA mxA mnB mxB dataA dataB,
  serialises c valid ->
  wf_axes gA axsA -> wf_axes gB axsB -> axsA <> [] -> length axsB = length axsA ->
  zlen dataA = cells axsA -> zlen dataB = cells axsB ->
  inside mnA mxA (map a_s0 axsA) (map a_s1 axsA) -> inside mnB mxB (map a_s0 axsB) (map a_s1 axsB) ->
  extents mnA mxA = extents mnB mxB ->
  (forall y v, in_box mnA mxA y -> get dataA (encode axsA y) = Some v -> valid v) ->
  exists n, 0 <= n /\ buffer_size c zrange dataA axsA mnA mxA 0 = Some n /\
    forall buf, n <= zlen buf ->
    exists buf', to_buffer c zrange dataA axsA mnA mxA 0 buf 0 = Some (buf', n) /\
      zlen buf' = zlen buf /\ skipn (Z.to_nat n) buf' = skipn (Z.to_nat n) buf /\
    exists dataB', from_buffer c zrange dataB axsB mnB mxB 0 buf' 0 = Some (dataB', n) /\
      zlen dataB' = zlen dataB /\
      (forall y, in_box mnB mxB y ->
         get dataB' (encode axsB y) = get dataA (encode axsA (translate mnB mnA y)) /\
         get dataB' (encode axsB y) <> None) /\
      (forall y, in_box (map a_s0 axsB) (map a_s1 axsB) y -> ~ in_box mnB mxB y ->
         get dataB' (encode axsB y) = get dataB (encode axsB y)).
Proof. exact @region_round_trip. Qed.
Print Assumptions C12_region.

(* C12 for the every-other-cell versions (buffer_size_save, to_buffer_save, from_buffer_save) *)
Theorem C12_region_stride2 : forall T (c : codec T) valid gA gB axsA axsB mnA mxA mnB mxB dataA dataB,
  serialises c valid ->
  wf_axes gA axsA -> wf_axes gB axsB -> axsA <> [] -> length axsB = length axsA ->
  zlen dataA = cells axsA -> zlen dataB = cells axsB ->
  inside mnA mxA (map a_s0 axsA) (map a_s1 axsA) -> inside mnB mxB (map a_s0 axsB) (map a_s1 axsB) ->
  extents mnA mxA = extents mnB mxB ->
  (forall y v, in_box2 mnA mxA y -> get dataA (encode axsA y) = Some v -> valid v) ->
  exists n, 0 <= n /\ buffer_size c zrange2 dataA axsA mnA mxA 0 = Some n /\
    forall buf, n <= zlen buf ->
    exists buf', to_buffer c zrange2 dataA axsA mnA mxA 0 buf 0 = Some (buf', n) /\
      zlen buf' = zlen buf /\ skipn (Z.to_nat n) buf' = skipn (Z.to_nat n) buf /\
    exists dataB', from_buffer c zrange2 dataB axsB mnB mxB 0 buf' 0 = Some (dataB', n) /\
      zlen dataB' = zlen dataB /\
      (forall y, in_box2 mnB mxB y ->
         get dataB' (encode axsB y) = get dataA (encode axsA (translate mnB mnA y)) /\
         get dataB' (encode axsB y) <> None) /\
      (forall y, in_box (map a_s0 axsB) (map a_s1 axsB) y -> ~ in_box2 mnB mxB y ->
         get dataB' (encode axsB y) = get dataB (encode axsB y)).
Proof. exact @region_round_trip2. Qed.
Print Assumptions C12_region_stride2.

Example C12_case :
  let axsA := lay 1 [mkLim 0 4 0 4 2 2; mkLim 0 3 0 3 2 2] in
  let axsB := lay 0 [mkLim 0 9 5 8 3 3; mkLim 0 2 0 2 2 2] in
  inside [3;-1] [5;1] (map a_s0 axsA) (map a_s1 axsA) /\ inside [5;0] [7;2] (map a_s0 axsB) (map a_s1 axsB) /\
  extents [3;-1] [5;1] = extents [5;0] [7;2] /\
  match to_buffer (pod_codec (pod_uint 1)) zrange (zrange 0 30) axsA [3;-1] [5;1] 0 [0;0;0;0;0] 0 with
  | Some (buf', n) => buf' = [20;21;25;26;0] /\ n = 4 /\
     from_buffer (pod_codec (pod_uint 1)) zrange (zrange 100 106) axsB [5;0] [7;2] 0 buf' 0 = Some ([20;21;25;26;104;105], 4)
  | None => False
  end.
Proof. repeat split; simpl; try lia; reflexivity. Qed.
