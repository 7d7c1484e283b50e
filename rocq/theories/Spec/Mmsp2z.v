From Verif Require Import Model.Base Model.Codec.
Local Open Scope list_scope.

(* The file format without boundary conditions: after the header the number of blocks; per block its limits, the number of
   bytes of its data and the data.  In the compressed variant both numbers of bytes precede the data. *)
Definition ints (ls : list (Z * Z)) : list byte := flat_map (fun l => pd_enc pod_int (fst l) ++ pd_enc pod_int (snd l)) ls.
Definition plain_block (b : list (Z * Z) * list byte) : list byte := ints (fst b) ++ pd_enc pod_ulong (zlen (snd b)) ++ snd b.
Definition packed_block (pack : list byte -> list byte) (b : list (Z * Z) * list byte) : list byte :=
  ints (fst b) ++ pd_enc pod_ulong (zlen (snd b)) ++ pd_enc pod_ulong (zlen (pack (snd b))) ++ pack (snd b).
Definition old_file (block : list (Z * Z) * list byte -> list byte) (head : list byte) (bl : list (list (Z * Z) * list byte)) : list byte :=
  head ++ pd_enc pod_int (zlen bl) ++ concat (map block bl).
