(* utility/mmsp2z.cpp: compression of the data of a grid file *)
From Verif Require Import Model.Base Model.Text Model.Setup Model.Codec Model.File.
Local Open Scope list_scope.
Local Open Scope Z_scope.

Section Mmsp2z.
Context (compress : list byte -> list byte).   (* output of zlib's compress2 at level 9 *)
Context {F : Type} (fshow : F -> list byte) (fparse : list byte -> option F).   (* text form of a float *)

(* mmsp2z.cpp:97-163: one pass of the loop over the blocks: what is written, and the rest of the input.
   Simplifications: 1.125*size+12 is computed without rounding; data beyond the end of the input, which would be left
   uninitialised, and buffers too large to allocate are undefined behaviour.  The program is compiled with assertions *)
Definition pack_block (dim : Z) (s : list byte) : outcome (list byte * list byte) :=
  got (lims, s) <- read_pairs (Z.to_nat dim) s;
  got (size, s) <- read_bin_ulong s;
  let compressedSize := 9 * size / 8 + 12 in
  if negb (compressedSize - 12 >? size) then Exit 134 else
  got (raw_buffer, s) <- req (read_n size s);
  let buffer := compress raw_buffer in
  if zlen buffer >? compressedSize then Exit 1 else
  Done (flat_map (fun l => pd_enc pod_int (fst l) ++ pd_enc pod_int (snd l)) lims ++
        pd_enc pod_ulong size ++ pd_enc pod_ulong (zlen buffer) ++ buffer, s).
Fixpoint pack_blocks (n : nat) (dim : Z) (s : list byte) : outcome (list byte) :=
  match n with
  | O => Done []
  | S n' => got (b, s) <- pack_block dim s; got l <- pack_blocks n' dim s; Done (b ++ l)
  end.

(* mmsp2z.cpp:55-170: the contents of the output file *)
Definition mmsp2z (file : list byte) : outcome (list byte) :=
  let (type, s) := getline file in
  got (dim, s) <- read_dim s;
  if (dim <? 1) || (3 <? dim) then Exit (-1) else
  got (fields, s) <- req (read_int s);
  got (gs, s) <- req (read_gs (Z.to_nat dim) s);
  got (dx, s) <- req (read_dx fparse (Z.to_nat dim) s);
  let s := ignore 10 s in
  got (blocks, s) <- read_bin_int s;
  got body <- pack_blocks (Z.to_nat blocks) dim s;
  Done (type ++ [10] ++ show_int dim ++ [10] ++ show_int fields ++ [10] ++
        flat_map (fun g => show_int (gx_0 g) ++ [32] ++ show_int (gx_1 g) ++ [10]) gs ++
        flat_map (fun d => fshow d ++ [10]) dx ++ pd_enc pod_int blocks ++ body).
End Mmsp2z.
