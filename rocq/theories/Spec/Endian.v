From Coq Require Import String.
From Verif Require Import Model.Base Model.Text Model.Setup Model.Codec Model.File Model.Endian.
Local Open Scope string_scope.
Local Open Scope list_scope.
Local Open Scope Z_scope.

(* The contents of a checkpoint file apart from its text header is a sequence of numbers.  [order] is the order in which a
   machine stores the bytes of a number, given the bytes in little-endian order: the identity or [rev]. *)
Definition stored (order : list byte -> list byte) (numbers : list (list byte)) : list byte := concat (map order numbers).

(* the numbers that make up a cell: a scalar; the length and the elements of a vector; the length, and index and value of the items of a sparse object *)
Definition scalar_numbers (v : list byte) : list (list byte) := [v].
Definition vector_numbers (v : list (list byte)) : list (list byte) := pd_enc pod_int (zlen v) :: v.
Definition sparse_numbers (v : list (Z * list byte)) : list (list byte) :=
  pd_enc pod_int (zlen v) :: flat_map (fun it => [pd_enc pod_int (fst it); snd it]) v.

(* a block of a file: its limits and boundary conditions and the numbers of its cells *)
Record block := mkBlock { bk_lims : list (Z * Z); bk_bcs : list (Z * Z); bk_numbers : list (list byte) }.
(* the block as stored by a machine with the given byte order, [pack] being its compression (the identity without) *)
Definition stored_block (order pack : list byte -> list byte) (b : block) : list byte :=
  let data := stored order (bk_numbers b) in
  let body := pack data in
  stored order (flat_map (fun l => [pd_enc pod_int (fst l); pd_enc pod_int (snd l)]) (bk_lims b ++ bk_bcs b) ++
                [pd_enc pod_ulong (zlen data); pd_enc pod_ulong (zlen body)]) ++ body.
Definition stored_file (order pack : list byte -> list byte) (head : list byte) (bl : list block) : list byte :=
  head ++ stored order [pd_enc pod_int (zlen bl)] ++ concat (map (stored_block order pack) bl).

(* the types of grid that can be converted, the class of their cells and the number of bytes of their numbers *)
Definition supported : list (string * cells_kind * Z) :=
  [("grid:int", Scalars, 4); ("grid:unsigned int", Scalars, 4); ("grid:long", Scalars, 8); ("grid:unsigned long", Scalars, 8);
   ("grid:short", Scalars, 2); ("grid:unsigned short", Scalars, 2); ("grid:float", Scalars, 4); ("grid:double", Scalars, 8);
   ("grid:scalar:int", Scalars, 4); ("grid:scalar:unsigned int", Scalars, 4); ("grid:scalar:long", Scalars, 8); ("grid:scalar:unsigned long", Scalars, 8);
   ("grid:scalar:short", Scalars, 2); ("grid:scalar:unsigned short", Scalars, 2); ("grid:scalar:float", Scalars, 4); ("grid:scalar:double", Scalars, 8);
   ("grid:vector:int", Vectors, 4); ("grid:vector:unsigned int", Vectors, 4); ("grid:vector:long", Vectors, 8); ("grid:vector:unsigned long", Vectors, 8);
   ("grid:vector:short", Vectors, 2); ("grid:vector:unsigned short", Vectors, 2); ("grid:vector:float", Vectors, 4); ("grid:vector:double", Vectors, 8);
   ("grid:vector:bool", Vectors, 1); ("grid:vector:char", Vectors, 1); ("grid:vector:unsigned char", Vectors, 1);
   ("grid:sparse:int", Sparses, 4); ("grid:sparse:unsigned int", Sparses, 4); ("grid:sparse:float", Sparses, 4)].

(* the numbers of one cell of the given class; vectors and sparse objects have at most 255 elements *)
Inductive cell_numbers : cells_kind -> Z -> list (list byte) -> Prop :=
| cell_scalar w v : zlen v = w -> cell_numbers Scalars w (scalar_numbers v)
| cell_vector w v : Forall (fun e => zlen e = w) v -> zlen v < 256 -> cell_numbers Vectors w (vector_numbers v)
| cell_sparse w v : Forall (fun it => zlen (snd it) = w) v -> zlen v < 256 -> cell_numbers Sparses w (sparse_numbers v).

(* what zlib promises: decompression into a large enough buffer inverts compression *)
Definition unpacks (pack : list byte -> list byte) (uncompress : list byte -> Z -> option (list byte)) : Prop :=
  forall x n, zlen x <= n -> uncompress (pack x) n = Some x.
(* the numbers of bytes of a block fit in an unsigned long, and tell whether the data are compressed *)
Definition well_sized (order pack : list byte -> list byte) (b : block) : Prop :=
  let data := stored order (bk_numbers b) in
  zlen data < 2 ^ 64 /\ zlen (pack data) < 2 ^ 64 /\ (zlen (pack data) = zlen data -> pack data = data).

(* the cell types of a program: how their values are stored by the library (Model/Codec.v), the numbers that make up a value,
   and the values with at most 255 elements *)
Inductive cell_type : cells_kind -> Z -> forall T, codec T -> (T -> list (list byte)) -> (T -> Prop) -> Prop :=
| type_scalar w : cell_type Scalars w _ (pod_codec (pod_raw w)) scalar_numbers (fun v => zlen v = w)
| type_vector w : cell_type Vectors w _ (vector_codec (pod_raw w)) vector_numbers (fun v => Forall (fun e => zlen e = w) v /\ zlen v < 256)
| type_sparse w : cell_type Sparses w _ (sparse_codec [] (pod_raw w)) sparse_numbers (fun v => Forall (fun it => zlen (snd it) = w) v /\ zlen v < 256).
