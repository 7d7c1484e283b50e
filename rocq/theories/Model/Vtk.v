(* VTK images of grids: include/MMSP.output.cpp:517-917 (scalar_field_to_vtk, vector_field_to_vtk, sparse_field_to_vtk), VTK 6 and later,
   serial build, as used by utility/mmsp2vti.cpp and utility/mmsp2pvd.cpp.
   Doubles are rational numbers; [root] is std::sqrt and [float] the conversion to float.  The XML writer and the compression are
   not modelled: an image is its extent, its spacing, its number of components and the values stored through GetScalarPointer. *)
From Coq Require Import QArith.QArith QArith.Qcanon.
From Verif Require Import Model.Base Model.Num Model.Boundary Model.Layout Model.Access Model.Sparse Model.Evolve Model.Image.
Local Open Scope list_scope.
Local Open Scope Z_scope.

(* SetExtent, SetSpacing, AllocateScalars; the points in the order in which they are stored *)
Record image := mkImage { im_extent : list (Z * Z); im_spacing : list Qc; im_comps : Z; im_points : list (list Z * list Qc) }.

(* the nested loops, the first axis fastest: :536-537, 562-564, 588-591 and likewise in the other functions *)
Fixpoint raster (lims : list (Z * Z)) : list (list Z) :=
  match lims with
  | [] => [[]]
  | (a, b) :: t => flat_map (fun x => map (fun c => c :: x) (zrange a b)) (raster t)
  end.

Section Pixel.
Context (root float : Qc -> Qc) (mode field : Z).

(* :538-543, 565-570, 592-597 *)
Definition scalar_pixel (v : Qc) : option (list Qc) := Some [float (if mode =? 1 then root (sq v) else v)].

(* int max = 0; for (h = 1; ...) if (value(h) > value(max)) max = h; *)
Definition arg_max (value : Z -> option Qc) (n : Z) : option Z :=
  fold_opt (fun max h => do a <- value h; do b <- value max; Some (if qgt a b then h else max)) (zrange 1 n) 0.

(* :650-669, 697-716, 745-764; comps is the number of components of the image (1, or the number of fields).  Fewer values than components:
   the others keep what was in memory; more: they go to other pixels.  Both are undefined here.
   st is float for one- and three-dimensional grids; the image of a two-dimensional grid holds doubles (:690-695, 700) *)
Definition vector_pixel (st : Qc -> Qc) (comps : Z) (v : list Qc) : option (list Qc) :=
  if mode =? 1 then Some [st (root (fold_left (fun s q => (s + sq q)%Qc) v 0%Qc))]
  else if mode =? 2 then do m <- arg_max (get v) (zlen v); Some [st (int2q m)]
  else if mode =? 3 then do q <- get v field; Some [st q]
  else do _ <- guard (zlen v =? comps); Some (map st v).
Definition vector_comps (fields : Z) : Z := if (mode =? 1) || (mode =? 2) || (mode =? 3) then 1 else fields.

(* :819-837, 859-877, 901-919 *)
Definition sparse_pixel (v : list (Z * Qc)) : option (list Qc) :=
  let o := map Some v in
  if mode =? 2 then
    do m <- arg_max (svalue o) (zlen o);
    do i <- sindex o m; Some [float (int2q i)]
  else if mode =? 3 then do q <- sread num_Qc o field; Some [float q]
  else Some [float (root (fold_left (fun s it => (s + sq (snd it))%Qc) v 0%Qc))].
End Pixel.

Section Image.
Context {T : Type} (pixel : T -> option (list Qc)) (comps : Z).
(* the three functions after the choice of the pixel; other dimensions than 1, 2, 3 write no point *)
Definition to_vtk (axs : list axis) (dx : list Qc) (data : list T) : option image :=
  let lims := map (fun a => (a_x0 a, a_x1 a)) axs in
  do ps <- map_opt (fun x => do c <- grid_read false axs data x; do p <- pixel c; Some (x, p)) (raster lims);
  Some (mkImage (map (fun l => (fst l, snd l - 1)) lims) dx comps ps).
End Image.

Definition scalar_to_vtk root float mode (axs : list axis) (dx : list Qc) (data : list Qc) : option image :=
  to_vtk (scalar_pixel root float mode) 1 axs dx data.
Definition vector_to_vtk root float mode field (fields : Z) (axs : list axis) (dx : list Qc) (data : list (list Qc)) : option image :=
  let comps := vector_comps mode fields in
  to_vtk (vector_pixel root mode field (if zlen axs =? 2 then fun q => q else float) comps) comps axs dx data.
Definition sparse_to_vtk root float mode field (axs : list axis) (dx : list Qc) (data : list (list (Z * Qc))) : option image :=
  to_vtk (sparse_pixel root float mode field) 1 axs dx data.
