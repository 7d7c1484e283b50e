(* Pictures of grids: include/MMSP.output.cpp:15-515 (writePNG, scalar_field_to_png, vector_field_to_png, sparse_field_to_png)
   and the use utility/mmsp2png.cpp makes of them.
   Doubles are rational numbers; [root] is std::sqrt.  Files are read elsewhere (Model/File.v): the grid is given by its
   limits and data.  The compression and the framing of the PNG format by libpng are not modelled: a picture is its width,
   its height and the bytes handed to png_write_image. *)
From Coq Require Import QArith.QArith QArith.Qcanon QArith.Qround.
From Verif Require Import Model.Base Model.Num Model.Boundary Model.Layout Model.Access Model.Sparse Model.File Model.Stencil Model.Evolve.
Local Open Scope list_scope.
Local Open Scope Z_scope.

Definition qabs (v : Qc) : Qc := if Qclt_le_dec v 0 then (- v)%Qc else v.
Definition sq (v : Qc) : Qc := (v * v)%Qc.
Definition int2q (z : Z) : Qc := Q2Qc (inject_Z z).
Definition mem (s : list Z) (i : Z) : bool := existsb (Z.eqb i) s.   (* std::set<int>::find *)

(* ---- the number shown for a cell; a std::set is the increasing list of its elements ---- *)
Section Value.
Context (root : Qc -> Qc) (mode : Z) (fieldset : list Z).

(* MMSP.output.cpp:106-108,124-126 *)
Definition scalar_value (v : Qc) : option Qc := Some (if mode =? 1 then qabs v else v).

(* sum over the given fields, "if (included>1) sum += pow(v,2.0); else sum = v;" *)
Definition fold_fields (included : Z) (read : Z -> option Qc) (is : list Z) : option Qc :=
  fold_opt (fun sum i => do v <- read i; Some (if included >? 1 then (sum + sq v)%Qc else v)) is 0%Qc.

(* :189-220 and :232-265; the two differ in the treatment of an empty --field set (:203-209, 246-251).
   fields(GRID)-fieldset.size() is taken to be in the range of int *)
Definition vector_included (fields : Z) : Z := if mode =? 2 then zlen fieldset else fields - zlen fieldset.
Definition vector_sum (drawing : bool) (fields : Z) (v : list Qc) : option Qc :=
  let included := vector_included fields in
  if mode =? 0 then fold_fields included (get v) (zrange 0 fields)
  else if mode =? 1 then fold_fields 2 (get v) (zrange 0 fields)
  else if mode =? 2 then
    match fieldset with
    | [] => if drawing then Some 0%Qc else None
    | f :: _ => if included >? 1 then fold_fields 2 (get v) fieldset else get v f
    end
  else if mode =? 3 then fold_fields included (get v) (filter (fun i => negb (mem fieldset i)) (zrange 0 fields))
  else Some 0%Qc.
Definition vector_value (drawing : bool) (fields : Z) (v : list Qc) : option Qc :=
  do sum <- vector_sum drawing fields v;
  Some (if (mode =? 1) || negb (vector_included fields =? 1) then root sum else sum).

(* :377-403 and :412-440; the two differ in when the root is taken (:397, 432) *)
Definition sparse_sum (v : list (Z * Qc)) : option Qc :=
  let included := zlen fieldset in
  if mode <? 2 then Some (fold_left (fun s it => (s + sq (snd it))%Qc) v 0%Qc)
  else if mode =? 2 then fold_fields included (sread num_Qc (map Some v)) fieldset
  else if mode =? 3 then Some (fold_left (fun s it => if mem fieldset (fst it) then s else (s + sq (snd it))%Qc) v 0%Qc)
  else Some 0%Qc.
Definition sparse_scan_value (v : list (Z * Qc)) : option Qc :=
  do sum <- sparse_sum v; Some (if negb (zlen fieldset =? 1) then root sum else sum).
Definition sparse_draw_value (v : list (Z * Qc)) : option Qc :=
  do sum <- sparse_sum v; Some (if negb (mode =? 2) || negb (zlen fieldset =? 1) then root sum else sum).
End Value.

(* ---- the range of the numbers: :102-113, 187-225, 371-407 ---- *)
Definition widen (r : Qc * Qc) (val : Qc) : Qc * Qc :=
  let (min, max) := r in if qgt val max then (min, val) else if qgt min val then (val, max) else (min, max).
Definition scan (zoomin zoomax : Qc) (vals : list Qc) : Qc * Qc := fold_left widen vals (zoomin, zoomax).

(* ---- buffer[n] = 255*((val-min)/(max-min)): conversion to unsigned char truncates; outside 0..255 it is undefined, and so
   is the conversion of the result of a division by 0 (:128 etc.) ---- *)
Definition shade (r : Qc * Qc) (val : Qc) : option Z :=
  let (min, max) := r in
  do d <- recip (max - min)%Qc;
  let q := (int2q 255 * ((val - min) * d))%Qc in
  let p := Z.quot (Qnum (this q)) (Zpos (Qden (this q))) in
  do _ <- guard ((0 <=? p) && (p <=? 255));
  Some p.

(* ---- contours: :129-132, 166-169, 268-271, 441-444.  For the level 0 the quotient is infinite or not a number, and the
   comparison false ---- *)
Definition near (contol v level : Qc) : bool :=
  match recip (qabs level) with Some r => qgt contol (qabs (v - level) * r)%Qc | None => false end.
Definition flip (contol : Qc) (levels : list Qc) (v : Qc) (p : Z) : Z :=
  fold_left (fun p l => if near contol v l then 255 - p else p) levels p.
Definition mark (coninv : bool) (contol : Qc) (levels : list Qc) (v : Qc) (p : Z) : Z :=
  if existsb (near contol v) levels then (if coninv then 255 else 0) else p.

(* ---- the nodes in the order in which they are drawn: :116-172 (and likewise in the other two functions) ---- *)
Definition drawn (gs : list (Z * Z)) (sliceaxis slicelevel : Z) : option (list (list Z)) :=
  match gs with
  | [(a0, b0)] => Some (map (fun x0 => [x0]) (zrange a0 b0))
  | [(a0, b0); (a1, b1)] => Some (flat_map (fun x1 => map (fun x0 => [x0; x1]) (zrange a0 b0)) (rev (zrange a1 b1)))
  | [(a0, b0); (a1, b1); (a2, b2)] =>
      do _ <- guard ((0 <=? sliceaxis) && (sliceaxis <? 3));
      Some (filter (fun x => nth (Z.to_nat sliceaxis) x 0 =? slicelevel)
        (flat_map (fun x2 => flat_map (fun x1 => map (fun x0 => [x0; x1; x2]) (zrange a0 b0)) (rev (zrange a1 b1))) (zrange a2 b2)))
  | _ => None
  end.

Section Draw.
Context {T : Type} (scanv drawv : T -> option Qc) (over : T -> Z -> option Z).   (* over: contours on top of the shade *)
Context (ls : list limits) (data : list T).
Definition glims : list (Z * Z) := map (fun l => (l_g0 l, l_g1 l)) ls.

Definition pixel (r : Qc * Qc) (x : list Z) : option Z :=
  do c <- grid_read false (lay 0 ls) data x; do v <- drawv c; do p <- shade r v; over c p.
(* n counts the pixels; assert(n<bufsize) *)
Fixpoint draw (r : Qc * Qc) (bufsize n : Z) (xs : list (list Z)) : outcome (list Z) :=
  match xs with
  | [] => Done []
  | x :: t => if n <? bufsize then got p <- req (pixel r x); got l <- draw r bufsize (n + 1) t; Done (p :: l) else Exit 134
  end.
(* the three functions; the result is the initial part of the buffer that is written *)
Definition to_png (zoomin zoomax : Qc) (sliceaxis slicelevel bufsize : Z) : outcome (list Z) :=
  got cs <- req (map_opt (grid_read_int false (lay 0 ls) data) (zrange 0 (nodes (lay 0 ls))));
  got vals <- req (map_opt scanv cs);
  got xs <- req (drawn glims sliceaxis slicelevel);
  draw (scan zoomin zoomax vals) bufsize 0 xs.

(* utility/mmsp2png.cpp:287-305: the axis and level of the slice, and the size of the image *)
Definition slicing (sliceaxis slicelevel : Z) : Z * Z :=
  if (zlen ls =? 3) && (sliceaxis <? 0) then
    let x := nth 2 glims (0, 0) in (2, if slicelevel <? fst x then Z.quot (snd x - fst x) 2 else slicelevel)
  else (sliceaxis, slicelevel).
Definition image_size (sliceaxis : Z) : Z * Z :=
  let sizes := map (fun d => let x := nth (Z.to_nat d) glims (0, 0) in snd x - fst x) (filter (fun d => negb (d =? sliceaxis)) (zrange 0 (zlen ls))) in
  (nth 0 sizes 1, nth 1 sizes 1).

(* mmsp2png.cpp:287-757 after the file has been read.  All bytes of the buffer are handed to libpng: reading bytes that were not
   written is undefined behaviour.  Simplification: the size of the buffer is a mathematical integer *)
Definition mmsp2png (zoomin zoomax : Qc) (sliceaxis slicelevel : Z) (invert : bool) : outcome (Z * Z * list Z) :=
  let (axis, level) := slicing sliceaxis slicelevel in
  let (w, h) := image_size axis in
  got buf <- to_png zoomin zoomax axis level (w * h);
  got _ <- req (guard (zlen buf =? w * h));
  Done (w, h, if invert then map (fun p => 255 - p) buf else buf).
End Draw.

(* contours on top of the shade, per kind of grid; the functions for one- and two-dimensional scalar grids look for mode 4 *)
Definition scalar_over (dim mode : Z) (coninv : bool) (contol : Qc) (levels : list Qc) (v : Qc) (p : Z) : option Z :=
  let val := if mode =? 1 then qabs v else v in
  Some (if dim =? 3 then mark coninv contol levels val p else if mode =? 4 then flip contol levels val p else p).
Definition vector_over (coninv : bool) (contol : Qc) (levels : list Qc) (lvlfield : Z) (v : list Qc) (p : Z) : option Z :=
  match levels with [] => Some p | _ => do f <- get v lvlfield; Some (mark coninv contol levels f p) end.
Definition sparse_over (coninv : bool) (contol : Qc) (levels : list Qc) (lvlfield : Z) (v : list (Z * Qc)) (p : Z) : option Z :=
  match levels with [] => Some p | _ => do f <- sread num_Qc (map Some v) lvlfield; Some (mark coninv contol levels f p) end.
