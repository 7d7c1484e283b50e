(* Tables of grids as text: utility/mmsp2tsv.cpp:569-672 and utility/mmsp2xyz.cpp:56-130, 645-959.  Serial build.
   Doubles are rational numbers; [show] is os << x for the numbers written, [cell] for the elements of the grid. *)
From Coq Require Import String QArith.QArith QArith.Qcanon.
From Verif Require Import Model.Base Model.Text Model.Num Model.Boundary Model.Layout Model.Access Model.Sparse Model.File Model.Stencil Model.Evolve Model.Image.
Local Open Scope string_scope.
Local Open Scope list_scope.
Local Open Scope Z_scope.

(* dx(GRID,d)*x[d] for the axes d; reading outside the arrays is undefined *)
Definition place (axs : list axis) (dx : list Qc) (x : list Z) : option (list Qc) :=
  map_opt (fun d => do h <- get dx d; do c <- get x d; Some (h * int2q c)%Qc) (zrange 0 (zlen axs)).
(* the texts separated by tabs *)
Definition tabbed (l : list (list byte)) : list byte :=
  match l with [] => [] | a :: t => a ++ flat_map (fun w => (9 : byte) :: w) t end.

(* ---- mmsp2tsv.cpp:569-595, 597-630, 632-672: the branches for dim = 1, 2, 3 are the same code ---- *)
Section Tsv.
Context {T : Type} (show : Qc -> list byte) (words : T -> option (list (list byte))) (axs : list axis) (dx : list Qc) (data : list T).
Definition tsv_row (n : Z) : option (list byte) :=
  do p <- place axs dx (position axs n);
  do c <- grid_read_int false axs data n;
  do ws <- words c;
  Some (tabbed (map show p) ++ flat_map (fun w => (9 : byte) :: w) ws ++ [10]).
Definition tsv : option (list byte) := do l <- map_opt tsv_row (zrange 0 (nodes axs)); Some (List.concat l).
End Tsv.
(* what follows the coordinates of a node: :576, 608-609, 643-644 *)
Definition scalar_words {E} (cell : E -> list byte) (v : E) : option (list (list byte)) := Some [cell v].
Definition vector_words {E} (cell : E -> list byte) (fields : Z) (v : list E) : option (list (list byte)) :=
  map_opt (fun i => do q <- get v i; Some (cell q)) (zrange 0 fields).
Definition sparse_words {E} (cell : E -> list byte) (v : list (Z * E)) : option (list (list byte)) :=
  Some (flat_map (fun it => [show_int (fst it); cell (snd it)]) v).
(* os << c for char and unsigned char: the character itself *)
Definition char_word (c : Z) : list byte := [c mod 256].

(* ---- mmsp2xyz.cpp ---- *)
(* :200-203: the first line; with normals there is no tab between Z and nx *)
Definition xyz_head (normal : bool) : list byte :=
  bytes "#X" ++ [9] ++ bytes "Y" ++ [9] ++ bytes "Z" ++ (if normal then bytes "nx" ++ [9] ++ bytes "ny" ++ [9] ++ bytes "nz" else []) ++ [10].
(* the three coordinates, "0" for the axes the grid does not have *)
Definition three (show : Qc -> list byte) (p : list Qc) : list (list byte) := map show p ++ repeat (bytes "0") (3 - List.length p).
Section Xyz.
Context {T : Type} (show : Qc -> list byte) (axs : list axis) (dx : list Qc) (data : list T).
Context (shown : T -> option bool).             (* not excluded *)
Context (extra : list Z -> option (list (list byte))).   (* the normal, if wanted *)
Definition xyz_row (n : Z) : option (list byte) :=
  do c <- grid_read_int false axs data n;
  do s <- shown c;
  if (s : bool) then
    let x := position axs n in
    do p <- place axs dx x;
    do e <- extra x;
    Some (tabbed (three show p ++ e) ++ [10])
  else Some [].
Definition xyz_rows : option (list byte) := do l <- map_opt xyz_row (zrange 0 (nodes axs)); Some (List.concat l).
End Xyz.
(* :657-664, 678-685, 699-706: levels is the set of contours *)
Definition xyz_scalar_shown (mode : Z) (contol : Qc) (levels : list Qc) (v : Qc) : option bool :=
  let v := if mode =? 1 then qabs v else v in Some (existsb (near contol v) levels).
(* :751-756 etc.: the test of the contours stops at the first hit; lvlfield is only read if there are levels.
   The sum of :726-748 is not used *)
Definition xyz_vector_shown (contol : Qc) (levels : list Qc) (lvlfield : Z) (v : list Qc) : option bool :=
  match levels with [] => Some false | _ => do f <- get v lvlfield; Some (existsb (near contol f) levels) end.
(* :868-873 etc. *)
Definition xyz_sparse_shown (contol : Qc) (levels : list Qc) (lvlfield : Z) (v : list (Z * Qc)) : option bool :=
  match levels with [] => Some false | _ => do f <- sread num_Qc (map Some v) lvlfield; Some (existsb (near contol f) levels) end.
(* :668-671, 689-692, 710-713; the elements are taken to be floating point numbers *)
Definition xyz_normal (show : Qc -> list byte) (normal : bool) (axs : list axis) (dx : list Qc) (data : list Qc) (x : list Z) : option (list (list byte)) :=
  if normal then do g <- gradient false axs dx data x; Some (three show g) else Some [].
(* convert_scalars, convert_vectors, convert_sparses after the first line *)
Definition xyz_scalar show mode contol levels normal axs dx (data : list Qc) : option (list byte) :=
  do r <- xyz_rows show axs dx data (xyz_scalar_shown mode contol levels) (xyz_normal show normal axs dx data); Some (xyz_head normal ++ r).
Definition xyz_vector show contol levels lvlfield normal axs dx (data : list (list Qc)) : option (list byte) :=
  do r <- xyz_rows show axs dx data (xyz_vector_shown contol levels lvlfield) (fun _ => Some []); Some (xyz_head normal ++ r).
Definition xyz_sparse show contol levels lvlfield normal axs dx (data : list (list (Z * Qc))) : option (list byte) :=
  do r <- xyz_rows show axs dx data (xyz_sparse_shown contol levels lvlfield) (fun _ => Some []); Some (xyz_head normal ++ r).

(* the first token of strtok(s, ","), and what is left *)
Definition token (s : list byte) : option (list byte * list byte) :=
  let s := snd (span (fun b => b =? 44) s) in
  match s with [] => None | _ => let (t, r) := span (fun b => negb (b =? 44)) s in Some (t, tl r) end.
(* mmsp2xyz.cpp:65-77 and mmsp2png.cpp:135-147: the flag --contol=a; the text handed to atof.
   A flag of nine characters makes substr throw; a text without token is a null pointer for atof; the assertion allows one token *)
Definition contol_text (flag : list byte) : outcome (list byte) :=
  if (zlen flag =? 8) || negb (nth 8 flag 0 =? 61) then Exit (-1) else
  if zlen flag <? 10 then Exit 134 else
  let val := firstn 255 (skipn 10 flag) in
  match token val with
  | None => Undef
  | Some (t, r) => match token r with None => Done t | Some _ => Exit 134 end
  end.
