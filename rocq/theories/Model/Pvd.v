(* The program utility/mmsp2pvd.cpp: a time series of VTK images from grid files.  Serial build.
   Files and images are kept in memory; the XML text of the index is not modelled, an index is the list of its DataSet entries
   (timestep, file name).  Simplifications: an image is what the function [draw] makes of a grid (Model/Vtk.v: scalar_to_vtk, vector_to_vtk
   or sparse_to_vtk); writing never fails; the index is none of the other files; messages are left out. *)
From Coq Require Import String.
From Verif Require Import Model.Base Model.Text Model.Boundary Model.Layout Model.Setup Model.Codec Model.Region Model.File Model.Driver Model.Types.
Local Open Scope string_scope.
Local Open Scope list_scope.
Local Open Scope Z_scope.

Definition same_text (u v : list byte) : bool := if list_eq_dec Z.eq_dec u v then true else false.

(* find_last_of for one character; None: npos *)
Fixpoint last_of (c : byte) (s : list byte) (i : Z) (cur : option Z) : option Z :=
  match s with [] => cur | b :: t => last_of c t (i + 1) (if b =? c then Some i else cur) end.
(* s.substr(start, n); n = None: npos *)
Definition sub_str (s : list byte) (start : Z) (n : option Z) : list byte :=
  let t := skipn (Z.to_nat start) s in match n with Some n => firstn (Z.to_nat n) t | None => t end.
(* s.substr(0, s.find_last_of(".")): :78, :113 *)
Definition stem (s : list byte) : list byte := sub_str s 0 (last_of 46 s 0 None).
(* :66-72: the name of the index made from an argument that is not a file *)
Definition index_name (s : list byte) : list byte :=
  sub_str s (match last_of 61 s 0 None with Some p => p | None => 0 end) (last_of 46 s 0 None) ++ bytes ".pvd".

(* the command line, without the name of the program: args = argv[1], argv[2], ...; mode (0 none, 1 --mag, 2 --max, 3 --field), field,
   index of the first data file in argv, index of the output name in argv (-1: none), name of the index *)
Record pvd_args := mkArgs { cm_mode : Z; cm_field : Z; cm_first : Z; cm_out : Z; cm_name : list byte }.
(* :33-49 *)
Definition pvd_options (a1 : list byte) : option (Z * Z * Z) :=
  if same_text a1 (bytes "--mag") then Some (1, 0, 2)
  else if same_text a1 (bytes "--max") then Some (2, 0, 2)
  else if starts (bytes "--field=") a1 then do f <- atoi (firstn 12 (skipn 8 a1)); Some (3, f, 2)
  else Some (0, 0, 1).
(* :54-61, :63-77: the first argument from argv[i] on that satisfies the test, and its index *)
Fixpoint first_arg (test : list byte -> bool) (l : list (list byte)) (i : Z) : option (Z * list byte) :=
  match l with [] => None | a :: t => if test a then Some (i, a) else first_arg test t (i + 1) end.
(* :14-87; opens: the arguments that name a file that can be opened *)
Definition pvd_command (opens : list byte -> bool) (args : list (list byte)) : outcome pvd_args :=
  match args with
  | [] => Exit (-1)
  | a1 :: _ =>
      if same_text a1 (bytes "--help") then Exit 0 else
      got (mode, field, first) <- req (pvd_options a1);
      let rest := skipn (Z.to_nat (first - 1)) args in
      match first_arg (starts (bytes "--output=")) rest first with
      | Some (i, a) => Done (mkArgs mode field (i + 1) i (skipn 9 a))
      | None =>
          match first_arg (fun a => negb (opens a)) rest first with
          | Some (i, a) => Done (mkArgs mode field (i + 1) i (index_name a))
          | None => got a <- req (get args (first - 1)); Done (mkArgs mode field first (-1) (stem a ++ bytes ".pvd"))
          end
      end
  end.

Section Pvd.
Context {T : Type} (cod : kind -> elem -> codec T) (fresh : kind -> elem -> Z -> T).
Context {D : Type} (dparse : list byte -> option D) (uncompress : list byte -> Z -> option (list byte)).
(* the image of a grid: mode, field, kind, element, fields, axes, spacing, data; unit: the spacing 1.0 of a new grid *)
Context {I : Type} (draw : Z -> Z -> kind -> elem -> Z -> list axis -> list D -> list T -> option I) (unit : D).

(* :206-793: one block.  The grid is made by grid(fields, lmin, lmax): no ghosts, default boundary conditions, spacing 1; the spacing and the
   boundary conditions of the file are not used.  Unlike input, the block is taken to be compressed whenever the sizes differ. *)
Definition draw_block (mode field : Z) (k : kind) (e : elem) (fields : Z) (dim : nat) (s : list byte) : outcome (I * list byte) :=
  got (lims, s) <- read_pairs dim s;
  got (_, s) <- read_pairs dim s;
  got (raw_size, s) <- read_bin_ulong s;
  got (size, s) <- read_bin_ulong s;
  got (buffer, s) <- req (read_n size s);
  got bytes <- (if size =? raw_size then Done buffer else req (uncompress buffer raw_size));
  let axs := ge_axes (setup_single (map (fun l => mkG (fst l) (snd l)) lims) 0) in
  let data := repeat (fresh k e fields) (Z.to_nat (cells axs)) in
  got (data, _) <- req (from_buffer (cod k e) zrange data axs (map a_x0 axs) (map a_x1 axs) 0 bytes 0);
  got im <- req (draw mode field k e fields axs (repeat unit dim) data);
  Done (im, s).
Fixpoint draw_blocks (mode field : Z) (n : nat) (k : kind) (e : elem) (fields : Z) (dim : nat) (s : list byte) : outcome (list I) :=
  match n with
  | O => Done []
  | S n' => got (im, s) <- draw_block mode field k e fields dim s; got l <- draw_blocks mode field n' k e fields dim s; Done (im :: l)
  end.
(* :128-795: a file; the images of its blocks, each written to the same name *)
Definition draw_file (mode field : Z) (file : list byte) : outcome (list I) :=
  let (type, s) := getline file in
  got (k, e) <- pick Pvd type;
  got (dim, s) <- read_dim s;
  if (dim <? 1) || (dim >? 3) then Exit (-1) else
  got (fields, s) <- req (read_int s);
  got (_, s) <- req (read_gs (Z.to_nat dim) s);
  got (_, s) <- req (read_dx dparse (Z.to_nat dim) s);
  got (blocks, s) <- read_bin_int (ignore 10 s);
  draw_blocks mode field (Z.to_nat blocks) k e fields (Z.to_nat dim) s.

(* the disk: the files there at the start, and the images written so far, the last first *)
Context (files : list byte -> option (list byte)).
Definition opens (name : list byte) : bool := match files name with Some _ => true | None => false end.
Fixpoint image_at (images : list (list byte * I)) (name : list byte) : option I :=
  match images with [] => None | (n, im) :: t => if same_text n name then Some im else image_at t name end.
Definition present (images : list (list byte * I)) (name : list byte) : bool :=
  opens name || match image_at images name with Some _ => true | None => false end.

(* :107-795: one data file; st = entries of the index, images *)
Definition series_step (c : pvd_args) (st : list (Z * list byte) * list (list byte * I)) (arg : Z * list byte)
    : outcome (list (Z * list byte) * list (list byte * I)) :=
  let (entries, images) := st in
  let (i, name) := arg in
  if i =? cm_out c then Done st else
  let vti := stem name ++ bytes ".vti" in
  let entries := entries ++ [(i - cm_first c, vti)] in
  if present images vti then Done (entries, images) else
  match files name with
  | None => Exit (-1)
  | Some file => got l <- draw_file (cm_mode c) (cm_field c) file; Done (entries, rev (map (fun im => (vti, im)) l) ++ images)
  end.
Fixpoint series (c : pvd_args) (st : list (Z * list byte) * list (list byte * I)) (args : list (Z * list byte)) :=
  match args with [] => Done st | a :: t => got st <- series_step c st a; series c st t end.
(* main *)
Definition mmsp2pvd (args : list (list byte)) : outcome (list byte * list (Z * list byte) * list (list byte * I)) :=
  got c <- pvd_command opens args;
  let data := skipn (Z.to_nat (cm_first c - 1)) args in
  got (entries, images) <- series c ([], []) (combine (zrange (cm_first c) (cm_first c + zlen data)) data);
  Done (cm_name c, entries, images).
End Pvd.
