(* The data types of grid files, and how the programs utility/mmsp2png.cpp, mmsp2vti.cpp, mmsp2tsv.cpp, mmsp2xyz.cpp and
   mmsp2pvd.cpp choose the grid class for a file.  Serial build. *)
From Coq Require Import String.
From Verif Require Import Model.Base Model.Text Model.Layout Model.Codec Model.File.
Local Open Scope string_scope.
Local Open Scope list_scope.
Local Open Scope Z_scope.

(* the built-in types with a name, include/MMSP.utility.h:181-216 *)
Inductive elem := EBool | EChar | EUChar | EInt | EUInt | ELong | EULong | EShort | EUShort | EFloat | EDouble | ELDouble.
Definition elem_name (e : elem) : list byte :=
  bytes match e with
  | EBool => "bool" | EChar => "char" | EUChar => "unsigned char" | EInt => "int" | EUInt => "unsigned int"
  | ELong => "long" | EULong => "unsigned long" | EShort => "short" | EUShort => "unsigned short"
  | EFloat => "float" | EDouble => "double" | ELDouble => "long double"
  end.
(* grid<dim,T>, grid<dim,scalar<T> >, grid<dim,vector<T> >, grid<dim,sparse<T> >;
   include/MMSP.scalar.h:126-128, MMSP.vector.h:115-117, MMSP.sparse.h:98-100, MMSP.grid.h:593-596 *)
Inductive kind := KPlain | KScalar | KVector | KSparse.
Definition grid_name (k : kind) (e : elem) : list byte :=
  bytes "grid:" ++ bytes match k with KPlain => "" | KScalar => "scalar:" | KVector => "vector:" | KSparse => "sparse:" end ++ elem_name e.

Fixpoint starts (p s : list byte) : bool :=
  match p, s with
  | [], _ => true
  | a :: p', b :: s' => (a =? b) && starts p' s'
  | _, [] => false
  end.
(* s.find(p) != std::string::npos *)
Fixpoint finds (p s : list byte) : bool :=
  starts p s || match s with [] => false | _ :: t => finds p t end.

Inductive program := Png | Vti | Tsv | Xyz | Pvd.
(* the chain of tests: mmsp2png.cpp:313-445, mmsp2vti.cpp:109-230, mmsp2tsv.cpp:131-263, mmsp2xyz.cpp:233-357,
   mmsp2pvd.cpp:250-415, and in the same order for vectors and sparse objects *)
Definition pick_elem (type : list byte) : option elem :=
  let has s := finds (bytes s) type in
  if has "bool" then Some EBool
  else if has "unsigned char" then Some EUChar
  else if has "char" then Some EChar
  else if has "unsigned int" then Some EUInt
  else if has "int" then Some EInt
  else if has "unsigned long" then Some EULong
  else if has "long" then Some ELong
  else if has "unsigned short" then Some EUShort
  else if has "short" then Some EShort
  else if has "float" then Some EFloat
  else if has "long double" then Some ELDouble
  else if has "double" then Some EDouble
  else None.
(* mmsp2png.cpp:312,458,605, mmsp2tsv.cpp:130,277,424, mmsp2xyz.cpp:232,371,510, mmsp2pvd.cpp:249,432,615, mmsp2vti.cpp:108,244,380 *)
Definition pick_kind (p : program) (type : list byte) : kind :=
  let has s := finds (bytes s) type in
  let single := match p with Vti | Pvd => KScalar | _ => KPlain end in
  if (match p with Vti => false | _ => has "scalar" end) || (negb (has "vector") && negb (has "sparse")) then single
  else if has "vector" then KVector else KSparse.
(* the grid class chosen for the first line of a file, or exit: mmsp2png.cpp:232-265, mmsp2vti.cpp:62-97, mmsp2tsv.cpp:49-86,
   mmsp2xyz.cpp:147-184, mmsp2pvd.cpp:132-169.  MMSP::Abort(-1) of mmsp2xyz for bool is exit(-1) in the serial build *)
Definition pick (p : program) (type : list byte) : outcome (kind * elem) :=
  if negb (starts (bytes "grid") type) then Exit (-1) else
  match pick_elem type with
  | None => Exit (-1)
  | Some e => match p, e with
              | Xyz, EBool => Exit (-1)
              | _, _ => Done (pick_kind p type, e)
              end
  end.

Section Open.
(* cells of all kinds of grids; cod k e: how a cell of a grid of kind k and element e is stored *)
Context {T : Type} (cod : kind -> elem -> codec T) (fresh : kind -> elem -> Z -> T).
Context {D : Type} (dparse : list byte -> option D) (raw : bool) (uncompress : list byte -> Z -> option (list byte)).

(* mmsp2png.cpp:205-281, mmsp2vti.cpp:46-105, mmsp2tsv.cpp:42-110, mmsp2xyz.cpp:134-212: the grid is then made by grid(filename), that is
   by input.  The other numbers of the header that mmsp2tsv, mmsp2xyz and mmsp2png read are not used (except as in Model/Image.v).
   Not for mmsp2pvd, which reads the blocks itself (Model/Pvd.v). *)
Definition open_grid (p : program) (file : list byte) : outcome (kind * elem * loaded (T := T) (D := D)) :=
  let (type, s) := getline file in
  got (k, e) <- pick p type;
  got (dim, _) <- read_dim s;
  if (dim <? 1) || (dim >? 3) then Exit (-1) else
  got ld <- input_serial (cod k e) (fresh k e) dparse raw uncompress (grid_name k e) (Z.to_nat dim) file;
  Done (k, e, ld).
End Open.
