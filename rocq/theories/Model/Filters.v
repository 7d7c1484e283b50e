(* mmsp2z, wrongendian and mmsp2topo from the command line to the files on the disk: utility/mmsp2z.cpp:15-58, utility/wrongendian.cpp:71-155,
   utility/mmsp2topo.cpp:62-104,346.  The conversions are in Model/Mmsp2z.v, Model/Endian.v and Model/Topo.v.
   Simplifications: every file can be opened for writing; two texts are the same file only if they are equal.  What a run that ends early has
   written into its output is left open (parameter so_far). *)
From Coq Require Import String.
From Verif Require Import Model.Base Model.Text Model.Codec Model.File Model.Driver Model.Types Model.Pvd Model.Tools Model.Mmsp2z Model.Endian.
Local Open Scope list_scope.
Local Open Scope Z_scope.

(* mmsp2z.cpp:20-31, wrongendian.cpp:74-86: the input, the output and further arguments; args = argv[1], argv[2], ... *)
Definition two_files (args : list (list byte)) : outcome (list byte * list byte * list (list byte)) :=
  match args with
  | a :: out :: rest => if same_text a (bytes "--help") then Exit 0 else Done (a, out, rest)
  | _ => Exit (-1)
  end.

Section Filters.
Context (compress : list byte -> list byte) (uncompress : list byte -> Z -> option (list byte)).
Context {F : Type} (fshow : F -> list byte) (fparse : list byte -> option F).
Context (so_far : list byte).

(* mmsp2z.cpp:34-58: the output is opened, and so emptied, before anything is read; cin: the standard input *)
Definition z_run (cin : list byte) (args : list (list byte)) (d : disk) : disk * outcome unit :=
  match two_files args with
  | Exit n => (d, Exit n)
  | Undef => (d, Undef)
  | Done (a, out, _) =>
      match (if same_text a (bytes "--") then Some cin else d a) with
      | None => (d, Exit (-1))
      | Some _ =>
          let d1 := write d out [] in
          let s := if same_text a (bytes "--") then cin else match d1 a with Some s => s | None => [] end in
          match mmsp2z compress fshow fparse s with
          | Done r => (write d1 out r, Done tt)
          | Exit n => (write d1 out so_far, Exit n)
          | Undef => (write d1 out so_far, Undef)
          end
      end
  end.

(* wrongendian.cpp:89-155.  The type is looked at before the output is opened.  sched: what the threads write, see Model.Endian.written.
   A negative number of threads is a huge unsigned one, for which there is no memory; reading a file that was emptied meanwhile, of which a part
   may have been read ahead, is not followed: both are undefined in the model *)
Definition endian_run (sched : nat -> list (list byte) -> list byte) (args : list (list byte)) (d : disk) : disk * outcome unit :=
  match two_files args with
  | Exit n => (d, Exit n)
  | Undef => (d, Undef)
  | Done (a, out, rest) =>
      match d a with
      | None => (d, Exit (-1))
      | Some file =>
          let type := fst (getline file) in
          if negb (prefix_of (bytes "grid") type) then (d, Exit (-1)) else
          match width_of type with
          | None => (d, Exit (-1))
          | Some _ =>
              let d1 := write d out [] in
              match (match rest with [t] => atoi t | _ => Some 2 end) with
              | None => (d1, Undef)
              | Some n =>
                  if n =? 0 then (d1, Exit (-1)) else
                  if n <? 0 then (write d1 out so_far, Undef) else
                  if same_text a out then (write d1 out so_far, Undef) else
                  match convert compress uncompress fshow fparse file with
                  | Done (hd, l) => (write d1 out (hd ++ sched (Z.to_nat n) l), Done tt)
                  | Exit k => (write d1 out so_far, Exit k)
                  | Undef => (write d1 out so_far, Undef)
                  end
              end
          end
      end
  end.
End Filters.

(* mmsp2topo.cpp:83-104: the type and dimension of the file.  type.substr(pos, n) throws std::out_of_range beyond the end, which ends the program *)
Definition topo_look (file : list byte) : outcome unit :=
  let (type, s) := getline file in
  if negb (same_text (substr type 0 4) (bytes "grid")) then Exit (-1) else
  if zlen type <? 5 then Exit 134 else
  if negb (same_text (substr type 5 6) (bytes "sparse")) then Exit (-1) else
  if zlen type <? 12 then Exit 134 else
  if negb (same_text (substr type 12 5) (bytes "float")) then Exit (-1) else
  got (dim, _) <- read_dim s;
  if (dim <? 2) || (3 <? dim) then Exit (-1) else Done tt.

(* mmsp2topo.cpp:68-80,346-387: table: what is made of the grid, see Model/Topo.v; the output is opened when all is known *)
Definition topo_run (table : list byte -> outcome (list byte)) (args : list (list byte)) (d : disk) : disk * outcome unit :=
  match args with
  | [a; out] =>
      match d a with
      | None => (d, Exit (-1))
      | Some file =>
          match topo_look file with
          | Exit n => (d, Exit n)
          | Undef => (d, Undef)
          | Done _ => match table file with Done r => (write d out r, Done tt) | Exit n => (d, Exit n) | Undef => (d, Undef) end
          end
      end
  | _ => (d, Exit 1)
  end.
