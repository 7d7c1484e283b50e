(* utility/vti2pvd: the script that converts all data files of a directory with mmsp2vti and lists the pictures for ParaView.
   Simplifications: GNU parallel is installed; names have no blanks and no characters that the shell expands; no directory has the name of a
   picture; the jobs that run at the same time are taken one after the other, in any order (each reads one file and writes another one). *)
From Coq Require Import String QArith.QArith QArith.Qcanon.
From Verif Require Import Model.Base Model.Text Model.File Model.Types Model.Pvd Model.Tools.
Local Open Scope list_scope.
Local Open Scope Z_scope.

(* ${s/p/r}: the first place where p occurs in s is replaced by r; p is not empty *)
Fixpoint replace_first (p r s : list byte) : list byte :=
  if starts p s then r ++ skipn (List.length p) s else match s with [] => [] | b :: t => b :: replace_first p r t end.

(* vti2pvd:13, :37 ${f/dat/vti} and :21 ${first/.dat/.pvd} *)
Definition vti_of (name : list byte) : list byte := replace_first (bytes "dat") (bytes "vti") name.
Definition pvd_of (name : list byte) : list byte := replace_first (bytes ".dat") (bytes ".pvd") name.

(* vti2pvd:30-41: the text of the index; echo ends every line *)
Definition entry (i : Z) (f : list byte) : list byte :=
  bytes "    <DataSet timestep=""" ++ show_int i ++ bytes """ group="""" part=""0"" file=""" ++ vti_of f ++ bytes """/>" ++ [10].
Fixpoint entries (i : Z) (names : list (list byte)) : list byte :=
  match names with [] => [] | f :: l => entry i f ++ entries (i + 1) l end.
Definition index_text (names : list (list byte)) : list byte :=
  bytes "<?xml version=""1.0""?>" ++ [10] ++ bytes "<VTKFile type=""Collection"" version=""0.1"" byte_order=""LittleEndian"">" ++ [10] ++
  bytes "  <Collection>" ++ [10] ++ entries 0 names ++ bytes "  </Collection>" ++ [10] ++ bytes "</VTKFile>" ++ [10].

Section Script.
Context (atof : list byte -> Qc) (convert : tool -> order -> list byte -> outcome (list byte)).
(* vti2pvd:12-16: a job; how mmsp2vti ends is not looked at *)
Definition dat2vti (d : disk) (name : list byte) : disk :=
  match d (vti_of name) with Some _ => d | None => fst (run_tool atof convert MMSP2VTI [name] d) end.

(* vti2pvd:19-41.  names: what ls -rt lists, the oldest first; turns: the same names in the order in which the jobs are done.
   Without files the name of the index is empty, and it cannot be written *)
Definition vti2pvd (names turns : list (list byte)) (d : disk) : disk * outcome unit :=
  match names with
  | [] => (d, Exit 1)
  | first :: _ => (write (fold_left dat2vti turns d) (pvd_of first) (index_text names), Done tt)
  end.
End Script.
