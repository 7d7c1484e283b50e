(* Words for C116: data files of a directory and their pictures. *)
From Coq Require Import String.
From Verif Require Import Model.Base Model.Text Model.Driver Model.Types Spec.Options.
Local Open Scope list_scope.
Local Open Scope Z_scope.

(* name is u.dat *)
Definition data_file (u name : list byte) : Prop := name = u ++ bytes ".dat".
Definition picture (u : list byte) : list byte := u ++ bytes ".vti".
Definition index_file (u : list byte) : list byte := u ++ bytes ".pvd".

(* the index ParaView reads: the pictures at the times 0, 1, 2, ... *)
Definition data_set (t : Z) (f : list byte) : list byte :=
  bytes "    <DataSet timestep=""" ++ show_int t ++ bytes """ group="""" part=""0"" file=""" ++ f ++ bytes """/>" ++ [10].
Definition lists (text : list byte) (files : list (list byte)) : Prop :=
  text = bytes "<?xml version=""1.0""?>" ++ [10] ++ bytes "<VTKFile type=""Collection"" version=""0.1"" byte_order=""LittleEndian"">" ++ [10] ++ bytes "  <Collection>" ++ [10] ++
         concat (map (fun k => data_set (Z.of_nat k) (nth k files [])) (seq 0 (length files))) ++ bytes "  </Collection>" ++ [10] ++ bytes "</VTKFile>" ++ [10].
