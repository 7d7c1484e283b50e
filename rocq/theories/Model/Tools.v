(* The programs that turn one grid file into another file, from the command line to the files on the disk: utility/mmsp2vti.cpp:13-60,
   utility/mmsp2tsv.cpp:22-110, utility/mmsp2png.cpp:17-226,756, utility/mmsp2xyz.cpp:28-200, utility/MC2PF.cpp:7-36 and its seven relatives.
   What is written is left to a parameter (see Model/Vtk.v, Model/Table.v, Model/Image.v, Model/Convert.v).
   Simplifications: every file can be opened for writing, in every directory; two texts are the same file only if they are equal; a program that
   stops with an error while it reads the grid has written nothing yet. *)
From Coq Require Import String QArith.QArith QArith.Qcanon.
From Verif Require Import Model.Base Model.Text Model.Num Model.Ghostswap Model.File Model.Driver Model.Types Model.Options Model.Pvd.
Local Open Scope list_scope.
Local Open Scope Z_scope.

Inductive tool := MMSP2VTI | MMSP2TSV | MMSP2PNG | MMSP2XYZ | MC2PF | MC2sPF | MC2vox | PF2MC | PF2sPF | sPF2MC | sPF2PF | vox2MC.

(* the ending of output names.  MC2vox.cpp:33 has the one of MC2PF *)
Definition ending (t : tool) : list byte :=
  bytes match t with
        | MMSP2VTI => ".vti" | MMSP2TSV => ".tsv" | MMSP2PNG => ".png" | MMSP2XYZ => ".xyz"
        | MC2PF | MC2vox | sPF2PF => ".PF" | MC2sPF | PF2sPF => ".sPF" | PF2MC | sPF2MC | vox2MC => ".MC"
        end.

(* how the data are to be shown: flatten and field of mmsp2vti; the settings of mmsp2png and mmsp2xyz *)
Inductive order := Plain | Flat (flatten field : Z) | Drawn (s : settings).
Record request := mkReq { r_in : list byte; r_out : list byte; r_order : order }.

(* mmsp2vti.cpp:16-61; args = argv[1], argv[2], ...  argv[argc] is NULL, which std::ifstream must not be given *)
Definition vti_request (args : list (list byte)) : outcome request :=
  match args with
  | [] => Exit (-1)
  | a :: rest =>
      if same_text a (bytes "--help") then Exit 0 else
      got (flatten, field) <-
        (if same_text a (bytes "--mag") then Done (1, 0)
         else if same_text a (bytes "--max") then Done (2, 0)
         else if Types.starts (bytes "--field=") a then got n <- req (atoi (part a 8 12)); Done (3, n)
         else Done (0, 0));
      match (if 0 <? flatten then rest else args) with
      | [] => Undef
      | file :: more =>
          Done (mkReq file (match more with [] => stem file ++ bytes ".vti" | out :: _ => out end) (if flatten =? 0 then Plain else Flat flatten field))
      end
  end.

(* mmsp2tsv.cpp:24-39,89-98.  args has one element exactly when argc is 2 *)
Definition digit_name (ext name : list byte) : list byte :=
  match last_dot name with
  | None => name ++ ext
  | Some p => if existsb is_digit (skipn (Z.to_nat p) name) then name ++ ext else firstn (Z.to_nat p) name ++ ext
  end.
Definition tsv_request (args : list (list byte)) : outcome request :=
  match args with
  | [] => Exit (-1)
  | a :: rest => if same_text a (bytes "--help") then Exit 0 else
                 Done (mkReq a (match rest with [] => digit_name (bytes ".tsv") a | out :: _ => out end) Plain)
  end.

(* MC2PF.cpp:8-35, the same in the others *)
Definition grid_request (ext : list byte) (args : list (list byte)) : outcome request :=
  match args with
  | [] => Exit (-1)
  | a :: rest => if same_text a (bytes "--help") then Exit 0 else
                 Done (mkReq a (match rest with [] => stem a ++ ext | out :: _ => out end) Plain)
  end.

Section Tools.
Context (atof : list byte -> Qc).
(* mmsp2png.cpp:205-226, mmsp2xyz.cpp:137-197 *)
Definition drawn_request (ext : list byte) (opts : outcome settings) (args : list (list byte)) : outcome request :=
  got s <- opts;
  got name <- req (get args (o_dat s - 1));
  got out <- req (output_name ext args s);
  Done (mkReq name out (Drawn s)).
Definition request_of (t : tool) (args : list (list byte)) : outcome request :=
  match t with
  | MMSP2VTI => vti_request args
  | MMSP2TSV => tsv_request args
  | MMSP2PNG => drawn_request (ending t) (png_options atof args) args
  | MMSP2XYZ => drawn_request (ending t) (xyz_options atof args) args
  | _ => grid_request (ending t) args
  end.

(* mmsp2tsv and mmsp2xyz open, and so empty, the output after the first line of the input has been looked at and before the grid is read:
   mmsp2tsv.cpp:101, mmsp2xyz.cpp:199.  The others open it when the result is known *)
Definition first_look (t : tool) (file : list byte) : outcome unit :=
  match t with
  | MMSP2TSV => got _ <- pick Tsv (fst (getline file)); Done tt
  | MMSP2XYZ => got _ <- pick Png (fst (getline file)); Done tt     (* the refusal of bool comes later *)
  | _ => Done tt
  end.
Definition opens_early (t : tool) : bool := match t with MMSP2TSV | MMSP2XYZ => true | _ => false end.

Definition disk := list byte -> option (list byte).
Definition write (d : disk) (name c : list byte) : disk := fun m => if same_text m name then Some c else d m.

(* what the program makes of the contents of the input *)
Context (convert : tool -> order -> list byte -> outcome (list byte)).

(* a run of the program: the files afterwards, and how it ended *)
Definition run_tool (t : tool) (args : list (list byte)) (d : disk) : disk * outcome unit :=
  match request_of t args with
  | Exit n => (d, Exit n)
  | Undef => (d, Undef)
  | Done q =>
      match d (r_in q) with
      | None => (d, Exit (-1))
      | Some file =>
          match first_look t file with
          | Exit n => (d, Exit n)
          | Undef => (d, Undef)
          | Done _ =>
              let d1 := if opens_early t then write d (r_out q) [] else d in
              match d1 (r_in q) with
              | None => (d1, Exit (-1))
              | Some file =>
                  match convert t (r_order q) file with
                  | Exit n => (d1, Exit n)
                  | Undef => (d1, Undef)
                  | Done result => (write d1 (r_out q) result, Done tt)
                  end
              end
          end
      end
  end.

(* for f in names; do tool options f; done *)
Fixpoint run_each (t : tool) (opts : list (list byte)) (names : list (list byte)) (d : disk) : disk * list (outcome unit) :=
  match names with
  | [] => (d, [])
  | n :: rest => let (d, o) := run_tool t (opts ++ [n]) d in let (d, os) := run_each t opts rest d in (d, o :: os)
  end.
End Tools.
