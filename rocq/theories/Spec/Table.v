(* Reading tables and images of grids: what the numbers in them should be. *)
From Coq Require Import String Sorted QArith.QArith QArith.Qcanon.
From Verif Require Import Model.Base Model.Text Model.Layout Spec.Box Spec.Image.
Local Open Scope string_scope.
Local Open Scope list_scope.
Local Open Scope Z_scope.

(* the pieces of a text between separators; lines: the pieces that end with a newline *)
Fixpoint split (sep : byte) (s : list byte) : list (list byte) :=
  match s with
  | [] => [[]]
  | b :: t => if b =? sep then [] :: split sep t else match split sep t with [] => [[b]] | w :: ws => (b :: w) :: ws end
  end.
Definition lines (s : list byte) : list (list byte) := removelast (split 10 s).
(* a table: its lines, cut at the tabs *)
Definition table_of (s : list byte) : list (list (list byte)) := map (split 9) (lines s).
(* a word that fits in a cell of a table *)
Definition word (w : list byte) : Prop := ~ In 9 w /\ ~ In 10 w.

(* xs are the nodes of the box with the property P, each once, in row-major order *)
Definition all_nodes (lo hi : list Z) (P : list Z -> Prop) (xs : list (list Z)) : Prop :=
  (forall x, In x xs <-> in_box lo hi x /\ P x) /\ StronglySorted lex_lt xs.
(* Cartesian coordinates of a node *)
Definition coordinates (dx : list Qc) (x : list Z) : list Qc := map (fun p => fst p * Q2Qc (inject_Z (snd p)))%Qc (combine dx x).
(* three columns for a point, whatever the dimension *)
Definition columns (show : Qc -> list byte) (p : list Qc) : list (list byte) :=
  match map show p with [a] => [a; bytes "0"; bytes "0"] | [a; b] => [a; b; bytes "0"] | l => l end.

(* i is the first index of the greatest number of the list *)
Definition first_greatest (l : list Qc) (i : Z) : Prop :=
  exists q, get l i = Some q /\ forall j r, get l j = Some r -> (r <= q)%Qc /\ (j < i -> (r < q)%Qc).
(* the numbers shown for a cell by the options --mag (1), --max (2), --field (3) and by default (0) *)
Inductive vector_pixels (root : Qc -> Qc) (field : Z) (v : list Qc) : Z -> list Qc -> Prop :=
| shows_mag : vector_pixels root field v 1 [magnitude root v]
| shows_max i : first_greatest v i -> vector_pixels root field v 2 [Q2Qc (inject_Z i)]
| shows_field q : get v field = Some q -> vector_pixels root field v 3 [q]
| shows_all : vector_pixels root field v 0 v.
Inductive sparse_pixels (root : Qc -> Qc) (field : Z) (v : list (Z * Qc)) : Z -> list Qc -> Prop :=
| sshows_mag mode : mode = 0 \/ mode = 1 -> sparse_pixels root field v mode [magnitude root (map snd v)]
| sshows_max i it : first_greatest (map snd v) i -> get v i = Some it -> sparse_pixels root field v 2 [Q2Qc (inject_Z (fst it))]
| sshows_field : sparse_pixels root field v 3 [field_of v field].
