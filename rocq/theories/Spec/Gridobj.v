From Verif Require Import Model.Base Model.Gridobj.

(* a constructed grid: its array has the number of cells it says *)
Definition allocated {T D} (g : gobj T D) (cells : list T) : Prop :=
  go_data g = Some cells /\ zlen cells = go_cells g.
