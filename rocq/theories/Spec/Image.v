From Coq Require Import QArith.QArith QArith.Qcanon.
From Verif Require Import Model.Base Model.Layout Spec.Box.
Local Open Scope list_scope.
Local Open Scope Z_scope.

(* the limits of a grid that is not distributed *)
Definition serial_box (ls : list limits) : Prop := Forall (fun l => l_x0 l = l_g0 l /\ l_x1 l = l_g1 l /\ l_g0 l <= l_g1 l) ls.

(* smallest and largest of a number and a list *)
Definition least (a : Qc) (l : list Qc) (m : Qc) : Prop := In m (a :: l) /\ Forall (fun v => m <= v)%Qc (a :: l).
Definition greatest (a : Qc) (l : list Qc) (m : Qc) : Prop := In m (a :: l) /\ Forall (fun v => v <= m)%Qc (a :: l).

(* v of the way from lo to hi as an intensity: 0 to 255, rounded down *)
Definition intensity (lo hi v : Qc) (p : Z) : Prop :=
  let q := (Q2Qc (inject_Z 255) * ((v - lo) / (hi - lo)))%Qc in
  0 <= p <= 255 /\ (Q2Qc (inject_Z p) <= q)%Qc /\ (q < Q2Qc (inject_Z (p + 1)))%Qc /\ (v = lo -> p = 0) /\ (v = hi -> p = 255).

(* pictures of grids with limits gs: a line is a row; a plane is shown with its second axis upwards; a box is cut at the given
   level of the given axis.  Width, height, and the node shown in a column of a row counted from the top left corner *)
Definition extent (g : Z * Z) : Z := snd g - fst g.
Definition picture (gs : list (Z * Z)) (axis : Z) : Z * Z :=
  match gs with
  | [g0] => (extent g0, 1)
  | [g0; g1] => (extent g0, extent g1)
  | [g0; g1; g2] => if axis =? 0 then (extent g1, extent g2) else if axis =? 1 then (extent g0, extent g2) else (extent g0, extent g1)
  | _ => (0, 0)
  end.
Definition node_at (gs : list (Z * Z)) (axis level row col : Z) : list Z :=
  match gs with
  | [g0] => [fst g0 + col]
  | [g0; g1] => [fst g0 + col; snd g1 - 1 - row]
  | [g0; g1; g2] => if axis =? 0 then [level; snd g1 - 1 - col; fst g2 + row]
                    else if axis =? 1 then [fst g0 + col; level; fst g2 + row]
                    else [fst g0 + col; snd g1 - 1 - row; level]
  | _ => []
  end.
(* the slice: none below three dimensions; otherwise a level of the grid on one of the axes *)
Definition slice_of (gs : list (Z * Z)) (axis level : Z) : Prop :=
  zlen gs <= 2 /\ axis = -1 \/
  zlen gs = 3 /\ 0 <= axis <= 2 /\ fst (nth (Z.to_nat axis) gs (0, 0)) <= level < snd (nth (Z.to_nat axis) gs (0, 0)).

(* the number shown for a list of fields: the field, if it is only one, or else their magnitude *)
Definition magnitude (root : Qc -> Qc) (l : list Qc) : Qc := root (fold_left (fun s v => s + v * v)%Qc l 0%Qc).
Definition shown (root : Qc -> Qc) (l : list Qc) : Qc := match l with [v] => v | _ => magnitude root l end.
(* the value of a field of a sparse object *)
Definition field_of (v : list (Z * Qc)) (i : Z) : Qc := match find (fun it => fst it =? i) v with Some it => snd it | None => 0%Qc end.

(* v is within the tolerance, relative to the level, of one of the levels; a level 0 has no relative distance *)
Definition on_contour (tol : Qc) (levels : list Qc) (v : Qc) : Prop :=
  exists l, In l levels /\ l <> 0%Qc /\ ((v - l < tol * l /\ l - v < tol * l /\ 0 < l) \/ (v - l < tol * - l /\ l - v < tol * - l /\ l < 0))%Qc.
