From Coq Require Import QArith.QArith QArith.Qcanon Sorting.Sorted.
From Verif Require Import Model.Base Model.Topology Spec.Stencil.

(* the values passed as std::set<id_type> are increasing sequences; points have three coordinates *)
Definition well_typed (a : act) : Prop :=
  match a with
  | AEdge e p => StronglySorted Z.lt e /\ length p = 3%nat
  | AVertex v => StronglySorted Z.lt v
  | AMass _ p => length p = 3%nat
  | _ => True
  end.
(* the distinct neighbours and the distinct edges reported so far *)
Definition neighbours (h : list act) : list Z :=
  nodup Z.eq_dec (flat_map (fun a => match a with ANeighbor i => [i] | _ => [] end) h).
Definition boundaries (h : list act) : list (list Z) :=
  nodup (list_eq_dec Z.eq_dec) (flat_map (fun a => match a with AEdge e _ => [e] | _ => [] end) h).
(* the number of edges around the face shared with grain f *)
Definition sides (h : list act) (f : Z) : Z :=
  zlen (filter (fun e => if in_dec Z.eq_dec f e then true else false) (boundaries h)).
(* the number of faces with p edges *)
Definition faces_with (h : list act) (p : Z) : Z := zlen (filter (fun f => sides h f =? p) (neighbours h)).
(* three grains that meet pairwise along edges *)
Definition corner (h : list act) (v : list Z) : Prop :=
  exists a b c, v = [a; b; c] /\ a < b < c /\
    In [a; b] (boundaries h) /\ In [a; c] (boundaries h) /\ In [b; c] (boundaries h).
(* the edges are pairs of reported neighbours *)
Definition paired (h : list act) : Prop :=
  forall e, In e (boundaries h) -> exists a b, e = [a; b] /\ a < b /\ In a (neighbours h) /\ In b (neighbours h).
(* the mass given to the grain *)
Definition mass (h : list act) : Qc := sumQ (map (fun a => match a with AMass v _ => v | _ => 0%Qc end) h).
(* the first moment of that mass along axis k *)
Definition first_moment (k : nat) (h : list act) : Qc :=
  sumQ (map (fun a => match a with AMass v p => (v * nth k p 0)%Qc | _ => 0%Qc end) h).
(* the points reported on the edges, and their least and greatest coordinate on axis k within 0..1000 *)
Definition points (h : list act) : list (list Z) := flat_map (fun a => match a with AEdge _ p => [p] | _ => [] end) h.
Definition least (k : nat) (h : list act) : Z := fold_right Z.min 1000 (map (fun p => nth k p 0) (points h)).
Definition greatest (k : nat) (h : list act) : Z := fold_right Z.max 0 (map (fun p => nth k p 0) (points h)).
(* a coordinate nearer to the greatest than to the least is counted from the greatest *)
Definition folded (k : nat) (h : list act) (x : Z) : Z :=
  if greatest k h - x <? x - least k h then x - greatest k h else x.
(* the vertices reported *)
Definition reported (h : list act) : list (list Z) := flat_map (fun a => match a with AVertex v => [v] | _ => [] end) h.
