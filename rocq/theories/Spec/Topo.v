(* Vocabulary for the topology of a microstructure given by the fields F stored at every node *)
From Coq Require Import QArith.QArith QArith.Qcanon Sorting.Sorted.
From Verif Require Import Model.Base Model.Layout Model.Access Model.Sparse Model.Evolve Model.Topology Model.Tessellate Model.Topo Spec.Box Spec.Stencil Spec.Evolve Spec.Topology Spec.Table.
Local Open Scope Z_scope.

(* one value for every field of a cell, identifiers below 2^16, and a value above -1 *)
Definition cell_ok (l : list (Z * Qc)) : Prop :=
  NoDup (map fst l) /\ Forall (fun it => 0 <= fst it < 65536) l /\ Exists (fun it => - (1) < snd it)%Qc l.
(* a is the first field of the greatest value: the grain the node belongs to *)
Definition leads (l : list (Z * Qc)) (a : Z) : Prop :=
  exists l1 v l2, l = l1 ++ (a, v) :: l2 /\ Forall (fun it => snd it < v)%Qc l1 /\ Forall (fun it => snd it <= v)%Qc l2.
(* y is one of the 8 nodes around x in the plane; of the 26 in space those on the 8 corners do not count *)
Definition touching (x y : list Z) : Prop :=
  y <> x /\ Forall2 (fun a b => -1 <= b - a <= 1) x y /\ (length x = 3%nat -> exists i, (i < 3)%nat /\ nth i x 0 = nth i y 0).
(* A: the other grains around node x, in increasing order; there is nothing beyond the box *)
Definition surroundings (ls : list limits) (G : list Z -> Z) (x : list Z) (A : list Z) : Prop :=
  StronglySorted Z.lt A /\
  forall b, In b A <-> exists y, in_box (map l_x0 ls) (map l_x1 ls) y /\ touching x y /\ G y = b /\ b <> G x.
(* node x belongs to grain G x and is surrounded by the other grains A x *)
Definition microstructure (ls : list limits) (F : list Z -> list (Z * Qc)) (G : list Z -> Z) (A : list Z -> list Z) : Prop :=
  forall x, in_box (map l_x0 ls) (map l_x1 ls) x -> cell_ok (F x) /\ leads (F x) (G x) /\ surroundings ls G x (A x).
(* the grid holds F *)
Definition grid_of (ls : list limits) (data : list (sobj Qc)) (F : list Z -> list (Z * Qc)) : Prop :=
  forall x, in_box (map l_x0 ls) (map l_x1 ls) x -> grid_read false (lay 0 ls) data x = Some (map Some (F x)).

(* field a is stored at node x *)
Definition stored (F : list Z -> list (Z * Qc)) (a : Z) (x : list Z) : Prop := In a (map fst (F x)).
Definition storedb (F : list Z -> list (Z * Qc)) (a : Z) (x : list Z) : bool := existsb (Z.eqb a) (map fst (F x)).
(* three coordinates *)
Definition spatial (x : list Z) : list Z := match x with [a; b] => [a; b; 0] | _ => x end.
(* what node x contributes to grain a: the value of field a as a mass at x; if the node belongs to a and d-1 other grains surround it,
   an edge (in space, the neighbours too); in the plane, for two grains that meet around a node of a third, a vertex *)
Definition events (d : Z) (F : list Z -> list (Z * Qc)) (G : list Z -> Z) (A : list Z -> list Z) (a : Z) (x : list Z) : list act :=
  (if storedb F a x then [AMass (at_index (F x) a) (map q_of (spatial x))] else []) ++
  (if (a =? G x) && (zlen (A x) =? d - 1) then AEdge (A x) (spatial x) :: (if d =? 3 then map ANeighbor (A x) else []) else []) ++
  (if (d =? 2) && (zlen (A x) =? 2) && existsb (Z.eqb a) (A x) then [AVertex (A x)] else []).
Definition history (d : Z) F G A (xs : list (list Z)) (a : Z) : list act := flat_map (events d F G A a) xs.
(* when the nodes are visited in the order xs, the grains that meet around a node of a third are known by then *)
Definition known_in_time (F : list Z -> list (Z * Qc)) (A : list Z -> list Z) (xs : list (list Z)) : Prop :=
  forall pre x post, xs = pre ++ x :: post -> zlen (A x) = 2 -> forall b, In b (A x) -> exists y, In y (pre ++ [x]) /\ stored F b y.

(* the value of field a summed over the nodes, and its first moment along axis k *)
Definition amount (F : list Z -> list (Z * Qc)) (xs : list (list Z)) (a : Z) : Qc := sumQ (map (fun x => at_index (F x) a) xs).
Definition amount_moment (F : list Z -> list (Z * Qc)) (xs : list (list Z)) (k : nat) (a : Z) : Qc :=
  sumQ (map (fun x => at_index (F x) a * q_of (nth k x 0%Z))%Qc xs).
(* in increasing order, the grains that grain a meets along its edges *)
Definition faces_of (ls : list limits) (G : list Z -> Z) (A : list Z -> list Z) (a : Z) (fs : list Z) : Prop :=
  StronglySorted Z.lt fs /\
  forall b, In b fs <-> exists x, in_box (map l_x0 ls) (map l_x1 ls) x /\ G x = a /\ zlen (A x) = zlen ls - 1 /\ In b (A x).
(* the edges of grain a: in space, the pairs of grains found together around one of its nodes; in the plane, single grains *)
Definition edges_of (ls : list limits) (G : list Z -> Z) (A : list Z -> list Z) (a : Z) (es : list (list Z)) : Prop :=
  NoDup es /\
  forall e, In e es <-> exists x, in_box (map l_x0 ls) (map l_x1 ls) x /\ G x = a /\ zlen (A x) = zlen ls - 1 /\ e = A x.
(* in space: three grains of which any two are an edge *)
Definition corners_of (es vs : list (list Z)) : Prop :=
  NoDup vs /\
  forall v, In v vs <-> exists a b c, v = [a; b; c] /\ a < b < c /\ In [a; b] es /\ In [a; c] es /\ In [b; c] es.
(* in the plane: the pairs of grains, one of them a, found together around a node of a third *)
Definition plane_corners_of (ls : list limits) (A : list Z -> list Z) (a : Z) (vs : list (list Z)) : Prop :=
  NoDup vs /\ forall v, In v vs <-> exists x, in_box (map l_x0 ls) (map l_x1 ls) x /\ zlen (A x) = 2 /\ In a (A x) /\ v = A x.
(* how many of the faces fs have p edges *)
Definition faces_having (fs : list Z) (es : list (list Z)) (p : Z) : Z :=
  zlen (filter (fun f => zlen (filter (fun e => existsb (Z.eqb f) e) es) =? p) fs).

(* the line of the table for grain a in space, under P columns p and N columns N: identifier, centre of mass, volume, the numbers of
   corners, faces and edges, V + F - E, the numbers of faces with 2, 3, .. edges, the neighbours *)
Definition space_row (F : list Z -> list (Z * Qc)) (xs : list (list Z)) (a : Z) (fs : list Z) (es vs : list (list Z)) (P N : Z) : list cell :=
  num_of a :: map (fun k => num_of (truncZ (amount_moment F xs k a / amount F xs a)%Qc)) [0%nat; 1%nat; 2%nat] ++
  [Num (amount F xs a); num_of (zlen vs); num_of (zlen fs); num_of (zlen es); num_of (zlen vs + zlen fs - zlen es)] ++
  map (fun p => num_of (faces_having fs es p)) (zrange 2 P) ++ map num_of fs ++ map (fun _ => Blank) (zrange (zlen fs) N).
(* in the plane *)
Definition plane_row (F : list Z -> list (Z * Qc)) (xs : list (list Z)) (a : Z) (fs : list Z) (es vs : list (list Z)) : list cell :=
  num_of a :: map (fun k => num_of (truncZ (amount_moment F xs k a / amount F xs a)%Qc)) [0%nat; 1%nat] ++
  [num_of 0; Num (amount F xs a); num_of (zlen vs); num_of 0; num_of (zlen es); num_of (zlen vs - zlen es); num_of (zlen es)] ++ map num_of fs.
