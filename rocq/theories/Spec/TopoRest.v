(* Vocabulary for the second part of the table of mmsp2topo, and for when the program writes its table *)
From Coq Require Import QArith.QArith QArith.Qcanon.
From Verif Require Import Model.Base Model.Evolve Model.Topology Model.Tessellate Model.Topo Spec.Stencil Spec.Topo.
Local Open Scope Z_scope.

(* the nodes of grain a with exactly d-1 other grains around them *)
Definition edge_nodes (d : Z) (G : list Z -> Z) (A : list Z -> list Z) (xs : list (list Z)) (a : Z) : list (list Z) :=
  filter (fun x => (G x =? a) && (zlen (A x) =? d - 1)) xs.
(* the least and greatest coordinate of the nodes ps on axis k, within 0..1000 *)
Definition lowest (k : nat) (ps : list (list Z)) : Z := fold_right Z.min 1000 (map (fun x => nth k x 0) ps).
Definition highest (k : nat) (ps : list (list Z)) : Z := fold_right Z.max 0 (map (fun x => nth k x 0) ps).
(* coordinate c, counted from the greatest one if that is nearer than the least one *)
Definition turned (k : nat) (ps : list (list Z)) (c : Z) : Z := if highest k ps - c <? c - lowest k ps then c - highest k ps else c.
(* the mean of these coordinates *)
Definition estimated (ps : list (list Z)) (k : nat) : Qc := (sumQ (map (fun x => q_of (turned k ps (nth k x 0%Z))) ps) / q_of (zlen ps))%Qc.
(* the centre of mass of grain a *)
Definition mean (F : list Z -> list (Z * Qc)) (xs : list (list Z)) (a : Z) (k : nat) : Qc := (amount_moment F xs k a / amount F xs a)%Qc.
(* without its fraction q is an int *)
Definition fits (q : Qc) : Prop := -2147483648 <= truncZ q <= 2147483647.

(* the line of an excluded grain in space: identifier, estimated centre, volume, 0, the number of faces, zeros, the neighbours *)
Definition space_rest_row (F : list Z -> list (Z * Qc)) (xs : list (list Z)) (a : Z) (fs : list Z) (ps : list (list Z)) (P N : Z) : list cell :=
  num_of a :: map (fun k => num_of (truncZ (estimated ps k))) [0%nat; 1%nat; 2%nat] ++
  [Num (amount F xs a); num_of 0; num_of (zlen fs); num_of 0; num_of 0] ++
  map (fun _ => num_of 0) (zrange 2 P) ++ map num_of fs ++ map (fun _ => Blank) (zrange (zlen fs) N).
(* in the plane: identifier, centre, volume, 0, 1, zeros, the neighbours; the centre is estimated if there are edges *)
Definition plane_rest_row (F : list Z -> list (Z * Qc)) (xs : list (list Z)) (a : Z) (fs : list Z) (ps : list (list Z)) : list cell :=
  num_of a :: map (fun k => num_of (truncZ (match fs with [] => mean F xs a k | _ => estimated ps k end))) [0%nat; 1%nat] ++
  [Num (amount F xs a); num_of 0; num_of 1; num_of 0; num_of 0; num_of 0] ++ map num_of fs.

(* in space: no face of a stored grain has a single edge, and the centre of every grain with a line has coordinates that are ints *)
Definition space_analysable ls (F : list Z -> list (Z * Qc)) G A (xs : list (list Z)) : Prop :=
  forall a fs es vs, (exists x, In x xs /\ stored F a x) -> faces_of ls G A a fs -> edges_of ls G A a es -> corners_of es vs ->
  faces_having fs es 1 = 0 /\
  ((1 <= amount F xs a)%Qc -> 2 <= zlen vs -> 3 <= zlen es -> 3 <= zlen fs -> Forall (fun k => fits (mean F xs a k)) [0%nat; 1%nat; 2%nat]) /\
  ((amount F xs a < 1)%Qc -> fs <> [] -> amount F xs a <> 0%Qc /\ Forall (fun k => fits (estimated (edge_nodes 3 G A xs a) k)) [0%nat; 1%nat; 2%nat]).
(* in the plane: the nodes can be visited, and the same of the centres *)
Definition plane_analysable ls (F : list Z -> list (Z * Qc)) G A (xs : list (list Z)) : Prop :=
  known_in_time F A xs /\
  forall a fs es vs, (exists x, In x xs /\ stored F a x) -> faces_of ls G A a fs -> edges_of ls G A a es -> plane_corners_of ls A a vs ->
  ((1 <= amount F xs a)%Qc -> 1 <= zlen vs -> 2 <= zlen es -> Forall (fun k => fits (mean F xs a k)) [0%nat; 1%nat]) /\
  ((amount F xs a < 1)%Qc \/ fs = [] ->
   amount F xs a <> 0%Qc /\ Forall (fun k => fits (match fs with [] => mean F xs a k | _ => estimated (edge_nodes 2 G A xs a) k end)) [0%nat; 1%nat]).

(* the number of the edges es around face f *)
Definition edges_around (es : list (list Z)) (f : Z) : Z := zlen (filter (fun e => existsb (Z.eqb f) e) es).
(* N is the greatest number of faces of a stored grain, P one more than the greatest number of edges around a face; 0 if there is none *)
Definition space_widths ls (F : list Z -> list (Z * Qc)) G A (xs : list (list Z)) (P N : Z) : Prop :=
  0 <= P /\ 0 <= N /\
  (forall a fs es, (exists x, In x xs /\ stored F a x) -> faces_of ls G A a fs -> edges_of ls G A a es -> zlen fs <= N /\ Forall (fun f => edges_around es f + 1 <= P) fs) /\
  (forall n, 0 <= n -> (forall a fs, (exists x, In x xs /\ stored F a x) -> faces_of ls G A a fs -> zlen fs <= n) -> N <= n) /\
  (forall p, 0 <= p -> (forall a fs es, (exists x, In x xs /\ stored F a x) -> faces_of ls G A a fs -> edges_of ls G A a es -> Forall (fun f => edges_around es f + 1 <= p) fs) -> P <= p).
