From Verif Require Import Model.Base Model.Num Model.Setup Spec.Box.

(* n nodes of the domain have property P *)
Definition population (gs : list gaxis) (P : list Z -> Prop) (n : Z) : Prop :=
  exists xs, NoDup xs /\ (forall x, In x xs <-> in_box (map gx_0 gs) (map gx_1 gs) x /\ P x) /\ zlen xs = n.

(* the list of grain sizes: one entry for each grain that has nodes, with the number of its nodes; the sizes add up to the
   number of nodes that belong to a grain.
   [belongs x k]: node x belongs to grain k *)
Definition grain_sizes (gs : list gaxis) (belongs : list Z -> Z -> Prop) (l : list (Z * Z)) : Prop :=
  NoDup (map fst l) /\
  (forall k n, In (k, n) l <-> 0 < n /\ population gs (fun x => belongs x k) n) /\
  population gs (fun x => exists k, belongs x k) (sumZ (map snd l)).

(* k is the position of the first largest element of v *)
Definition first_largest {T} (N : num T) (v : list T) (k : Z) : Prop :=
  exists a, get v k = Some a /\
    forall j b, get v j = Some b -> n_gt N b a = false /\ (j < k -> n_gt N a b = true).
(* k is the index of the first largest item of v *)
Definition dominant {T} (N : num T) (v : list (Z * T)) (k : Z) : Prop :=
  exists i, first_largest N (map snd v) i /\ get (map fst v) i = Some k.
