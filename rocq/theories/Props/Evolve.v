(* C42, C63 and the sparse case of C35: sparse multiphase fields (exact arithmetic). *)
From Coq Require Import QArith.QArith QArith.Qcanon.
From Verif Require Import Model.Base Model.Num Model.Boundary Model.Layout Model.Access Model.Sparse Model.Stencil Model.Evolve
  Spec.Box Spec.Access Spec.Stencil Spec.Evolve Proof.BaseL Proof.LayoutL Proof.AccessL Proof.StencilL Proof.StencilS Proof.EvolveL Proof.EvolveF.
Local Open Scope list_scope.

(* C35 for sparse cells: field k of laplacian(grid, x) is the sum of the second differences of field k *)
Theorem C35_sparse_formula : forall mpi axs dx data x F, length x = length axs -> length dx = length axs -> Forall (fun h => h <> 0%Qc) dx ->
  star mpi axs data x (fun y => map Some (F y)) -> (forall y, NoDup (map fst (F y))) ->
  exists l, slaplacian mpi axs dx data x = Some (map Some l) /\ NoDup (map fst l) /\ forall k, at_index l k = field_laplacian F dx x k.
Proof. exact slaplacian_eq. Qed.
Print Assumptions C35_sparse_formula.

(* What the node functions are given: a node of the grid, the fields F around it (each cell lists an index once), an empty cell to write to. *)
Definition fresh_node mpi g ls dx (former latter : list (sobj Qc)) node (F : list Z -> list (Z * Qc)) : Prop :=
  0 <= g /\ (mpi = false -> g = 0) /\ ls <> [] /\ lims_ok ls /\ 0 <= node < nodes (lay g ls) /\ zlen latter = cells (lay g ls) /\
  length dx = length ls /\ Forall (fun h => h <> 0%Qc) dx /\
  star mpi (lay g ls) former (position (lay g ls) node) (fun y => map Some (F y)) /\ (forall y, NoDup (map fst (F y))) /\
  grid_read mpi (lay g ls) latter (position (lay g ls) node) = Some [].
(* at most one field is stored at the node and its neighbours *)
Definition lone (F : list Z -> list (Z * Qc)) x := exists k, forall k', near F x k' -> k' = k.

(* C42: the new cell is a copy when there is at most one field around, and otherwise empty or on the simplex; no other cell changes. *)
Theorem C42_simplex : forall mpi g ls dx former latter node F dt epsilon w mu, fresh_node mpi g ls dx former latter node F ->
  let x := position (lay g ls) node in
  exists latter' l, evolve mpi (lay g ls) dx dt epsilon w mu former latter node = Some latter' /\
    zlen latter' = zlen latter /\ grid_read mpi (lay g ls) latter' x = Some (map Some l) /\
    (forall y, in_box (map l_x0 ls) (map l_x1 ls) y -> y <> x -> grid_read mpi (lay g ls) latter' y = grid_read mpi (lay g ls) latter y) /\
    (lone F x -> l = F x) /\ (~ lone F x -> l = [] \/ on_simplex l).
Proof. intros mpi g ls dx former latter node F dt epsilon w mu (H1 & H2 & H3 & H4 & H5 & H6 & H7 & H8 & H9 & H10 & H11). apply evolve_node; auto. Qed.
Print Assumptions C42_simplex.

(* Two steps of a one-node periodic grid with three fields, starting on the simplex: the fields then add up to 1.02.  The function never
   empties the cell it writes to, and after the swap that cell holds the values of the step before last. *)
Definition qq (a : Z) (b : positive) : Qc := Q2Qc (a # b).
Definition three : list (Z * Qc) := [(0, qq 49 100); (1, qq 49 100); (2, qq 1 50)].
Theorem C42_stale_refuted : exists ls dx dt epsilon w mu former' l,
  Forall serial_axis ls /\ on_simplex three /\
  iterate 2 (evolve_step false (lay 0 ls) dx dt epsilon w mu) ([map Some three], [[]]) = Some former' /\
  fst former' = [map Some l] /\ l <> [] /\ ~ on_simplex l.
Proof.
  set (ls := [mkLim 0 1 0 1 periodic periodic]). set (dx := [1%Qc]).
  exists ls, dx, (qq 1 10), 0%Qc, 1%Qc, 1%Qc.
  destruct (iterate 2 (evolve_step false (lay 0 ls) dx (qq 1 10) 0%Qc 1%Qc 1%Qc) ([map Some three], [[]])) as [[f l]|] eqn:E; [|vm_compute in E; discriminate].
  exists (f, l). assert (f = [map Some [(0, qq 1 2); (1, qq 1 2); (2, qq 1 50)]]) as ->.
  { vm_compute in E. inversion E. unfold qq. repeat (f_equal; try (apply Qc_is_canon; reflexivity)). }
  exists [(0, qq 1 2); (1, qq 1 2); (2, qq 1 50)]. split; [|split; [|split; [reflexivity|split; [reflexivity|split; [discriminate|]]]]].
  - constructor; [|constructor]. split; [simpl; lia|]. split; right; right; left; reflexivity.
  - split; [|split].
    + repeat constructor; simpl; intuition lia.
    + repeat constructor; simpl; try reflexivity; unfold Qcle; vm_compute; discriminate.
    + apply Qc_is_canon. reflexivity.
  - intros (_ & _ & S). apply (f_equal this) in S. vm_compute in S. discriminate.
Qed.
Print Assumptions C42_stale_refuted.

(* C63: the sparse grain-growth example.  Into an empty cell it writes the fields around whose new value exceeds the cut-off. *)
Theorem C63_growth_rule : forall mpi g ls dx former latter node F, fresh_node mpi g ls dx former latter node F ->
  let x := position (lay g ls) node in
  exists latter' l, grow mpi (lay g ls) dx former latter node = Some latter' /\
    zlen latter' = zlen latter /\ grid_read mpi (lay g ls) latter' x = Some (map Some l) /\
    (forall y, in_box (map l_x0 ls) (map l_x1 ls) y -> y <> x -> grid_read mpi (lay g ls) latter' y = grid_read mpi (lay g ls) latter y) /\
    (lone F x -> l = F x) /\
    (~ lone F x -> NoDup (map fst l) /\ forall k v, In (k, v) l <-> near F x k /\ v = grown F dx x k /\ (Q2Qc (1 # 100000000) < v)%Qc).
Proof. intros mpi g ls dx former latter node F (H1 & H2 & H3 & H4 & H5 & H6 & H7 & H8 & H9 & H10 & H11). apply grow_node; auto. Qed.
Print Assumptions C63_growth_rule.

(* In later steps the cell is not empty: a field that was removed in the first step is back after the second, with the value it had
   at the start, although it is stored nowhere in the field that the second step starts from. *)
Definition fading : list (Z * Qc) := [(0, qq 4 5); (1, qq 3 5); (2, qq 1005 100000000000)].
Theorem C63_field_returns_refuted : exists ls dx st1 st2 l1 l2,
  Forall serial_axis ls /\
  grow_step false (lay 0 ls) dx ([map Some fading], [[]]) = Some st1 /\ fst st1 = [map Some l1] /\ ~ In 2 (map fst l1) /\
  grow_step false (lay 0 ls) dx st1 = Some st2 /\ fst st2 = [map Some l2] /\ In (2, qq 1005 100000000000) l2.
Proof.
  set (ls := [mkLim 0 1 0 1 periodic periodic]). set (dx := [1%Qc]). exists ls, dx.
  destruct (grow_step false (lay 0 ls) dx ([map Some fading], [[]])) as [[f1 b1]|] eqn:E1; [|vm_compute in E1; discriminate].
  destruct (grow_step false (lay 0 ls) dx (f1, b1)) as [[f2 b2]|] eqn:E2; [|vm_compute in E1; inversion E1; subst; vm_compute in E2; discriminate].
  exists (f1, b1), (f2, b2). vm_compute in E1. inversion E1; subst f1 b1. clear E1. vm_compute in E2. inversion E2; subst f2 b2. clear E2.
  match goal with |- context [fst ([[Some ?a; Some ?b]], _)] => exists [a; b] end.
  match goal with |- context [fst ([[Some ?a; Some ?b; Some ?c]], _)] => exists [a; b; c] end.
  split; [|split; [|split; [|split; [|split; [|split]]]]]; try reflexivity.
  - constructor; [|constructor]. split; [simpl; lia|]. split; right; right; left; reflexivity.
  - simpl. lia.
  - right; right; left. reflexivity.
Qed.
Print Assumptions C63_field_returns_refuted.

(* three nodes on a periodic line; node 1 between a node with field 4 and one with fields 4 and 7 *)
Definition trio (y : list Z) : list (Z * Qc) :=
  match y with [0] => [(4, 1%Qc)] | [1] => [(4, qq 3 4); (7, qq 1 4)] | [2] => [(4, qq 1 3); (7, qq 2 3)] | _ => [] end.
Example C42_C63_case : let ls := [mkLim 0 3 0 3 periodic periodic] in
  fresh_node false 0 ls [1%Qc] (map (fun i => map Some (trio [i])) [0; 1; 2]) [[]; []; []] 1 trio /\ ~ lone trio [1] /\
  (exists l', evolve false (lay 0 ls) [1%Qc] (qq 1 10) 1%Qc 1%Qc 1%Qc (map (fun i => map Some (trio [i])) [0; 1; 2]) [[]; []; []] 1 = Some l' /\
     map (fun o => match o with [Some (i, a); Some (j, b)] => Some (i, this a, j, this b) | _ => None end) l' = [None; Some (4, (47 # 60)%Q, 7, (13 # 60)%Q); None]).
Proof.
  split; [|split].
  - split; [lia|]. split; [auto|]. split; [discriminate|]. split; [repeat constructor; simpl; lia|]. split; [vm_compute; split; congruence|].
    split; [reflexivity|]. split; [reflexivity|]. split; [repeat constructor; discriminate|]. split; [|split; [|reflexivity]].
    + split; [reflexivity|]. intros i Hi. change (zlen (lay 0 [mkLim 0 3 0 3 periodic periodic])) with 1 in Hi. assert (i = 0) as -> by lia. split; reflexivity.
    + intros y. destruct y as [|[|[p|p|]|p] [|z y]]; simpl; try constructor. all: try (destruct p; simpl; repeat constructor; simpl; intuition lia). all: repeat constructor; simpl; intuition lia.
  - intros [k H]. assert (4 = k) as E1 by (apply H; left; simpl; auto). assert (7 = k) as E2 by (apply H; left; simpl; auto). lia.
  - eexists. split; [vm_compute; reflexivity|]. vm_compute. reflexivity.
Qed.
