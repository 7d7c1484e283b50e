(* C26-C29: the sparse vector type. *)
From Verif Require Import Model.Base Model.Num Model.Sparse Spec.Sparse Proof.SparseL Proof.SparseF.
From Coq Require Import ZifyBool.

(* the laws hold of the integers *)
Lemma Z_laws : num_laws num_Z.
Proof. split; simpl; intros; try lia. Qed.

(* C26.  st is any store reached by a program on n initially empty variables. *)
Theorem C26_finite_map : forall T (N : num T) n ops st, sprogram N n ops = Some st ->
  Forall (fun o => exists m, holds o m) st.
Proof. exact @reachable_wf. Qed.
Print Assumptions C26_finite_map.

Theorem C26_read : forall T (N : num T) o m k, holds o m -> sread N o k = Some (val N m k).
Proof. exact @read_val. Qed.
Print Assumptions C26_read.

Theorem C26_set_then_read : forall T (N : num T) n ops st x k v, sprogram N n ops = Some st -> 0 <= x < zlen st ->
  exists st' o o', sexec N st (SSet x k v) = Some st' /\ get st x = Some o /\ get st' x = Some o' /\
    sread N o' k = Some v /\ (forall k', k' <> k -> sread N o' k' = sread N o k') /\
    (forall y, y <> x -> get st' y = get st y).
Proof. intros T N n ops st x k v E R. apply set_read; [eapply reachable_wf; eauto|exact R]. Qed.
Print Assumptions C26_set_then_read.

(* assignment, copy and swap between different variables *)
Theorem C26_assign : forall T (st : sstore T) x y ox oy mx my, x <> y ->
  get st x = Some ox -> get st y = Some oy -> holds ox mx -> holds oy my ->
  (exists st', sassign st x y = Some st' /\ get st' x = Some oy /\ forall z, z <> x -> get st' z = get st z) /\
  (exists st', scopy st x y = Some st' /\ get st' x = Some oy /\ forall z, z <> x -> get st' z = get st z).
Proof.
  intros T st x y ox oy mx my Hn Gx Gy (lx & -> & _) (ly & -> & _). split.
  - destruct (sassign_distinct st x y lx ly Hn Gx Gy) as (st' & H1 & H2 & _ & H3). eauto.
  - destruct (scopy_distinct st x y lx ly Hn Gx Gy) as (st' & H1 & H2 & _ & H3). eauto.
Qed.
Print Assumptions C26_assign.

(* x = x and x.copy(x) are not harmless: they read uninitialised memory, whatever the (non-empty) contents *)
Theorem C53_sparse_self_assignment_refuted : forall T (st : sstore T) x o m k v,
  get st x = Some o -> holds o m -> m k = Some v ->
  sassign st x x = None /\ scopy st x x = None.
Proof.
  intros T st x o m k v G (l & -> & _ & H) E. apply H in E. destruct l as [|it l]; [destruct E|].
  split; [eapply sassign_self|eapply scopy_self]; exact G.
Qed.
Print Assumptions C53_sparse_self_assignment_refuted.

Example C26_case :
  sprogram num_Z 2 [SSet 0 7 3; SSet 0 (-2) 5; SSet 1 7 10; SAddTo 0 1; SScale 1 (Outside 2); SMax 1 0 1; SSwap 0 1] =
  Some [[Some (7, 20); Some (-2, 5)]; [Some (7, 13); Some (-2, 5)]].
Proof. reflexivity. Qed.

(* C27 *)
Theorem C27_plus : forall T (N : num T), num_laws N -> forall x y mx my, holds x mx -> holds y my ->
  exists z mz, splus N x y = Some z /\ holds z mz /\ (forall k, val N mz k = n_add N (val N mx k) (val N my k)) /\
    forall k, mz k <> None <-> mx k <> None \/ my k <> None.
Proof. exact @plus_pointwise. Qed.
Print Assumptions C27_plus.
Theorem C27_minus : forall T (N : num T), num_laws N -> forall x y mx my, holds x mx -> holds y my ->
  exists z mz, sminus N x y = Some z /\ holds z mz /\ (forall k, val N mz k = n_sub N (val N mx k) (val N my k)) /\
    forall k, mz k <> None <-> mx k <> None \/ my k <> None.
Proof. exact @minus_pointwise. Qed.
Print Assumptions C27_minus.
Theorem C27_times : forall T (N : num T), num_laws N -> forall c x mx, holds x mx ->
  exists z mz, stimes N c x = Some z /\ holds z mz /\ (forall k, val N mz k = n_mul N c (val N mx k)) /\
    forall k, mz k <> None <-> mx k <> None.
Proof. exact @times_pointwise. Qed.
Print Assumptions C27_times.
Theorem C27_max : forall T (N : num T), num_laws N -> forall x y mx my, holds x mx -> holds y my ->
  exists z mz, smax N x y = Some z /\ holds z mz /\ (forall k, val N mz k = n_max N (val N mx k) (val N my k)) /\
    forall k, mz k <> None <-> mx k <> None \/ my k <> None.
Proof. exact @max_pointwise. Qed.
Print Assumptions C27_max.
Theorem C27_min : forall T (N : num T), num_laws N -> forall x y mx my, holds x mx -> holds y my ->
  exists z mz, smin N x y = Some z /\ holds z mz /\ (forall k, val N mz k = n_min N (val N mx k) (val N my k)) /\
    forall k, mz k <> None <-> mx k <> None \/ my k <> None.
Proof. exact @min_pointwise. Qed.
Print Assumptions C27_min.
(* x += y and x -= y; x and y may be the same variable *)
Theorem C27_add_to : forall T (N : num T), num_laws N -> forall st x y ox oy mx my,
  get st x = Some ox -> get st y = Some oy -> holds ox mx -> holds oy my ->
  exists st' oz mz, sexec N st (SAddTo x y) = Some st' /\ get st' x = Some oz /\ holds oz mz /\
    (forall k, val N mz k = n_add N (val N mx k) (val N my k)) /\
    (forall z, z <> x -> get st' z = get st z).
Proof. intros T N L st x y ox oy mx my. apply (accum_pointwise N (n_add N)). apply (add_0_r N L). Qed.
Print Assumptions C27_add_to.
Theorem C27_sub_to : forall T (N : num T), num_laws N -> forall st x y ox oy mx my,
  get st x = Some ox -> get st y = Some oy -> holds ox mx -> holds oy my ->
  exists st' oz mz, sexec N st (SSubTo x y) = Some st' /\ get st' x = Some oz /\ holds oz mz /\
    (forall k, val N mz k = n_sub N (val N mx k) (val N my k)) /\
    (forall z, z <> x -> get st' z = get st z).
Proof. intros T N L st x y ox oy mx my. apply (accum_pointwise N (n_sub N)). apply (sub_0_r N L). Qed.
Print Assumptions C27_sub_to.
(* x *= c, c not a reference into x *)
Theorem C27_scale : forall T (N : num T), num_laws N -> forall o m c, holds o m ->
  exists o' m', sscale N o (Outside c) = Some o' /\ holds o' m' /\ forall k, val N m' k = n_mul N (val N m k) c.
Proof. exact @scale_pointwise. Qed.
Print Assumptions C27_scale.

(* ... and when it is (x *= x.set(k)), the result is not the pointwise product *)
Theorem C55_sparse_scale_aliased_refuted : exists (o o' : sobj Z) m m' p c k,
  holds o m /\ svalue o p = Some c /\ sscale num_Z o (Inside p) = Some o' /\ holds o' m' /\
  val num_Z m' k <> val num_Z m k * c.
Proof.
  exists [Some (0, 2); Some (1, 3)], [Some (0, 4); Some (1, 12)], (lookup [(0, 2); (1, 3)]), (lookup [(0, 4); (1, 12)]), 0, 2, 1.
  split; [apply (holds_intro [(0, 2); (1, 3)]); repeat constructor; simpl; intuition lia|].
  split; [reflexivity|]. split; [reflexivity|].
  split; [apply (holds_intro [(0, 4); (1, 12)]); repeat constructor; simpl; intuition lia|]. discriminate.
Qed.
Print Assumptions C55_sparse_scale_aliased_refuted.

Example C27_case : holds [Some (7, 3); Some (2, -1)] (lookup [(7, 3); (2, -1)]) /\
  splus num_Z [Some (7, 3); Some (2, -1)] [Some (2, 5); Some (0, 1)] = Some [Some (7, 3); Some (2, 4); Some (0, 1)] /\
  smax num_Z [Some (7, 3); Some (2, -1)] [Some (2, -5); Some (0, -4)] = Some [Some (7, 3); Some (2, -1); Some (0, 0)].
Proof. split; [apply (holds_intro [(7, 3); (2, -1)]); repeat constructor; simpl; intuition lia|]. split; reflexivity. Qed.

(* C28 *)
Theorem C28_equality : forall T (N : num T), num_laws N -> forall a b ma mb, holds a ma -> holds b mb ->
  exists r, seqb N a b = Some r /\ (r = true <-> forall k, ma k = mb k).
Proof. exact @eq_same. Qed.
Print Assumptions C28_equality.
Example C28_case : seqb num_Z [Some (7, 3); Some (2, -1)] [Some (2, -1); Some (7, 3)] = Some true /\
  seqb num_Z [Some (7, 3); Some (2, -1)] [Some (2, -1); Some (7, 4)] = Some false.
Proof. split; reflexivity. Qed.

(* C29.  l are the stored items in order; grain identifiers are non-negative ints. *)
Theorem C29_grain_id : forall T (N : num T), num_laws N -> forall l,
  (forall k v, In (k, v) l -> 0 <= k < 2 ^ 31) ->
  (exists k v, In (k, v) l /\ n_gt N v (n_minus1 N) = true) ->
  exists l1 k v l2, l = l1 ++ (k, v) :: l2 /\ grain_id N (map Some l) = Some k /\
    (forall k' v', In (k', v') l1 -> n_gt N v v' = true) /\ (forall k' v', In (k', v') l2 -> n_gt N v' v = false).
Proof. exact @grain_id_spec. Qed.
Print Assumptions C29_grain_id.
Example C29_case : grain_id num_Z [Some (4, 2); Some (9, 6); Some (1, 6); Some (3, 0)] = Some 9.
Proof. reflexivity. Qed.
