(* C32: the global reduction. *)
From Coq Require Import String.
From Verif Require Import Model.Base Model.Num Model.Vector Model.Codec Model.MPI Model.Ghostswap Model.Global
  Spec.Bytes Spec.Schedule Spec.Sparse Spec.Vector Spec.Reduce
  Proof.BaseL Proof.CodecL Proof.SparseL Proof.VectorL Proof.VectorF Proof.MPIL Proof.GlobalL Proof.ExecL.
Local Open Scope string_scope.
Local Open Scope Z_scope.

(* np ranks, rank r calling global(v r, op) *)
Definition all_global {T} c (O : reduce_ops T) op np (v : Z -> T) : state T :=
  (ranks np (fun r => global c O op np r (v r) Ret), no_chans).
(* under every schedule every rank returns g, and no message is left over *)
Definition all_return {T} np (s : state T) (g : T) : Prop :=
  exists f, finished np (fun _ => g) f /\ inevitable s f.

(* C32, plain values of at most int_max bytes: sums.  In exact arithmetic this is the sum whatever the order;
   for floating point it is the sum in rank order. *)
Theorem C32_sum : forall T (N : num T) (p : pod T) valid op np v,
  op = "add" \/ op = "sum" -> 0 < np -> pod_ok p valid -> pd_size p <= int_max ->
  (forall r, 0 <= r < np -> valid (v r)) -> valid (combined (n_add N) np v) ->
  all_return np (all_global (pod_codec p) (plain_ops N) op np v) (combined (n_add N) np v).
Proof.
  intros T N p valid op np v Ho Hnp P S V Vg.
  apply (global_inevitable (pod_codec p) valid); auto; [now apply pod_serialises|].
  unfold combined. rewrite <- fold_total. apply fold_opt_ext. destruct Ho as [->| ->]; reflexivity.
Qed.
Print Assumptions C32_sum.
Theorem C32_integer_sum : forall np (v : Z -> Z), 0 < np -> combined Z.add np v = sumZ (map v (zrange 0 np)).
Proof. exact combined_sum. Qed.
Print Assumptions C32_integer_sum.

(* C32: minimum and maximum *)
Theorem C32_min : forall T (N : num T) (L : num_laws N) (p : pod T) valid op np v,
  op = "min" \/ op = "minimum" -> 0 < np -> pod_ok p valid -> pd_size p <= int_max ->
  (forall r, 0 <= r < np -> valid (v r)) ->
  exists m, least N np v m /\ all_return np (all_global (pod_codec p) (plain_ops N) op np v) m.
Proof.
  intros T N L p valid op np v Ho Hnp P S V. exists (combined (n_min N) np v).
  pose proof (combined_min N L np v Hnp) as M. split; [exact M|].
  apply (global_inevitable (pod_codec p) valid); auto; [now apply pod_serialises| |].
  - destruct M as [(r & Hr & ->) _]. now apply V.
  - unfold combined. rewrite <- fold_total. apply fold_opt_ext. destruct Ho as [->| ->]; reflexivity.
Qed.
Print Assumptions C32_min.
Theorem C32_max : forall T (N : num T) (L : num_laws N) (p : pod T) valid op np v,
  op = "max" \/ op = "maximum" -> 0 < np -> pod_ok p valid -> pd_size p <= int_max ->
  (forall r, 0 <= r < np -> valid (v r)) ->
  exists m, greatest N np v m /\ all_return np (all_global (pod_codec p) (plain_ops N) op np v) m.
Proof.
  intros T N L p valid op np v Ho Hnp P S V. exists (combined (n_max N) np v).
  pose proof (combined_max N L np v Hnp) as M. split; [exact M|].
  apply (global_inevitable (pod_codec p) valid); auto; [now apply pod_serialises| |].
  - destruct M as [(r & Hr & ->) _]. now apply V.
  - unfold combined. rewrite <- fold_total. apply fold_opt_ext. destruct Ho as [->| ->]; reflexivity.
Qed.
Print Assumptions C32_max.

(* C32: sums of vectors of one length n, component by component *)
Theorem C32_vector_sum : forall T (N : num T) (p : pod T) valid op np n (v : Z -> list T),
  op = "add" \/ op = "sum" -> 0 < np -> pod_ok p valid -> 4 + Z.of_nat n * pd_size p <= int_max -> int_range (Z.of_nat n) ->
  (forall r, 0 <= r < np -> length (v r) = n /\ Forall valid (v r)) ->
  (forall a b, valid a -> valid b -> valid (n_add N a b)) ->
  exists g, length g = n /\
    (forall i, (i < n)%nat -> nth_error g i = Some (combined (n_add N) np (fun r => nth i (v r) (n_zero N)))) /\
    all_return np (all_global (vector_codec p) (vector_ops N) op np v) g.
Proof.
  intros T N p valid op np n v Ho Hnp P S I V Cl.
  assert (forall l a, length a = n -> Forall valid a -> Forall (fun x => length x = n /\ Forall valid x) l ->
    exists g, fold_opt (reduce (vector_ops N) op) l a = Some g /\ length g = n /\ Forall valid g /\
      forall i, (i < n)%nat -> nth_error g i = Some (fold_left (n_add N) (map (fun x => nth i x (n_zero N)) l) (nth i a (n_zero N)))) as X.
  { induction l as [|x l IH]; intros a La Va Vl; simpl.
    - exists a. repeat split; auto. intros i Hi. apply nth_error_nth'. lia.
    - inversion Vl as [|? ? [Lx Vx] Vl']; subst.
      assert (reduce (vector_ops N) op a x = Some (map2 (n_add N) a x)) as ->.
      { assert (reduce (vector_ops N) op a x = o_add (vector_ops N) a x) as -> by (destruct Ho as [->| ->]; reflexivity).
        simpl. rewrite binary_spec by lia. cbn [bind]. apply map_opt_some. }
      cbn [bind]. destruct (IH (map2 (n_add N) a x)) as (g & E & Lg & Vg & Hg).
      + rewrite length_map2; lia.
      + apply Forall_forall. intros y Hy. apply In_nth_error in Hy as [i Hi].
        destruct (nth_map2 _ _ _ _ _ Hi) as (u & w & Hu & Hw & ->). rewrite Forall_forall in Va, Vx.
        apply Cl; [apply Va|apply Vx]; eapply nth_error_In; eauto.
      + exact Vl'.
      + exists g. repeat split; auto. intros i Hi. rewrite (Hg i Hi). f_equal. f_equal.
        apply nth_error_nth. apply (proj2 (map2_pointwise (n_add N) a x ltac:(lia))); apply nth_error_nth'; lia. }
  destruct (X (map v (zrange 1 np)) (v 0)) as (g & E & Lg & Vg & Hg).
  - apply V; lia.
  - apply V; lia.
  - apply Forall_forall. intros x Hx. apply in_map_iff in Hx as (r & <- & Hr). apply in_zrange in Hr. apply V. lia.
  - exists g. split; [exact Lg|]. split.
    + intros i Hi. rewrite (Hg i Hi). unfold combined. rewrite map_map. reflexivity.
    + apply (global_inevitable (vector_codec p) (fun v => Forall valid v /\ int_range (zlen v))); auto.
      * now apply vector_serialises.
      * intros r Hr. destruct (V r Hr) as [L W]. split; [exact W|]. unfold zlen. now rewrite L.
      * intros r Hr. destruct (V r Hr) as [L W]. simpl. unfold zlen. now rewrite L.
      * split; [exact Vg|]. unfold zlen. now rewrite Lg.
      * simpl. unfold zlen. now rewrite Lg.
Qed.
Print Assumptions C32_vector_sum.

(* an unknown operation gives every rank the value of rank 0 *)
Theorem C32_unknown_operation : forall T (O : reduce_ops T) (p : pod T) valid op np v,
  ~ In op ["add"; "sum"; "min"; "minimum"; "max"; "maximum"] -> 0 < np -> pod_ok p valid -> pd_size p <= int_max ->
  (forall r, 0 <= r < np -> valid (v r)) ->
  all_return np (all_global (pod_codec p) O op np v) (v 0).
Proof.
  intros T O p valid op np v Ho Hnp P S V.
  apply (global_inevitable (pod_codec p) valid); auto; [now apply pod_serialises|apply V; lia|].
  assert (forall g x, reduce O op g x = Some g) as R.
  { intros g x. unfold reduce.
    destruct (String.eqb_spec op "add"); [exfalso; apply Ho; simpl; auto|].
    destruct (String.eqb_spec op "sum"); [exfalso; apply Ho; simpl; auto|].
    destruct (String.eqb_spec op "min"); [exfalso; apply Ho; simpl; auto|].
    destruct (String.eqb_spec op "minimum"); [exfalso; apply Ho; simpl; auto 7|].
    destruct (String.eqb_spec op "max"); [exfalso; apply Ho; simpl; auto 7|].
    destruct (String.eqb_spec op "maximum"); [exfalso; apply Ho; simpl; auto 8|]. reflexivity. }
  generalize (map v (zrange 1 np)). intros l. induction l; simpl; [reflexivity|]. rewrite R. exact IHl.
Qed.
Print Assumptions C32_unknown_operation.

(* three ranks with values 5, -2, 9 *)
Example C32_case :
  let v r := nth (Z.to_nat r) [5; -2; 9] 0 in
  all_return 3 (all_global (pod_codec pod_int) (plain_ops num_Z) "sum" 3 v) 12 /\
  exists m, least num_Z 3 v m /\ m = -2.
Proof.
  split.
  - apply (C32_sum Z num_Z pod_int int_range "sum" 3 (fun r => nth (Z.to_nat r) [5; -2; 9] 0)); auto; try (unfold int_max; lia).
    + apply pod_int_ok.
    + simpl; unfold int_max; lia.
    + intros r Hr. assert (r = 0 \/ r = 1 \/ r = 2) as [->|[->| ->]] by lia; unfold int_range; simpl; lia.
    + unfold int_range. vm_compute. split; congruence.
  - exists (-2). split; [|reflexivity]. split; [exists 1; split; [lia|reflexivity]|].
    intros r Hr. assert (r = 0 \/ r = 1 \/ r = 2) as [->|[->| ->]] by lia; reflexivity.
Qed.
