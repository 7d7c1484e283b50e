(* C13, C14: copying and swapping whole grids. *)
From Verif Require Import Model.Base Model.Codec Model.Gridobj Spec.Bytes Spec.Gridobj
  Proof.BaseL Proof.SparseL Proof.CodecL Proof.GridobjL.

(* C13, plain and scalar cells: A.copy(B) makes A equal to B in every member and cell; no other grid changes.
   junk: the arbitrary content of a newly allocated buffer. *)
Theorem C13_copy_plain : forall T D (p : pod T) valid fresh junk (st : list (gobj T D)) a b A B cs,
  pod_ok p valid -> (forall l, length (junk l) = length l) ->
  a <> b -> get st a = Some A -> get st b = Some B -> allocated B cs -> Forall valid cs ->
  exists st', gcopy (pod_codec p) fresh junk st a b = Some st' /\ get st' a = Some B /\
    forall g, g <> a -> get st' g = get st g.
Proof.
  intros T D p valid fresh junk st a b A B cs P J H Ha Hb HB V.
  destruct (copy_spec (pod_codec p) fresh valid junk st a b A B cs (pod_serialises p valid P) J H Ha Hb HB V) as (st' & E & G & _ & O);
    [reflexivity|]. exists st'. auto.
Qed.
Print Assumptions C13_copy_plain.

(* C13, vector cells with one element per field.  fresh n is any vector of n elements. *)
Theorem C13_copy_vectors : forall T D (p : pod T) valid fresh junk (st : list (gobj (list T) D)) a b A B cs,
  pod_ok p valid -> (forall l, length (junk l) = length l) -> (forall n, 0 <= n -> zlen (fresh n) = n) ->
  a <> b -> get st a = Some A -> get st b = Some B -> allocated B cs ->
  int_range (go_fields B) -> Forall (fun v => zlen v = go_fields B /\ Forall valid v) cs ->
  exists st', gcopy (vector_codec p) fresh junk st a b = Some st' /\ get st' a = Some B /\
    forall g, g <> a -> get st' g = get st g.
Proof.
  intros T D p valid fresh junk st a b A B cs P J F H Ha Hb HB I V.
  destruct (copy_spec (vector_codec p) fresh _ junk st a b A B cs (vector_serialises p valid P) J H Ha Hb HB) as (st' & E & G & _ & O).
  - eapply Forall_impl; [|exact V]. intros v [L W]. simpl. rewrite L. auto.
  - intros v Hv. rewrite Forall_forall in V. destruct (V v Hv) as [L _]. simpl. rewrite L, F; [reflexivity|].
    rewrite <- L. apply zlen_nonneg.
  - exists st'. auto.
Qed.
Print Assumptions C13_copy_vectors.

(* C56 is false: with sparse cells the buffer is sized for an empty cell, so copying a non-empty first cell
   overflows it, whatever the sizes and contents. *)
Theorem C56_copy_sparse_refuted : forall T D pad (p : pod T) junk (st : list (gobj (list (Z * T)) D)) a b A B it v cs,
  0 < pd_size p -> pd_size p = zlen (pd_enc p (snd it)) -> (forall l, length (junk l) = length l) ->
  a <> b -> get st a = Some A -> get st b = Some B -> allocated B ((it :: v) :: cs) ->
  gcopy (sparse_codec pad p) (fun _ => []) junk st a b = None.
Proof.
  intros T D pad p junk st a b A B it v cs Hp Hs J H Ha Hb HB.
  eapply copy_overflow; eauto. unfold sparse_codec, vector_codec. cbn [c_to c_size].
  set (buf := junk _). assert (zlen buf = 4) as L by (unfold buf, zlen; rewrite J, repeat_length; reflexivity).
  assert (blit buf 0 (pd_enc pod_int (zlen (it :: v))) = Some (pd_enc pod_int (zlen (it :: v)))) as ->.
  { unfold blit. rewrite zlen_int_enc, L. simpl (_ && _).
    change (Z.to_nat (0 + 4)) with 4%nat. change (Z.to_nat 0) with 0%nat. rewrite skipn_all2 by (unfold zlen in L; lia). rewrite ?app_nil_r. reflexivity. }
  cbn [bind]. unfold blit. set (e := arr_enc _ _).
  assert (0 < zlen e) as Le.
  { unfold e, arr_enc. cbn [flat_map]. unfold item_pod at 1. cbn [pd_enc]. unfold zlen. rewrite !app_length. unfold zlen in Hs. lia. }
  rewrite zlen_int_enc.
  destruct (Z.leb_spec (0 + 4 + zlen e) 4); [lia|]. rewrite andb_false_r. reflexivity.
Qed.
Print Assumptions C56_copy_sparse_refuted.

(* C57 is false: copy(G1, G2) copies G1 into G2, unlike copy(x, y) of every other type, which sets x from y. *)
Theorem C57_free_copy_refuted : forall T D (p : pod T) valid fresh junk (st : list (gobj T D)) g1 g2 G1 G2 cs,
  pod_ok p valid -> (forall l, length (junk l) = length l) ->
  g1 <> g2 -> get st g1 = Some G1 -> get st g2 = Some G2 -> allocated G1 cs -> Forall valid cs -> G1 <> G2 ->
  exists st', free_copy (pod_codec p) fresh junk st g1 g2 = Some st' /\ get st' g1 = Some G1 /\ get st' g1 <> get st g2 /\
    get st' g2 = Some G1.
Proof.
  intros T D p valid fresh junk st g1 g2 G1 G2 cs P J H H1 H2 HB V N. unfold free_copy.
  destruct (C13_copy_plain T D p valid fresh junk st g2 g1 G2 G1 cs) as (st' & E & G & O); auto.
  exists st'. split; [exact E|]. rewrite O by auto. rewrite H1, H2. split; [reflexivity|]. split; [congruence|exact G].
Qed.
Print Assumptions C57_free_copy_refuted.

(* C14: swap(A, B), possibly A = B *)
Theorem C14_swap : forall T D (st : list (gobj T D)) a b A B,
  get st a = Some A -> get st b = Some B -> length (go_ax A) = length (go_ax B) ->
  exists st', gswap st a b = Some st' /\ get st' a = Some B /\ get st' b = Some A /\
    forall g, g <> a -> g <> b -> get st' g = get st g.
Proof. intros T D st a b A B Ha Hb L. destruct (swap_spec st a b A B Ha Hb L) as (st' & E & G1 & G2 & _ & O). exists st'. auto. Qed.
Print Assumptions C14_swap.

(* C14: two swaps are the identity *)
Theorem C14_twice : forall T D (st st1 st2 : list (gobj T D)) a b A B,
  get st a = Some A -> get st b = Some B -> length (go_ax A) = length (go_ax B) ->
  gswap st a b = Some st1 -> gswap st1 a b = Some st2 -> forall g, get st2 g = get st g.
Proof.
  intros T D st st1 st2 a b A B Ha Hb L E1 E2 g.
  destruct (swap_spec st a b A B Ha Hb L) as (s1 & F1 & G1 & G2 & _ & O). rewrite E1 in F1. inversion F1; subst s1.
  destruct (swap_spec st1 a b B A G1 G2 (eq_sym L)) as (s2 & F2 & H1 & H2 & _ & O2). rewrite E2 in F2. inversion F2; subst s2.
  destruct (Z.eq_dec g a) as [->|]; [congruence|]. destruct (Z.eq_dec g b) as [->|]; [congruence|]. rewrite O2, O; auto.
Qed.
Print Assumptions C14_twice.

(* a grid of three int cells, and one of two *)
Definition ex_axis (n sp : Z) : gax Z := mkGax 0 n 0 n 1 0 n 1 2 2 sp 0 1 1 0 0.
Example C13_case :
  let A := mkObj (Some [1; 2]) 2 2 1 0 [ex_axis 2 7] in
  let B := mkObj (Some [3; 4; -5]) 3 3 1 0 [ex_axis 3 8] in
  gcopy (pod_codec pod_int) (fun _ => 0) (fun l => l) [A; B] 0 1 = Some [B; B] /\
  gswap [A; B] 0 1 = Some [B; A] /\ allocated B [3; 4; -5].
Proof. repeat split. Qed.
Example C56_case :
  let A := mkObj (Some [[]]) 1 1 1 0 [ex_axis 1 7] in
  let B := mkObj (Some [[(3, 4)]]) 1 1 1 0 [ex_axis 1 8] in
  gcopy (sparse_codec [] pod_int) (fun _ => []) (fun l => l) [A; B] 0 1 = None.
Proof. reflexivity. Qed.
