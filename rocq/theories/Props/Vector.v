From Verif Require Import Model.Base Model.Num Model.Vector Spec.Sparse Spec.Vector Proof.BaseL Proof.SparseL Proof.VectorL Proof.VectorF.

Section Props.
Context {T : Type}.

(* C30.  resize(n) of any vector, whatever its elements: n elements, and the elements both lengths have are kept;
   it never leaves the old or the new array. *)
Theorem C30_resize (o : vobj T) n : 0 <= n ->
  exists o', vresize o n = Some o' /\ zlen o' = n /\ forall i, 0 <= i < zlen o -> i < n -> get o' i = get o i.
Proof.
  intros Hn. eexists. split; [exact (resize_spec o n Hn)|]. split.
  - unfold zlen. rewrite app_length, firstn_length, repeat_length. unfold zlen. lia.
  - intros i H1 H2. unfold get. destruct (Z.ltb_spec i 0); [lia|]. unfold zlen in *.
    rewrite nth_error_app1 by (rewrite firstn_length; lia). rewrite <- (firstn_skipn (Z.to_nat n) o) at 2.
    rewrite nth_error_app1 by (rewrite firstn_length; lia). reflexivity.
Qed.

(* C30.  vector(n, value) and x = value *)
Theorem C30_fill n (v : T) : 0 <= n -> vfill n v = Some (elements (repeat v (Z.to_nat n))).
Proof. intros H. unfold elements. rewrite map_repeat. exact (fill_spec n v H). Qed.
Theorem C30_set_all (o : vobj T) v : vset_all o v = Some (elements (repeat v (length o))).
Proof. unfold elements. rewrite map_repeat. exact (set_all_spec o v). Qed.

(* C30.  x = y and x.copy(y) for different objects: x has y's contents, every other object (y too) is unchanged *)
Theorem C30_assign (st : vstore T) x y ox oy : x <> y -> get st x = Some ox -> get st y = Some oy ->
  exists st', vassign st x y = Some st' /\ get st' x = Some oy /\ forall z, z <> x -> get st' z = get st z.
Proof. intros H Hx Hy. destruct (assign_spec st x y ox oy H Hx Hy) as (st' & E & G & _ & O). exists st'. auto. Qed.
Theorem C30_copy (st : vstore T) x y ox oy : x <> y -> get st x = Some ox -> get st y = Some oy ->
  exists st', vcopy st x y = Some st' /\ get st' x = Some oy /\ forall z, z <> x -> get st' z = get st z.
Proof. intros H Hx Hy. destruct (copy_spec st x y ox oy H Hx Hy) as (st' & E & G & _ & O). exists st'. auto. Qed.

(* C30.  x.swap(y), the two possibly one object *)
Theorem C30_swap (st : vstore T) x y ox oy : get st x = Some ox -> get st y = Some oy ->
  exists st', vswap st x y = Some st' /\ get st' x = Some oy /\ get st' y = Some ox /\
    forall z, z <> x -> z <> y -> get st' z = get st z.
Proof. exact (swap_spec st x y ox oy). Qed.

(* C30.  x == y exactly when they have the same elements *)
Theorem C30_equality (N : num T) (L : num_laws N) x y :
  exists r, veq N (elements x) (elements y) = Some r /\ (r = true <-> x = y).
Proof. exact (veq_spec N L x y). Qed.

(* C54 is false: append reads past the array it saved the old elements in, whatever the vector. *)
Theorem C54_append_refuted (o : vobj T) v : vappend o v = None.
Proof. exact (append_undefined o v). Qed.
Theorem C54_append_vector_refuted (o v : vobj T) : v <> [] -> vappend_all o v = None.
Proof. exact (append_all_undefined o v). Qed.

(* C53 is false: x = x leaves every element of x uninitialised. *)
Theorem C53_vector_self_assignment_refuted (st : vstore T) x ox : get st x = Some ox ->
  exists st', vassign st x x = Some st' /\ get st' x = Some (repeat None (length ox)).
Proof. exact (assign_self st x ox). Qed.

(* C31.  x + y, x - y, max, min: a new vector, element by element *)
Theorem C31_pointwise (f : T -> T -> T) x y : length x = length y ->
  exists z, vbinary f (elements x) (elements y) = Some (elements z) /\ pointwise f x y z.
Proof. exact (binary_pointwise f x y). Qed.
(* C31.  x += y, x -= y, also with x and y one object *)
Theorem C31_in_place (f : T -> T -> T) (st : vstore T) x y lx ly :
  get st x = Some (elements lx) -> get st y = Some (elements ly) -> length lx = length ly ->
  exists st' lz, vaccum f st x y = Some st' /\ get st' x = Some (elements lz) /\ pointwise f lx ly lz /\
    forall z, z <> x -> get st' z = get st z.
Proof. exact (accum_pointwise f st x y lx ly). Qed.
(* C31.  c * x (x * c is defined as c * x) *)
Theorem C31_scalar (N : num T) c x :
  exists z, vtimes N c (elements x) = Some (elements z) /\ length z = length x /\
    forall i a, nth_error x i = Some a -> nth_error z i = Some (n_mul N c a).
Proof. exists (map (n_mul N c) x). split; [exact (times_spec N c x)|exact (map_pointwise _ x)]. Qed.
(* C31.  x *= c, with c a variable outside x *)
Theorem C31_scale (N : num T) x c :
  exists z, vscale N (elements x) (VOutside c) = Some (elements z) /\ length z = length x /\
    forall i a, nth_error x i = Some a -> nth_error z i = Some (n_mul N a c).
Proof. exists (map (fun a => n_mul N a c) x). split; [exact (scale_spec N x c)|exact (map_pointwise _ x)]. Qed.

(* C31.  x * y is the sum of the products over the common length; in exact arithmetic it is symmetric and linear. *)
Theorem C31_dot (N : num T) x y : vdot N (elements x) (elements y) = Some (sum_products N (n_zero N) x y).
Proof. exact (dot_sum N x y). Qed.
Theorem C31_dot_symmetric (N : num T) (R : ring_laws N) x y : vdot N (elements x) (elements y) = vdot N (elements y) (elements x).
Proof. rewrite !dot_sum. f_equal. exact (sp_sym N R x y _). Qed.
Theorem C31_dot_additive (N : num T) (R : ring_laws N) x x' y z : length x = length x' ->
  vbinary (n_add N) (elements x) (elements x') = Some (elements z) ->
  exists a b, vdot N (elements x) (elements y) = Some a /\ vdot N (elements x') (elements y) = Some b /\
    vdot N (elements z) (elements y) = Some (n_add N a b).
Proof.
  intros L E. rewrite !dot_sum. do 2 eexists. split; [reflexivity|]. split; [reflexivity|]. f_equal.
  apply sp_add; auto. destruct (binary_pointwise (n_add N) x x' L) as (z' & E' & P). rewrite E in E'. inversion E' as [M].
  assert (z = z') as -> by (clear - M; revert z' M; induction z; intros [|]; simpl; try discriminate; auto; intros M; inversion M; f_equal; auto). exact P.
Qed.
Theorem C31_dot_homogeneous (N : num T) (R : ring_laws N) c x y z :
  vtimes N c (elements x) = Some (elements z) ->
  exists a, vdot N (elements x) (elements y) = Some a /\ vdot N (elements z) (elements y) = Some (n_mul N c a).
Proof.
  intros E. rewrite !dot_sum. eexists. split; [reflexivity|]. f_equal.
  unfold elements in E. rewrite times_spec in E. inversion E as [M].
  assert (map (n_mul N c) x = z) as <-.
  { clear - M. revert z M. generalize (map (n_mul N c) x). intros l; induction l; intros [|]; simpl; try discriminate; auto; intros M; inversion M; f_equal; auto. }
  destruct (map_pointwise (n_mul N c) x) as [L P]. now apply sp_scale.
Qed.
End Props.

Lemma Z_ring : ring_laws num_Z.
Proof. constructor; simpl; intros; ring. Qed.

(* C55 is false of vectors: a factor that is an element of the vector changes while it is used. *)
Theorem C55_vector_scale_aliased_refuted : exists x c z, nth_error x 0 = Some c /\
  vscale num_Z (elements x) (VInside 0) = Some (elements z) /\ z <> map (fun a => a * c) x.
Proof. exists [2; 3], 2, [4; 12]. repeat split; discriminate. Qed.
(* C31 needs equal lengths: x + y stops on the assertion in operator[] when y is shorter. *)
Theorem C31_shorter_operand_refuted : forall (x y : list Z), (length y < length x)%nat -> vbinary Z.add (elements x) (elements y) = None.
Proof.
  intros x y H. unfold vbinary. rewrite vnew_ok by (unfold zlen; lia). cbn [bind].
  assert (forall (l : list Z) d, In (zlen y) l -> (forall i, In i l -> 0 <= i) ->
    fold_opt (fun z i => do a <- vread (elements x) i; do b <- vread (elements y) i; put z i (Some (a + b))) l d = None) as F.
  { intros l. induction l as [|i l IH]; intros d I P; [destruct I|].
    assert (fold_opt (fun z i => do a <- vread (elements x) i; do b <- vread (elements y) i; put z i (Some (a + b))) (i :: l) d
      = do d' <- (do a <- vread (elements x) i; do b <- vread (elements y) i; put d i (Some (a + b))); fold_opt (fun z i => do a <- vread (elements x) i; do b <- vread (elements y) i; put z i (Some (a + b))) l d') as -> by reflexivity.
    destruct (do a <- vread (elements x) i; do b <- vread (elements y) i; put d i (Some (a + b))) as [d'|] eqn:E; [|reflexivity].
    cbn [bind]. destruct I as [->|I]; [|apply IH; [auto|intros; apply P; simpl; auto]].
    exfalso. revert E. assert (vread (elements y) (zlen y) = None) as ->.
    { unfold vread, zlen. rewrite get_nth. unfold elements. rewrite nth_error_map.
      assert (nth_error y (length y) = None) as -> by (apply nth_error_None; lia). reflexivity. }
    destruct (vread (elements x) (zlen y)); discriminate. }
  apply F.
  - unfold zrange, elements. rewrite zlen_map. apply in_map_iff. exists (length y). unfold zlen.
    split; [lia|]. apply in_seq. lia.
  - intros i Hi. unfold zrange in Hi. apply in_map_iff in Hi as (n & <- & _). lia.
Qed.

Example C30_case : vresize (elements [1; 2; 3]) 5 = Some [Some 1; Some 2; Some 3; None; None]
  /\ vassign [elements [1; 2; 3]; elements [7]] 1 0 = Some [elements [1; 2; 3]; elements [1; 2; 3]]
  /\ vappend (elements [1]) 2 = None.
Proof. repeat split. Qed.
Example C31_case : vbinary Z.add (elements [1; 2; 3]) (elements [4; 5; 6]) = Some (elements [5; 7; 9])
  /\ vaccum Z.add [elements [1; 2]] 0 0 = Some [elements [2; 4]]
  /\ vdot num_Z (elements [1; 2; 3]) (elements [4; 5; 6]) = Some 32.
Proof. repeat split. Qed.

Print Assumptions C30_resize.
Print Assumptions C30_fill.
Print Assumptions C30_set_all.
Print Assumptions C30_assign.
Print Assumptions C30_copy.
Print Assumptions C30_swap.
Print Assumptions C30_equality.
Print Assumptions C54_append_refuted.
Print Assumptions C54_append_vector_refuted.
Print Assumptions C53_vector_self_assignment_refuted.
Print Assumptions C31_pointwise.
Print Assumptions C31_in_place.
Print Assumptions C31_scalar.
Print Assumptions C31_scale.
Print Assumptions C31_dot.
Print Assumptions C31_dot_symmetric.
Print Assumptions C31_dot_additive.
Print Assumptions C31_dot_homogeneous.
Print Assumptions C55_vector_scale_aliased_refuted.
Print Assumptions C31_shorter_operand_refuted.
