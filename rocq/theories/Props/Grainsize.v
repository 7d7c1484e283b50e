(* C39: the number of nodes of each grain. *)
From Coq Require Import String.
From Verif Require Import Model.Base Model.Num Model.Layout Model.Access Model.Setup Model.Codec Model.MPI Model.Ghostswap Model.Grainsize
  Spec.Box Spec.Bytes Spec.Decomp Spec.Schedule Spec.Sparse Spec.Grainsize Proof.BaseL Proof.ExecL Proof.GrainsizeL Proof.GrainsizeF.
Local Open Scope Z_scope.

(* Every schedule ends with every one of the np ranks holding the same list l, the sizes of the grains. *)
Definition all_get {C} (label : C -> option (option Z)) np gs ghosts (data : Z -> list C) (l : list (Z * Z)) : Prop :=
  exists f, finished np (fun _ => l) f /\ inevitable (ranks np (grainsize label np gs ghosts data), no_chans) f.
(* The field F is distributed over the ranks; its size bounds the counters and the messages. *)
Definition distributed {C} np gs ghosts (data : Z -> list C) (F : list Z -> C) : Prop :=
  0 < np /\ gs <> [] /\ 0 <= ghosts /\ Forall (fun g => gx_0 g <= gx_1 g) gs /\ 4 + 8 * prodZ (map glen gs) <= int_max /\
  forall r ge x, 0 <= r < np -> setup_mpi np gs ghosts r = Some ge -> owns ge x -> grid_read true (ge_axes ge) (data r) x = Some (F x).

(* integer grids: the grain of a node is its value *)
Theorem C39_integer_grains : forall np gs ghosts data (F : list Z -> Z), distributed np gs ghosts data F ->
  (forall x, in_box (map gx_0 gs) (map gx_1 gs) x -> int_range (F x)) ->
  exists l, all_get label_int np gs ghosts data l /\ grain_sizes gs (fun x k => F x = k) l.
Proof.
  intros np gs ghosts data F (H1 & H2 & H3 & H4 & H5 & H6) HF.
  destruct (grainsize_counts label_int np gs ghosts data F (fun x => Some (F x)) H1 H2 H3 H4 H5 H6) as (l & f & A & B & C).
  - intros x Hx. split; [reflexivity|]. intros k [= <-]. auto.
  - exists l. split; [exists f; auto|]. eapply grain_sizes_ext; [|exact C]. intros x k _. split; [intros [= <-]; auto|congruence].
Qed.
Print Assumptions C39_integer_grains.

(* vector grids: the grain of a node is the position of its (first) largest component *)
Theorem C39_vector_grains : forall T (N : num T) (L : num_laws N) np gs ghosts data (F : list Z -> list T), distributed np gs ghosts data F ->
  (forall x, in_box (map gx_0 gs) (map gx_1 gs) x -> F x <> [] /\ zlen (F x) <= int_max) ->
  exists l, all_get (label_vector N) np gs ghosts data l /\ grain_sizes gs (fun x k => first_largest N (F x) k) l.
Proof.
  intros T N L np gs ghosts data F (H1 & H2 & H3 & H4 & H5 & H6) HF.
  destruct (grainsize_counts (label_vector N) np gs ghosts data F (fun x => match label_vector N (F x) with Some o => o | None => None end) H1 H2 H3 H4 H5 H6) as (l & f & A & B & C).
  - intros x Hx. destruct (HF x Hx) as [Hn Hz]. destruct (label_vector_spec N L (F x) Hn) as (k & E & P & _). rewrite E. split; [reflexivity|]. intros j [= <-]. unfold int_range. unfold int_max in Hz. lia.
  - exists l. split; [exists f; auto|]. eapply grain_sizes_ext; [|exact C]. intros x k Hx. destruct (HF x Hx) as [Hn _]. destruct (label_vector_spec N L (F x) Hn) as (j & E & P & FL). cbn beta. rewrite E.
    split; [intros [= <-]; auto|]. intros FK. f_equal. eapply first_unique; eauto.
Qed.
Print Assumptions C39_vector_grains.

(* Sparse grids: the grain of a node is the index of its (first) largest value, nodes without items belong to no grain.
   Condition: a node that has items has a positive value. *)
Theorem C39_sparse_grains : forall T (N : num T) (L : num_laws N) np gs ghosts data (F : list Z -> list (Z * T)), distributed np gs ghosts data F ->
  (forall x, in_box (map gx_0 gs) (map gx_1 gs) x -> Forall (fun it => int_range (fst it)) (F x) /\
     (F x <> [] -> exists k v, In (k, v) (F x) /\ n_gt N v (n_zero N) = true)) ->
  exists l, all_get (label_sparse N) np gs ghosts data l /\ grain_sizes gs (fun x k => dominant N (F x) k) l.
Proof.
  intros T N L np gs ghosts data F (H1 & H2 & H3 & H4 & H5 & H6) HF.
  assert (forall x, in_box (map gx_0 gs) (map gx_1 gs) x -> (F x = [] /\ label_sparse N (F x) = Some None) \/ exists k, label_sparse N (F x) = Some (Some k) /\ In k (map fst (F x)) /\ dominant N (F x) k) as S.
  { intros x Hx. destruct (HF x Hx) as [_ Hp]. destruct (F x) as [|it v] eqn:E; [left; auto|]. right. apply label_sparse_spec; [auto|]. apply Hp. discriminate. }
  destruct (grainsize_counts (label_sparse N) np gs ghosts data F (fun x => match label_sparse N (F x) with Some o => o | None => None end) H1 H2 H3 H4 H5 H6) as (l & f & A & B & C).
  - intros x Hx. destruct (HF x Hx) as [HI _]. destruct (S x Hx) as [[E0 E]|(k & E & I & _)]; rewrite E; (split; [reflexivity|]); intros j Hj; [discriminate|]. inversion Hj; subst j.
    apply in_map_iff in I as ([k' v] & <- & I). rewrite Forall_forall in HI. apply (HI _ I).
  - exists l. split; [exists f; auto|]. eapply grain_sizes_ext; [|exact C]. intros x k Hx. cbn beta. destruct (S x Hx) as [[E0 E]|(j & E & I & D)]; rewrite E.
    + split; [discriminate|]. rewrite E0. intros (i & _ & G). unfold get in G. destruct (i <? 0); [discriminate|]. destruct (Z.to_nat i); discriminate.
    + split; [intros [= <-]; auto|]. intros DK. f_equal. eapply dominant_unique; eauto.
Qed.
Print Assumptions C39_sparse_grains.

(* Without the condition: one node, whose only item is index 5 with value -3, is counted for grain 0. *)
Theorem C39_sparse_negative_refuted : exists gs data (F : list Z -> list (Z * Z)), distributed 1 gs 0 data F /\
  (forall x, in_box (map gx_0 gs) (map gx_1 gs) x -> dominant num_Z (F x) 5) /\
  all_get (label_sparse num_Z) 1 gs 0 data [(0, 1)].
Proof.
  exists [mkG 0 1], (fun _ => [[(5, -3)]]), (fun _ => [(5, -3)]). split; [|split].
  - split; [lia|]. split; [discriminate|]. split; [lia|]. split; [repeat constructor; simpl; lia|]. split; [vm_compute; discriminate|].
    intros r ge x Hr E O. assert (r = 0) as -> by lia. vm_compute in E. inversion E; subst ge. unfold owns in O. simpl in O. destruct x as [|a [|b x]]; try tauto. destruct O as [O _]. assert (a = 0) as -> by lia. vm_compute. reflexivity.
  - intros x _. exists 0. split; [|reflexivity]. exists (-3). split; [reflexivity|]. intros j b Hb. pose proof (get_some_iff _ _ _ Hb) as Hj. change (zlen (map snd [(5, -3)])) with 1 in Hj. assert (j = 0) as -> by lia. inversion Hb; subst b. split; [reflexivity|lia].
  - exists (run 20 (ranks 1 (grainsize (label_sparse num_Z) 1 [mkG 0 1] 0 (fun _ => [[(5, -3)]])), no_chans)). split.
    + split; [vm_compute; reflexivity|]. intros x y t. reflexivity.
    + eapply run_inevitable; [discriminate|vm_compute; reflexivity].
Qed.
Print Assumptions C39_sparse_negative_refuted.

(* Three ranks, a 3 x 2 grid with one ghost layer; cells of a field of each kind. *)
Definition shared {C} (d : C) (F : list Z -> C) (np : Z) gs (r : Z) : list C :=
  match setup_mpi np gs 1 r with
  | Some ge => map (fun p => F [a_s0 (nth 0 (ge_axes ge) (mkAxis 0 0 0 0 0 0 0 0 0 0)) + p / 4; a_s0 (nth 1 (ge_axes ge) (mkAxis 0 0 0 0 0 0 0 0 0 0)) + p mod 4]) (zrange 0 (cells (ge_axes ge)))
  | None => []
  end.
Definition ints (x : list Z) : Z := match x with [a; b] => if b =? 0 then 7 else -a | _ => 0 end.
Definition sparses (x : list Z) : list (Z * Z) := match x with [a; b] => if a =? 2 then [] else [(3, a); (9, 1 + b)] | _ => [] end.
Example C39_case : let gs := [mkG 0 3; mkG 0 2] in
  distributed 3 gs 1 (shared 0 ints 3 gs) ints /\ distributed 3 gs 1 (shared [] sparses 3 gs) sparses /\
  (forall x, in_box (map gx_0 gs) (map gx_1 gs) x -> int_range (ints x)) /\
  (forall x, in_box (map gx_0 gs) (map gx_1 gs) x -> Forall (fun it => int_range (fst it)) (sparses x) /\ (sparses x <> [] -> exists k v, In (k, v) (sparses x) /\ n_gt num_Z v (n_zero num_Z) = true)) /\
  results (fst (run 200 (ranks 3 (grainsize label_int 3 gs 1 (shared 0 ints 3 gs)), no_chans)))
    = Some (repeat [(7, 3); (0, 1); (-1, 1); (-2, 1)] 3) /\
  results (fst (run 200 (ranks 3 (grainsize (label_sparse num_Z) 3 gs 1 (shared [] sparses 3 gs)), no_chans)))
    = Some (repeat [(9, 3); (3, 1)] 3).
Proof.
  cbv zeta. assert (forall x, in_box (map gx_0 [mkG 0 3; mkG 0 2]) (map gx_1 [mkG 0 3; mkG 0 2]) x -> exists a b, x = [a; b] /\ (a = 0 \/ a = 1 \/ a = 2) /\ (b = 0 \/ b = 1)) as X.
  { intros [|a [|b [|c x]]]; simpl; try tauto. intros (A & B & _). exists a, b. split; [auto|]. lia. }
  assert (forall C (d : C) F, distributed 3 [mkG 0 3; mkG 0 2] 1 (shared d F 3 [mkG 0 3; mkG 0 2]) F) as D.
  { intros C d F. split; [lia|]. split; [discriminate|]. split; [lia|]. split; [repeat constructor; simpl; lia|]. split; [vm_compute; discriminate|].
    intros r ge x Hr E O. assert (r = 0 \/ r = 1 \/ r = 2) as [-> |[-> | ->]] by lia; vm_compute in E; inversion E; subst ge; unfold owns in O; simpl in O; destruct x as [|a [|b [|c x]]]; try tauto; destruct O as (A & B & _);
    [assert (a = 0) as -> by lia|assert (a = 1) as -> by lia|assert (a = 2) as -> by lia]; assert (b = 0 \/ b = 1) as [-> | ->] by lia; vm_compute; reflexivity. }
  split; [apply D|]. split; [apply D|]. split; [|split; [|split; vm_compute; reflexivity]].
  - intros x Hx. destruct (X x Hx) as (a & b & -> & [-> |[-> | ->]] & [-> | ->]); vm_compute; split; congruence.
  - intros x Hx. destruct (X x Hx) as (a & b & -> & [-> |[-> | ->]] & [-> | ->]); (split; [repeat constructor; vm_compute; congruence|]); cbn; intros H; try congruence;
      [exists 9, 1|exists 9, 2|exists 9, 1|exists 9, 2]; auto.
Qed.
Example C39_vector_case : label_vector num_Z [3; 8; 8; 1] = Some (Some 1) /\ first_largest num_Z [3; 8; 8; 1] 1.
Proof.
  split; [reflexivity|]. exists 8. split; [reflexivity|]. intros j b Hb. pose proof (get_some_iff _ _ _ Hb) as Hj. change (zlen [3; 8; 8; 1]) with 4 in Hj.
  assert (j = 0 \/ j = 1 \/ j = 2 \/ j = 3) as [->|[->|[->| ->]]] by lia; inversion Hb; subst b; (split; [reflexivity|]); intros; try lia; reflexivity.
Qed.
