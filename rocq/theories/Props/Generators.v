(* C95: the older tessellation by fast marching. *)
From Verif Require Import Model.Base Model.Boundary Model.Layout Model.Access Model.Setup Model.Num Model.Sparse Model.Codec Model.Ghostswap Model.Tessellate Model.FastMarch Model.Generators
  Spec.Box Spec.Tessellate Spec.Generators Proof.BaseL Proof.LayoutL Proof.FastMarchL Proof.HeapL Proof.GeneratorsM Proof.GeneratorsF.

Lemma distance_nodes gs : nodes (distance_axes gs) = prodZ (map glen gs).
Proof. unfold distance_axes, setup_single. cbn [ge_axes]. rewrite nodes_lay, map_map. reflexivity. Qed.

(* In two or three dimensions, on a domain with at least two cells along each axis (and small enough for the distances to be ints), with at least one
   seed, every seed in the domain and no two seeds neighbours on the torus: the tessellation runs to its end without undefined behaviour, the number of
   turns of its loop being bounded, and then every node of the domain has one label, with the value given, and the seed with this number is nearest in the
   Manhattan metric. *)
Theorem C95_fast_march : forall T (N : num T) (one : T) fuel gs seeds data, (length gs = 2 \/ length gs = 3)%nat -> Forall (fun g => gx_0 g + 2 <= gx_1 g) gs ->
  sumZ (map glen gs) + sumZ (map (fun g => glen g ^ 2) gs) <= int_max -> seeds <> [] -> Forall (domain_seed gs) seeds ->
  (forall i j s t, 0 <= i < j -> get seeds i = Some s -> get seeds j = Some t -> apart (map glen gs) t s) ->
  zlen data = prodZ (map glen gs) -> Forall (fun o => o = []) data -> 2 * prodZ (map glen gs) * int_max < Z.of_nat fuel ->
  exists data', gen_voronoi N one fuel gs seeds data = Done data' /\
    forall x, in_box (map gx_0 gs) (map gx_1 gs) x -> exists k s, grid_read false (distance_axes gs) data' x = Some [Some (k, one)] /\ get seeds k = Some s /\ forall t, In t seeds -> manh x s <= manh x t.
Proof.
  intros T N one fuel gs seeds data Hl Hg2 Hs Ne HD HA Ld Hd Hf. rewrite <- distance_nodes in Ld, Hf. destruct (march_defined N one gs seeds data fuel Hl Hg2 Hs Ne HD HA Ld Hd Hf) as [data' E].
  exists data'. split; [exact E|]. assert (exists n', length gs = S n') as [n' Hn] by (destruct Hl as [-> | ->]; eauto). apply (march_labels N one gs seeds data fuel data'); auto; [intros ->; discriminate|apply (Hg gs Hg2 n' Hn)|].
  assert (0 <= sumZ (map (fun g => glen g ^ 2) gs)); [|lia]. clear. induction gs as [|a t IH]; [reflexivity|]. cbn [map]. change (0 <= glen a ^ 2 + sumZ (map (fun g => glen g ^ 2) t)). nia.
Qed.
Print Assumptions C95_fast_march.

(* Whatever the seeds, the loop ends (this is where it differs from the tessellation of tessellate.hpp, C62), and whenever there is a result it is this one. *)
Theorem C95_ends : forall T (N : num T) (one : T) fuel gs seeds data, gs <> [] -> Forall (fun g => gx_0 g < gx_1 g) gs -> 2 * prodZ (map glen gs) * int_max < Z.of_nat fuel ->
  gen_voronoi N one fuel gs seeds data <> Unfinished.
Proof. intros T N one fuel gs seeds data Ng Hg Hf. rewrite <- distance_nodes in Hf. now apply march_terminates. Qed.
Print Assumptions C95_ends.
Theorem C95_labels : forall T (N : num T) (one : T) fuel gs seeds data data', gs <> [] -> Forall (fun g => gx_0 g < gx_1 g) gs -> sumZ (map glen gs) <= int_max -> seeds <> [] ->
  zlen data = prodZ (map glen gs) -> Forall (fun o => o = []) data -> gen_voronoi N one fuel gs seeds data = Done data' ->
  forall x, in_box (map gx_0 gs) (map gx_1 gs) x -> exists k s, grid_read false (distance_axes gs) data' x = Some [Some (k, one)] /\ get seeds k = Some s /\ forall t, In t seeds -> manh x s <= manh x t.
Proof. intros T N one fuel gs seeds data data' Ng Hg Hs Ne Ld Hd E. rewrite <- distance_nodes in Ld. eapply march_labels; eauto. Qed.
Print Assumptions C95_labels.

(* "Each node gets the seed nearest to it", as the exact tessellation does, is false in the plane ... *)
Theorem C95_euclid_refuted : exists gs seeds (data data' : list (sobj Z)) fuel x k s t, Forall (domain_seed gs) seeds /\ gen_voronoi num_Z 1 fuel gs seeds data = Done data' /\
  grid_read false (distance_axes gs) data' x = Some [Some (k, 1)] /\ get seeds k = Some s /\ In t seeds /\ dist2 x t < dist2 x s.
Proof.
  exists [mkG 0 4; mkG 0 6], [[3; 3; 0]; [0; 5; 0]], (repeat [] 24). eexists. exists 300%nat, [0; 0], 1, [0; 5; 0], [3; 3; 0]. split; [repeat constructor; simpl; cbn; lia|].
  split; [vm_compute; reflexivity|]. split; [vm_compute; reflexivity|]. split; [reflexivity|]. split; [simpl; auto|]. reflexivity.
Qed.
Print Assumptions C95_euclid_refuted.
(* ... and on the torus, although neighbours are sought across the sides: a step across a side of length L is charged (L-1)^2. *)
Theorem C95_periodic_refuted : exists gs seeds (data data' : list (sobj Z)) fuel x k s t, Forall (domain_seed gs) seeds /\ gen_voronoi num_Z 1 fuel gs seeds data = Done data' /\
  grid_read false (distance_axes gs) data' x = Some [Some (k, 1)] /\ get seeds k = Some s /\ In t seeds /\ torus_dist2 (map glen gs) x t < torus_dist2 (map glen gs) x s.
Proof.
  exists [mkG 0 6; mkG 0 2], [[5; 0; 0]; [2; 0; 0]], (repeat [] 12). eexists. exists 300%nat, [0; 0], 1, [2; 0; 0], [5; 0; 0]. split; [repeat constructor; simpl; cbn; lia|].
  split; [vm_compute; reflexivity|]. split; [vm_compute; reflexivity|]. split; [reflexivity|]. split; [simpl; auto|]. reflexivity.
Qed.
Print Assumptions C95_periodic_refuted.
(* Two cells along each axis are needed: on a strip one cell wide, a voxel that has just been popped is taken for a member of the queue. *)
Theorem C95_strip_refuted : exists gs seeds (data : list (sobj Z)), Forall (fun g => gx_0 g < gx_1 g) gs /\ Forall (domain_seed gs) seeds /\ zlen data = prodZ (map glen gs) /\ Forall (fun o => o = []) data /\
  forall fuel, (5 <= fuel)%nat -> gen_voronoi num_Z 1 fuel gs seeds data = Undefined.
Proof.
  exists [mkG 0 1; mkG 0 3], [[0; 0; 0]], (repeat [] 3). split; [repeat constructor|]. split; [repeat constructor; simpl; cbn; lia|]. split; [reflexivity|]. split; [repeat constructor|].
  intros fuel Hf. destruct fuel as [|[|[|[|[|fuel]]]]]; try lia. vm_compute. reflexivity.
Qed.
Print Assumptions C95_strip_refuted.

(* Seeds that are neighbours are not safe either: with these four, of which two are neighbours across a side, a voxel that has just been moved to the
   front of the queue is given a position behind its end. *)
Lemma march_more axs : forall fuel n st r, gen_march fuel axs st = r -> r <> Unfinished -> gen_march (fuel + n) axs st = r.
Proof.
  induction fuel as [|f IH]; intros n st r E H; [subst; now destruct H|]. cbn [gen_march Nat.add] in *. destruct (q_heap (snd st)) as [|a t]; [exact E|].
  destruct (of_opt _) as [st'| |]; cbn [obind] in *; [now apply IH|exact E|exact E].
Qed.
Theorem C95_neighbours_refuted : exists gs seeds (data : list (sobj Z)), length gs = 2%nat /\ Forall (fun g => gx_0 g + 2 <= gx_1 g) gs /\ Forall (domain_seed gs) seeds /\ NoDup seeds /\
  zlen data = prodZ (map glen gs) /\ Forall (fun o => o = []) data /\ forall fuel, (40 <= fuel)%nat -> gen_voronoi num_Z 1 fuel gs seeds data = Undefined.
Proof.
  exists [mkG 0 6; mkG 0 6], [[5; 0; 0]; [5; 4; 0]; [0; 0; 0]; [5; 2; 0]], (repeat [] 36). split; [reflexivity|]. split; [repeat constructor; simpl; lia|]. split; [repeat constructor; simpl; cbn; lia|].
  split; [repeat constructor; cbn; intuition congruence|]. split; [reflexivity|]. split; [repeat constructor|].
  intros fuel Hf. replace fuel with (40 + (fuel - 40))%nat by lia. generalize (fuel - 40)%nat. intros n. unfold gen_voronoi. change ((zlen [mkG 0 6; mkG 0 6] =? 2) || (zlen [mkG 0 6; mkG 0 6] =? 3)) with true. cbv iota.
  set (axs := distance_axes _). set (o := gen_enqueues axs 0 _ _).
  assert (match o with Some st => match gen_march 40 axs st with Undefined => true | _ => false end | None => false end = true) as E by (vm_compute; reflexivity).
  destruct o as [st|]; [|reflexivity]. cbn [of_opt obind]. destruct (gen_march 40 axs st) eqn:M; try discriminate. now rewrite (march_more axs 40 n st Undefined M).
Qed.
Print Assumptions C95_neighbours_refuted.

(* the hypotheses of C95_fast_march: a 40 x 30 x 50 grid with two seeds two cells apart across a side; and a run *)
Example C95_case : let gs := [mkG 0 40; mkG (-10) 20; mkG 0 50] in let seeds := [[0; 3; 7]; [38; 3; 8]] in
  Forall (fun g => gx_0 g + 2 <= gx_1 g) gs /\ sumZ (map glen gs) + sumZ (map (fun g => glen g ^ 2) gs) <= int_max /\ Forall (domain_seed gs) seeds /\
  (forall i j s t, 0 <= i < j -> get seeds i = Some s -> get seeds j = Some t -> apart (map glen gs) t s).
Proof.
  cbv zeta. split; [repeat constructor; simpl; lia|]. split; [vm_compute; discriminate|]. split; [repeat constructor; simpl; cbn; lia|].
  intros i j s t Hi Es Et. pose proof (HeapL.get_range _ _ _ Es). pose proof (HeapL.get_range _ _ _ Et). unfold zlen in *. simpl length in *. assert (i = 0 /\ j = 1) as [-> ->] by lia. inversion Es. inversion Et. left. vm_compute. discriminate.
Qed.
Example C95_run : gen_voronoi num_Z 1 300 [mkG 0 4; mkG 0 5] [[0; 0; 0]; [2; 3; 0]] (repeat [] 20) = Done (map (fun k => [Some (k, 1)])
  [0; 0; 0; 1; 1;  0; 0; 1; 1; 1;  0; 1; 1; 1; 1;  0; 1; 1; 1; 1]).
Proof. vm_compute. reflexivity. Qed.
