(* C62: the serial tessellation. *)
From Verif Require Import Model.Base Model.Boundary Model.Layout Model.Access Model.Setup Model.Num Model.Sparse Model.Codec Model.Ghostswap Model.Tessellate Model.FastMarch
  Spec.Box Spec.Tessellate Proof.BaseL Proof.TessellateF Proof.FastMarchL.

(* "The serial tessellation terminates" is false of every use of it with at least one seed: however many iterations its loops are
   allowed, it has not returned.  (The bound on the size keeps the distances below INT_MAX; the last axis has glen (last gs) cells.) *)
Theorem C62_never_returns : forall T (N : num T) (one : T) gs seeds data, Forall (fun g => gx_0 g < gx_1 g) gs -> seeds <> [] ->
  glen (last gs (mkG 0 0)) * sumZ (map (fun g => glen g ^ 2) gs) <= int_max ->
  forall fuel result, approximate_voronoi N one fuel gs seeds data <> Done result.
Proof.
  intros T N one gs seeds data Hg Hs Hb fuel result. destruct gs as [|g gs]; [discriminate|].
  apply (never_done (g :: gs) Hg (length gs) eq_refl N one fuel seeds data Hs).
  replace (nth (length gs) (map gx_1 (g :: gs)) 0 - nth (length gs) (map gx_0 (g :: gs)) 0) with (glen (last (g :: gs) (mkG 0 0))); [exact Hb|].
  clear. pose proof (map_nth gx_1 (g :: gs) (mkG 0 0) (length gs)) as E1. pose proof (map_nth gx_0 (g :: gs) (mkG 0 0) (length gs)) as E0.
  cbn [gx_0 gx_1] in E0, E1. rewrite E0, E1. unfold glen.
  assert (nth (length gs) (g :: gs) (mkG 0 0) = last (g :: gs) (mkG 0 0)) as ->; [|reflexivity].
  clear E0 E1. revert g. induction gs as [|h gs IH]; intros g; [reflexivity|]. change (last (g :: h :: gs) (mkG 0 0)) with (last (h :: gs) (mkG 0 0)). rewrite <- IH. reflexivity.
Qed.
Print Assumptions C62_never_returns.

Lemma count_step {S} f d b (body : list Z * S -> outcome (list Z * S)) p st c p' st' c' p'' : get p d = Some c -> (c <? b) = true ->
  body (p, st) = Done (p', st') -> get p' d = Some c' -> put p' d (c' + 1) = Some p'' ->
  count_loop (Datatypes.S f) d b body (p, st) = count_loop f d b body (p'', st').
Proof. intros H1 H2 H3 H4 H5. cbn [count_loop fst]. rewrite H1. cbn [of_opt obind]. rewrite H2, H3. cbn [obind fst snd]. rewrite H4. cbn [bind]. rewrite H5. reflexivity. Qed.
Lemma count_hang {S} f d b (body : list Z * S -> outcome (list Z * S)) p st c : get p d = Some c -> (c <? b) = true ->
  body (p, st) = Unfinished -> count_loop (Datatypes.S f) d b body (p, st) = Unfinished.
Proof. intros H1 H2 H3. cbn [count_loop fst]. rewrite H1. cbn [of_opt obind]. now rewrite H2, H3. Qed.

(* Nor does it run into undefined behaviour first: two by two cells, one seed at (1,1), and the program is always still running. *)
Theorem C62_terminates_refuted : exists gs seeds (data : list (sobj Z)), Forall (domain_seed gs) seeds /\ zlen data = prodZ (map glen gs) /\
  forall fuel, approximate_voronoi num_Z 1 fuel gs seeds data = Unfinished.
Proof.
  exists [mkG 0 2; mkG 0 2], [[1; 1; 0]], (repeat [] 4). split; [repeat constructor; simpl; cbn; lia|]. split; [reflexivity|].
  (* the state of the inner loop after two iterations comes back after every two more *)
  set (axs := distance_axes [mkG 0 2; mkG 0 2]). set (body := fun z : list Z * fm_state => of_opt (relax axs [1; 1] 0 0 z)).
  set (v0 := [mkV [0; 0] 0 int_max; mkV [0; 1] 0 int_max; mkV [1; 0] 0 int_max; mkV [1; 1] 0 0]).
  destruct (body ([0; 0], (v0, mkQ [] (fun _ => None)))) as [[p1 st1]| |] eqn:E1; [|vm_compute in E1; discriminate..].
  destruct (body ([0; 1], st1)) as [[p st]| |] eqn:E2; [|vm_compute in E1; inversion E1; subst; vm_compute in E2; discriminate..].
  assert (p1 = [0; 0] /\ p = [0; 1] /\ body ([0; 2], st) = Done ([0; 0], st) /\ body ([0; 1], st) = Done ([0; 1], st)) as (-> & -> & B1 & B2).
  { vm_compute in E1; inversion E1; subst p1 st1. vm_compute in E2; inversion E2; subst p st. repeat split; reflexivity. }
  assert (forall n fuel, (fuel <= n)%nat -> count_loop fuel 1 3 body ([0; 2], st) = Unfinished) as L.
  { induction n as [|n IH]; intros fuel Hf; [destruct fuel; [reflexivity|lia]|]. destruct fuel as [|[|fuel]]; [reflexivity| |].
    - rewrite (count_step 0 1 3 body [0; 2] st 2 [0; 0] st 0 [0; 1]) by (auto; reflexivity). reflexivity.
    - rewrite (count_step (S fuel) 1 3 body [0; 2] st 2 [0; 0] st 0 [0; 1]), (count_step fuel 1 3 body [0; 1] st 1 [0; 1] st 1 [0; 2]) by (auto; reflexivity). apply IH. lia. }
  intros fuel. destruct fuel as [|[|fuel]]; [vm_compute; reflexivity..|].
  specialize (L fuel fuel (Nat.le_refl _)).
  assert (propagate (S (S fuel)) axs 3 (v0, mkQ [] (fun _ => None)) = Unfinished) as P.
  { transitivity (obind (count_loop (S (S fuel)) 0 3 (fun z => obind (of_opt (put (fst z) 1 0)) (fun p => count_loop (S (S fuel)) 1 3 body (p, snd z))) ([0; 1], (v0, mkQ [] (fun _ => None)))) (fun z => Done (snd z))); [reflexivity|].
    rewrite (count_hang (S fuel) 0 3 _ [0; 1] (v0, mkQ [] (fun _ => None)) 0); [reflexivity..|]. cbn [fst snd]. change (put [0; 1] 1 0) with (Some [0; 0]). cbn [of_opt obind].
    rewrite (count_step (S fuel) 1 3 body [0; 0] _ 0 [0; 0] st1 0 [0; 1] eq_refl eq_refl E1), (count_step fuel 1 3 body [0; 1] st1 1 [0; 1] st 1 [0; 2] eq_refl eq_refl E2); try reflexivity. exact L. }
  transitivity (obind (obind (propagate (S (S fuel)) axs 3 (v0, mkQ [] (fun _ => None))) (enqueue_seeds (S (S fuel)) axs 1 [])) (fun st => obind (march (S (S fuel)) axs st) (fun st =>
    of_opt (fold_opt (fun data n => do v <- grid_read_int false axs (fst st) n; do cell <- grid_read_int false axs data n; do cell <- sset_op num_Z cell (v_id v) (fun _ => 1); grid_write_int false axs data n cell) (zrange 0 (nodes axs)) (repeat [] 4))))); [reflexivity|].
  rewrite P. reflexivity.
Qed.
Print Assumptions C62_terminates_refuted.

(* The model is not stuck from the start: without seeds it returns and labels every node 0, and propagation from a voxel that is not on
   an upper face returns with the distances of the eight neighbours. *)
Example C62_no_seed_case : approximate_voronoi num_Z 1 1 [mkG 0 3; mkG 0 2] [] (repeat [] 6) = Done (repeat [Some (0, 1)] 6).
Proof. vm_compute. reflexivity. Qed.
Example C62_inner_case : let axs := distance_axes [mkG 0 5; mkG 0 4] in
  exists vox q, enqueue_seeds 9 axs 0 [[2; 1; 0]] (blank_voxels axs, mkQ [] (fun _ => None)) = Done (vox, q) /\
    map (fun v => if v_val v =? int_max then -1 else v_val v) vox = [-1; -1; -1; -1;  2; 1; 2; -1;  1; 0; 1; -1;  2; 1; 2; -1;  -1; -1; -1; -1] /\
    q_heap q = [5; 8; 13; 4; 10; 12; 6; 14].
Proof. do 2 eexists. split; [vm_compute; reflexivity|]. split; vm_compute; reflexivity. Qed.
(* the hypotheses of C62_never_returns: 100 x 100 x 100 cells *)
Example C62_case : let gs := [mkG 0 100; mkG 0 100; mkG 0 100] in
  Forall (fun g => gx_0 g < gx_1 g) gs /\ glen (last gs (mkG 0 0)) * sumZ (map (fun g => glen g ^ 2) gs) <= int_max.
Proof. split; [repeat constructor|]. vm_compute. discriminate. Qed.
