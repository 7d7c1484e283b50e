(* C35-C38 and C59: the differential operators and explicit simulations built from them (exact arithmetic). *)
From Coq Require Import QArith.QArith QArith.Qcanon.
From Verif Require Import Model.Base Model.Boundary Model.Layout Model.Access Model.Stencil Spec.Box Spec.Access Spec.Stencil
  Proof.BaseL Proof.LayoutL Proof.AccessL Proof.StencilL Proof.StencilS Proof.StencilQ Proof.StencilM.
Local Open Scope list_scope.

(* the operators read x and its 2 dim neighbours; on a serial grid these are always defined *)
Theorem C35_serial_star : forall T (d : T) ls (data : list T) x, Forall serial_axis ls -> zlen data = cells (lay 0 ls) ->
  in_box (map l_x0 ls) (map l_x1 ls) x -> exists f, star false (lay 0 ls) data x f.
Proof. intros T d ls data x F L B. exists (at_or d (lay 0 ls) data). now apply serial_star. Qed.
Print Assumptions C35_serial_star.

(* laplacian is the sum over the axes of the second central differences; so for the other versions, field by field *)
Theorem C35_formula : forall mpi axs dx data x f, length x = length axs -> length dx = length axs -> Forall (fun h => h <> 0%Qc) dx ->
  star mpi axs data x f ->
  laplacian mpi axs dx data x = Some (sumQ (map (fun i => second_difference f x i (spacing dx i)) (zrange 0 (zlen axs)))).
Proof. exact laplacian_eq. Qed.
Print Assumptions C35_formula.
Theorem C35_vector_formula : forall mpi axs dx n data x f j, length x = length axs -> length dx = length axs -> Forall (fun h => h <> 0%Qc) dx ->
  0 <= j < n -> star mpi axs data x f -> (forall y, zlen (f y) = n) ->
  let l := sumQ (map (fun i => second_difference (fun y => nth (Z.to_nat j) (f y) 0%Qc) x i (spacing dx i)) (zrange 0 (zlen axs))) in
  flaplacian mpi axs dx data x j = Some l /\ exists v, vlaplacian mpi axs dx n data x = Some v /\ zlen v = n /\ get v j = Some l.
Proof.
  intros mpi axs dx n data x f j Lx Ld F Hj St Lf l. split; [now apply (flaplacian_eq mpi axs dx n data x f j)|].
  rewrite (vlaplacian_eq mpi axs dx n data x f) by (auto; lia). eexists. split; [reflexivity|]. split; [apply tab_len; lia|]. now apply get_tab.
Qed.
Print Assumptions C35_vector_formula.

Theorem C35_constant : forall ls dx c x, Forall serial_axis ls -> length dx = length ls -> Forall (fun h => h <> 0%Qc) dx ->
  in_box (map l_x0 ls) (map l_x1 ls) x ->
  laplacian false (lay 0 ls) dx (repeat c (Z.to_nat (cells (lay 0 ls)))) x = Some 0%Qc.
Proof.
  intros ls dx c x F Ld Fd B. set (data := repeat c _).
  assert (0 <= cells (lay 0 ls)) as Hc by (apply (cells_nonneg 0); [lia|]; apply wf_lay, lims_le, F).
  assert (zlen data = cells (lay 0 ls)) as L by (unfold data, zlen; rewrite repeat_length; lia).
  assert (star false (lay 0 ls) data x (fun _ => c)) as St.
  { destruct (serial_star c ls data x F L B) as [R0 R].
    assert (forall y v, grid_read false (lay 0 ls) data y = Some v -> grid_read false (lay 0 ls) data y = Some c) as A.
    { intros y v E. rewrite E. unfold grid_read in E. destruct (addr_vec _ _ _ _); [|discriminate]. cbn [bind] in E. unfold get in E.
      destruct (_ <? _); [discriminate|]. apply nth_error_In in E. unfold data in E. apply repeat_spec in E. congruence. }
    split; [eapply A; eauto|]. intros i Hi. destruct (R i Hi). split; eapply A; eauto. }
  rewrite (laplacian_eq false (lay 0 ls) dx data x (fun _ => c)); auto.
  - f_equal. transitivity (sumQ (map (fun _ : Z => 0%Qc) (zrange 0 (zlen (lay 0 ls))))); [|apply sumQ_zero]. apply sumQ_ext. intros i Hi. apply in_zrange in Hi.
    unfold second_difference. fold c2. rewrite c2_eq. field. apply spacing_nz; auto. unfold zlen in *. rewrite length_lay in Hi. lia.
  - rewrite length_lay. now apply local_len.
  - now rewrite length_lay.
Qed.
Print Assumptions C35_constant.

(* affine in the physical coordinates; zero except next to an edge across which the function has a slope *)
Theorem C35_affine : forall ls dx a b data x, Forall serial_axis ls -> length dx = length ls -> Forall (fun h => h <> 0%Qc) dx ->
  zlen data = cells (lay 0 ls) ->
  (forall y, in_box (map l_x0 ls) (map l_x1 ls) y -> grid_read false (lay 0 ls) data y = Some (affine a b (phys dx y))) ->
  in_box (map l_x0 ls) (map l_x1 ls) x ->
  (forall i, 0 <= i < zlen ls -> nth (Z.to_nat i) b 0%Qc = 0%Qc \/
     (in_box (map l_x0 ls) (map l_x1 ls) (nb x i 1) /\ in_box (map l_x0 ls) (map l_x1 ls) (nb x i (-1)))) ->
  laplacian false (lay 0 ls) dx data x = Some 0%Qc.
Proof.
  intros ls dx a b data x F Ld Fd L Rd B Edge. pose proof (local_len ls x B) as Lx.
  assert (star false (lay 0 ls) data x (fun y => affine a b (phys dx y))) as St.
  { split; [now apply Rd|]. intros i Hi. rewrite zlen_lay in Hi. pose proof Hi as Hi'. unfold zlen in Hi'. destruct (Edge i Hi) as [Z|[E1 E2]]; [|split; now apply Rd].
    assert (forall d, d = 1 \/ d = -1 -> grid_read false (lay 0 ls) data (nb x i d) = Some (affine a b (phys dx (nb x i d)))) as A; [|split; apply A; auto].
    intros d Hd. rewrite read_idx by (rewrite nb_len; auto). pose proof (nb_box ls x i d F B Hi Hd) as Bn.
    rewrite <- (cbs_in ls (cbs ls (nb x i d))) by auto. rewrite <- read_idx by now apply local_len. rewrite Rd by auto. f_equal.
    unfold nb at 1. rewrite cbs_set by (auto; lia). set (c := cb _ _).
    replace (set_nth (Z.to_nat i) x c) with (nb x i (c - nth (Z.to_nat i) x 0)) by (unfold nb; f_equal; lia).
    rewrite !affine_nb by (auto; unfold zlen; lia). unfold nthq. rewrite Z. ring. }
  assert (length x = length (lay 0 ls)) as Lx' by now rewrite length_lay. assert (length dx = length (lay 0 ls)) as Ld' by now rewrite length_lay.
  rewrite (laplacian_eq _ _ _ _ _ _ Lx' Ld' Fd St). f_equal.
  transitivity (sumQ (map (fun _ : Z => 0%Qc) (zrange 0 (zlen (lay 0 ls))))); [|apply sumQ_zero]. apply sumQ_ext. intros i Hi. apply in_zrange in Hi.
  assert (0 <= i < zlen x) by (rewrite zlen_lay in Hi; unfold zlen in *; lia).
  unfold second_difference. fold c2. rewrite !affine_nb by (auto; lia). rewrite Qc_of_1, Qc_of_m1, c2_eq. field. apply spacing_nz; auto. unfold zlen in *. lia.
Qed.
Print Assumptions C35_affine.

(* exact for quadratic functions: twice the trace of the matrix (in both builds: x and its neighbours may be ghosts) *)
Theorem C35_quadratic : forall mpi axs dx a b q data x, length x = length axs -> length dx = length axs -> length q = length axs ->
  Forall (fun h => h <> 0%Qc) dx -> star mpi axs data x (fun y => quadratic a b q (phys dx y)) ->
  laplacian mpi axs dx data x = Some (sumQ (map (fun i => Q2Qc (2 # 1) * nth (Z.to_nat i) (nth (Z.to_nat i) q []) 0)%Qc (zrange 0 (zlen axs)))).
Proof.
  intros mpi axs dx a b q data x Lx Ld Lq F St. rewrite (laplacian_eq _ _ _ _ _ _ Lx Ld F St). f_equal. apply sumQ_ext. intros i Hi. apply in_zrange in Hi.
  rewrite quad_second; try lia; [reflexivity|unfold zlen in *; lia|]. apply spacing_nz; auto. unfold zlen in *. lia.
Qed.
Print Assumptions C35_quadratic.

Theorem C35_linear : forall mpi axs dx u v data1 data2 data3 x f1 f2, length x = length axs -> length dx = length axs -> Forall (fun h => h <> 0%Qc) dx ->
  star mpi axs data1 x f1 -> star mpi axs data2 x f2 -> star mpi axs data3 x (fun y => u * f1 y + v * f2 y)%Qc ->
  exists l1 l2, laplacian mpi axs dx data1 x = Some l1 /\ laplacian mpi axs dx data2 x = Some l2 /\ laplacian mpi axs dx data3 x = Some (u * l1 + v * l2)%Qc.
Proof.
  intros mpi axs dx u v d1 d2 d3 x f1 f2 Lx Ld F S1 S2 S3. do 2 eexists. split; [apply (laplacian_eq _ _ _ _ _ _ Lx Ld F S1)|]. split; [apply (laplacian_eq _ _ _ _ _ _ Lx Ld F S2)|].
  rewrite (laplacian_eq _ _ _ _ _ _ Lx Ld F S3). f_equal. rewrite <- !sumQ_mul, <- sumQ_add. apply sumQ_ext. intros i Hi. apply in_zrange in Hi.
  unfold second_difference. field. apply spacing_nz; auto. unfold zlen in *. lia.
Qed.
Print Assumptions C35_linear.

(* x^2 + 3xy on a 4 x 3 grid with spacings 1/2 and 1: the Laplacian is 2 at the node (1,1) *)
Definition square (i : Z) : Qc := let x := i / 3 in let y := i mod 3 in (Q2Qc (x # 2) * Q2Qc (x # 2) + Q2Qc (3 # 1) * (Q2Qc (x # 2) * Q2Qc (y # 1)))%Qc.
Example C35_case :
  let ls := [mkLim 0 4 0 4 periodic periodic; mkLim 0 3 0 3 Neumann mirror] in let dx := [Q2Qc (1 # 2); 1%Qc] in
  Forall serial_axis ls /\ Forall (fun h => h <> 0%Qc) dx /\ laplacian false (lay 0 ls) dx (map square (zrange 0 12)) [1; 1] = Some (Q2Qc (2 # 1)).
Proof.
  split; [|split].
  - repeat constructor; simpl; unfold serial_side, Neumann, Dirichlet, periodic, mirror; lia.
  - repeat constructor; intros E; apply (f_equal this) in E; discriminate.
  - vm_compute. reflexivity.
Qed.

(* ---- conservation ---- *)
(* every axis periodic or with sides that repeat the outermost value *)
Theorem C36_sum : forall ls dx data, Forall serial_axis ls -> length dx = length ls -> Forall (fun h => h <> 0%Qc) dx ->
  zlen data = cells (lay 0 ls) -> Forall (fun l => periodic_axis l \/ insulated_axis l) ls ->
  exists L, map_opt (laplacian_at false (lay 0 ls) dx data) (zrange 0 (nodes (lay 0 ls))) = Some L /\ sumQ L = 0%Qc.
Proof.
  intros ls dx data F Ld Fd L P. exists (map (fun i => lap ls dx data (position (lay 0 ls) i)) (zrange 0 (nodes (lay 0 ls)))). split.
  - apply map_opt_map. intros i Hi. apply in_zrange in Hi. now apply laplacian_at_serial.
  - now apply lap_sum.
Qed.
Print Assumptions C36_sum.

Lemma sum_list (data : list Qc) : sumQ (map (fun i => nth (Z.to_nat i) data 0%Qc) (zrange 0 (zlen data))) = sumQ data.
Proof. transitivity (sumQ (tab (zlen data) (fun i => nth (Z.to_nat i) data 0%Qc))); [reflexivity|now rewrite <- list_tab]. Qed.

(* the diffusion program, for every factor, initial state and number of iterations *)
Theorem C36_diffusion : forall ls dx k n data work, Forall serial_axis ls -> length dx = length ls -> Forall (fun h => h <> 0%Qc) dx ->
  zlen data = cells (lay 0 ls) -> zlen work = cells (lay 0 ls) -> Forall (fun l => periodic_axis l \/ insulated_axis l) ls ->
  exists data' work', repeat_step n (diffusion_step false (lay 0 ls) dx k) (data, work) = Some (data', work') /\
    zlen data' = zlen data /\ sumQ data' = sumQ data.
Proof.
  intros ls dx k n data work F Ld Fd L Lw P. revert data work L Lw; induction n as [|n IH]; intros data work L Lw; cbn [repeat_step]; [eauto|].
  unfold diffusion_step at 1. set (t := fun i => (k * lap ls dx data (position (lay 0 ls) i) + nth (Z.to_nat i) data 0)%Qc).
  assert (0 <= nodes (lay 0 ls)) as Hn by (apply (nodes_nonneg 0), wf_lay, lims_le, F).
  rewrite (for_nodes_eq ls _ t); auto.
  2:{ intros i Hi. rewrite laplacian_at_serial by auto. cbn [bind]. rewrite read_int_0 by auto. reflexivity. }
  cbn [bind]. set (new := tab _ t). assert (zlen new = cells (lay 0 ls)) as Ln by (unfold new; rewrite tab_len, cells_nodes_0; auto).
  destruct (IH new data Ln L) as (d' & w' & E & Z & S). exists d', w'. split; [auto|]. split; [lia|]. rewrite S. unfold new. rewrite sum_tab. unfold t.
  rewrite sumQ_add, sumQ_mul, lap_sum by auto. rewrite <- cells_nodes_0, <- L, sum_list. ring.
Qed.
Print Assumptions C36_diffusion.

(* the Cahn-Hilliard program *)
Theorem C36_cahn_hilliard : forall ls dx r u K M dt n old new temp, Forall serial_axis ls -> length dx = length ls -> Forall (fun h => h <> 0%Qc) dx ->
  zlen old = cells (lay 0 ls) -> zlen new = cells (lay 0 ls) -> zlen temp = cells (lay 0 ls) -> Forall (fun l => periodic_axis l \/ insulated_axis l) ls ->
  exists old' new' temp', repeat_step n (cahn_hilliard_step false (lay 0 ls) dx r u K M dt) (old, new, temp) = Some (old', new', temp') /\
    zlen old' = zlen old /\ sumQ old' = sumQ old.
Proof.
  intros ls dx r u K M dt n old new temp F Ld Fd L Ln Lt P. revert old new temp L Ln Lt; induction n as [|n IH]; intros old new temp L Ln Lt; cbn [repeat_step]; [eauto 10|].
  assert (0 <= nodes (lay 0 ls)) as Hn by (apply (nodes_nonneg 0), wf_lay, lims_le, F).
  unfold cahn_hilliard_step at 1. unfold potential. erewrite for_nodes_eq; [|auto|].
  2:{ intros i Hi. rewrite read_int_0 by auto. cbn [bind]. rewrite laplacian_at_serial by auto. cbn [bind]. reflexivity. }
  cbn [bind]. set (mu := tab _ _). assert (zlen mu = cells (lay 0 ls)) as Lm by (unfold mu; rewrite tab_len, cells_nodes_0; auto).
  unfold flow. rewrite (for_nodes_eq ls _ (fun i => (nth (Z.to_nat i) old 0 + dt * M * lap ls dx mu (position (lay 0 ls) i))%Qc)); auto.
  2:{ intros i Hi. rewrite read_int_0 by auto. cbn [bind]. rewrite laplacian_at_serial by auto. reflexivity. }
  cbn [bind]. set (nw := tab _ _). assert (zlen nw = cells (lay 0 ls)) as Lnw by (unfold nw; rewrite tab_len, cells_nodes_0; auto).
  destruct (IH nw old mu Lnw L Lm) as (o' & n' & t' & E & Z & S). exists o', n', t'. split; [auto|]. split; [lia|]. rewrite S. unfold nw. rewrite sum_tab.
  rewrite sumQ_add, sumQ_mul, lap_sum by auto. rewrite <- cells_nodes_0, <- L, sum_list. ring.
Qed.
Print Assumptions C36_cahn_hilliard.

Example C36_case :
  let ls := [mkLim 0 3 0 3 periodic periodic; mkLim 0 2 0 2 Neumann Dirichlet] in
  Forall serial_axis ls /\ Forall (fun l => periodic_axis l \/ insulated_axis l) ls /\
  exists d w, repeat_step 3 (diffusion_step false (lay 0 ls) [1; 1]%Qc (Q2Qc (1 # 8))) (map Qc_of [7; 0; 0; 0; 1; 0], map Qc_of [0; 0; 0; 0; 0; 0]) = Some (d, w) /\ sumQ d = Qc_of 8.
Proof.
  split; [|split].
  - repeat constructor; simpl; unfold serial_side, Neumann, Dirichlet, periodic, mirror; lia.
  - constructor; [left|constructor; [right|constructor]]; repeat split; simpl; auto; lia.
  - do 2 eexists. split; [vm_compute; reflexivity|]. apply qc_this_eq. vm_compute. reflexivity.
Qed.
(* mirror sides do not conserve: on two nodes 0, 1 the Laplacians are 2 and -2, on three nodes 1, 0, 0 they are -2, 1, 0 *)
Example C36_mirror_case :
  let ls := [mkLim 0 3 0 3 mirror mirror] in
  exists L, map_opt (laplacian_at false (lay 0 ls) [1%Qc] (map Qc_of [1; 0; 0])) (zrange 0 3) = Some L /\ sumQ L <> 0%Qc.
Proof. eexists. split; [vm_compute; reflexivity|]. intros E. apply (f_equal this) in E. vm_compute in E. discriminate. Qed.

(* ---- gradient and divergence ---- *)
Theorem C37_gradient_formula : forall mpi axs dx data x f, length x = length axs -> length dx = length axs -> Forall (fun h => h <> 0%Qc) dx ->
  star mpi axs data x f ->
  gradient mpi axs dx data x = Some (map (fun i => first_difference f x i (spacing dx i)) (zrange 0 (zlen axs))) /\
  exists g, gradient mpi axs dx data x = Some g /\ divergence mpi axs dx data x = Some (sumQ g).
Proof.
  intros mpi axs dx data x f Lx Ld F St. rewrite (gradient_eq _ _ _ _ _ _ Lx Ld F St). split; [auto|]. eexists. split; [reflexivity|]. now apply divergence_eq.
Qed.
Print Assumptions C37_gradient_formula.
Theorem C37_field_gradient : forall mpi axs dx n data x f j, length x = length axs -> length dx = length axs -> Forall (fun h => h <> 0%Qc) dx ->
  0 <= j < n -> star mpi axs data x f -> (forall y, zlen (f y) = n) ->
  fgradient mpi axs dx data x j = Some (map (fun i => first_difference (fun y => nth (Z.to_nat j) (f y) 0%Qc) x i (spacing dx i)) (zrange 0 (zlen axs))).
Proof. intros. now apply (fgradient_eq mpi axs dx n data x f j). Qed.
Print Assumptions C37_field_gradient.

Theorem C37_gradient_affine : forall mpi axs dx a b data x, length x = length axs -> length dx = length axs -> length b = length axs ->
  Forall (fun h => h <> 0%Qc) dx -> star mpi axs data x (fun y => affine a b (phys dx y)) ->
  gradient mpi axs dx data x = Some b.
Proof.
  intros mpi axs dx a b data x Lx Ld Lb F St. rewrite (gradient_eq _ _ _ _ _ _ Lx Ld F St). f_equal. etransitivity; [|symmetry; apply list_tab]. unfold tab.
  replace (zlen b) with (zlen axs) by (unfold zlen; lia). apply map_ext_in. intros i Hi. apply in_zrange in Hi. apply affine_first; [lia|unfold zlen in *; lia|]. apply spacing_nz; auto. unfold zlen in *. lia.
Qed.
Print Assumptions C37_gradient_affine.

(* component i sums to zero over the domain if axis i is periodic *)
Theorem C37_gradient_sum : forall ls dx data i, Forall serial_axis ls -> length dx = length ls -> Forall (fun h => h <> 0%Qc) dx ->
  zlen data = cells (lay 0 ls) -> 0 <= i < zlen ls -> periodic_axis (nth (Z.to_nat i) ls (mkLim 0 0 0 0 0 0)) ->
  exists L, map_opt (fun n => do g <- gradient false (lay 0 ls) dx data (position (lay 0 ls) n); get g i) (zrange 0 (nodes (lay 0 ls))) = Some L /\ sumQ L = 0%Qc.
Proof.
  intros ls dx data i F Ld Fd L Hi P. set (f := at_or 0%Qc (lay 0 ls) data).
  exists (map (fun n => first_difference f (position (lay 0 ls) n) i (spacing dx i)) (zrange 0 (nodes (lay 0 ls)))). split.
  - apply map_opt_map. intros n Hn. apply in_zrange in Hn. pose proof (pos_box ls F n Hn) as B.
    assert (length (position (lay 0 ls) n) = length (lay 0 ls)) as Lx' by (rewrite length_lay; now apply local_len).
    assert (length dx = length (lay 0 ls)) as Ld' by now rewrite length_lay.
    rewrite (gradient_eq _ _ _ _ _ _ Lx' Ld' Fd (serial_star 0%Qc ls data _ F L B)). cbn [bind].
    fold (tab (zlen (lay 0 ls)) (fun i => first_difference f (position (lay 0 ls) n) i (spacing dx i))). apply get_tab. now rewrite zlen_lay.
  - rewrite (nodes_sum 0 ls (fun x => first_difference f x i (spacing dx i))) by now apply lims_le. unfold first_difference. fold c2.
    pose proof (spacing_nz dx i Fd ltac:(unfold zlen in *; lia)) as Nz. pose proof c2_nz as Nz2.
    transitivity (/ (c2 * spacing dx i) * boxsum ls (fun x => 1 * f (cbs ls (nb x i 1)) + 0 * f x + - (1) * f (cbs ls (nb x i (-1)))))%Qc.
    + rewrite <- boxsum_mul. apply boxsum_ext. intros x Hx.
      assert (forall d, d = 1 \/ d = -1 -> f (nb x i d) = f (cbs ls (nb x i d))) as E.
      { intros d Hdd. unfold f, at_or. pose proof (local_len ls x Hx) as Lx. rewrite !read_idx.
        - rewrite (cbs_in ls (cbs ls (nb x i d))); [reflexivity|]. now apply nb_box.
        - pose proof (nb_box ls x i d F Hx ltac:(lia) Hdd) as B. now apply local_len in B.
        - now rewrite nb_len. }
      rewrite !E by auto. field. auto.
    + assert (boxsum ls (fun x => 1 * f (cbs ls (nb x i 1)) + 0 * f x + - (1) * f (cbs ls (nb x i (-1))))%Qc = 0%Qc) as ->; [|ring].
      replace i with (Z.of_nat (Z.to_nat i)) by lia. apply (axis_sum ls (Z.to_nat i) periodic_axis); auto.
      * intros l g Pl. rewrite (line_periodic l g 1 Pl), (line_periodic l g (-1) Pl) by auto. ring.
      * unfold zlen in Hi. lia.
Qed.
Print Assumptions C37_gradient_sum.

(* the divergence of a grid of vectors: component j is the sum over all axes of the differences of field j *)
Theorem C37_vector_divergence : forall mpi axs dx n data x f, length x = length axs -> length dx = length axs -> Forall (fun h => h <> 0%Qc) dx ->
  0 <= n <= zlen axs -> star mpi axs data x f -> (forall y, zlen (f y) = n) ->
  exists v, vdivergence mpi axs dx data x = Some v /\ zlen v = zlen axs /\
    forall j, 0 <= j < n -> get v j = Some (sumQ (map (fun i => first_difference (fun y => nth (Z.to_nat j) (f y) 0%Qc) x i (spacing dx i)) (zrange 0 (zlen axs)))).
Proof.
  intros mpi axs dx n data x f Lx Ld F Hn St Lf. rewrite (vdivergence_eq mpi axs dx n data x f) by (auto; lia). destruct (Z.leb_spec n (zlen axs)); [|lia]. cbn [orb].
  eexists. split; [reflexivity|]. split; [apply tab_len; lia|]. intros j Hj. rewrite get_tab by lia. destruct (Z.ltb_spec j n); [reflexivity|lia].
Qed.
Print Assumptions C37_vector_divergence.

(* it is not the divergence: for the vectors (y, 0) it is (1, 0), although the sum of the differences of field i along axis i is 0 *)
Theorem C37_vector_divergence_refuted :
  exists ls (data : list (list Qc)) x f, Forall serial_axis ls /\ zlen data = cells (lay 0 ls) /\ star false (lay 0 ls) data x f /\
    (forall y, zlen (f y) = zlen ls) /\
    sumQ (map (fun i => first_difference (fun y => nth (Z.to_nat i) (f y) 0%Qc) x i 1%Qc) (zrange 0 (zlen ls))) = 0%Qc /\
    exists v, vdivergence false (lay 0 ls) [1; 1]%Qc data x = Some v /\ sumQ v = 1%Qc.
Proof.
  set (ls := [mkLim 0 3 0 3 periodic periodic; mkLim 0 3 0 3 periodic periodic]).
  set (data := map (fun i => [Qc_of (i mod 3); 0%Qc]) (zrange 0 9)).
  exists ls, data, [1; 1], (at_or [0; 0]%Qc (lay 0 ls) data).
  assert (Forall serial_axis ls) as F by (repeat constructor; simpl; unfold serial_side, periodic; lia).
  split; [auto|]. split; [reflexivity|]. split; [apply serial_star; auto; simpl; lia|]. split; [|split].
  - intros y. unfold at_or. destruct (grid_read _ _ _ _) as [v|] eqn:E; [|reflexivity]. unfold grid_read in E. destruct (addr_vec _ _ _ _); [|discriminate]. cbn [bind] in E.
    unfold get in E. destruct (_ <? _); [discriminate|]. apply nth_error_In in E. unfold data in E. apply in_map_iff in E as (i & <- & _). reflexivity.
  - apply qc_this_eq. vm_compute. reflexivity.
  - eexists. split; [vm_compute; reflexivity|]. apply qc_this_eq. vm_compute. reflexivity.
Qed.
Print Assumptions C37_vector_divergence_refuted.

Example C37_case :
  let ls := [mkLim 0 3 0 3 periodic periodic; mkLim 0 4 0 4 Neumann Neumann] in
  gradient false (lay 0 ls) [1; Q2Qc (1 # 2)]%Qc (map (fun i => Qc_of (5 * (i / 4) - 2 * (i mod 4))) (zrange 0 12)) [1; 2] = Some (map Qc_of [5; -4]).
Proof. vm_compute. apply (f_equal Some), (f_equal2 cons); [apply qc_this_eq; reflexivity|reflexivity]. Qed.

(* C38: in bounds if and only if there are no more fields than dimensions *)
Theorem C38_bounds_partial : forall mpi axs dx n data x f, length x = length axs -> length dx = length axs -> Forall (fun h => h <> 0%Qc) dx ->
  0 <= n -> 0 < zlen axs -> star mpi axs data x f -> (forall y, zlen (f y) = n) ->
  (vdivergence mpi axs dx data x <> None <-> n <= zlen axs).
Proof.
  intros mpi axs dx n data x f Lx Ld F Hn Hd St Lf. rewrite (vdivergence_eq mpi axs dx n data x f) by auto.
  destruct (Z.leb_spec n (zlen axs)), (Z.eqb_spec (zlen axs) 0); cbn [orb]; split; try lia; congruence.
Qed.
Print Assumptions C38_bounds_partial.

Theorem C38_refuted : exists ls (data : list (list Qc)) x, Forall serial_axis ls /\ zlen data = cells (lay 0 ls) /\ in_box (map l_x0 ls) (map l_x1 ls) x /\
  Forall (fun v => zlen v = 3) data /\ vdivergence false (lay 0 ls) [1; 1]%Qc data x = None.
Proof.
  exists [mkLim 0 3 0 3 periodic periodic; mkLim 0 3 0 3 periodic periodic], (map (fun i => [1; 1; 1]%Qc) (zrange 0 9)), [1; 1].
  split; [repeat constructor; simpl; unfold serial_side, periodic; lia|]. split; [reflexivity|]. split; [simpl; lia|]. split; [repeat constructor|vm_compute; reflexivity].
Qed.
Print Assumptions C38_refuted.

(* ---- C59: no new extrema ---- *)
(* with k * (sum over the axes of 2 / h^2) <= 1, the values of the diffusion program stay between the smallest and largest initial value *)
Theorem C59_maximum_principle : forall ls dx k n data work m M, Forall serial_axis ls -> length dx = length ls -> Forall (fun h => h <> 0%Qc) dx ->
  zlen data = cells (lay 0 ls) -> zlen work = cells (lay 0 ls) ->
  (0 <= k)%Qc -> (k * sumQ (map (fun h => Q2Qc (2 # 1) / (h * h)) dx) <= 1)%Qc ->
  Forall (fun v => m <= v <= M)%Qc data ->
  exists data' work', repeat_step n (diffusion_step false (lay 0 ls) dx k) (data, work) = Some (data', work') /\
    zlen data' = zlen data /\ Forall (fun v => m <= v <= M)%Qc data'.
Proof.
  intros ls dx k n data work m M F Ld Fd L Lw Hk Hs. revert data work L Lw; induction n as [|n IH]; intros data work L Lw Fm; cbn [repeat_step]; [eauto|].
  unfold diffusion_step at 1. set (t := fun i => (k * lap ls dx data (position (lay 0 ls) i) + nth (Z.to_nat i) data 0)%Qc).
  assert (0 <= nodes (lay 0 ls)) as Hn by (apply (nodes_nonneg 0), wf_lay, lims_le, F).
  rewrite (for_nodes_eq ls _ t); auto.
  2:{ intros i Hi. rewrite laplacian_at_serial by auto. cbn [bind]. rewrite read_int_0 by auto. reflexivity. }
  cbn [bind]. set (new := tab _ t). assert (zlen new = cells (lay 0 ls)) as Ln by (unfold new; rewrite tab_len, cells_nodes_0; auto).
  destruct (IH new data Ln L) as (d' & w' & E & Z & S).
  - unfold new, tab. apply Forall_forall. intros v Hv. apply in_map_iff in Hv as (i & <- & Hi). apply in_zrange in Hi. unfold t.
    destruct (lap_bounds ls dx F Ld Fd data m M i L Hi Fm) as [Lo Up].
    assert (m <= nth (Z.to_nat i) data 0 <= M)%Qc as [A B].
    { rewrite Forall_forall in Fm. apply Fm, nth_In. rewrite <- cells_nodes_0, <- L in Hi. unfold zlen in Hi. lia. }
    split; [eapply conv_low|eapply conv_high]; eauto.
  - exists d', w'. split; [auto|]. split; [lia|auto].
Qed.
Print Assumptions C59_maximum_principle.

Example C59_case :
  let ls := [mkLim 0 3 0 3 periodic periodic; mkLim 0 2 0 2 Neumann mirror] in
  Forall serial_axis ls /\ (Q2Qc (1 # 4) * sumQ (map (fun h => Q2Qc (2 # 1) / (h * h)) [1; 1]) <= 1)%Qc /\
  exists d w, repeat_step 2 (diffusion_step false (lay 0 ls) [1; 1]%Qc (Q2Qc (1 # 4))) (map Qc_of [8; 0; 0; 0; 0; 0], map Qc_of [0; 0; 0; 0; 0; 0]) = Some (d, w) /\ Forall (fun v => 0 <= v <= Qc_of 8)%Qc d.
Proof.
  split; [|split].
  - repeat constructor; simpl; unfold serial_side, Neumann, Dirichlet, periodic, mirror; lia.
  - unfold Qcle. vm_compute. discriminate.
  - do 2 eexists. split; [vm_compute; reflexivity|]. repeat (constructor; [unfold Qcle; vm_compute; split; discriminate|]). constructor.
Qed.

(* the program itself uses the factor 0.3 on a two-dimensional grid of unit spacing, beyond the bound 0.25: a concentration can become negative *)
Theorem C59_example_factor_refuted : exists ls data work, Forall serial_axis ls /\ zlen data = cells (lay 0 ls) /\ zlen work = cells (lay 0 ls) /\
  zlen ls = 2 /\ Forall (fun v => 0 <= v <= 1)%Qc data /\
  exists data' work', diffusion_step false (lay 0 ls) [1; 1]%Qc (Q2Qc (3 # 10)) (data, work) = Some (data', work') /\ Exists (fun v => v < 0)%Qc data'.
Proof.
  exists [mkLim 0 3 0 3 Dirichlet Dirichlet; mkLim 0 3 0 3 Dirichlet Dirichlet], (map Qc_of [0; 0; 0; 0; 1; 0; 0; 0; 0]), (map Qc_of [0; 0; 0; 0; 0; 0; 0; 0; 0]).
  split; [repeat constructor; simpl; unfold serial_side, Dirichlet; lia|]. split; [reflexivity|]. split; [reflexivity|]. split; [reflexivity|].
  split; [repeat (constructor; [unfold Qcle; vm_compute; split; discriminate|]); constructor|].
  do 2 eexists. split; [vm_compute; reflexivity|]. do 4 apply Exists_cons_tl. apply Exists_cons_hd. unfold Qclt. vm_compute. reflexivity.
Qed.
Print Assumptions C59_example_factor_refuted.
