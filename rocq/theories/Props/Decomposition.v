(* C06-C10: the domain decomposition made by the grid constructor. *)
From Verif Require Import Model.Base Model.Boundary Model.Layout Model.Setup Spec.Box Spec.Decomp
  Proof.BaseL Proof.SetupL.

(* C06 *)
Theorem C06_partition : forall np gs ghosts x,
  0 < np -> gs <> [] -> Forall (fun g => gx_0 g <= gx_1 g) gs ->
  in_box (map gx_0 gs) (map gx_1 gs) x ->
  exists r ge, 0 <= r < np /\ setup_mpi np gs ghosts r = Some ge /\ owns ge x /\
    (forall r' ge', 0 <= r' < np -> setup_mpi np gs ghosts r' = Some ge' -> owns ge' x -> r' = r).
Proof. exact partition. Qed.
Print Assumptions C06_partition.

Theorem C06_inside : forall np gs ghosts r ge x,
  0 < np -> gs <> [] -> Forall (fun g => gx_0 g <= gx_1 g) gs -> 0 <= r < np ->
  setup_mpi np gs ghosts r = Some ge -> owns ge x -> in_box (map gx_0 gs) (map gx_1 gs) x.
Proof. exact owned_inside. Qed.
Print Assumptions C06_inside.

Example C06_case :
  let gs := [mkG 0 7; mkG (-2) 3] in
  Forall (fun g => gx_0 g <= gx_1 g) gs /\
  match setup_mpi 6 gs 1 4 with
  | Some ge => map a_x0 (ge_axes ge) = [5; -2] /\ map a_x1 (ge_axes ge) = [7; 1] /\ ge_p1 ge = [3; 2]
  | None => False
  end.
Proof. split; [repeat constructor; simpl; lia|]. vm_compute. repeat split. Qed.

(* C07 *)
Theorem C07_procgrid_optimal : forall np gs,
  0 < np -> gs <> [] -> Forall (fun g => gx_0 g <= gx_1 g) gs ->
  exists p, choose_p1 np gs = Some p /\ procgrid np (length gs) p /\
    (forall q, procgrid np (length gs) q ->
       halo_area 1 (map glen gs) p <= halo_area 1 (map glen gs) q).
Proof. exact choose_p1_ok. Qed.
Print Assumptions C07_procgrid_optimal.

Example C07_case : choose_p1 12 [mkG 0 100; mkG 0 40; mkG 0 10] = Some [6; 2; 1] /\
  halo_area 1 [100; 40; 10] [6; 2; 1] = 13800 /\ halo_area 1 [100; 40; 10] [3; 2; 2] = 16600.
Proof. repeat split; vm_compute; reflexivity. Qed.

(* C08 *)
Theorem C08_balanced : forall np gs ghosts r r' ge ge' i a a',
  0 < np -> gs <> [] -> Forall (fun g => gx_0 g <= gx_1 g) gs -> 0 <= r < np -> 0 <= r' < np ->
  setup_mpi np gs ghosts r = Some ge -> setup_mpi np gs ghosts r' = Some ge' ->
  nth_error (ge_axes ge) i = Some a -> nth_error (ge_axes ge') i = Some a' ->
  Z.abs ((a_x1 a - a_x0 a) - (a_x1 a' - a_x0 a')) <= 1 /\
  a_x0 a <= a_x1 a /\
  (a_x0 a = a_x1 a -> exists p, nth_error (ge_p1 ge) i = Some p /\ a_g1 a - a_g0 a < p).
Proof. exact balanced. Qed.
Print Assumptions C08_balanced.

(* a rank may be left without cells *)
Theorem C08_nonempty_refuted : exists np gs r ge, 0 < np /\ gs <> [] /\
  Forall (fun g => gx_0 g < gx_1 g) gs /\ 0 <= r < np /\ setup_mpi np gs 1 r = Some ge /\
  forall x, ~ owns ge x.
Proof.
  exists 5, [mkG 0 4; mkG 0 4], 4. eexists. split; [lia|]. split; [discriminate|].
  split; [repeat constructor; simpl; lia|]. split; [lia|]. split; [vm_compute; reflexivity|].
  intros x H. unfold owns in H. simpl in H.
  destruct x as [|a [|b [|c x]]]; simpl in H; try tauto; lia.
Qed.
Print Assumptions C08_nonempty_refuted.

(* C09 *)
Theorem C09_neighbours : forall np gs ghosts r ge i,
  0 < np -> gs <> [] -> Forall (fun g => gx_0 g <= gx_1 g) gs -> 0 <= r < np ->
  setup_mpi np gs ghosts r = Some ge -> (i < length gs)%nat ->
  exists up down geu ged,
    nth_error (ge_n1 ge) i = Some up /\ nth_error (ge_n0 ge) i = Some down /\
    0 <= up < np /\ 0 <= down < np /\
    setup_mpi np gs ghosts up = Some geu /\ setup_mpi np gs ghosts down = Some ged /\
    (* mutual *)
    nth_error (ge_n0 geu) i = Some r /\ nth_error (ge_n1 ged) i = Some r /\
    (* same extents on the other axes *)
    (forall j, j <> i -> nth_error (ge_axes geu) j = None /\ nth_error (ge_axes ge) j = None \/
       exists a au ad, nth_error (ge_axes ge) j = Some a /\ nth_error (ge_axes geu) j = Some au /\
         nth_error (ge_axes ged) j = Some ad /\
         a_x0 au = a_x0 a /\ a_x1 au = a_x1 a /\ a_x0 ad = a_x0 a /\ a_x1 ad = a_x1 a) /\
    (* adjacent on axis i, or opposite across the periodic boundary *)
    (exists a au ad, nth_error (ge_axes ge) i = Some a /\ nth_error (ge_axes geu) i = Some au /\
       nth_error (ge_axes ged) i = Some ad /\
       (a_x0 au = a_x1 a /\ a_x1 a <= a_g1 a \/ a_x1 a = a_g1 a /\ a_x0 au = a_g0 a) /\
       (a_x1 ad = a_x0 a \/ a_x0 a = a_g0 a /\ a_x1 ad = a_g1 a)).
Proof. exact neighbours. Qed.
Print Assumptions C09_neighbours.

Example C09_case :
  match setup_mpi 6 [mkG 0 7; mkG (-2) 3] 1 4, setup_mpi 6 [mkG 0 7; mkG (-2) 3] 1 0 with
  | Some ge, Some g0 => ge_n1 ge = [0; 5] /\ ge_n0 ge = [2; 5] /\ ge_n0 g0 = [4; 1]
  | _, _ => False
  end.
Proof. vm_compute. repeat split. Qed.

(* C10 *)
Theorem C10_flags : forall np gs ghosts r ge i a,
  0 < np -> gs <> [] -> Forall (fun g => gx_0 g <= gx_1 g) gs -> 0 <= r < np ->
  setup_mpi np gs ghosts r = Some ge -> nth_error (ge_axes ge) i = Some a ->
  (a_b0 a = parallel <-> a_x0 a <> a_g0 a) /\ (a_b0 a = periodic <-> a_x0 a = a_g0 a) /\
  (a_b1 a = parallel <-> a_x1 a <> a_g1 a) /\ (a_b1 a = periodic <-> a_x1 a = a_g1 a).
Proof. exact flags. Qed.
Print Assumptions C10_flags.

Example C10_case :
  match setup_mpi 6 [mkG 0 7; mkG (-2) 3] 1 2 with
  | Some ge => map a_b0 (ge_axes ge) = [parallel; periodic] /\ map a_b1 (ge_axes ge) = [parallel; parallel]
  | None => False
  end.
Proof. vm_compute. repeat split. Qed.
