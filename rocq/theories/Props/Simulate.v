(* C60: a simulation gives the same field on any number of processes. *)
From Verif Require Import Model.Base Model.Boundary Model.Layout Model.Access Model.Setup Model.Codec Model.MPI Model.Ghostswap Model.Stencil Model.Simulate
  Spec.Box Spec.Access Spec.Bytes Spec.Decomp Spec.Schedule Spec.Stencil Proof.BaseL Proof.CodecL Proof.ExecL Proof.SimulateL.

(* D r, U r: storage of the two grids of rank r; D0, U0: of the serial program.  The ranks start from the serial field.
   [rule] is the arithmetic of one node, any function of its coordinates and the values of its star.  Conditions: the cell type can be
   serialised and the rule yields such cells, no message exceeds MPI's int count, no block is narrower than the ghost width (at least
   one), mirror sides only on axes of two nodes or more. *)
Theorem C60_parallel_equals_serial : forall T (c : codec T) valid np gs bs ghosts B rule n (D U : Z -> list T) (D0 U0 : list T),
  serialises c valid -> 0 < np -> gs <> [] -> 1 <= ghosts -> 0 <= B -> (forall v, valid v -> c_size c v <= B) ->
  Forall2 (fun g b => gx_0 g < gx_1 g /\ serial_side (fst b) (glen g) /\ serial_side (snd b) (glen g)) gs bs ->
  (forall r ge, 0 <= r < np -> setup_mpi np gs ghosts r = Some ge ->
     Forall (fun a => a_x0 a < a_x1 a /\ ghosts <= a_x1 a - a_x0 a) (ge_axes ge) /\ cells (ge_axes ge) * B <= int_max /\
     zlen (D r) = cells (ge_axes ge) /\ Forall valid (D r) /\ zlen (U r) = cells (ge_axes ge) /\ Forall valid (U r) /\
     forall y, owns ge y -> grid_read true (ge_axes ge) (D r) y = grid_read false (whole gs bs) D0 y) ->
  (forall x vs, Forall valid vs -> zlen vs = 1 + 2 * zlen gs -> exists v, rule x vs = Some v /\ valid v) ->
  zlen D0 = cells (whole gs bs) -> zlen U0 = cells (whole gs bs) ->
  exists D0' D' f, serial_loop rule (whole gs bs) n D0 U0 = Some D0' /\ finished np D' f /\
    inevitable (ranks np (rank_simulation rule c set_bounds_axis np gs bs ghosts D U n), no_chans) f /\
    forall r ge y, 0 <= r < np -> setup_mpi np gs ghosts r = Some ge -> owns ge y ->
      exists v, grid_read true (ge_axes ge) (D' r) y = Some v /\ grid_read false (whole gs bs) D0' y = Some v.
Proof. exact @simulation. Qed.
Print Assumptions C60_parallel_equals_serial.

(* 4 x 2 cells on two ranks, periodic and Neumann/mirror; the rule adds all values modulo 1000 *)
Definition total (_ : list Z) (vs : list Z) : option Z := Some (sumZ vs mod 1000).
Definition field (x : list Z) : Z := match x with [a; b] => 10 * a + b | _ => 0 end.
Definition shares (gs : list gaxis) (np r : Z) : list Z :=
  match setup_mpi np gs 1 r with
  | Some ge => map (fun p => let y := [a_s0 (nth 0 (ge_axes ge) (mkAxis 0 0 0 0 0 0 0 0 0 0)) + p / 4; a_s0 (nth 1 (ge_axes ge) (mkAxis 0 0 0 0 0 0 0 0 0 0)) + p mod 4] in
                            if existsb (fun i => if list_eq_dec Z.eq_dec (position (ge_axes ge) i) y then true else false) (zrange 0 (nodes (ge_axes ge))) then field y else 0)
                   (zrange 0 (cells (ge_axes ge)))
  | None => []
  end.
Example C60_case :
  let gs := [mkG 0 4; mkG 0 2] in let bs := [(periodic, periodic); (Neumann, mirror)] in
  let D0 := map (fun i => field [i / 2; i mod 2]) (zrange 0 8) in
  Forall2 (fun g b => gx_0 g < gx_1 g /\ serial_side (fst b) (glen g) /\ serial_side (snd b) (glen g)) gs bs /\
  (forall r ge, 0 <= r < 2 -> setup_mpi 2 gs 1 r = Some ge ->
     Forall (fun a => a_x0 a < a_x1 a /\ 1 <= a_x1 a - a_x0 a) (ge_axes ge) /\ cells (ge_axes ge) * 4 <= int_max /\
     zlen (shares gs 2 r) = cells (ge_axes ge) /\ Forall int_range (shares gs 2 r)) /\
  (forall x vs, exists v, total x vs = Some v /\ int_range v) /\
  map_opt (fun r => do ge <- setup_mpi 2 gs 1 r; map_opt (fun i => let y := position (ge_axes ge) i in
      do a <- grid_read true (ge_axes ge) (shares gs 2 r) y; do b <- grid_read false (whole gs bs) D0 y; Some (a =? b)) (zrange 0 4)) [0; 1]
    = Some [[true; true; true; true]; [true; true; true; true]] /\
  (* and the result of three steps *)
  serial_loop total (whole gs bs) 3 D0 (repeat 0 8) = Some [639; 647; 649; 657; 179; 187; 189; 197] /\
  exists a b, results (fst (run 1000 (ranks 2 (rank_simulation total (pod_codec pod_int) set_bounds_axis 2 gs bs 1 (shares gs 2) (fun _ => repeat 0 16) 3), no_chans))) = Some [a; b] /\
    map (fun p => nth p a 0) [5; 6; 9; 10]%nat ++ map (fun p => nth p b 0) [5; 6; 9; 10]%nat = [639; 647; 649; 657; 179; 187; 189; 197].
Proof.
  split; [|split; [|split; [|split; [|split]]]].
  - repeat constructor; simpl; unfold serial_side, Neumann, Dirichlet, periodic, mirror, glen; simpl; auto; lia.
  - intros r ge Hr E. assert (r = 0 \/ r = 1) as [-> | ->] by lia; vm_compute in E; inversion E; subst ge;
      (split; [repeat constructor; simpl; lia|]; split; [vm_compute; discriminate|]; split; [vm_compute; reflexivity|]);
      apply Forall_forall; intros v Hv; vm_compute in Hv; unfold int_range; simpl;
      repeat (destruct Hv as [<-|Hv]; [split; vm_compute; congruence|]); destruct Hv.
  - intros x vs. eexists. split; [reflexivity|]. pose proof (Z.mod_pos_bound (sumZ vs) 1000). unfold int_range. split; cbn; lia.
  - vm_compute. reflexivity.
  - vm_compute. reflexivity.
  - do 2 eexists. split; [vm_compute; reflexivity|]. vm_compute. reflexivity.
Qed.

(* Boundary conditions assigned without the test on the position of the block, as in the two-dimensional diffusion example:
   the sides between the ranks become boundaries of the domain. *)
Definition upper (_ : list Z) (vs : list Z) : option Z := get vs 1.
Theorem C60_unconditional_bounds_refuted : exists gs bs (D U : Z -> list Z) (D0 U0 : list Z),
  Forall2 (fun g b => gx_0 g < gx_1 g /\ serial_side (fst b) (glen g) /\ serial_side (snd b) (glen g)) gs bs /\
  (forall r ge y, 0 <= r < 2 -> setup_mpi 2 gs 1 r = Some ge -> owns ge y -> grid_read true (ge_axes ge) (D r) y = grid_read false (whole gs bs) D0 y) /\
  exists f d0 d1 ge D0' y, inevitable (ranks 2 (rank_simulation upper (pod_codec pod_int) force_bounds_axis 2 gs bs 1 D U 1), no_chans) f /\ fst f = [Ret d0; Ret d1] /\
    serial_loop upper (whole gs bs) 1 D0 U0 = Some D0' /\ setup_mpi 2 gs 1 0 = Some ge /\ owns ge y /\
    grid_read true (ge_axes ge) d0 y <> grid_read false (whole gs bs) D0' y.
Proof.
  exists [mkG 0 4], [(Dirichlet, Dirichlet)], (fun r => if r =? 0 then [0; 0; 1; 0] else [0; 2; 3; 0]), (fun _ => [0; 0; 0; 0]), [0; 1; 2; 3], [0; 0; 0; 0].
  split; [constructor; [simpl; split; [lia|]; split; right; left; reflexivity|constructor]|]. split.
  { intros r ge y Hr E O. assert (r = 0 \/ r = 1) as [-> | ->] by lia; vm_compute in E; inversion E; subst ge; unfold owns in O; simpl in O;
      destruct y as [|a [|b y]]; try tauto; destruct O as [O _];
      [assert (a = 0 \/ a = 1) as [-> | ->] by lia|assert (a = 2 \/ a = 3) as [-> | ->] by lia]; vm_compute; reflexivity. }
  exists (run 100 (ranks 2 (rank_simulation upper (pod_codec pod_int) force_bounds_axis 2 [mkG 0 4] [(Dirichlet, Dirichlet)] 1 (fun r => if r =? 0 then [0; 0; 1; 0] else [0; 2; 3; 0]) (fun _ => [0; 0; 0; 0]) 1), no_chans)).
  do 4 eexists. exists [1]. split; [eapply run_inevitable; [discriminate|vm_compute; reflexivity]|]. split; [vm_compute; reflexivity|]. split; [vm_compute; reflexivity|]. split; [vm_compute; reflexivity|].
  split; [unfold owns; simpl; repeat split; lia|]. vm_compute. congruence.
Qed.
Print Assumptions C60_unconditional_bounds_refuted.

(* the one-dimensional diffusion example exchanges the ghosts of the wrong grid: wrong from the second step on *)
Theorem C60_stale_ghosts_refuted : exists gs bs (D U : Z -> list Z) (D0 U0 : list Z),
  Forall2 (fun g b => gx_0 g < gx_1 g /\ serial_side (fst b) (glen g) /\ serial_side (snd b) (glen g)) gs bs /\
  (forall r ge y, 0 <= r < 2 -> setup_mpi 2 gs 1 r = Some ge -> owns ge y -> grid_read true (ge_axes ge) (D r) y = grid_read false (whole gs bs) D0 y) /\
  exists f d0 d1 ge D0' y, inevitable (ranks 2 (rank_simulation_stale upper (pod_codec pod_int) 2 gs bs 1 D U 2), no_chans) f /\ fst f = [Ret d0; Ret d1] /\
    serial_loop upper (whole gs bs) 2 D0 U0 = Some D0' /\ setup_mpi 2 gs 1 0 = Some ge /\ owns ge y /\
    grid_read true (ge_axes ge) d0 y <> grid_read false (whole gs bs) D0' y.
Proof.
  exists [mkG 0 4], [(Dirichlet, Dirichlet)], (fun r => if r =? 0 then [0; 0; 1; 0] else [0; 2; 3; 0]), (fun r => if r =? 0 then [0; 0; 1; 0] else [0; 2; 3; 0]), [0; 1; 2; 3], [0; 1; 2; 3].
  split; [constructor; [simpl; split; [lia|]; split; right; left; reflexivity|constructor]|]. split.
  { intros r ge y Hr E O. assert (r = 0 \/ r = 1) as [-> | ->] by lia; vm_compute in E; inversion E; subst ge; unfold owns in O; simpl in O;
      destruct y as [|a [|b y]]; try tauto; destruct O as [O _];
      [assert (a = 0 \/ a = 1) as [-> | ->] by lia|assert (a = 2 \/ a = 3) as [-> | ->] by lia]; vm_compute; reflexivity. }
  exists (run 200 (ranks 2 (rank_simulation_stale upper (pod_codec pod_int) 2 [mkG 0 4] [(Dirichlet, Dirichlet)] 1 (fun r => if r =? 0 then [0; 0; 1; 0] else [0; 2; 3; 0]) (fun r => if r =? 0 then [0; 0; 1; 0] else [0; 2; 3; 0]) 2), no_chans)).
  do 4 eexists. exists [1]. split; [eapply run_inevitable; [discriminate|vm_compute; reflexivity]|]. split; [vm_compute; reflexivity|]. split; [vm_compute; reflexivity|]. split; [vm_compute; reflexivity|].
  split; [unfold owns; simpl; repeat split; lia|]. vm_compute. congruence.
Qed.
Print Assumptions C60_stale_ghosts_refuted.
