(* C113: simulations move between machines of different byte order. *)
From Coq Require Import String Permutation.
From Verif Require Import Model.Base Model.Text Model.Boundary Model.Layout Model.Access Model.Setup Model.Codec Model.Region Model.MPI Model.Ghostswap Model.File Model.Simulate Model.Types Model.Endian
  Spec.Box Spec.Bytes Spec.Access Spec.Decomp Spec.File Spec.Schedule Spec.Jobs Spec.Runs Spec.Mixed Spec.Endian Spec.Moved
  Proof.BaseL Proof.TextL Proof.LayoutL Proof.AccessL Proof.MPIL Proof.ExecL Proof.CodecL Proof.RegionL Proof.FileL Proof.SetupL Proof.GhostL Proof.HaloL Proof.CheckpointL Proof.EndianL Proof.EndianF Proof.JobsL Proof.MixedL Proof.TypesL Proof.OpensL Proof.MovedL
  Props.File Props.Endian.
From Verif Require Spec.Types.
Local Open Scope list_scope.
Local Open Scope Z_scope.

Lemma field_block {T} nums gs (B : list (Z * Z)) gh np (D : list T) V V' : 0 < np -> gs <> [] -> Forall (fun g => int_box g /\ gx_0 g < gx_1 g) gs -> has_field gs B D V -> has_field gs B D V' ->
  forall r, 0 <= r < np -> rank_block nums gs B gh np V r = rank_block nums gs B gh np V' r.
Proof.
  intros Hnp Hne Hb F F' r Hr. assert (gok gs) as Hok by (unfold gok; eapply Forall_impl; [|exact Hb]; simpl; lia).
  destruct (setup_eq np gs gh r Hnp Hne Hok Hr) as (p & _ & _ & _ & _ & E). cbv zeta in E. unfold rank_block. f_equal.
  rewrite nodes_coords by (now rewrite !map_length). rewrite !flat_map_concat_map. f_equal. apply map_ext_in. intros y Hy. f_equal.
  apply in_coords in Hy; [|now rewrite !map_length]. apply in_rng1 in Hy. unfold rank_axes in Hy. rewrite E in Hy.
  match type of E with _ = Some ?g => destruct (with_bcs_same B (ge_axes g)) as (E1 & E2 & _); rewrite E1, E2 in Hy; pose proof (owned_inside np gs gh r g y) as O end.
  assert (in_box (map gx_0 gs) (map gx_1 gs) y) as I by (apply O; auto). pose proof (F y I). pose proof (F' y I). congruence.
Qed.

(* The description of files by the numbers in them is right: it gives the file that np ranks write here *)
Theorem C113_here : forall T (c : codec T) k w nums valid fresh S (dshow : S -> list byte) dparse raw compress uncompress name fields gs dx B gh,
  storable c valid fresh dshow dparse compress uncompress name fields gs dx B gh -> cell_type k w T c nums valid ->
  forall np D V file, checkpoint c valid dshow dparse raw compress name fields gs dx B gh np D file -> has_field gs B D V ->
  file = machine_file nums (fun x => x) (if raw then fun x => x else compress) dshow name fields gs dx B gh np V.
Proof.
  intros T c k w nums valid fresh S dshow dparse raw compress uncompress name fields gs dx B gh Hs CT np D V file (data & V0 & Wr & Fd & Wf) Fd'.
  destruct Hs. assert (file = CheckpointL.file c raw compress dshow name fields gs dx B np gh data) as -> by (eapply writes_unique; [exact Wf|]; eapply writes_portable; eauto).
  pose proof Wr as [].
  change (CheckpointL.file c raw compress dshow name fields gs dx B np gh data) with (file_in c raw compress dshow name fields gs dx B np gh data (zrange 0 np)).
  rewrite <- (file_stored c valid fresh raw compress uncompress dshow dparse name fields gs dx B np gh data V0 t_codec t_zip Wr k w nums (zrange 0 np) CT (Permutation_refl _)).
  unfold machine_file. f_equal. apply map_ext_in. intros r Hr. apply in_zrange in Hr. eapply field_block; eauto.
Qed.
Print Assumptions C113_here.

Section Moved.
Context t k w {T} (c : codec T) nums valid fresh {S} (dshow : S -> list byte) dparse compress uncompress {F} (fshow : F -> list byte) fparse pack fields gs dx B gh np (D : list T) V file
  (M : movable t k w c nums valid fresh dshow dparse compress uncompress fshow fparse pack fields gs dx B gh np D V file).
Context (threads : nat) (Ht : (0 < threads)%nat).
Let foreign := machine_file nums (@rev byte) pack dshow (bytes t) fields gs dx B gh np V.

Lemma moved : (exists out, converts compress uncompress fshow fparse threads foreign out) /\
  forall out, converts compress uncompress fshow fparse threads foreign out ->
    (exists ws, Permutation (zrange 0 np) ws /\ out = stored_file (fun x => x) compress (header dshow (bytes t) fields gs dx) (map (rank_block nums gs B gh np V) ws)) /\
    (threads = 1%nat -> out = machine_file nums (fun x => x) compress dshow (bytes t) fields gs dx B gh np V).
Proof using All.
  destruct M. destruct v_store. destruct v_here as (data & V0 & Wr & Fd & _). pose proof Wr as []. destruct v_text as (fs & Hfs).
  destruct (C44_blocks compress uncompress pack S F dshow fshow fparse t k w fields gs dx fs (map (rank_block nums gs B gh np V) (zrange 0 np)) threads) as [Ex U]; auto.
  - intros x. pose proof (proj2 (t_zip x)). pose proof (zlen_nonneg x). assert (9 * zlen x / 8 <= 5 * zlen x / 4); [|lia].
    replace (5 * zlen x / 4) with (10 * zlen x / 8) by (replace (10 * zlen x) with (5 * zlen x * 2) by lia; change 8 with (4 * 2); apply Z.div_mul_cancel_r; lia). apply Z.div_le_mono; lia.
  - split; [|exact v_dim]. clear - t_ne. destruct gs; [easy|]. rewrite zlen_cons. pose proof (zlen_nonneg l). lia.
  - eapply Forall_impl; [|exact t_box]. simpl. tauto.
  - unfold int_range in w_npi. rewrite zlen_map, zlen_zrange; lia.
  - apply Forall_forall. intros b Hb. apply in_map_iff in Hb as (r & <- & Hr). apply in_zrange in Hr.
    pose proof (rank_wax c valid fresh false compress uncompress dshow dparse (bytes t) fields gs dx B np gh data V0 t_codec t_zip Wr r Hr) as Ew.
    destruct (rank_writable c valid fresh false compress uncompress dshow dparse t_codec t_zip (bytes t) fields gs dx B w_name w_fields w_dim w_ne w_box w_dx w_exact w_bc w_bcs np gh w_np w_npi w_gh data V0 w_hold w_valid w_rec r Hr) as (Lw & _ & _ & _).
    rewrite <- Ew in Lw. split; [unfold rank_block; cbn [bk_lims]; rewrite zlen_map; unfold zlen; lia|]. split; [unfold rank_block; cbn [bk_bcs]; rewrite zlen_map; unfold zlen; lia|]. split; [|now apply v_size].
    unfold rank_block. cbn [bk_numbers]. exists (map (fun x => nums (V x)) (nodes_in (map a_x0 (rank_axes np gs gh B r)) (map a_x1 (rank_axes np gs gh B r)))). split; [apply flat_map_concat_map|].
    apply Forall_map, Forall_forall. intros y Hy. rewrite nodes_coords in Hy by now rewrite !map_length. apply in_coords in Hy; [|now rewrite !map_length]. apply in_rng1 in Hy.
    assert (gok gs) as Hok by (unfold gok; eapply Forall_impl; [|exact w_box]; simpl; lia).
    destruct (setup_eq np gs gh r w_np w_ne Hok Hr) as (p & _ & _ & _ & _ & E). cbv zeta in E. unfold rank_axes in Hy. rewrite E in Hy.
    match type of E with _ = Some ?g => destruct (with_bcs_same B (ge_axes g)) as (E1 & E2 & _); rewrite E1, E2 in Hy; pose proof (owned_inside np gs gh r g y) as O end.
    assert (in_box (map gx_0 gs) (map gx_1 gs) y) as I by (apply O; auto). pose proof (v_field y I). pose proof (Fd y I).
    apply (cell_type_ok k w T c nums valid v_cells). replace (V y) with (V0 y) by congruence. now apply w_valid.
  - split; [exact Ex|]. intros out Ho. destruct (U out Ho) as [(bl' & P & ->) O]. split; [|exact O].
    apply Permutation_sym, Permutation_map_inv in P. destruct P as (ws & -> & Pw). exists ws. split; [now apply Permutation_sym|reflexivity].
Qed.

Lemma moved_file out : converts compress uncompress fshow fparse threads foreign out ->
  exists data V0 ws, writable_run c valid false compress dshow dparse (bytes t) fields gs dx B np gh data V0 /\ has_field gs B D V0 /\ Permutation (zrange 0 np) ws /\
    out = file_in c false compress dshow (bytes t) fields gs dx B np gh data ws.
Proof using All.
  intros Ho. destruct moved as [_ U]. destruct (U out Ho) as [(ws & Pw & ->) _]. destruct M. pose proof v_store as []. destruct v_here as (data & V0 & Wr & Fd & _). pose proof Wr as [].
  exists data, V0, ws. split; [exact Wr|]. split; [exact Fd|]. split; [exact Pw|].
  rewrite <- (file_stored c valid fresh false compress uncompress dshow dparse (bytes t) fields gs dx B np gh data V0 t_codec t_zip Wr k w nums ws v_cells Pw).
  f_equal. apply map_ext_in. intros r Hr. assert (0 <= r < np) by (apply in_zrange; eapply Permutation_in; [apply Permutation_sym; exact Pw|exact Hr]). eapply field_block; eauto.
Qed.
End Moved.

(* A file of np ranks from a machine of the other byte order: wrongendian, with any number of threads and in every schedule, makes of it the file
   that np ranks write here, up to the order of the blocks; with one thread or one rank, exactly that file *)
Theorem C113_converts : forall t k w T (c : codec T) nums valid fresh S (dshow : S -> list byte) dparse compress uncompress F (fshow : F -> list byte) fparse pack fields gs dx B gh np D V file,
  movable t k w c nums valid fresh dshow dparse compress uncompress fshow fparse pack fields gs dx B gh np D V file ->
  forall threads, (0 < threads)%nat -> let foreign := machine_file nums (@rev byte) pack dshow (bytes t) fields gs dx B gh np V in
  (exists out, converts compress uncompress fshow fparse threads foreign out) /\
  forall out, converts compress uncompress fshow fparse threads foreign out ->
    (exists ws, Permutation (zrange 0 np) ws /\ out = stored_file (fun x => x) compress (header dshow (bytes t) fields gs dx) (map (rank_block nums gs B gh np V) ws)) /\
    (threads = 1%nat \/ np = 1 -> out = file).
Proof.
  intros t k w T c nums valid fresh S dshow dparse compress uncompress F fshow fparse pack fields gs dx B gh np D V file M threads Ht foreign.
  pose proof M as [Hs _ CT _ _ _ _ _ Fd Ck].
  pose proof (C113_here T c k w nums valid fresh S dshow dparse false compress uncompress (bytes t) fields gs dx B gh Hs CT np D V file Ck Fd) as Ef. cbn iota in Ef.
  edestruct (moved t k w c nums valid fresh dshow dparse compress uncompress fshow fparse pack fields gs dx B gh np D V file M threads Ht) as [Ex U].
  split; [exact Ex|]. intros out Ho. destruct (U out Ho) as [(ws & Pw & E) One]. split; [now exists ws|]. intros [H| ->]; [rewrite Ef; now apply One|].
  rewrite E, Ef. change (zrange 0 1) with [0] in Pw. apply Permutation_length_1_inv in Pw. now subst ws.
Qed.
Print Assumptions C113_converts.

(* the serial program finds the field in the converted file *)
Theorem C113_serial : forall t k w T (c : codec T) nums valid fresh S (dshow : S -> list byte) dparse compress uncompress F (fshow : F -> list byte) fparse pack fields gs dx B gh np D V file,
  movable t k w c nums valid fresh dshow dparse compress uncompress fshow fparse pack fields gs dx B gh np D V file ->
  forall threads out, (0 < threads)%nat -> converts compress uncompress fshow fparse threads (machine_file nums (@rev byte) pack dshow (bytes t) fields gs dx B gh np V) out ->
  shows c fresh dparse false uncompress (bytes t) fields gs dx B out D.
Proof.
  intros t k w T c nums valid fresh S dshow dparse compress uncompress F fshow fparse pack fields gs dx B gh np D V file M threads out Ht Ho.
  destruct (moved_file t k w c nums valid fresh dshow dparse compress uncompress fshow fparse pack fields gs dx B gh np D V file M threads Ht out Ho) as (data & V0 & ws & Wr & Fd & Pw & ->).
  destruct M. eapply read_any; eauto.
Qed.
Print Assumptions C113_serial.

(* the programs that make pictures and tables open the converted file *)
Theorem C113_opens : forall p k e t kc w T (cod : kind -> elem -> codec T) fresh nums valid S (dshow : S -> list byte) dparse compress uncompress F (fshow : F -> list byte) fparse pack fields gs dx B gh np D V file,
  bytes t = grid_name k e -> cod KScalar e = cod KPlain e -> Spec.Types.supported p k e ->
  movable t kc w (cod k e) nums valid (fresh (Spec.Types.opened_as p k) e) dshow dparse compress uncompress fshow fparse pack fields gs dx B gh np D V file ->
  forall threads out, (0 < threads)%nat -> converts compress uncompress fshow fparse threads (machine_file nums (@rev byte) pack dshow (bytes t) fields gs dx B gh np V) out ->
  exists ld, open_grid cod fresh dparse false uncompress p out = Done (Spec.Types.opened_as p k, e, ld) /\
    ld_fields ld = fields /\ ld_dx ld = dx /\ lo_axes (ld_local ld) = whole gs B /\ lo_data (ld_local ld) = D.
Proof.
  intros p k e t kc w T cod fresh nums valid S dshow dparse compress uncompress F fshow fparse pack fields gs dx B gh np D V file Et Cs Su M threads out Ht Ho.
  destruct (C113_serial _ _ _ _ _ _ _ _ _ _ _ _ _ _ _ _ _ _ _ _ _ _ _ _ _ _ M threads out Ht Ho) as (ld & I & R).
  destruct (moved_file t kc w _ nums valid _ dshow dparse compress uncompress fshow fparse pack fields gs dx B gh np D V file M threads Ht out Ho) as (data & V0 & ws & _ & _ & _ & ->).
  exists ld. split; [|exact R]. unfold file_in in *. rewrite Et in *. apply open_reads; auto. destruct M. split; [|exact v_dim]. destruct v_store. clear - t_ne. destruct gs as [|g l]; [easy|]. rewrite zlen_cons. pose proof (zlen_nonneg l). lia.
Qed.
Print Assumptions C113_opens.

(* np' ranks that read the converted file: they come to the end exactly if they would with the file written here (see C25), and then have the field *)
Theorem C113_parallel : forall t k w T (c : codec T) nums valid fresh S (dshow : S -> list byte) dparse compress uncompress F (fshow : F -> list byte) fparse pack fields gs dx B gh np D V file,
  movable t k w c nums valid fresh dshow dparse compress uncompress fshow fparse pack fields gs dx B gh np D V file ->
  forall threads out, (0 < threads)%nat -> converts compress uncompress fshow fparse threads (machine_file nums (@rev byte) pack dshow (bytes t) fields gs dx B gh np V) out ->
  forall np' gh', 0 < np' -> 0 <= gh' -> can_exchange c valid fresh fields gs np' gh' ->
  (evenly np gs gh np' gh' ->
     exists L f, finished np' L f /\ inevitable (all_input c fresh dparse false uncompress np' gh' (bytes t) (length gs) out) f /\
     forall r ge, 0 <= r < np' -> setup_mpi np' gs gh' r = Some ge ->
       ld_fields (L r) = fields /\ ld_dx (L r) = dx /\ ld_geom (L r) = ge /\ zlen (lo_data (ld_local (L r))) = cells (ge_axes ge) /\
       ((forall q geq, 0 <= q < np' -> setup_mpi np' gs gh' q = Some geq -> Forall (fun a => a_x0 a < a_x1 a /\ gh' <= a_x1 a - a_x0 a) (ge_axes geq)) ->
        lo_axes (ld_local (L r)) = with_bcs B (ge_axes ge) /\
        forall y, owns ge y -> grid_read true (lo_axes (ld_local (L r))) (lo_data (ld_local (L r))) y = Some (V y))) /\
  (~ evenly np gs gh np' gh' ->
     forall n s, steps n (all_input c fresh dparse false uncompress np' gh' (bytes t) (length gs) out) s -> forall a, ~ finished np' a s).
Proof.
  intros t k w T c nums valid fresh S dshow dparse compress uncompress F fshow fparse pack fields gs dx B gh np D V file M threads out Ht Ho np' gh' Hnp' Hgh' Ce.
  destruct (moved_file t k w c nums valid fresh dshow dparse compress uncompress fshow fparse pack fields gs dx B gh np D V file M threads Ht out Ho) as (data & V0 & ws & Wr & Fd & Pw & ->).
  destruct M. pose proof v_store as []. destruct (reads_in c valid fresh false compress uncompress dshow dparse (bytes t) fields gs dx B np gh data V0 t_codec t_zip Wr ws np' gh' Pw Hnp' Hgh' Ce) as [R1 R2].
  split; [|exact R2]. intros Ev. destruct (R1 Ev) as (L & f & Fi & In & H). exists L, f. split; [exact Fi|]. split; [exact In|]. intros r ge Hr E.
  destruct (H r ge Hr E) as (H1 & H2 & H3 & H4 & _ & H6). split; [exact H1|]. split; [exact H2|]. split; [exact H3|]. split; [exact H4|]. intros Wd. destruct (H6 Wd) as [Ax Vl]. split; [exact Ax|].
  intros y O. assert (gok gs) as Hok by (unfold gok; eapply Forall_impl; [|exact t_box]; simpl; lia).
  assert (in_box (map gx_0 gs) (map gx_1 gs) y) as I by (eapply owned_inside; eauto).
  rewrite (Vl y).
  - rewrite wrap_in by exact I. pose proof (v_field y I). pose proof (Fd y I). congruence.
  - pose proof (deco_setup np' gs gh' Hnp' t_ne Hok Hgh') as DC. pose proof (dc_wf _ _ _ _ DC r Hr) as Wf. cbv beta in Wf. rewrite E in Wf. eapply local_in_storage; eauto.
  - intros j g b Nj _. assert (gx_0 g <= nth j y 0 < gx_1 g); [|lia]. clear - I Nj. revert y j I Nj. induction gs as [|g0 gs IH]; intros [|e y] [|j] I Nj; try discriminate; simpl in I; try easy.
    + injection Nj as ->. simpl. lia.
    + simpl. apply IH; [apply I|exact Nj].
Qed.
Print Assumptions C113_parallel.

(* 0, 300, ... 1500 in two blocks, packed by adding a byte, on a machine with the other byte order *)
Local Notation four := (pod_codec (pod_raw 4)).
Local Notation four_ok := (fun v : list Z => zlen v = 4).
Local Notation unzip := (fun (y : list byte) (_ : Z) => Some (tl y)).
Definition six_V (x : list Z) : list byte := match x with [k] => pd_enc pod_int (300 * k) | _ => [0; 0; 0; 0] end.
Definition six_data (r : Z) : list (list byte) := map (fun k => six_V [k]) (if r =? 0 then [9; 0; 1; 2; 9] else [9; 3; 4; 5; 9]).
Definition six_field : list (list byte) := map (fun k => six_V [k]) [0; 1; 2; 3; 4; 5].
Definition six_bcs := [(Neumann, periodic)].
Lemma zip_lossless : lossless (cons 0) unzip.
Proof. intros x. split; [reflexivity|]. rewrite zlen_cons. pose proof (zlen_nonneg x). Z.to_euclidean_division_equations; lia. Qed.
Lemma six_storable : storable four four_ok (fun _ => [0; 0; 0; 0]) show_int ex_parse (cons 0) unzip ex_name 1 ex_gs [2] six_bcs 1.
Proof.
  destruct ex_run. split; auto.
  - apply pod_serialises. split; [cbn; lia|]. intros v H. cbn. auto.
  - exact zip_lossless.
  - lia.
  - repeat constructor; simpl; unfold serial_side, Neumann, Dirichlet, periodic, mirror, glen; simpl; auto; lia.
Qed.
Lemma six_run : writable_run four four_ok false (cons 0) show_int ex_parse ex_name 1 ex_gs [2] six_bcs 2 1 six_data six_V.
Proof.
  destruct six_storable. split; auto; try lia.
  - intros r ge Hr E. assert (r = 0 \/ r = 1) as [->| ->] by lia; vm_compute in E; inversion E; subst ge; (split; [reflexivity|]).
    + intros [|x [|y t]] O; unfold owns in O; simpl in O; try tauto. assert (x = 0 \/ x = 1 \/ x = 2) as [->|[->| ->]] by lia; reflexivity.
    + intros [|x [|y t]] O; unfold owns in O; simpl in O; try tauto. assert (x = 3 \/ x = 4 \/ x = 5) as [->|[->| ->]] by lia; reflexivity.
  - intros [|x [|y t]] O; simpl in O; tauto || reflexivity.
  - intros r ge Hr E n bs Sz To.
    assert (r = 0 \/ r = 1) as [->| ->] by lia; vm_compute in E; inversion E; subst ge; vm_compute in Sz; inversion Sz; subst n; (split; [vm_compute; congruence|intros _; rewrite zlen_cons; lia]).
  - intros r ge blk Hr E W.
    assert (r = 0 \/ r = 1) as [->| ->] by lia; vm_compute in E; inversion E; subst ge; vm_compute in W; inversion W; subst blk; vm_compute; congruence.
Qed.
Example C113_case : exists file out,
  movable "grid:scalar:int" Scalars 4 four scalar_numbers four_ok (fun _ => [0; 0; 0; 0]) show_int ex_parse (cons 0) unzip show_int ex_parse (cons 0) 1 ex_gs [2] six_bcs 1 2 six_field six_V file /\
  machine_file scalar_numbers (@rev byte) (cons 0) show_int ex_name 1 ex_gs [2] six_bcs 1 2 six_V <> file /\
  converts (cons 0) unzip show_int ex_parse 2 (machine_file scalar_numbers (@rev byte) (cons 0) show_int ex_name 1 ex_gs [2] six_bcs 1 2 six_V) out /\
  shows four (fun _ => [0; 0; 0; 0]) ex_parse false unzip ex_name 1 ex_gs [2] six_bcs out six_field.
Proof.
  set (file := CheckpointL.file four false (cons 0) show_int ex_name 1 ex_gs [2] six_bcs 2 1 six_data). pose proof six_storable as Hs. pose proof six_run as Wr.
  assert (has_field ex_gs six_bcs six_field six_V) as Hf.
  { intros [|x [|y t]] O; simpl in O; try tauto. assert (x = 0 \/ x = 1 \/ x = 2 \/ x = 3 \/ x = 4 \/ x = 5) as H by lia. repeat (destruct H as [-> | H]; [reflexivity|]). subst x. reflexivity. }
  assert (movable "grid:scalar:int" Scalars 4 four scalar_numbers four_ok (fun _ => [0; 0; 0; 0]) show_int ex_parse (cons 0) unzip show_int ex_parse (cons 0) 1 ex_gs [2] six_bcs 1 2 six_field six_V file) as M.
  { split; auto.
    - cbn. tauto.
    - constructor.
    - vm_compute. discriminate.
    - exists [2]. constructor; [|constructor]. split; [reflexivity|]. destruct Hs. now inversion t_exact.
    - intros x n _. reflexivity.
    - intros r Hr. assert (r = 0 \/ r = 1) as [->| ->] by lia; vm_compute; intuition congruence.
    - exists six_data, six_V. split; [exact Wr|]. split; [exact Hf|]. destruct Hs. eapply writes_portable; eauto. }
  destruct (C113_converts _ _ _ _ _ _ _ _ _ _ _ _ _ _ _ _ _ _ _ _ _ _ _ _ _ _ M 2%nat ltac:(lia)) as [[out Ho] _].
  exists file, out. split; [exact M|]. split; [vm_compute; discriminate|]. split; [exact Ho|]. eapply C113_serial; [exact M| |exact Ho]. lia.
Qed.
