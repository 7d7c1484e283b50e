(* C103: the explicit phase-field programs give the same field on any number of processes. *)
From Coq Require Import QArith.QArith QArith.Qcanon.
From Verif Require Import Model.Base Model.Num Model.Boundary Model.Layout Model.Access Model.Setup Model.Codec Model.MPI Model.Ghostswap Model.Sparse Model.Stencil Model.Evolve Model.Simulate Model.Dynamics
  Model.AnisoSparse Model.Zener Model.Stages Model.Program
  Spec.Box Spec.Access Spec.Bytes Spec.Decomp Spec.Schedule Spec.Stencil Spec.AnisoSparse Spec.Program
  Proof.BaseL Proof.CodecL Proof.LayoutL Proof.AccessL Proof.SimulateL Proof.StagesL Proof.ExecL Proof.ProgramL Proof.ProgramF Proof.ProgramN Proof.ProgramT Proof.ProgramU Props.Stages.
Local Open Scope Z_scope.

(* calls q: for every call of update() on rank q the number of steps and what the memory of newGrid held; calls0: the same in the serial run *)
Theorem C103_allen_cahn : forall (c : codec Qc) np gs bs ghosts B dx r u K M dt (D : Z -> list Qc) (calls : Z -> list (nat * list Qc)) (D0 D0' : list Qc) calls0,
  grids np gs bs ghosts B -> serialises c (fun _ => True) -> (forall v, c_size c v <= B) ->
  zlen D0 = cells (whole gs bs) -> Forall (fun b => zlen (snd b) = cells (whole gs bs)) calls0 ->
  (forall q ge, 0 <= q < np -> setup_mpi np gs ghosts q = Some ge -> zlen (D q) = cells (ge_axes ge) /\
     map fst (calls q) = map fst calls0 /\ Forall (fun a => zlen (snd a) = cells (ge_axes ge)) (calls q)) ->
  same_field np gs bs ghosts D D0 -> serial_calls (allen_cahn_program dx r u K M dt) (whole gs bs) 0 calls0 D0 = Some D0' ->
  computes (fun _ => True) np gs bs ghosts (rank_program (allen_cahn_program dx r u K M dt) c np gs bs ghosts D calls) D0'.
Proof.
  intros c np gs bs gh B dx r u K M dt D calls D0 D0' calls0 Gr S HB L0 Lc HD Sf E.
  assert (forall l : list Qc, Forall (fun _ => True) l) as Tr by (intros l; apply Forall_forall; auto).
  apply (one_any c (fun _ => True) _ (allen_node dx r u K M dt) np gs bs gh B D calls D0 D0' calls0); auto.
  - intros mpi g ls t old new Hg Hm Hl L. unfold allen_cahn_program, allen_cahn_step. now rewrite (for_nodes_cells mpi g ls) by auto.
  - intros t g1 ls i ls0 i0 old old0 a b; intros. eapply allen_local; eauto.
  - intros q ge Hq Eg. destruct (HD q ge Hq Eg) as (? & ? & F). split; [auto|]. split; [auto|]. split; [auto|]. eapply Forall_impl; [|exact F]. cbn. auto.
  - eapply Forall_impl; [|exact Lc]. cbn. auto.
Qed.
Print Assumptions C103_allen_cahn.

(* noise t x: the number drawn in step t for the node x, by the rank that has it or by the serial program *)
Theorem C103_model_A : forall (c : codec Qc) np gs bs ghosts B dx r u K M dt noise (D : Z -> list Qc) (calls : Z -> list (nat * list Qc)) (D0 D0' : list Qc) calls0,
  grids np gs bs ghosts B -> serialises c (fun _ => True) -> (forall v, c_size c v <= B) ->
  zlen D0 = cells (whole gs bs) -> Forall (fun b => zlen (snd b) = cells (whole gs bs)) calls0 ->
  (forall q ge, 0 <= q < np -> setup_mpi np gs ghosts q = Some ge -> zlen (D q) = cells (ge_axes ge) /\
     map fst (calls q) = map fst calls0 /\ Forall (fun a => zlen (snd a) = cells (ge_axes ge)) (calls q)) ->
  same_field np gs bs ghosts D D0 -> serial_calls (model_A_program dx r u K M dt noise) (whole gs bs) 0 calls0 D0 = Some D0' ->
  computes (fun _ => True) np gs bs ghosts (rank_program (model_A_program dx r u K M dt noise) c np gs bs ghosts D calls) D0'.
Proof.
  intros c np gs bs gh B dx r u K M dt noise D calls D0 D0' calls0 Gr S HB L0 Lc HD Sf E.
  assert (forall l : list Qc, Forall (fun _ => True) l) as Tr by (intros l; apply Forall_forall; auto).
  apply (one_any c (fun _ => True) _ (model_A_node dx r u K M dt noise) np gs bs gh B D calls D0 D0' calls0); auto.
  - intros mpi g ls t old new Hg Hm Hl L. unfold model_A_program, model_A_step. now rewrite (for_nodes_cells mpi g ls) by auto.
  - intros t g1 ls i ls0 i0 old old0 a b; intros. eapply model_A_local; eauto.
  - intros q ge Hq Eg. destruct (HD q ge Hq Eg) as (? & ? & F). split; [auto|]. split; [auto|]. split; [auto|]. eapply Forall_impl; [|exact F]. cbn. auto.
  - eapply Forall_impl; [|exact Lc]. cbn. auto.
Qed.
Print Assumptions C103_model_A.

(* isotropic grain growth on vectors of phase fields, without and with particles (pinned) *)
Theorem C103_dense : forall (c : codec (list Qc)) np gs bs ghosts B dx dt pinned fields (D : Z -> list (list Qc)) (calls : Z -> list (nat * list (list Qc))) (D0 D0' : list (list Qc)) calls0,
  grids np gs bs ghosts B -> serialises c (fun v => zlen v = fields) -> (forall v, zlen v = fields -> c_size c v <= B) -> 0 <= fields ->
  zlen D0 = cells (whole gs bs) -> Forall (fun v => zlen v = fields) D0 -> Forall (fun b => zlen (snd b) = cells (whole gs bs) /\ Forall (fun v => zlen v = fields) (snd b)) calls0 ->
  (forall q ge, 0 <= q < np -> setup_mpi np gs ghosts q = Some ge -> zlen (D q) = cells (ge_axes ge) /\ Forall (fun v => zlen v = fields) (D q) /\
     map fst (calls q) = map fst calls0 /\ Forall (fun a => zlen (snd a) = cells (ge_axes ge) /\ Forall (fun v => zlen v = fields) (snd a)) (calls q)) ->
  same_field np gs bs ghosts D D0 -> serial_calls (dense_program dx dt pinned fields) (whole gs bs) 0 calls0 D0 = Some D0' ->
  computes (fun v => zlen v = fields) np gs bs ghosts (rank_program (dense_program dx dt pinned fields) c np gs bs ghosts D calls) D0'.
Proof.
  intros c np gs bs gh B dx dt pinned fields D calls D0 D0' calls0 Gr S HB Hf L0 V0 Lc HD Sf E.
  apply (one_any c (fun v => zlen v = fields) _ (dense_node dx dt pinned fields) np gs bs gh B D calls D0 D0' calls0); auto.
  - intros t g1 ls i ls0 i0 old old0 a b; intros. eapply dense_local; eauto.
  - intros t ls0 old i a v _ _ _. apply dense_keep.
Qed.
Print Assumptions C103_dense.

(* anisotropic grain growth on vectors of phase fields, without and with particles *)
Theorem C103_multiphase : forall (c : codec (list Qc)) np gs bs ghosts B dx dt width energy eps mobility pinned fields (D : Z -> list (list Qc)) (calls : Z -> list (nat * list (list Qc))) (D0 D0' : list (list Qc)) calls0,
  grids np gs bs ghosts B -> serialises c (fun v => zlen v = fields) -> (forall v, zlen v = fields -> c_size c v <= B) ->
  zlen D0 = cells (whole gs bs) -> Forall (fun v => zlen v = fields) D0 -> Forall (fun b => zlen (snd b) = cells (whole gs bs) /\ Forall (fun v => zlen v = fields) (snd b)) calls0 ->
  (forall q ge, 0 <= q < np -> setup_mpi np gs ghosts q = Some ge -> zlen (D q) = cells (ge_axes ge) /\ Forall (fun v => zlen v = fields) (D q) /\
     map fst (calls q) = map fst calls0 /\ Forall (fun a => zlen (snd a) = cells (ge_axes ge) /\ Forall (fun v => zlen v = fields) (snd a)) (calls q)) ->
  same_field np gs bs ghosts D D0 -> serial_calls (multiphase_program dx dt width energy eps mobility pinned fields) (whole gs bs) 0 calls0 D0 = Some D0' ->
  computes (fun v => zlen v = fields) np gs bs ghosts (rank_program (multiphase_program dx dt width energy eps mobility pinned fields) c np gs bs ghosts D calls) D0'.
Proof.
  intros c np gs bs gh B dx dt width energy eps mobility pinned fields D calls D0 D0' calls0 Gr S HB L0 V0 Lc HD Sf E.
  apply (one_any c (fun v => zlen v = fields) _ (multiphase_node dx dt width energy eps mobility pinned fields) np gs bs gh B D calls D0 D0' calls0); auto.
  - intros t g1 ls i ls0 i0 old old0 a b; intros. eapply multiphase_local; eauto.
  - intros t ls0 old i a v _ F _. now apply multiphase_keep.
Qed.
Print Assumptions C103_multiphase.

(* the sparse programs: cells without uninitialised items, with distinct indices in 0..M-1; newGrid starts with empty cells, as the constructor of sparse leaves them *)
Definition indexed (M : Z) (o : sobj Qc) : Prop := exists l, o = map Some l /\ NoDup (map fst l) /\ Forall (fun it => 0 <= fst it < M) l.
Theorem C103_grow : forall (c : codec (sobj Qc)) np gs bs ghosts B M dx (D : Z -> list (sobj Qc)) calls (D0 D0' : list (sobj Qc)) (ns : list nat),
  grids np gs bs ghosts B -> serialises c (indexed M) -> (forall v, indexed M v -> c_size c v <= B) ->
  zlen D0 = cells (whole gs bs) -> Forall (indexed M) D0 ->
  (forall q ge, 0 <= q < np -> setup_mpi np gs ghosts q = Some ge -> zlen (D q) = cells (ge_axes ge) /\ Forall (indexed M) (D q) /\
     calls q = map (fun n => (n, repeat [] (Z.to_nat (cells (ge_axes ge))))) ns) ->
  same_field np gs bs ghosts D D0 -> serial_calls (grow_program dx) (whole gs bs) 0 (map (fun n => (n, repeat [] (Z.to_nat (cells (whole gs bs))))) ns) D0 = Some D0' ->
  computes (indexed M) np gs bs ghosts (rank_program (grow_program dx) c np gs bs ghosts D calls) D0'.
Proof.
  intros c np gs bs gh B M dx D calls D0 D0' ns Gr S HB L0 V0 HD Sf E.
  apply (one_fresh [] c (few M) _ (grow_node dx) np gs bs gh B D calls D0 D0' ns); auto.
  - exists []. repeat constructor.
  - intros. apply grow_loop.
  - intros t g1 ls i ls0 i0 old old0 a; intros. eapply grow_local; eauto.
  - intros t ls0 old i a v _ F _. now apply grow_keep.
Qed.
Print Assumptions C103_grow.
Theorem C103_aniso : forall (c : codec (sobj Qc)) np gs bs ghosts B M dx energy eps mobility pinned (D : Z -> list (sobj Qc)) calls (D0 D0' : list (sobj Qc)) (ns : list nat),
  grids np gs bs ghosts B -> serialises c (indexed M) -> (forall v, indexed M v -> c_size c v <= B) ->
  zlen D0 = cells (whole gs bs) -> Forall (indexed M) D0 ->
  (forall q ge, 0 <= q < np -> setup_mpi np gs ghosts q = Some ge -> zlen (D q) = cells (ge_axes ge) /\ Forall (indexed M) (D q) /\
     calls q = map (fun n => (n, repeat [] (Z.to_nat (cells (ge_axes ge))))) ns) ->
  same_field np gs bs ghosts D D0 -> serial_calls (aniso_program dx energy eps mobility pinned) (whole gs bs) 0 (map (fun n => (n, repeat [] (Z.to_nat (cells (whole gs bs))))) ns) D0 = Some D0' ->
  computes (indexed M) np gs bs ghosts (rank_program (aniso_program dx energy eps mobility pinned) c np gs bs ghosts D calls) D0'.
Proof.
  intros c np gs bs gh B M dx energy eps mobility pinned D calls D0 D0' ns Gr S HB L0 V0 HD Sf E.
  apply (one_fresh [] c (few M) _ (aniso_node dx energy eps mobility pinned) np gs bs gh B D calls D0 D0' ns); auto.
  - exists []. repeat constructor.
  - intros. apply aniso_loop.
  - intros t g1 ls i ls0 i0 old old0 a; intros. eapply aniso_local; eauto.
  - intros t ls0 old i a v _ F _. now apply aniso_keep.
Qed.
Print Assumptions C103_aniso.

(* Ostwald ripening; (n, new, temp): the number of steps and what the memory of newGrid and wspace held *)
Theorem C103_ostwald : forall (c : codec (list Qc)) (cw : codec Qc) np gs bs ghosts B dx P fields (D : Z -> list (list Qc)) (calls : Z -> list (nat * list (list Qc) * list Qc)) (D0 D0' : list (list Qc)) calls0,
  grids np gs bs ghosts B -> serialises c (fun v => zlen v = fields) -> (forall v, zlen v = fields -> c_size c v <= B) -> serialises cw (fun _ => True) -> (forall v, c_size cw v <= B) -> 1 <= fields ->
  zlen D0 = cells (whole gs bs) -> Forall (fun v => zlen v = fields) D0 ->
  Forall (fun b => zlen (snd (fst b)) = cells (whole gs bs) /\ Forall (fun v => zlen v = fields) (snd (fst b)) /\ zlen (snd b) = cells (whole gs bs)) calls0 ->
  (forall q ge, 0 <= q < np -> setup_mpi np gs ghosts q = Some ge -> zlen (D q) = cells (ge_axes ge) /\ Forall (fun v => zlen v = fields) (D q) /\
     map (fun a => fst (fst a)) (calls q) = map (fun a => fst (fst a)) calls0 /\
     Forall (fun a => zlen (snd (fst a)) = cells (ge_axes ge) /\ Forall (fun v => zlen v = fields) (snd (fst a)) /\ zlen (snd a) = cells (ge_axes ge)) (calls q)) ->
  same_field np gs bs ghosts D D0 -> serial_calls2 (ostwald_one dx P fields) (ostwald_two dx P fields) (whole gs bs) 0 calls0 D0 = Some D0' ->
  computes (fun v => zlen v = fields) np gs bs ghosts (rank_program2 (ostwald_one dx P fields) (ostwald_two dx P fields) c cw np gs bs ghosts D calls) D0'.
Proof.
  intros c cw np gs bs gh B dx P fields D calls D0 D0' calls0 Gr S HB Su HBu Hf L0 V0 Lc HD Sf E.
  assert (forall l : list Qc, Forall (fun _ => True) l) as Tr by (intros l; apply Forall_forall; auto).
  apply (two_program c cw (fun v => zlen v = fields) (fun _ => True) (ostwald_one dx P fields) (ostwald_two dx P fields) (ostwald_node1 dx P fields) (ostwald_node2 dx P fields) np gs bs gh B D calls D0 D0' calls0); auto.
  - intros mpi g ls t old temp Hg Hm Hl L. unfold ostwald_one, ostwald_potential. now rewrite (for_nodes_cells mpi g ls) by auto.
  - intros t g1 ls i ls0 i0 old old0 a b; intros. eapply ostwald1_local; eauto.
  - intros t g1 ls i ls0 i0 old old0 temp temp0 a b; intros. eapply ostwald2_local; eauto.
  - intros t ls0 old temp i a v _ _ _ _. apply ostwald2_keep.
  - intros r ge Hr Eg. destruct (HD r ge Hr Eg) as (L & V & Em & Fc). split; [auto|]. split; [auto|]. split.
    + intros y Oy. destruct (Sf r ge y Hr Eg Oy) as (v & -> & ->). reflexivity.
    + eapply Forall2_of; [exact Em|exact Fc|exact Lc|]. intros a b En (? & ? & ?) _. auto.
  - eapply Forall_impl; [|exact Lc]. cbn. intros a (? & ? & ?). auto.
Qed.
Print Assumptions C103_ostwald.

(* Model B with k = dt*M; the explicit Cahn-Hilliard program with noise 0; spinodal decomposition with r = u = K = 1, k = dt/(2.0*dV) *)
Theorem C103_model_B : forall (c : codec Qc) np gs bs ghosts B dx r u K k noise (D : Z -> list Qc) (calls : Z -> list (nat * list Qc * list Qc)) (D0 D0' : list Qc) calls0,
  grids np gs bs ghosts B -> serialises c (fun _ => True) -> (forall v, c_size c v <= B) ->
  zlen D0 = cells (whole gs bs) -> Forall (fun b => zlen (snd (fst b)) = cells (whole gs bs) /\ zlen (snd b) = cells (whole gs bs)) calls0 ->
  (forall q ge, 0 <= q < np -> setup_mpi np gs ghosts q = Some ge -> zlen (D q) = cells (ge_axes ge) /\
     map (fun a => fst (fst a)) (calls q) = map (fun a => fst (fst a)) calls0 /\ Forall (fun a => zlen (snd (fst a)) = cells (ge_axes ge) /\ zlen (snd a) = cells (ge_axes ge)) (calls q)) ->
  same_field np gs bs ghosts D D0 -> serial_calls2 (B_potential dx r u K noise) (B_flow dx k) (whole gs bs) 0 calls0 D0 = Some D0' ->
  computes (fun _ => True) np gs bs ghosts (rank_program2 (B_potential dx r u K noise) (B_flow dx k) c c np gs bs ghosts D calls) D0'.
Proof.
  intros c np gs bs gh B dx r u K k noise D calls D0 D0' calls0 Gr S HB L0 Lc HD Sf E.
  assert (forall l : list Qc, Forall (fun _ => True) l) as Tr by (intros l; apply Forall_forall; auto).
  apply (two_program c c (fun _ => True) (fun _ => True) (B_potential dx r u K noise) (B_flow dx k) (B_node1 dx r u K noise) (B_node2 dx k) np gs bs gh B D calls D0 D0' calls0); auto.
  - intros mpi g ls t old temp Hg Hm Hl L. unfold B_potential. now rewrite (for_nodes_cells mpi g ls) by auto.
  - intros mpi g ls t old temp new Hg Hm Hl L. unfold B_flow. now rewrite (for_nodes_cells mpi g ls) by auto.
  - intros t g1 ls i ls0 i0 old old0 a b; intros. eapply B1_local; eauto.
  - intros t g1 ls i ls0 i0 old old0 temp temp0 a b; intros. eapply B2_local; eauto.
  - intros q ge Hr Eg. destruct (HD q ge Hr Eg) as (L & Em & Fc). split; [auto|]. split; [auto|]. split.
    + intros y Oy. destruct (Sf q ge y Hr Eg Oy) as (v & -> & ->). reflexivity.
    + eapply Forall2_of; [exact Em|exact Fc|exact Lc|]. intros a b En (? & ?) _. auto.
  - eapply Forall_impl; [|exact Lc]. cbn. intros a (? & ?). auto.
Qed.
Print Assumptions C103_model_B.

(* ---- An example: four nodes in a ring on two ranks ---- *)
Definition fraction_pod : pod Qc := mkPod 2 (fun q => [Qnum (this q); Zpos (Qden (this q))]) (fun b => Q2Qc (nth 0 b 0 # Z.to_pos (nth 1 b 1))).
Definition fractions : codec (list Qc) := vector_codec fraction_pod.
Definition sparse_fractions : codec (sobj Qc) := mkCodec
  (fun o => c_size (sparse_codec [] fraction_pod) (AnisoSparse.stored o)) (fun o => c_to (sparse_codec [] fraction_pod) (AnisoSparse.stored o))
  (fun buf off => do r <- c_from (sparse_codec [] fraction_pod) buf off; Some (map Some (fst r), snd r)).
Lemma fraction_pod_ok : pod_ok fraction_pod (fun _ => True).
Proof.
  split; [cbn; lia|]. intros q _. split; [reflexivity|]. cbn [fraction_pod pd_enc pd_dec nth Z.to_pos]. apply Qc_is_canon. cbn [this Q2Qc]. rewrite Qred_correct. destruct q as [[a b] H]. reflexivity.
Qed.
Lemma fractions_ok n : 0 <= n <= int_max -> serialises fractions (fun v => zlen v = n).
Proof.
  intros Hn v Hv. apply (vector_serialises fraction_pod (fun _ => True) fraction_pod_ok v). split; [now apply Forall_forall|]. rewrite Hv. unfold int_range, int_max in *. lia.
Qed.
Lemma stored_map (l : list (Z * Qc)) : AnisoSparse.stored (map Some l) = l.
Proof. induction l as [|it l IH]; [reflexivity|]. cbn. f_equal. exact IH. Qed.
Lemma indexed_len M l : 0 <= M -> NoDup (map fst l) -> Forall (fun it : Z * Qc => 0 <= fst it < M) l -> zlen l <= M.
Proof.
  intros HM Nd F. assert (length (map fst l) <= length (zrange 0 M))%nat as H.
  { apply NoDup_incl_length; [auto|]. intros k Hk. apply in_map_iff in Hk as (it & <- & Hit). apply in_zrange. rewrite Forall_forall in F. now apply F. }
  rewrite map_length, length_zrange in H. unfold zlen. lia.
Qed.
Lemma sparse_fractions_ok M : 0 <= M <= int_max -> serialises sparse_fractions (indexed M) /\ forall v, indexed M v -> c_size sparse_fractions v <= 4 + 6 * M.
Proof.
  intros HM. split.
  - intros o (l & -> & Nd & F). pose proof (indexed_len M l ltac:(lia) Nd F) as Hl. destruct (sparse_serialises [] fraction_pod (fun _ => True) fraction_pod_ok l) as (bs & E1 & E2 & E3).
    { split; [|unfold int_range, int_max in *; pose proof (zlen_nonneg l); lia]. eapply Forall_impl; [|exact F]. cbn. intros it Hit. split; [|auto]. unfold int_range, int_max in *. lia. }
    exists bs. cbn [sparse_fractions c_size c_to c_from]. rewrite stored_map. split; [auto|]. split; [auto|]. intros pre post. rewrite E3. reflexivity.
  - intros o (l & -> & Nd & F). pose proof (indexed_len M l ltac:(lia) Nd F) as Hl. cbn [sparse_fractions c_size]. rewrite stored_map. cbn [sparse_codec vector_codec c_size item_pod pd_size fraction_pod]. unfold zlen in *. cbn [length] in *. lia.
Qed.
(* the ranks hold the nodes 0, 1 and 2, 3, and 7 for the ghosts *)
Definition around {T} (h : Z -> T) : list T := map h [3; -1; 0; 2].
Definition around_rank {T} (h : Z -> T) (r : Z) : list T := map h (if r =? 0 then [7; 3; -1; 7] else [7; 0; 2; 7]).
Lemma ring_grids B : 0 <= B -> 4 * B <= int_max -> grids 2 ring ring_sides 1 B.
Proof.
  intros B0 HB. split; [lia|]. split; [discriminate|]. split; [lia|]. split; [auto|]. split; [apply Forall2_cons; [split; [cbn; lia|]; split; right; right; left; reflexivity|apply Forall2_nil]|].
  intros q ge Hq E. assert (q = 0 \/ q = 1) as [-> | ->] by lia; vm_compute in E; inversion E; subst ge; (split; [repeat constructor; simpl; lia|exact HB]).
Qed.
Lemma ring_same {T} (h : Z -> T) : same_field 2 ring ring_sides 1 (around_rank h) (around h).
Proof.
  intros q ge y Hq E. assert (q = 0 \/ q = 1) as [-> | ->] by lia; vm_compute in E; inversion E; subst ge; intros O; unfold owns in O; simpl in O; destruct y as [|a [|b y]]; try tauto; destruct O as [O _];
      [assert (a = 0 \/ a = 1) as [-> | ->] by lia|assert (a = 2 \/ a = 3) as [-> | ->] by lia]; eexists; split; vm_compute; reflexivity.
Qed.
Lemma ring_cells q ge : 0 <= q < 2 -> setup_mpi 2 ring 1 q = Some ge -> cells (ge_axes ge) = 4.
Proof. intros Hq E. assert (q = 0 \/ q = 1) as [-> | ->] by lia; vm_compute in E; inversion E; reflexivity. Qed.
Definition Qz (z : Z) : Qc := Q2Qc (inject_Z z).
Definition eighth : Qc := Q2Qc (1 # 8).
(* two fields; a sparse cell with one or two fields *)
Definition two_fields (z : Z) : list Qc := [Qz z; (1 - Qz z)%Qc].
Definition some_fields (z : Z) : sobj Qc := if z <? 0 then [Some (0, half); Some (1, half)] else if z =? 0 then [Some (1, 1%Qc)] else [Some (0, 1%Qc)].
Definition some_ripening : ripening := mkRipening eighth 1 1 eighth half eighth 1 1 1 1 1 1 1 1%Qc.
Definition two_calls {X} (x : X) : list (nat * list X) := [(2, repeat x 4); (1, repeat x 4)]%nat.
Example C103_case :
  (exists D', serial_calls (allen_cahn_program [1%Qc] 1%Qc 1%Qc 1%Qc 1%Qc eighth) (whole ring ring_sides) 0 (two_calls 1%Qc) (around Qz) <> None /\
     always_ends 2 (rank_program (allen_cahn_program [1%Qc] 1%Qc 1%Qc 1%Qc 1%Qc eighth) fraction 2 ring ring_sides 1 (around_rank Qz) (fun r => two_calls (Qz (5 + r)))) D') /\
  (exists D', serial_calls (model_A_program [1%Qc] 1%Qc 1%Qc 1%Qc 1%Qc eighth ring_noise) (whole ring ring_sides) 0 (two_calls 1%Qc) (around Qz) <> None /\
     always_ends 2 (rank_program (model_A_program [1%Qc] 1%Qc 1%Qc 1%Qc 1%Qc eighth ring_noise) fraction 2 ring ring_sides 1 (around_rank Qz) (fun r => two_calls (Qz (5 + r)))) D') /\
  (exists D', serial_calls (dense_program [1%Qc] eighth true 2) (whole ring ring_sides) 0 (two_calls (two_fields 4)) (around two_fields) <> None /\
     always_ends 2 (rank_program (dense_program [1%Qc] eighth true 2) fractions 2 ring ring_sides 1 (around_rank two_fields) (fun r => two_calls (two_fields r))) D') /\
  (exists D', serial_calls (multiphase_program [1%Qc] eighth 1%Qc (fun _ _ => 1%Qc) (fun _ _ => 1%Qc) (fun _ _ => 1%Qc) false 2) (whole ring ring_sides) 0 (two_calls (two_fields 4)) (around two_fields) <> None /\
     always_ends 2 (rank_program (multiphase_program [1%Qc] eighth 1%Qc (fun _ _ => 1%Qc) (fun _ _ => 1%Qc) (fun _ _ => 1%Qc) false 2) fractions 2 ring ring_sides 1 (around_rank two_fields) (fun r => two_calls (two_fields r))) D') /\
  (exists D', serial_calls (grow_program [1%Qc]) (whole ring ring_sides) 0 (two_calls []) (around some_fields) <> None /\
     always_ends 2 (rank_program (grow_program [1%Qc]) sparse_fractions 2 ring ring_sides 1 (around_rank some_fields) (fun r => two_calls [])) D') /\
  (exists D', serial_calls (aniso_program [1%Qc] (fun _ _ => 1%Qc) (fun _ _ => 1%Qc) (fun _ _ => 1%Qc) true) (whole ring ring_sides) 0 (two_calls []) (around some_fields) <> None /\
     always_ends 2 (rank_program (aniso_program [1%Qc] (fun _ _ => 1%Qc) (fun _ _ => 1%Qc) (fun _ _ => 1%Qc) true) sparse_fractions 2 ring ring_sides 1 (around_rank some_fields) (fun r => two_calls [])) D') /\
  (exists D', serial_calls2 (ostwald_one [1%Qc] some_ripening 2) (ostwald_two [1%Qc] some_ripening 2) (whole ring ring_sides) 0 [(2%nat, repeat (two_fields 4) 4, zeros 4)] (around two_fields) <> None /\
     always_ends 2 (rank_program2 (ostwald_one [1%Qc] some_ripening 2) (ostwald_two [1%Qc] some_ripening 2) fractions fraction 2 ring ring_sides 1 (around_rank two_fields) (fun r => [(2%nat, repeat (two_fields r) 4, zeros 4)])) D').
Proof.
  assert (forall A (e : option A), e <> None -> exists a, e = Some a) as Sm by (intros A [a|] H; [eauto|congruence]).
  assert (forall T (h : Z -> T) q ge, 0 <= q < 2 -> setup_mpi 2 ring 1 q = Some ge -> zlen (around_rank h q) = cells (ge_axes ge)) as Lr
    by (intros T h q ge Hq Eg; rewrite (ring_cells q ge Hq Eg); assert (q = 0 \/ q = 1) as [-> | ->] by lia; reflexivity).
  assert (forall T (x : T) k, k = 4 -> Forall (fun b : nat * list T => zlen (snd b) = k) (two_calls x)) as Lc by (intros; subst; repeat constructor).
  assert (forall z, zlen (two_fields z) = 2) as Lf by reflexivity.
  assert (forall (P : Z -> Prop) (Q : list Qc -> Prop), (forall z, Q (two_fields z)) -> forall l, Forall Q (map two_fields l)) as Lm by (intros P Q H l; apply Forall_forall; intros v Hv; apply in_map_iff in Hv as (z & <- & _); auto).
  assert (forall z, indexed 2 (some_fields z)) as Ix.
  { intros z. unfold some_fields. destruct (z <? 0); [|destruct (z =? 0)]; eexists; (split; [|split]); [instantiate (1 := [_; _]); reflexivity| | |instantiate (1 := [_]); reflexivity| | |instantiate (1 := [_]); reflexivity| |];
      repeat (constructor; cbn; try lia; try tauto); intuition discriminate. }
  assert (forall l, Forall (indexed 2) (map some_fields l)) as Im by (intros l; apply Forall_forall; intros v Hv; apply in_map_iff in Hv as (z & <- & _); auto).
  pose proof (fractions_ok 2 ltac:(unfold int_max; lia)) as Sf. destruct (sparse_fractions_ok 2 ltac:(unfold int_max; lia)) as [Ss Bs].
  assert (forall q ge, 0 <= q < 2 -> setup_mpi 2 ring 1 q = Some ge -> zlen (around_rank two_fields q) = cells (ge_axes ge) /\ Forall (fun v => zlen v = 2) (around_rank two_fields q) /\
     map fst (two_calls (two_fields q)) = map fst (two_calls (two_fields 4)) /\ Forall (fun a => zlen (snd a) = cells (ge_axes ge) /\ Forall (fun v => zlen v = 2) (snd a)) (two_calls (two_fields q))) as Dense.
  { intros q ge Hq Eg. split; [now apply Lr|]. split; [unfold around_rank; now apply (Lm (fun _ => True))|]. split; [reflexivity|]. rewrite (ring_cells q ge Hq Eg). repeat constructor. }
  assert (forall q ge, 0 <= q < 2 -> setup_mpi 2 ring 1 q = Some ge -> zlen (around_rank some_fields q) = cells (ge_axes ge) /\ Forall (indexed 2) (around_rank some_fields q) /\
     two_calls ([] : sobj Qc) = map (fun n => (n, repeat [] (Z.to_nat (cells (ge_axes ge))))) [2; 1]%nat) as Sparse.
  { intros q ge Hq Eg. split; [now apply Lr|]. split; [unfold around_rank; now apply Im|]. rewrite (ring_cells q ge Hq Eg). reflexivity. }
  repeat match goal with |- _ /\ _ => split end.
  - assert (serial_calls (allen_cahn_program [1%Qc] 1%Qc 1%Qc 1%Qc 1%Qc eighth) (whole ring ring_sides) 0 (two_calls 1%Qc) (around Qz) <> None) as N by (vm_compute; discriminate).
    destruct (Sm _ _ N) as [D0' E]. destruct (C103_allen_cahn fraction 2 ring ring_sides 1 2 [1%Qc] 1%Qc 1%Qc 1%Qc 1%Qc eighth (around_rank Qz) (fun r => two_calls (Qz (5 + r))) (around Qz) D0' (two_calls 1%Qc)) as ((D' & A & _) & _);
      [apply ring_grids; unfold int_max; lia|exact fraction_ok|intros; cbn; lia|reflexivity|now apply Lc| |apply ring_same|exact E|exists D'; auto].
    intros q ge Hq Eg. split; [now apply Lr|]. split; [reflexivity|]. apply Lc. now apply (ring_cells q ge).
  - assert (serial_calls (model_A_program [1%Qc] 1%Qc 1%Qc 1%Qc 1%Qc eighth ring_noise) (whole ring ring_sides) 0 (two_calls 1%Qc) (around Qz) <> None) as N by (vm_compute; discriminate).
    destruct (Sm _ _ N) as [D0' E]. destruct (C103_model_A fraction 2 ring ring_sides 1 2 [1%Qc] 1%Qc 1%Qc 1%Qc 1%Qc eighth ring_noise (around_rank Qz) (fun r => two_calls (Qz (5 + r))) (around Qz) D0' (two_calls 1%Qc)) as ((D' & A & _) & _);
      [apply ring_grids; unfold int_max; lia|exact fraction_ok|intros; cbn; lia|reflexivity|now apply Lc| |apply ring_same|exact E|exists D'; auto].
    intros q ge Hq Eg. split; [now apply Lr|]. split; [reflexivity|]. apply Lc. now apply (ring_cells q ge).
  - assert (serial_calls (dense_program [1%Qc] eighth true 2) (whole ring ring_sides) 0 (two_calls (two_fields 4)) (around two_fields) <> None) as N by (vm_compute; discriminate).
    destruct (Sm _ _ N) as [D0' E]. destruct (C103_dense fractions 2 ring ring_sides 1 8 [1%Qc] eighth true 2 (around_rank two_fields) (fun r => two_calls (two_fields r)) (around two_fields) D0' (two_calls (two_fields 4))) as ((D' & A & _) & _);
      [apply ring_grids; unfold int_max; lia|exact Sf|intros v Hv; cbn; rewrite Hv; lia|lia|reflexivity|now apply (Lm (fun _ => True))|repeat constructor|exact Dense|apply ring_same|exact E|exists D'; auto].
  - assert (serial_calls (multiphase_program [1%Qc] eighth 1%Qc (fun _ _ => 1%Qc) (fun _ _ => 1%Qc) (fun _ _ => 1%Qc) false 2) (whole ring ring_sides) 0 (two_calls (two_fields 4)) (around two_fields) <> None) as N by (vm_compute; discriminate).
    destruct (Sm _ _ N) as [D0' E]. destruct (C103_multiphase fractions 2 ring ring_sides 1 8 [1%Qc] eighth 1%Qc (fun _ _ => 1%Qc) (fun _ _ => 1%Qc) (fun _ _ => 1%Qc) false 2 (around_rank two_fields) (fun r => two_calls (two_fields r)) (around two_fields) D0' (two_calls (two_fields 4))) as ((D' & A & _) & _);
      [apply ring_grids; unfold int_max; lia|exact Sf|intros v Hv; cbn; rewrite Hv; lia|reflexivity|now apply (Lm (fun _ => True))|repeat constructor|exact Dense|apply ring_same|exact E|exists D'; auto].
  - assert (serial_calls (grow_program [1%Qc]) (whole ring ring_sides) 0 (two_calls []) (around some_fields) <> None) as N by (vm_compute; discriminate).
    destruct (Sm _ _ N) as [D0' E]. destruct (C103_grow sparse_fractions 2 ring ring_sides 1 16 2 [1%Qc] (around_rank some_fields) (fun r => two_calls []) (around some_fields) D0' [2; 1]%nat) as ((D' & A & _) & _);
      [apply ring_grids; unfold int_max; lia|exact Ss|exact Bs|reflexivity|apply Im|exact Sparse|apply ring_same|exact E|exists D'; auto].
  - assert (serial_calls (aniso_program [1%Qc] (fun _ _ => 1%Qc) (fun _ _ => 1%Qc) (fun _ _ => 1%Qc) true) (whole ring ring_sides) 0 (two_calls []) (around some_fields) <> None) as N by (vm_compute; discriminate).
    destruct (Sm _ _ N) as [D0' E]. destruct (C103_aniso sparse_fractions 2 ring ring_sides 1 16 2 [1%Qc] (fun _ _ => 1%Qc) (fun _ _ => 1%Qc) (fun _ _ => 1%Qc) true (around_rank some_fields) (fun r => two_calls []) (around some_fields) D0' [2; 1]%nat) as ((D' & A & _) & _);
      [apply ring_grids; unfold int_max; lia|exact Ss|exact Bs|reflexivity|apply Im|exact Sparse|apply ring_same|exact E|exists D'; auto].
  - assert (serial_calls2 (ostwald_one [1%Qc] some_ripening 2) (ostwald_two [1%Qc] some_ripening 2) (whole ring ring_sides) 0 [(2%nat, repeat (two_fields 4) 4, zeros 4)] (around two_fields) <> None) as N by (vm_compute; discriminate).
    destruct (Sm _ _ N) as [D0' E]. destruct (C103_ostwald fractions fraction 2 ring ring_sides 1 8 [1%Qc] some_ripening 2 (around_rank two_fields) (fun r => [(2%nat, repeat (two_fields r) 4, zeros 4)]) (around two_fields) D0' [(2%nat, repeat (two_fields 4) 4, zeros 4)]) as ((D' & A & _) & _);
      [apply ring_grids; unfold int_max; lia|exact Sf|intros v Hv; cbn; rewrite Hv; lia|exact fraction_ok|intros; cbn; lia|lia|reflexivity|now apply (Lm (fun _ => True))|repeat constructor| |apply ring_same|exact E|exists D'; auto].
    intros q ge Hq Eg. split; [now apply Lr|]. split; [unfold around_rank; now apply (Lm (fun _ => True))|]. split; [reflexivity|]. rewrite (ring_cells q ge Hq Eg). repeat constructor.
Qed.

Definition two_calls2 (x : Qc) : list (nat * list Qc * list Qc) := [(2%nat, repeat x 4, zeros 4); (1%nat, zeros 4, repeat x 4)].
Example C103_model_B_case : exists D',
  serial_calls2 (B_potential [1%Qc] 1%Qc 1%Qc 1%Qc ring_noise) (B_flow [1%Qc] eighth) (whole ring ring_sides) 0 (two_calls2 1%Qc) (around Qz) <> None /\
  always_ends 2 (rank_program2 (B_potential [1%Qc] 1%Qc 1%Qc 1%Qc ring_noise) (B_flow [1%Qc] eighth) fraction fraction 2 ring ring_sides 1 (around_rank Qz) (fun r => two_calls2 (Qz (5 + r)))) D'.
Proof.
  assert (serial_calls2 (B_potential [1%Qc] 1%Qc 1%Qc 1%Qc ring_noise) (B_flow [1%Qc] eighth) (whole ring ring_sides) 0 (two_calls2 1%Qc) (around Qz) <> None) as N by (vm_compute; discriminate).
  destruct (serial_calls2 _ _ _ _ _ _) as [D0'|] eqn:E in N; [|congruence].
  destruct (C103_model_B fraction 2 ring ring_sides 1 8 [1%Qc] 1%Qc 1%Qc 1%Qc eighth ring_noise (around_rank Qz) (fun r => two_calls2 (Qz (5 + r))) (around Qz) D0' (two_calls2 1%Qc)) as ((D' & A & _) & _);
    [apply ring_grids; unfold int_max; lia|exact fraction_ok|intros; cbn; lia|reflexivity|repeat constructor| |apply ring_same|exact E|].
  - intros q ge Hq Eg. rewrite (ring_cells q ge Hq Eg). split; [assert (q = 0 \/ q = 1) as [-> | ->] by lia; reflexivity|]. split; [reflexivity|repeat constructor].
  - exists D'. split; [rewrite E; discriminate|exact A].
Qed.

(* The isotropic sparse Zener program (zener.cpp:153) treats the node with number 0 apart, and every rank has one: its result depends on the number of ranks. *)
Definition zener_ring : state (list (sobj Qc)) := (ranks 2 (rank_program (zener_grow_program [1%Qc]) sparse_fractions 2 ring ring_sides 1 (around_rank some_fields) (fun r => [(1%nat, repeat [] 4)])), no_chans).
Theorem C103_zener_grow_refuted : exists (c : codec (sobj Qc)) gs bs B M dx D calls D0 D0',
  grids 2 gs bs 1 B /\ serialises c (indexed M) /\ (forall v, indexed M v -> c_size c v <= B) /\
  zlen D0 = cells (whole gs bs) /\ Forall (indexed M) D0 /\
  (forall q ge, 0 <= q < 2 -> setup_mpi 2 gs 1 q = Some ge -> zlen (D q) = cells (ge_axes ge) /\ Forall (indexed M) (D q) /\
     calls q = map (fun n => (n, repeat [] (Z.to_nat (cells (ge_axes ge))))) [1%nat]) /\
  same_field 2 gs bs 1 D D0 /\ serial_calls (zener_grow_program dx) (whole gs bs) 0 (map (fun n => (n, repeat [] (Z.to_nat (cells (whole gs bs))))) [1%nat]) D0 = Some D0' /\
  ~ exists D', always_ends 2 (rank_program (zener_grow_program dx) c 2 gs bs 1 D calls) D' /\ same_field 2 gs bs 1 D' D0'.
Proof.
  destruct (sparse_fractions_ok 2 ltac:(unfold int_max; lia)) as [Ss Bs].
  assert (forall z, indexed 2 (some_fields z)) as Ix.
  { intros z. unfold some_fields. destruct (z <? 0); [|destruct (z =? 0)]; eexists; (split; [|split]); [instantiate (1 := [_; _]); reflexivity| | |instantiate (1 := [_]); reflexivity| | |instantiate (1 := [_]); reflexivity| |];
      repeat (constructor; cbn; try lia; try tauto); intuition discriminate. }
  assert (forall l, Forall (indexed 2) (map some_fields l)) as Im by (intros l; apply Forall_forall; intros v Hv; apply in_map_iff in Hv as (z & <- & _); auto).
  assert (exists D0', serial_calls (zener_grow_program [1%Qc]) (whole ring ring_sides) 0 (map (fun n => (n, repeat [] (Z.to_nat (cells (whole ring ring_sides))))) [1%nat]) (around some_fields) = Some D0' /\
    option_map (map (option_map (fun it => this (snd it)))) (nth_error D0' 2) = Some [Some (3 # 100); Some (97 # 100)]%Q) as (D0' & E0 & V0) by (eexists; split; vm_compute; reflexivity).
  assert (exists a b, results (fst (run 400 zener_ring)) = Some [a; b] /\ option_map (map (option_map (fun it => this (snd it)))) (nth_error b 1) = Some [Some 0; Some 1]%Q) as (a & b & R & Vb)
    by (do 2 eexists; split; vm_compute; reflexivity).
  exists sparse_fractions, ring, ring_sides, 16, 2, [1%Qc], (around_rank some_fields), (fun _ => [(1%nat, repeat [] 4)]), (around some_fields), D0'.
  split; [apply ring_grids; unfold int_max; lia|]. split; [exact Ss|]. split; [exact Bs|]. split; [reflexivity|]. split; [apply Im|]. split.
  { intros q ge Hq Eg. rewrite (ring_cells q ge Hq Eg). split; [assert (q = 0 \/ q = 1) as [-> | ->] by lia; reflexivity|]. split; [apply Im|reflexivity]. }
  split; [apply ring_same|]. split; [exact E0|]. clear Ss Bs Ix Im E0.
  intros (D' & (fin & Fi & In) & Sf). change (inevitable zener_ring fin) in In.
  assert (fin = run 400 zener_ring) as Ef by (eapply inevitable_unique; [exact In|]; eapply run_inevitable; [discriminate|exact R]).
  pose proof (proj1 Fi) as Ff. rewrite Ef in Ff. rewrite Ff in R. change (Some [D' 0; D' 1] = Some [a; b]) in R. injection R as _ Rb. clear Ff Ef Fi In.
  destruct (setup_mpi 2 ring 1 1) as [ge|] eqn:Eg; [|vm_compute in Eg; discriminate]. destruct (Sf 1 ge [2] ltac:(lia) Eg) as (v & G1 & G2); [vm_compute in Eg; inversion Eg; subst ge; cbn; lia|].
  rewrite Rb in G1. vm_compute in Eg. inversion Eg; subst ge. change (nth_error b 1 = Some v) in G1. change (nth_error D0' 2 = Some v) in G2. rewrite G1 in Vb. rewrite G2 in V0. rewrite Vb in V0. discriminate.
Qed.
Print Assumptions C103_zener_grow_refuted.
