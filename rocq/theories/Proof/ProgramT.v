From Coq Require Import QArith.QArith QArith.Qcanon Permutation.
From Verif Require Import Model.Base Model.Num Model.Boundary Model.Layout Model.Access Model.Setup Model.Codec Model.MPI Model.Ghostswap Model.Sparse Model.Stencil Model.Evolve Model.Simulate Model.Dynamics
  Model.AnisoSparse Model.Zener Model.Stages Model.Program
  Spec.Box Spec.Access Spec.Bytes Spec.Decomp Spec.Schedule Spec.Stencil
  Proof.BaseL Proof.LayoutL Proof.AccessL Proof.ConvertL Proof.StencilL Proof.SparseL Proof.EvolveF Proof.SimulateL Proof.StagesL Proof.ProgramL Proof.ProgramF Proof.ProgramN.
Local Open Scope Z_scope.
Local Notation fill := Dynamics.fill.

(* ---- two runs of one loop ---- *)
Lemma fold_range_rel {S1 S2} (F1 : S1 -> Z -> option S1) (F2 : S2 -> Z -> option S2) (I : Z -> S1 -> S2 -> Prop) (n : nat) : forall lo s1 s2, I lo s1 s2 ->
  (forall i s1 s2, lo <= i < lo + Z.of_nat n -> I i s1 s2 -> match F1 s1 i, F2 s2 i with Some a, Some b => I (i + 1) a b | None, None => True | _, _ => False end) ->
  match fold_opt F1 (zrange lo (lo + Z.of_nat n)) s1, fold_opt F2 (zrange lo (lo + Z.of_nat n)) s2 with Some a, Some b => I (lo + Z.of_nat n) a b | None, None => True | _, _ => False end.
Proof.
  induction n as [|n IH]; intros lo s1 s2 H0 H.
  - rewrite zrange_nil by lia. cbn [fold_opt]. replace (lo + Z.of_nat 0) with lo by lia. auto.
  - rewrite zrange_cons by lia. cbn [fold_opt]. pose proof (H lo s1 s2 ltac:(lia) H0) as H1. destruct (F1 s1 lo) as [a|], (F2 s2 lo) as [b|]; cbn [bind]; try contradiction; [|auto].
    specialize (IH (lo + 1) a b H1). replace (lo + 1 + Z.of_nat n) with (lo + Z.of_nat (S n)) in IH by lia. apply IH. intros i ? ? Hi. apply H. lia.
Qed.
Definition upto (n k : Z) (v1 v2 : list Qc) : Prop := zlen v1 = n /\ zlen v2 = n /\ forall i, 0 <= i < k -> get v1 i = get v2 i.
Lemma upto_all n v1 v2 : upto n n v1 v2 -> v1 = v2.
Proof. intros (L1 & L2 & H). apply get_ext; [congruence|]. rewrite L1. auto. Qed.
Lemma upto_put n k v1 v2 q : 0 <= k < n -> upto n k v1 v2 -> exists w1 w2, put v1 k q = Some w1 /\ put v2 k q = Some w2 /\ upto n (k + 1) w1 w2.
Proof.
  intros Hk (L1 & L2 & H). destruct (put_ex v1 k q) as (w1 & P1 & M1); [lia|]. destruct (put_ex v2 k q) as (w2 & P2 & M2); [lia|]. exists w1, w2. split; [auto|]. split; [auto|].
  split; [congruence|]. split; [congruence|]. intros i Hi. destruct (Z.eq_dec k i) as [->|Hne].
  - now rewrite (get_put_eq _ _ _ _ P1), (get_put_eq _ _ _ _ P2). - rewrite (get_put_ne _ _ _ _ _ P1), (get_put_ne _ _ _ _ _ P2) by auto. apply H. lia.
Qed.
Lemma fill_same f n lo v1 v2 : 0 <= lo <= n -> upto n lo v1 v2 -> fill f lo n v1 = fill f lo n v2.
Proof.
  intros Hl H. unfold fill. pose proof (fold_range_rel (fun v i => do q <- f i; put v i q) (fun v i => do q <- f i; put v i q) (upto n) (Z.to_nat (n - lo)) lo v1 v2 H) as K.
  replace (lo + Z.of_nat (Z.to_nat (n - lo))) with n in K by lia.
  lapply K; [|intros i s1 s2 Hi Hu; destruct (f i) as [q|]; cbn [bind]; [|auto]; destruct (upto_put n i s1 s2 q) as (w1 & w2 & -> & -> & Hw); [lia|auto|auto]].
  destruct (fold_opt _ _ v1), (fold_opt _ _ v2); try contradiction; [intros Hu; f_equal; now apply (upto_all n)|auto].
Qed.
Lemma fill_len f lo hi v v' : fill f lo hi v = Some v' -> zlen v' = zlen v.
Proof.
  intros E. refine (fold_opt_end (fun u => zlen u = zlen v) _ _ v v' _ eq_refl E). intros i s s' _ L E1. destruct (f i); cbn [bind] in E1; [|discriminate].
  apply put_some in E1 as [_ ->]. unfold zlen in *. now rewrite length_set_nth.
Qed.
Lemma settle_same dt S cell dpdt n v1 v2 : zlen cell = n -> zlen v1 = n -> zlen v2 = n -> settle dt S cell dpdt v1 = settle dt S cell dpdt v2.
Proof.
  intros Lc L1 L2. pose proof (zlen_nonneg cell). unfold settle.
  match goal with |- (do r <- fold_opt ?F _ _; _) = _ =>
    pose proof (fold_range_rel F F (fun k s1 s2 => upto n k (fst s1) (fst s2) /\ snd s1 = snd s2) (Z.to_nat n) 0 (v1, 0%Qc) (v2, 0%Qc)) as K end.
  replace (0 + Z.of_nat (Z.to_nat n)) with n in K by lia. rewrite Lc. lapply K; [clear K; intros K; lapply K; [clear K|]|].
  - match goal with |- match ?a with _ => _ end -> _ => destruct a as [[a1 a2]|] end; match goal with |- match ?b with _ => _ end -> _ => destruct b as [[b1 b2]|] end; try contradiction; [|auto].
    cbn [fst snd bind]. intros [Hu <-]. now rewrite (upto_all n a1 b1 Hu).
  - intros i [s1 q1] [s2 q2] Hi [Hu Hq]. cbn [fst snd] in *. subst q2. destruct (get cell i); cbn [bind]; [|auto]. destruct (get dpdt i) as [d|]; cbn [bind]; [|auto].
    destruct (upto_put n i s1 s2 (clamp (q + dt * (c2 / q_of S) * d)%Qc)) as (w1 & w2 & -> & -> & Hw); [lia|auto|]. cbn [bind fst snd]. auto.
  - cbn [fst snd]. split; [|auto]. split; [auto|]. split; [auto|]. intros; lia.
Qed.
Lemma settle_len dt S cell dpdt v v' : settle dt S cell dpdt v = Some v' -> zlen v' = zlen v.
Proof.
  unfold settle. match goal with |- (do r <- ?e; _) = _ -> _ => destruct e as [[u q]|] eqn:E1 end; cbn [bind]; [|discriminate]. intros E2.
  transitivity (zlen u).
  - refine (fold_opt_end (fun w => zlen w = zlen u) _ _ u v' _ eq_refl E2). intros i s s' _ L E. destruct (get s i); cbn [bind] in E; [|discriminate].
    apply put_some in E as [_ ->]. unfold zlen in *. now rewrite length_set_nth.
  - refine (fold_opt_end (fun w => zlen (fst w) = zlen v) _ _ (v, 0%Qc) (u, q) _ eq_refl E1). intros i [s p] [s' p'] _ L E. cbn [fst] in *.
    destruct (get cell i); cbn [bind] in E; [|discriminate]. destruct (get dpdt i); cbn [bind] in E; [|discriminate].
    match type of E with context [put s i ?q] => destruct (put s i q) as [s1|] eqn:P end; cbn [bind] in E; [|discriminate]. inversion E; subst.
    apply put_some in P as [_ ->]. unfold zlen in *. now rewrite length_set_nth.
Qed.

(* ---- the loops as loops over cells ---- *)
Lemma for_nodes_cells mpi g ls (h : Z -> option Qc) new : 0 <= g -> (mpi = false -> g = 0) -> lims_ok ls -> zlen new = cells (lay g ls) ->
  for_nodes mpi (lay g ls) h new = for_cells mpi (lay g ls) (fun i _ => h i) new.
Proof.
  intros Hg Hm Hl L. unfold for_nodes, for_cells. apply (fold_opt_rel (fun d => zlen d = cells (lay g ls))); [| |exact L].
  - intros i d Hi Ld. apply in_zrange in Hi. destruct (proj1 (node_facts g ls mpi Hg Hm Hl) i Hi) as (_ & _ & Ha). unfold grid_read_int.
    destruct (get_ex d (addr_int mpi (lay g ls) i)) as [c ->]; [lia|]. reflexivity.
  - intros i d d' Hi Ld E. destruct (grid_read_int mpi (lay g ls) d i); cbn [bind] in E; [|discriminate]. destruct (h i); cbn [bind] in E; [|discriminate].
    apply put_some in E as [_ ->]. unfold zlen in *. now rewrite length_set_nth.
Qed.
Section Node.
Context {T : Type} (g1 : Z) (ls ls0 : list limits) (i i0 : Z) (old old0 : list T).
Context (G1 : 0 <= g1) (Ll : lims_ok ls) (Ll0 : lims_ok ls0) (Hi : 0 <= i < nodes (lay g1 ls)) (Hi0 : 0 <= i0 < nodes (lay 0 ls0)) (Ep : position (lay g1 ls) i = position (lay 0 ls0) i0)
  (A : alike (lay g1 ls) old (lay 0 ls0) old0 (position (lay 0 ls0) i0)).
Lemma own_alike : grid_read_int true (lay g1 ls) old i = grid_read_int false (lay 0 ls0) old0 i0.
Proof using All.
  rewrite (proj1 (read_int_position true g1 ls old i G1 ltac:(discriminate) Ll Hi)), (proj1 (read_int_position false 0 ls0 old0 i0 ltac:(lia) ltac:(auto) Ll0 Hi0)). rewrite Ep. apply A.
Qed.
End Node.
Lemma read_valid {T} (valid : T -> Prop) mpi axs (d : list T) x v : Forall valid d -> grid_read_int mpi axs d x = Some v -> valid v.
Proof. intros F E. rewrite Forall_forall in F. apply F. exact (get_In _ _ _ E). Qed.
Lemma read_valid_at {T} (valid : T -> Prop) mpi axs (d : list T) x v : Forall valid d -> grid_read mpi axs d x = Some v -> valid v.
Proof. intros F E. unfold grid_read in E. match type of E with (do _ <- ?e; _) = _ => destruct e end; cbn [bind] in E; [|discriminate]. rewrite Forall_forall in F. apply F. exact (get_In _ _ _ E). Qed.

(* ---- sparse cells: initialised, distinct indices, indices below M ---- *)
Definition few {T} (M : Z) (o : sobj T) : Prop := exists l, o = map Some l /\ NoDup (map fst l) /\ Forall (fun it => 0 <= fst it < M) l.
Lemma few_index {T} M (o : sobj T) j i : few M o -> sindex o j = Some i -> 0 <= i < M.
Proof.
  intros (l & -> & _ & F) E. unfold sindex, sitem in E. destruct (get (map Some l) j) as [c|] eqn:Eg; cbn [bind] in E; [|discriminate]. apply get_In in Eg. apply in_map_iff in Eg as (it & <- & Hit).
  cbn [bind] in E. inversion E; subst. rewrite Forall_forall in F. now apply F.
Qed.
Lemma few_set {T} (N : num T) M (o o' : sobj T) k f : few M o -> 0 <= k < M -> sset_op N o k f = Some o' -> few M o'.
Proof.
  intros (l & -> & Nd & F) Hk E. rewrite (sset_op_map N) in E. inversion E; subst. eexists. split; [reflexivity|]. split; [now apply NoDup_aset|].
  apply Forall_forall. intros it Hit. apply (in_map fst) in Hit. apply keys_aset in Hit as [->|Hit]; [auto|]. apply in_map_iff in Hit as (it' & <- & Hit'). rewrite Forall_forall in F. now apply F.
Qed.
Lemma few_near M mpi axs former x s : Forall (few M) former -> neighbourhood mpi axs former x = Some s -> few M s.
Proof.
  intros F E. unfold neighbourhood in E. match type of E with (do r <- ?e; _) = _ => destruct e as [[x' s']|] eqn:E1 end; cbn [bind snd] in E; [|discriminate]. inversion E; subst s'. clear E.
  change (few M (snd (x', s))). refine (fold_opt_end (fun st => few M (snd st)) _ _ (x, []) (x', s) _ _ E1); [|exists []; repeat constructor].
  intros j [y u] [y' u'] _ Fu Ej. cbn [snd] in *. change (few M (snd (y', u'))). refine (fold_opt_end (fun st => few M (snd st)) _ _ (y, u) (y', u') _ Fu Ej).
  intros k [z v] [z' v'] _ Fv Ek. cbn [snd] in *. destruct (shift z j k) as [z1|]; cbn [bind] in Ek; [|discriminate]. destruct (grid_read mpi axs former z1) as [cell|] eqn:Ec; cbn [bind] in Ek; [|discriminate].
  match type of Ek with (do s <- ?e; _) = _ => destruct e as [v1|] eqn:Ev end; cbn [bind] in Ek; [|discriminate]. destruct (shift z1 j (- k)); cbn [bind] in Ek; [|discriminate]. inversion Ek; subst.
  refine (fold_opt_end (few M) _ _ v v' _ Fv Ev). intros h w w' _ Fw Eh. destruct (sindex cell h) as [i|] eqn:Ei; cbn [bind] in Eh; [|discriminate].
  eapply (few_set num_Z); [exact Fw| |exact Eh]. eapply few_index; [|exact Ei]. eapply read_valid_at; eauto.
Qed.
Lemma few_assign M a b v : few M a -> few M b -> assign_from a b = Some v -> few M v.
Proof. intros (la & -> & _) (lb & -> & H) E. rewrite assign_ok in E. inversion E. exists lb. auto. Qed.
Lemma few_scale M (o : sobj Qc) q v : few M o -> sscale num_Qc o (Outside q) = Some v -> few M v.
Proof.
  intros (l & -> & Nd & F) E. rewrite (sscale_map num_Qc) in E by auto. inversion E. eexists. split; [reflexivity|]. rewrite keys_amap. split; [auto|].
  apply Forall_forall. intros it Hit. apply (in_map fst) in Hit. rewrite keys_amap in Hit. apply in_map_iff in Hit as (it' & <- & Hit'). rewrite Forall_forall in F. now apply F.
Qed.
Lemma few_new_values M dt cell dpdt s mine r : few M s -> few M mine -> new_values dt cell dpdt s mine = Some r -> few M (fst r).
Proof.
  intros Fs Fm E. refine (fold_opt_end (fun st => few M (fst st)) _ _ (mine, 0%Qc) r _ Fm E). intros h [o q] [o' q'] _ Fo Eh. cbn [fst] in *.
  destruct (sindex s h) as [i|] eqn:Ei; cbn [bind] in Eh; [|discriminate]. repeat match type of Eh with (do _ <- sread _ _ _; _) = _ => destruct (sread _ _ _); cbn [bind] in Eh; [|discriminate] end.
  match type of Eh with (do _ <- ?e; _) = _ => destruct e as [o1|] eqn:E1 end; cbn [bind] in Eh; [|discriminate]. destruct (sread num_Qc o1 i); cbn [bind] in Eh; [|discriminate]. inversion Eh; subst.
  match type of E1 with (if ?b then _ else _) = _ => destruct b end; [|inversion E1; now subst]. exact (few_set num_Qc M _ _ _ _ Fo (few_index M s h i Fs Ei) E1).
Qed.

(* ---- the node functions ---- *)
Definition allen_node (dx : list Qc) (r u K M dt : Qc) (mpi : bool) (axs : list axis) (t : Z) (old : list Qc) (i : Z) (_ : Qc) : option Qc :=
  do phi <- grid_read_int mpi axs old i; do l <- laplacian_at mpi axs dx old i; Some (phi - dt * M * (- r * phi + u * (phi * phi * phi) - K * l))%Qc.
Definition model_A_node (dx : list Qc) (r u K M dt : Qc) (noise : Z -> list Z -> Qc) (mpi : bool) (axs : list axis) (t : Z) (old : list Qc) (i : Z) (_ : Qc) : option Qc :=
  do phi <- grid_read_int mpi axs old i; do l <- laplacian_at mpi axs dx old i; Some (phi - dt * M * (- r * phi + u * cube phi - K * l + noise t (position axs i)))%Qc.
Definition dense_node (dx : list Qc) (dt : Qc) (pinned : bool) (fields : Z) (mpi : bool) (axs : list axis) (t : Z) (old : list (list Qc)) (n : Z) (cell' : list Qc) : option (list Qc) :=
  do cell <- grid_read_int mpi axs old n;
  do vlap <- vlaplacian_at mpi axs dx fields old n;
  do sum <- fold_opt (fun sum j => do phi <- get cell j; Some (sum + phi * phi)%Qc) (zrange 0 fields) 0%Qc;
  fill (fun j => do phi <- get cell j; do l <- get vlap j;
       Some (if pinned && (j =? 0) then phi else phi - dt * (- phi - cube phi + c2 * (phi * sum - l)))%Qc) 0 fields cell'.
Definition multiphase_node (dx : list Qc) (dt width : Qc) (energy eps mobility : Z -> Z -> Qc) (pinned : bool) (fields : Z) (mpi : bool) (axs : list axis) (t : Z) (old : list (list Qc)) (i : Z) (cell' : list Qc) : option (list Qc) :=
  let x := position axs i in
  do s <- map_opt (present mpi axs old x) (zrange 0 fields);
  let S := zlen (filter id s) in
  do cell <- grid_read_int mpi axs old i;
  if S <? 2 then Some cell
  else
    do lap <- vlaplacian_at mpi axs dx fields old i;
    do dFdp <- variation width energy eps cell lap s;
    do dpdt <- velocity mobility pinned dFdp s;
    settle dt S cell dpdt cell'.
Definition grow_node (dx : list Qc) (mpi : bool) (axs : list axis) (t : Z) (former : list (sobj Qc)) (node : Z) (mine : sobj Qc) : option (sobj Qc) :=
  let x := position axs node in
  do s <- neighbourhood mpi axs former x;
  do cell <- grid_read_int mpi axs former node;
  if zlen s <? 2 then assign_from mine cell
  else
    do lap <- slaplacian mpi axs dx former x;
    do sum <- fold_opt (fun sum j => do phi <- svalue cell j; Some (sum + phi * phi)%Qc) (zrange 0 (zlen cell)) 0%Qc;
    fold_opt (fun mine j =>
      do i <- sindex s j;
      do phi <- sread num_Qc cell i;
      do l <- sread num_Qc lap i;
      let value := (phi - hundredth * (- phi - phi * phi * phi + c2 * (phi * sum - l)))%Qc in
      if qgt value cutoff then sset_op num_Qc mine i (fun _ => value) else Some mine) (zrange 0 (zlen s)) mine.
Definition aniso_node (dx : list Qc) (energy eps mobility : Z -> Z -> Qc) (pinned : bool) (mpi : bool) (axs : list axis) (t : Z) (former : list (sobj Qc)) (node : Z) (mine : sobj Qc) : option (sobj Qc) :=
  let x := position axs node in
  do s <- neighbourhood mpi axs former x;
  do cell <- grid_read_int mpi axs former node;
  if zlen s <? 2 then assign_from mine cell
  else
    do lap <- slaplacian mpi axs dx former x;
    do dFdp <- aniso_derivatives energy eps cell lap s;
    do dpdt <- aniso_rates mobility pinned dFdp s;
    do r <- new_values hundredth cell dpdt s mine;
    let rsum := if Qc_eq_dec (snd r) 0 then 0%Qc else (/ snd r)%Qc in
    sscale num_Qc (fst r) (Outside rsum).
Definition B_node1 (dx : list Qc) (r u K : Qc) (noise : Z -> list Z -> Qc) (mpi : bool) (axs : list axis) (t : Z) (old : list Qc) (i : Z) (_ : Qc) : option Qc :=
  do phi <- grid_read_int mpi axs old i; do l <- laplacian_at mpi axs dx old i; Some (- r * phi + u * cube phi - K * l + noise t (position axs i))%Qc.
Definition B_node2 (dx : list Qc) (k : Qc) (mpi : bool) (axs : list axis) (t : Z) (old temp : list Qc) (i : Z) (_ : Qc) : option Qc :=
  do v <- grid_read_int mpi axs old i; do l <- laplacian_at mpi axs dx temp i; Some (v + k * l)%Qc.
Definition ostwald_node1 (dx : list Qc) (P : ripening) (fields : Z) (mpi : bool) (axs : list axis) (t : Z) (old : list (list Qc)) (n : Z) (_ : Qc) : option Qc :=
    do cell <- grid_read_int mpi axs old n;
    do sum <- squares fields cell;
    do C <- get cell 0;
    do l <- flaplacian_at mpi axs dx old n 0;
    Some (- o_A P * (C - o_Cmatrix P) + o_B P * cube (C - o_Cmatrix P) + o_Dalpha P * cube (C - o_Calpha P) + o_Dbeta P * cube (C - o_Cbeta P)
          - o_gamma P * (C - o_Calpha P) * sum - o_kappa P * l)%Qc.
Definition ostwald_node2 (dx : list Qc) (P : ripening) (fields : Z) (mpi : bool) (axs : list axis) (t : Z) (old : list (list Qc)) (wspace : list Qc) (n : Z) (cell' : list Qc) : option (list Qc) :=
    do l <- laplacian_at mpi axs dx wspace n;
    do cell <- grid_read_int mpi axs old n;
    do C <- get cell 0;
    do cell' <- put cell' 0 (C + o_dt P * o_D P * l)%Qc;
    do sum <- squares fields cell;
    do vlap <- vlaplacian_at mpi axs dx fields old n;
    fill (fun i => do value <- get cell i; do l <- get vlap i;
       Some (value - o_dt P * o_L P * (- o_gamma P * sq (C - o_Calpha P) + o_delta P * cube value + o_epsilon P * value * (sum - sq value) - o_kappa P * l))%Qc)
      1 fields cell'.

Lemma map_opt_ext_in {A B} (f g : A -> option B) l : (forall a, In a l -> f a = g a) -> map_opt f l = map_opt g l.
Proof. induction l as [|a l IH]; intros H; cbn; [auto|]. rewrite (H a) by now left. rewrite IH by (intros; apply H; now right). reflexivity. Qed.
Lemma sparse_loop mpi axs (body : Z -> option (sobj Z * sobj Qc)) (res : Z -> sobj Z -> sobj Qc -> sobj Qc -> option (sobj Qc)) (l : list Z) latter :
  fold_opt (fun d i => do p <- body i; do mine <- grid_read_int mpi axs d i; do v <- res i (fst p) (snd p) mine; grid_write_int mpi axs d i v) l latter =
  fold_opt (fun d i => do mine <- grid_read_int mpi axs d i; do v <- (do p <- body i; res i (fst p) (snd p) mine); grid_write_int mpi axs d i v) l latter.
Proof.
  apply (fold_opt_rel (fun _ => True)); auto. intros i d _ _. destruct (body i); cbn [bind]; [auto|]. now destruct (grid_read_int mpi axs d i).
Qed.
Lemma grow_loop dx mpi axs t former latter : grow_program dx mpi axs t (former, latter) = do l <- for_cells mpi axs (grow_node dx mpi axs t former) latter; Some (l, former).
Proof.
  unfold grow_program, grow_step. f_equal. unfold for_cells. apply (fold_opt_rel (fun _ => True)); auto. intros i d _ _. unfold grow, grow_node. cbv zeta.
  destruct (neighbourhood mpi axs former (position axs i)); cbn [bind]; [|now destruct (grid_read_int mpi axs d i)].
  destruct (grid_read_int mpi axs former i); cbn [bind]; [|now destruct (grid_read_int mpi axs d i)]. reflexivity.
Qed.
Lemma aniso_loop dx energy eps mobility pinned mpi axs t former latter :
  aniso_program dx energy eps mobility pinned mpi axs t (former, latter) = do l <- for_cells mpi axs (aniso_node dx energy eps mobility pinned mpi axs t former) latter; Some (l, former).
Proof.
  unfold aniso_program, aniso_step. f_equal. unfold for_cells. apply (fold_opt_rel (fun _ => True)); auto. intros i d _ _. unfold aniso_evolve, aniso_node. cbv zeta.
  destruct (neighbourhood mpi axs former (position axs i)); cbn [bind]; [|now destruct (grid_read_int mpi axs d i)].
  destruct (grid_read_int mpi axs former i); cbn [bind]; [|now destruct (grid_read_int mpi axs d i)]. reflexivity.
Qed.

(* ---- locality ---- *)
Ltac lens := rewrite ?length_lay; lia.
Section Places.
Context (gs : list gaxis) (t g1 : Z) (ls ls0 : list limits) (i i0 : Z).
Context (G1 : 0 <= g1) (Ll : lims_ok ls) (Ll0 : lims_ok ls0) (N1 : length ls = length gs) (N0 : length ls0 = length gs)
  (Hi : 0 <= i < nodes (lay g1 ls)) (Hi0 : 0 <= i0 < nodes (lay 0 ls0)) (Ep : position (lay g1 ls) i = position (lay 0 ls0) i0)
  (Np : length (position (lay 0 ls0) i0) = length gs).
Notation al old old0 := (alike (lay g1 ls) old (lay 0 ls0) old0 (position (lay 0 ls0) i0)).
Lemma allen_local dx r u K M dt old old0 a b : al old old0 -> allen_node dx r u K M dt true (lay g1 ls) t old i a = allen_node dx r u K M dt false (lay 0 ls0) t old0 i0 b.
Proof using All.
  intros A. unfold allen_node, laplacian_at. rewrite (own_alike g1 ls ls0 i i0 old old0) by auto. rewrite Ep, (laplacian_alike (lay g1 ls) (lay 0 ls0) dx old old0) by (auto; lens). reflexivity.
Qed.
Lemma model_A_local dx r u K M dt noise old old0 a b : al old old0 -> model_A_node dx r u K M dt noise true (lay g1 ls) t old i a = model_A_node dx r u K M dt noise false (lay 0 ls0) t old0 i0 b.
Proof using All.
  intros A. unfold model_A_node, laplacian_at. rewrite (own_alike g1 ls ls0 i i0 old old0) by auto. rewrite Ep, (laplacian_alike (lay g1 ls) (lay 0 ls0) dx old old0) by (auto; lens). reflexivity.
Qed.
Lemma dense_local dx dt pinned fields old old0 a b : 0 <= fields -> al old old0 -> zlen a = fields -> zlen b = fields ->
  dense_node dx dt pinned fields true (lay g1 ls) t old i a = dense_node dx dt pinned fields false (lay 0 ls0) t old0 i0 b.
Proof using All.
  intros Hf A La Lb. unfold dense_node, vlaplacian_at. rewrite (own_alike g1 ls ls0 i i0 old old0) by auto. rewrite Ep, (vlaplacian_alike (lay g1 ls) (lay 0 ls0) dx fields old old0) by (auto; lens).
  destruct (grid_read_int false (lay 0 ls0) old0 i0) as [cell|]; cbn [bind]; [|auto]. destruct (vlaplacian false (lay 0 ls0) dx fields old0 (position (lay 0 ls0) i0)) as [vlap|]; cbn [bind]; [|auto].
  match goal with |- (do _ <- ?e; _) = _ => destruct e end; cbn [bind]; [|auto]. apply fill_same; [lia|]. split; [auto|]. split; [auto|]. intros; lia.
Qed.
Lemma multiphase_local dx dt width energy eps mobility pinned fields old old0 a b : al old old0 -> Forall (fun v => zlen v = fields) old0 -> zlen a = fields -> zlen b = fields ->
  multiphase_node dx dt width energy eps mobility pinned fields true (lay g1 ls) t old i a = multiphase_node dx dt width energy eps mobility pinned fields false (lay 0 ls0) t old0 i0 b.
Proof using All.
  intros A F La Lb. unfold multiphase_node, vlaplacian_at. cbv zeta. rewrite (own_alike g1 ls ls0 i i0 old old0) by auto. rewrite Ep, (vlaplacian_alike (lay g1 ls) (lay 0 ls0) dx fields old old0) by (auto; lens).
  rewrite (map_opt_ext_in (present true (lay g1 ls) old (position (lay 0 ls0) i0)) (present false (lay 0 ls0) old0 (position (lay 0 ls0) i0))) by (intros h _; apply present_alike; auto; lens).
  destruct (map_opt _ (zrange 0 fields)) as [s|]; cbn [bind]; [|auto]. destruct (grid_read_int false (lay 0 ls0) old0 i0) as [cell|] eqn:Ec; cbn [bind]; [|auto].
  destruct (_ <? 2); [auto|]. destruct (vlaplacian false (lay 0 ls0) dx fields old0 (position (lay 0 ls0) i0)) as [vlap|]; cbn [bind]; [|auto].
  destruct (variation _ _ _ _ _ _); cbn [bind]; [|auto]. destruct (velocity _ _ _ _); cbn [bind]; [|auto]. apply (settle_same dt _ cell _ fields); auto. exact (read_valid _ _ _ _ _ _ F Ec).
Qed.
Lemma grow_local dx old old0 a : al old old0 -> grow_node dx true (lay g1 ls) t old i a = grow_node dx false (lay 0 ls0) t old0 i0 a.
Proof using All.
  intros A. unfold grow_node. cbv zeta. rewrite (own_alike g1 ls ls0 i i0 old old0) by auto. rewrite Ep, (neighbourhood_alike (lay g1 ls) (lay 0 ls0) old old0), (slaplacian_alike (lay g1 ls) (lay 0 ls0) dx old old0) by (auto; lens). reflexivity.
Qed.
Lemma aniso_local dx energy eps mobility pinned old old0 a : al old old0 -> aniso_node dx energy eps mobility pinned true (lay g1 ls) t old i a = aniso_node dx energy eps mobility pinned false (lay 0 ls0) t old0 i0 a.
Proof using All.
  intros A. unfold aniso_node. cbv zeta. rewrite (own_alike g1 ls ls0 i i0 old old0) by auto. rewrite Ep, (neighbourhood_alike (lay g1 ls) (lay 0 ls0) old old0), (slaplacian_alike (lay g1 ls) (lay 0 ls0) dx old old0) by (auto; lens). reflexivity.
Qed.
Lemma B1_local dx r u K noise old old0 a b : al old old0 -> B_node1 dx r u K noise true (lay g1 ls) t old i a = B_node1 dx r u K noise false (lay 0 ls0) t old0 i0 b.
Proof using All.
  intros A. unfold B_node1, laplacian_at. rewrite (own_alike g1 ls ls0 i i0 old old0) by auto. rewrite Ep, (laplacian_alike (lay g1 ls) (lay 0 ls0) dx old old0) by (auto; lens). reflexivity.
Qed.
Lemma B2_local dx k old old0 temp temp0 a b : al old old0 -> al temp temp0 -> B_node2 dx k true (lay g1 ls) t old temp i a = B_node2 dx k false (lay 0 ls0) t old0 temp0 i0 b.
Proof using All.
  intros A At. unfold B_node2, laplacian_at. rewrite (own_alike g1 ls ls0 i i0 old old0) by auto. rewrite Ep, (laplacian_alike (lay g1 ls) (lay 0 ls0) dx temp temp0) by (auto; lens). reflexivity.
Qed.
Lemma ostwald1_local dx P fields old old0 a b : al old old0 -> ostwald_node1 dx P fields true (lay g1 ls) t old i a = ostwald_node1 dx P fields false (lay 0 ls0) t old0 i0 b.
Proof using All.
  intros A. unfold ostwald_node1, flaplacian_at. rewrite (own_alike g1 ls ls0 i i0 old old0) by auto. rewrite Ep, (flaplacian_alike (lay g1 ls) (lay 0 ls0) dx old old0) by (auto; lens). reflexivity.
Qed.
Lemma ostwald2_local dx P fields old old0 temp temp0 a b : 1 <= fields -> al old old0 -> al temp temp0 -> zlen a = fields -> zlen b = fields ->
  ostwald_node2 dx P fields true (lay g1 ls) t old temp i a = ostwald_node2 dx P fields false (lay 0 ls0) t old0 temp0 i0 b.
Proof using All.
  intros Hf A At La Lb. unfold ostwald_node2, laplacian_at, vlaplacian_at. rewrite (own_alike g1 ls ls0 i i0 old old0) by auto.
  rewrite Ep, (laplacian_alike (lay g1 ls) (lay 0 ls0) dx temp temp0), (vlaplacian_alike (lay g1 ls) (lay 0 ls0) dx fields old old0) by (auto; lens).
  destruct (laplacian false (lay 0 ls0) dx temp0 (position (lay 0 ls0) i0)) as [l|]; cbn [bind]; [|auto].
  destruct (grid_read_int false (lay 0 ls0) old0 i0) as [cell|]; cbn [bind]; [|auto]. destruct (get cell 0) as [C|]; cbn [bind]; [|auto].
  destruct (upto_put fields 0 a b (C + o_dt P * o_D P * l)%Qc) as (w1 & w2 & -> & -> & Hw); [lia|split; [auto|]; split; [auto|]; intros; lia|]. cbn [bind].
  destruct (squares fields cell); cbn [bind]; [|auto]. destruct (vlaplacian false (lay 0 ls0) dx fields old0 (position (lay 0 ls0) i0)) as [vlap|]; cbn [bind]; [|auto].
  apply fill_same; [lia|exact Hw].
Qed.
End Places.

(* ---- what the node functions return ---- *)
Lemma dense_keep dx dt pinned fields mpi axs t old i (a v : list Qc) : zlen a = fields -> dense_node dx dt pinned fields mpi axs t old i a = Some v -> zlen v = fields.
Proof.
  intros La. unfold dense_node. destruct (grid_read_int _ _ _ _); cbn [bind]; [|discriminate]. destruct (vlaplacian_at _ _ _ _ _ _); cbn [bind]; [|discriminate].
  match goal with |- (do _ <- ?e; _) = _ -> _ => destruct e end; cbn [bind]; [|discriminate]. intros E. apply fill_len in E. congruence.
Qed.
Lemma multiphase_keep dx dt width energy eps mobility pinned fields mpi axs t old i (a v : list Qc) : Forall (fun v => zlen v = fields) old -> zlen a = fields ->
  multiphase_node dx dt width energy eps mobility pinned fields mpi axs t old i a = Some v -> zlen v = fields.
Proof.
  intros F La. unfold multiphase_node. cbv zeta. destruct (map_opt _ _); cbn [bind]; [|discriminate]. destruct (grid_read_int _ _ _ _) as [cell|] eqn:Ec; cbn [bind]; [|discriminate].
  pose proof (read_valid _ _ _ _ _ _ F Ec) as Lc. destruct (_ <? 2); [intros E; now inversion E; subst|]. destruct (vlaplacian_at _ _ _ _ _ _); cbn [bind]; [|discriminate].
  destruct (variation _ _ _ _ _ _); cbn [bind]; [|discriminate]. destruct (velocity _ _ _ _); cbn [bind]; [|discriminate]. intros E. apply settle_len in E. congruence.
Qed.
Lemma grow_keep M dx mpi axs t old i (a v : sobj Qc) : Forall (few M) old -> few M a -> grow_node dx mpi axs t old i a = Some v -> few M v.
Proof.
  intros F Fa. unfold grow_node. cbv zeta. destruct (neighbourhood _ _ _ _) as [s|] eqn:Es; cbn [bind]; [|discriminate]. pose proof (few_near _ _ _ _ _ _ F Es) as Fs.
  destruct (grid_read_int _ _ _ _) as [cell|] eqn:Ec; cbn [bind]; [|discriminate]. pose proof (read_valid _ _ _ _ _ _ F Ec) as Fc.
  destruct (_ <? 2); [now apply few_assign|]. destruct (slaplacian _ _ _ _ _); cbn [bind]; [|discriminate]. match goal with |- (do _ <- ?e; _) = _ -> _ => destruct e end; cbn [bind]; [|discriminate].
  intros E. refine (fold_opt_end (few M) _ _ a v _ Fa E). intros j o o' _ Fo Ej. destruct (sindex s j) as [k|] eqn:Ek; cbn [bind] in Ej; [|discriminate].
  repeat match type of Ej with (do _ <- sread _ _ _; _) = _ => destruct (sread _ _ _); cbn [bind] in Ej; [|discriminate] end. cbv zeta in Ej.
  destruct (qgt _ _); [|inversion Ej; now subst]. exact (few_set num_Qc M _ _ _ _ Fo (few_index M s j k Fs Ek) Ej).
Qed.
Lemma aniso_keep M dx energy eps mobility pinned mpi axs t old i (a v : sobj Qc) : Forall (few M) old -> few M a -> aniso_node dx energy eps mobility pinned mpi axs t old i a = Some v -> few M v.
Proof.
  intros F Fa. unfold aniso_node. cbv zeta. destruct (neighbourhood _ _ _ _) as [s|] eqn:Es; cbn [bind]; [|discriminate]. pose proof (few_near _ _ _ _ _ _ F Es) as Fs.
  destruct (grid_read_int _ _ _ _) as [cell|] eqn:Ec; cbn [bind]; [|discriminate]. pose proof (read_valid _ _ _ _ _ _ F Ec) as Fc.
  destruct (_ <? 2); [now apply few_assign|]. destruct (slaplacian _ _ _ _ _); cbn [bind]; [|discriminate]. destruct (aniso_derivatives _ _ _ _ _); cbn [bind]; [|discriminate].
  destruct (aniso_rates _ _ _ _); cbn [bind]; [|discriminate]. destruct (new_values _ _ _ _ _) as [r|] eqn:Er; cbn [bind]; [|discriminate]. apply few_scale. exact (few_new_values _ _ _ _ _ _ _ Fs Fa Er).
Qed.
Lemma ostwald2_keep dx P fields mpi axs t old temp i (a v : list Qc) : zlen a = fields -> ostwald_node2 dx P fields mpi axs t old temp i a = Some v -> zlen v = fields.
Proof.
  intros La. unfold ostwald_node2. destruct (laplacian_at _ _ _ _ _) as [l|]; cbn [bind]; [|discriminate]. destruct (grid_read_int _ _ _ _) as [cell|]; cbn [bind]; [|discriminate].
  destruct (get cell 0) as [C|]; cbn [bind]; [|discriminate]. match goal with |- (do _ <- ?e; _) = _ -> _ => destruct e eqn:Pe end; cbn [bind]; [|discriminate].
  destruct (squares _ _); cbn [bind]; [|discriminate]. destruct (vlaplacian_at _ _ _ _ _ _); cbn [bind]; [|discriminate]. intros E. apply fill_len in E.
  apply put_some in Pe as [_ ->]. unfold zlen in *. rewrite length_set_nth in E. congruence.
Qed.
