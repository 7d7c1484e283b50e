(* The start of the convex-splitting program: two loops with an exchange of ghost cells between them. *)
From Coq Require Import QArith.QArith QArith.Qcanon.
From Verif Require Import Model.Base Model.Boundary Model.Layout Model.Access Model.Setup Model.Codec Model.MPI Model.Ghostswap Model.File Model.Jobs Model.Stencil Model.Simulate Model.Dynamics Model.Generate Model.Starts
  Spec.Box Spec.Access Spec.Bytes Spec.Decomp Spec.Schedule Spec.Stencil Spec.Program Spec.Starts
  Proof.BaseL Proof.LayoutL Proof.AccessL Proof.CodecL Proof.SetupL Proof.MPIL Proof.HaloL Proof.StencilL Proof.StencilS Proof.StencilQ Proof.SimulateL Proof.StagesL Proof.ProgramL Proof.ProgramN Proof.ProgramF Proof.SpinF Proof.StartsL.
Import Model.Layout.
Local Open Scope Z_scope.

(* grids with the same field 0 *)
Definition same0 (a b : option (list Qc)) : Prop := match a, b with Some v, Some u => get v 0 = get u 0 | None, None => True | _, _ => False end.
Definition rel (u v : list (list Qc)) : Prop := forall p, same0 (get u p) (get v p).
Lemma rel_refl u : rel u u.
Proof. intros p. unfold same0. now destruct (get u p). Qed.
Lemma rel_read mpi axs u v x : rel u v -> same0 (grid_read mpi axs u x) (grid_read mpi axs v x).
Proof. intros H. unfold grid_read. destruct (addr_vec mpi axs x 0); cbn [bind]; [apply H|exact I]. Qed.
Lemma flap_rel mpi axs dxs u v x : rel u v -> flaplacian mpi axs dxs u x 0 = flaplacian mpi axs dxs v x 0.
Proof.
  intros H. unfold flaplacian. pose proof (rel_read mpi axs u v x H) as R. unfold same0 in R. destruct (grid_read mpi axs u x) as [a|], (grid_read mpi axs v x) as [b|]; cbn [bind]; try easy. rewrite R. destruct (get b 0) as [y|]; cbn [bind]; [|auto].
  match goal with |- bind ?a _ = bind ?b _ => assert (a = b) as -> end; [|reflexivity].
  apply (fold_opt_rel (fun _ => True)); auto. intros i [s lp] _ _. unfold probe. destruct (shift s i 1) as [s1|]; cbn [bind]; [|auto].
  pose proof (rel_read mpi axs u v s1 H) as R1. unfold same0 in R1. destruct (grid_read mpi axs u s1) as [a1|], (grid_read mpi axs v s1) as [b1|]; cbn [bind]; try easy.
  destruct (shift s1 i (-2)) as [s2|]; cbn [bind]; [|auto].
  pose proof (rel_read mpi axs u v s2 H) as R2. unfold same0 in R2. destruct (grid_read mpi axs u s2) as [a2|], (grid_read mpi axs v s2) as [b2|]; cbn [bind]; try easy.
  destruct (shift s2 i 1) as [s3|]; cbn [bind]; [|auto]. now rewrite R1, R2.
Qed.
Lemma rel_put u v u' p c c' : rel u v -> get u p = Some c -> get c' 0 = get c 0 -> put u p c' = Some u' -> rel u' v.
Proof.
  intros H G E P q. destruct (Z.eq_dec p q) as [<-|N].
  - rewrite (get_put_eq _ _ _ _ P). specialize (H p). rewrite G in H. unfold same0 in *. destruct (get v p); [congruence|easy].
  - rewrite (get_put_ne _ _ _ _ _ P N). apply H.
Qed.
Definition potential mpi axs dxs (dfdc : Qc -> Qc) (K : Qc) (u : list (list Qc)) (n : Z) (c : list Qc) : option (list Qc) :=
  do l <- flaplacian mpi axs dxs u (position axs n) 0; do v <- get c 0; put c 1 (dfdc v - K * l)%Qc.
Lemma second_loop mpi axs dxs dfdc K u : split_second mpi axs dxs dfdc K u = for_cells mpi axs (potential mpi axs dxs dfdc K u) u.
Proof.
  unfold split_second, for_cells. apply (fold_opt_rel (fun cur => rel cur u)); [| |apply rel_refl].
  - intros n cur _ R. rewrite (flap_rel mpi axs dxs cur u _ R). unfold potential. destruct (flaplacian mpi axs dxs u _ 0), (grid_read_int mpi axs cur n) as [c|]; cbn [bind]; try reflexivity. destruct (get c 0); reflexivity.
  - intros n cur cur' _ R E. destruct (grid_read_int mpi axs cur n) as [c|] eqn:Ec; cbn [bind] in E; [|discriminate]. unfold potential in E. destruct (flaplacian mpi axs dxs u _ 0); cbn [bind] in E; [|discriminate].
    destruct (get c 0) as [v|] eqn:Ev; cbn [bind] in E; [|discriminate]. destruct (put c 1 _) as [c'|] eqn:Ep; cbn [bind] in E; [|discriminate].
    eapply (rel_put cur u cur' _ c c'); [exact R|exact Ec| |exact E]. eapply get_put_ne; [exact Ep|lia].
Qed.

(* a loop visits every cell once, so it may take what the cell held before the loop *)
Lemma original {T} mpi axs (f f' : Z -> T -> option T) u : (forall i j, 0 <= i < nodes axs -> 0 <= j < nodes axs -> addr_int mpi axs i = addr_int mpi axs j -> i = j) ->
  (forall i c, 0 <= i < nodes axs -> get u (addr_int mpi axs i) = Some c -> f i c = f' i c) -> for_cells mpi axs f u = for_cells mpi axs f' u.
Proof.
  intros I H. unfold for_cells.
  assert (forall l cur, NoDup l -> (forall i, In i l -> 0 <= i < nodes axs) -> (forall i, In i l -> get cur (addr_int mpi axs i) = get u (addr_int mpi axs i)) ->
    fold_opt (fun d i => do c <- grid_read_int mpi axs d i; do c <- f i c; grid_write_int mpi axs d i c) l cur = fold_opt (fun d i => do c <- grid_read_int mpi axs d i; do c <- f' i c; grid_write_int mpi axs d i c) l cur) as A.
  { induction l as [|k l IH]; intros cur ND R Inv; cbn [fold_opt]; [auto|]. inversion ND as [|? ? Nk ND']; subst. pose proof (R k (or_introl eq_refl)) as Hk.
    change (grid_read_int mpi axs cur k) with (get cur (addr_int mpi axs k)). rewrite (Inv k (or_introl eq_refl)). destruct (get u (addr_int mpi axs k)) as [c|] eqn:Gc; cbn [bind]; [|auto]. rewrite (H k c Hk Gc). destruct (f' k c) as [v|]; cbn [bind]; [|auto].
    change (grid_write_int mpi axs cur k v) with (put cur (addr_int mpi axs k) v). destruct (put cur (addr_int mpi axs k) v) as [cur'|] eqn:Ep; cbn [bind]; [|auto]. apply IH; auto; [intros; apply R; now right|].
    intros i Hi. rewrite <- Inv by now right. eapply get_put_ne; [exact Ep|]. intros Ea. apply I in Ea; [subst; auto|auto|apply R; now right]. }
  apply A; auto; [apply NoDup_zrange|intros i Hi; now apply in_zrange].
Qed.

Section Split.
Context (np : Z) (gs : list gaxis) (gh B : Z) (Gr : grids np gs (faces gs) gh B).
Context (c : codec (list Qc)) (S : serialises c (fun v => zlen v = 2)) (HB : forall v, zlen v = 2 -> c_size c v <= B).
Notation bs := (faces gs).
Notation w := (whole_lims gs bs).
Notation two := (fun v : list Qc => zlen v = 2).
Notation G0 := (fun r => match setup_mpi np gs gh r with Some ge => ge | None => dgeom end).
Notation G := (fun r => with_bounds set_bounds_axis bs (match setup_mpi np gs gh r with Some ge => ge | None => dgeom end)).
Definition or_else (o : option (list Qc)) (b : list Qc) : list Qc := match o with Some a => if zlen a =? 2 then a else b | None => b end.
Lemma or_two o b : zlen b = 2 -> zlen (or_else o b) = 2.
Proof. unfold or_else. destruct o as [a|]; auto. destruct (Z.eqb_spec (zlen a) 2); auto. Qed.
Lemma or_some a b : zlen a = 2 -> or_else (Some a) b = a.
Proof. unfold or_else. intros ->. reflexivity. Qed.
Lemma put0 (v : list Qc) x : zlen v = 2 -> exists v', put v 0 x = Some v' /\ zlen v' = 2 /\ get v' 0 = Some x.
Proof. intros L. destruct (put_ex v 0 x) as (v' & E & L'); [lia|]. exists v'. split; [auto|]. split; [congruence|]. eapply get_put_eq; exact E. Qed.
Lemma split_computes dxs dfdc K comp comp0 memory memory0 D : filled two np gs gh memory -> zlen memory0 = cells (serial_grid gs) -> Forall two memory0 ->
  (forall r ge i n, 0 <= r < np -> setup_mpi np gs gh r = Some ge -> 0 <= i < nodes (ge_axes ge) -> 0 <= n < nodes (serial_grid gs) -> position (ge_axes ge) i = position (serial_grid gs) n -> comp r (ge_axes ge) i = comp0 n) ->
  split_start false (serial_grid gs) dxs dfdc K comp0 memory0 = Some D ->
  computes two np gs bs gh (split_filling np gs gh c dxs dfdc K comp memory) D.
Proof.
  intros Fm Lm F0 Hc ED. pose proof (Hnp np gs gh B Gr) as Np. pose proof (Hne np gs gh B Gr) as Ne. pose proof (Hgh np gs gh B Gr) as Gh. pose proof (B0 np gs gh B Gr) as B0'. pose proof (Lb np gs gh B Gr) as Lb'. pose proof (Sa np gs gh B Gr) as Sa'. pose proof (HI np gs gh B Gr) as HI'. pose proof (Hw np gs gh B Gr) as Hw'.
  set (pick := fun n b => match holder np gs gh (position (serial_grid gs) n) with Some (r, i) => or_else (get (memory r) (addr_int true (ge_axes (G0 r)) i)) b | None => b end).
  set (fr := fun r axs i a => put (or_else (get (memory r) (addr_int true axs i)) a) 0 (comp r axs i)).
  assert (forall r i, 0 <= r < np -> 0 <= i < nodes (ge_axes (G0 r)) -> exists a, get (memory r) (addr_int true (ge_axes (G0 r)) i) = Some a /\ zlen a = 2) as Mr.
  { intros r i Hr Hi. destruct (Fm r _ Hr (made np gs gh B Gr r Hr)) as [Lr Vr]. destruct (lims_r np gs gh B Gr r Hr) as (ls & Ea & _ & Lo & _). cbv beta in *. rewrite Ea in Hi, Lr |- *. destruct (node_facts gh ls true ltac:(lia) ltac:(discriminate) Lo) as (P & _).
    destruct (P i Hi) as (_ & _ & R). destruct (get_ex (memory r) (addr_int true (lay gh ls) i)) as [a Ga]; [lia|]. exists a. split; [auto|]. rewrite Forall_forall in Vr. apply Vr. eapply get_In; eauto. }
  destruct (loop_start np gs gh B Gr two two fr (fun n b => put (pick n b) 0 (comp0 n)) memory memory0) as (D1' & E1' & L1' & V1' & e & H & Ee & He & O & W); auto.
  { intros n v _ Hv. destruct (put0 (pick n v) (comp0 n)) as (v' & E & _); [|eauto]. unfold pick. destruct (holder _ _ _ _) as [[r i]|]; [now apply or_two|auto]. }
  { intros n v v' _ Hv E. destruct (put0 (pick n v) (comp0 n)) as (v2 & E2 & L2 & _); [|congruence]. unfold pick. destruct (holder _ _ _ _) as [[r i]|]; [now apply or_two|auto]. }
  { intros r ge i n a b Hr Eg Lg Hi Hn Ep Ba Bb. unfold fr. rewrite (Hc r ge i n) by auto. rewrite (made np gs gh B Gr r Hr) in Eg. injection Eg as <-. unfold pick. rewrite <- Ep. cbv beta. rewrite (holder_is np gs gh B Gr r i Hr Hi).
    destruct (Mr r i Hr Hi) as (m & Gm & L2). cbv beta in Gm |- *. rewrite Gm. now rewrite !or_some. }
  (* the first loop of the ranks *)
  assert (forall r, 0 <= r < np -> split_first true (ge_axes (G0 r)) (comp r (ge_axes (G0 r))) (memory r) = Some (e r)) as Ef.
  { intros r Hr. rewrite <- (Ee r Hr). unfold split_first. destruct (lims_r np gs gh B Gr r Hr) as (ls & Ea & _ & Lo & _). apply original.
    - intros i j. cbv beta in Ea |- *. rewrite Ea. apply (node_facts gh ls true ltac:(lia) ltac:(discriminate) Lo).
    - intros i m Hi Gm. unfold fr. destruct (Mr r i Hr Hi) as (m' & Gm' & L2). rewrite Gm' in Gm |- *. injection Gm as <-. now rewrite or_some. }
  (* the serial loops *)
  unfold split_start in ED. destruct (split_first false (serial_grid gs) comp0 memory0) as [D1|] eqn:E1; cbn [bind] in ED; [|discriminate]. rewrite second_loop in ED. unfold split_first, for_cells in E1. unfold for_cells in E1'.
  rewrite (grid_lay np gs gh B Gr) in *. destruct (node_facts 0 w false ltac:(lia) ltac:(auto) (lims_le w Sa')) as (P0 & I0 & _).
  destruct (fold_pass_inv (fun n c => put c 0 (comp0 n)) (addr_int false (lay 0 w)) (zrange 0 (nodes (lay 0 w))) memory0 D1 (NoDup_zrange _ _)) as [L1 C1]; [intros i j Hi Hj; apply in_zrange in Hi, Hj; auto|exact E1|].
  destruct (fold_pass_inv (fun n b => put (pick n b) 0 (comp0 n)) (addr_int false (lay 0 w)) (zrange 0 (nodes (lay 0 w))) memory0 D1' (NoDup_zrange _ _)) as [L1'' C1']; [intros i j Hi Hj; apply in_zrange in Hi, Hj; auto|exact E1'|].
  assert (rel D1' D1) as Rl.
  { intros p. destruct (Z_lt_dec p 0) as [Hp|Hp]; [|destruct (Z_lt_dec p (nodes (lay 0 w))) as [Hq|Hq]].
    - unfold get. destruct (Z.ltb_spec p 0); [exact I|lia].
    - destruct (C1 p) as (a & v & _ & Ev & Gv); [apply in_zrange; lia|]. destruct (C1' p) as (a' & v' & _ & Ev' & Gv'); [apply in_zrange; lia|]. unfold addr_int in Gv, Gv'. rewrite Gv, Gv'. cbn [same0]. rewrite (get_put_eq _ _ _ _ Ev), (get_put_eq _ _ _ _ Ev'). reflexivity.
    - rewrite (nodes_eq w Sa') in Hq. unfold same0. rewrite !get_none by lia. exact I. }
  (* the exchange *)
  destruct (exchange np gs bs gh B Np Ne Gh B0' Lb' Sa' HI' Hw' c two H e (fun r u => lift (split_second true (ge_axes (G0 r)) dxs dfdc K u) Ret) no_chans S HB He O (fun _ _ _ => eq_refl)) as (d' & k & ch & Q & Hd & St & Gs).
  pose proof (stored_owned np gs bs gh B Np Ne Gh B0' Lb' Sa' HI' Hw' H d' St) as O'.
  (* the second loop *)
  destruct (pass_ranks np gs bs gh B Np Ne Gh B0' Lb' Sa' HI' Hw' two (fun a b => get a 0 = get b 0) (potential false (lay 0 w) dxs dfdc K D1) (fun r => potential true (ge_axes (G r)) dxs dfdc K (d' r)) D1 D d' ED) as (LD & VD & e1 & H1 & Ee1 & He1 & O1 & W1).
  { congruence. }
  { apply Forall_forall. intros v Hv. apply In_nth_error in Hv as [n En]. assert (n < length D1)%nat as Hn by (apply nth_error_Some; congruence). assert (zlen D1 = nodes (lay 0 w)) as LN by (rewrite (nodes_eq w Sa'); congruence).
    destruct (C1 (Z.of_nat n)) as (a & v' & Ga & Ev & Gv); [apply in_zrange; unfold zlen in LN; lia|]. unfold addr_int in Gv. unfold get in Gv. destruct (Z.ltb_spec (Z.of_nat n) 0) in Gv; [lia|]. rewrite Nat2Z.id, En in Gv. injection Gv as <-.
    apply put_some in Ev as [_ ->]. assert (zlen a = 2) as La by (rewrite Forall_forall in F0; apply F0; eapply get_In; eauto). unfold zlen in *. now rewrite length_set_nth. }
  { exact Hd. }
  { intros r y Hr Oy. pose proof (owned_in_w np gs bs gh B Np Ne Gh B0' Lb' Sa' HI' Hw' r y Hr Oy) as By. pose proof (proj2 W y By) as Gy. pose proof (Rl (encode (lay 0 w) y)) as R. rewrite Gy in R. unfold same0 in R. destruct (get D1 _) as [b|] eqn:Gb; [|easy]. exists (H y), b. split; [now apply O'|]. auto. }
  { intros r ls i i0 a b Hr Ea Ff Lo Ll Hi Hi0 Ep Bi Bi0 Rab Ta Tb. unfold potential. cbv beta in Ea |- *. rewrite Ea, Ep. rewrite <- Ep at 1.
    pose proof (alike_rank np gs bs gh B Np Ne Gh B0' Lb' Sa' HI' Hw' H d' D1' r ls (position (lay gh ls) i) St W Hr Ea Ff Bi) as Al. rewrite Ep in Al |- *.
    rewrite (flaplacian_alike (lay gh ls) (lay 0 w) dxs (d' r) D1' (position (lay 0 w) i0) 0); [|rewrite length_lay, <- Ep; symmetry; now apply local_len|rewrite length_lay; symmetry; now apply local_len|exact Al].
    rewrite (flap_rel false (lay 0 w) dxs D1' D1 _ Rl). destruct (flaplacian false _ _ D1 _ 0) as [l|]; cbn [bind]; [|auto]. rewrite Rab.
    destruct a as [|a1 [|a2 [|]]]; unfold zlen in Ta; cbn in Ta; try lia. destruct b as [|b1 [|b2 [|]]]; unfold zlen in Tb; cbn in Tb; try lia. cbn in Rab |- *. now injection Rab as ->. }
  { intros i0 v v' _ Hv. unfold potential. destruct (flaplacian _ _ _ _ _ _); cbn [bind]; [|discriminate]. destruct (get v 0); cbn [bind]; [|discriminate]. intros E. apply put_some in E as [_ ->]. unfold zlen in *. now rewrite length_set_nth. }
  eapply (computed np gs gh B Gr two _ e1 H1 D (1 + k) ch); [|exact Q|exact He1|exact O1|exact W1|exact VD].
  eapply gsteps_app; [|erewrite (ranks_ext np (fun r => Ret (e1 r))); [exact Gs|]].
  - erewrite ranks_ext; [apply (one_barrier np gs bs gh B Np Ne Gh B0' Lb' Sa' HI' Hw')|]. intros r Hr. unfold split_filling. rewrite (made np gs gh B Gr r Hr). cbn [lift]. rewrite (Ef r Hr). cbn [lift]. pose proof (same_geom np gs gh B Gr r Hr) as Eg. cbv beta in Eg |- *. rewrite Eg. reflexivity.
  - intros r Hr. cbv beta. rewrite second_loop. specialize (Ee1 r Hr). pose proof (same_geom np gs gh B Gr r Hr) as Eg. cbv beta in Eg, Ee1. rewrite Eg in Ee1. rewrite Ee1. reflexivity.
Qed.
End Split.
