From Coq Require Import QArith.QArith QArith.Qcanon.
From Verif Require Import Model.Base Model.Boundary Model.Layout Model.Access Model.Setup Model.Codec Model.MPI Model.Ghostswap Model.File Model.Jobs Model.Stencil Model.Simulate Model.Dynamics Model.Generate Model.Starts
  Spec.Box Spec.Access Spec.Bytes Spec.Decomp Spec.Schedule Spec.Stencil Spec.Program Spec.Starts
  Proof.BaseL Proof.LayoutL Proof.AccessL Proof.CodecL Proof.SetupL Proof.MPIL Proof.HaloL Proof.StencilL Proof.StencilS Proof.StencilQ Proof.SimulateL Proof.StagesL Proof.ProgramL Proof.ProgramF.
Import Model.Layout.
Local Open Scope Z_scope.

(* a new grid has the sides that faces says *)
Lemma faces_axes gh gs : forall p1 pos, length p1 = length gs -> length pos = length gs ->
  zip_with set_bounds_axis (lay gh (zip_limits gs p1 pos)) (faces gs) = lay gh (zip_limits gs p1 pos).
Proof.
  induction gs as [|g gs IH]; intros [|p p1] [|q pos] H1 H2; cbn in H1, H2; try lia; [reflexivity|]. cbn [zip_limits]. destruct (axis_limits g p q) as [g0 g1 x0 x1 b0 b1] eqn:Ea.
  unfold axis_limits in Ea. destruct (local_limits g p q) as [y0 y1]. injection Ea as <- <- <- <- <- <-.
  cbn [lay]. change (faces (g :: gs)) with ((periodic, periodic) :: faces gs). cbn [zip_with]. rewrite IH by lia. f_equal. unfold set_bounds_axis. cbn [a_g0 a_g1 a_x0 a_x1 a_s0 a_s1 a_sx a_xx a_b0 a_b1 l_g0 l_g1 l_x0 l_x1 l_b0 l_b1 fst snd].
  f_equal; destruct (_ =? _); reflexivity.
Qed.
Lemma faces_geom np gs gh r ge : 0 < np -> gs <> [] -> gok gs -> 0 <= r < np -> setup_mpi np gs gh r = Some ge -> with_bounds set_bounds_axis (faces gs) ge = ge.
Proof.
  intros Hnp Hne Hg Hr E. destruct (setup_eq np gs gh r Hnp Hne Hg Hr) as (p & _ & (L & _ & _) & S2 & _ & S4). rewrite S4 in E. injection E as <-. unfold with_bounds. cbn [ge_axes ge_ghosts ge_p1 ge_sp ge_pos ge_n0 ge_n1]. f_equal.
  apply faces_axes; auto. apply in_box_length in S2 as [H _]. rewrite map_length in H. lia.
Qed.

Section Grids.
Context (np : Z) (gs : list gaxis) (gh B : Z) (Gr : grids np gs (faces gs) gh B).
Notation bs := (faces gs).
Notation w := (whole_lims gs bs).
Notation G0 := (fun r => match setup_mpi np gs gh r with Some ge => ge | None => dgeom end).
Notation G := (fun r => with_bounds set_bounds_axis bs (match setup_mpi np gs gh r with Some ge => ge | None => dgeom end)).
Lemma Hnp : 0 < np. Proof using All. apply Gr. Qed.
Lemma Hne : gs <> []. Proof using All. apply Gr. Qed.
Lemma Hgh : 1 <= gh. Proof using All. apply Gr. Qed.
Lemma B0 : 0 <= B. Proof using All. apply Gr. Qed.
Lemma Lb : length bs = length gs. Proof using All. unfold faces. apply map_length. Qed.
Lemma Sa : Forall serial_axis w. Proof using All. destruct Gr as (_ & _ & _ & _ & H & _). apply (whole_serial gs bs H). Qed.
Lemma Hok : gok gs.
Proof using All. destruct Gr as (_ & _ & _ & _ & H & _). unfold gok. generalize H. generalize bs. clear. intros bs H. induction H as [|g b l m (? & _) _ IH]; constructor; auto. lia. Qed.
Lemma HI : forall r ge, 0 <= r < np -> setup_mpi np gs gh r = Some ge -> cells (ge_axes ge) * B <= int_max.
Proof using All. intros r ge Hr E. now apply Gr with r. Qed.
Lemma Hw : forall r ge, 0 <= r < np -> setup_mpi np gs gh r = Some ge -> Forall (fun a => a_x0 a < a_x1 a /\ gh <= a_x1 a - a_x0 a) (ge_axes ge).
Proof using All. intros r ge Hr E. now apply Gr with r. Qed.
Lemma made r : 0 <= r < np -> setup_mpi np gs gh r = Some (G0 r).
Proof using All. exact (ProgramF.made np gs bs gh B Hnp Hne Hgh B0 Lb Sa HI Hw r). Qed.
Lemma same_geom r : 0 <= r < np -> G r = G0 r.
Proof using All. intros Hr. apply (faces_geom np gs gh r); [exact Hnp|exact Hne|exact Hok|exact Hr|now apply made]. Qed.
Lemma grid_lay : serial_grid gs = lay 0 w.
Proof using All. apply whole_lay, Lb. Qed.
Lemma held_filled {T} (valid : T -> Prop) d : filled valid np gs gh d <-> held valid np G d.
Proof using All.
  split.
  - intros F r Hr. rewrite (same_geom r Hr). apply F; [auto|now apply made].
  - intros H r ge Hr E. rewrite (made r Hr) in E. injection E as <-. specialize (H r Hr). pose proof (same_geom r Hr) as Eg. cbv beta in H, Eg. rewrite Eg in H. exact H.
Qed.

Lemma lims_r r : 0 <= r < np -> exists ls, ge_axes (G0 r) = lay gh ls /\ Forall2 fits ls w /\ lims_ok ls /\ length ls = length gs.
Proof using All. intros Hr. destruct (lims_of np gs bs gh B Hnp Hne Hgh B0 Lb Sa HI Hw r Hr) as (ls & E & H). exists ls. split; [|exact H]. rewrite <- (same_geom r Hr). exact E. Qed.

(* cells of the same node *)
Lemma blank_paired {T} (blank : T -> Prop) memory memory0 : filled blank np gs gh memory -> zlen memory0 = cells (lay 0 w) -> Forall blank memory0 ->
  paired np gs bs gh (fun a b => blank a /\ blank b) memory memory0.
Proof using All.
  intros Hu LN F0 r y Hr Oy. destruct (lims_r r Hr) as (ls & Ea & Ff & Lo & Ll). pose proof (owned_in_w np gs bs gh B Hnp Hne Hgh B0 Lb Sa HI Hw r y Hr Oy) as By.
  destruct (Hu r _ Hr (made r Hr)) as [Lu Vu]. rewrite Ea in Lu. pose proof (same_geom r Hr) as Eg. cbv beta in Eg, Oy |- *. unfold owns in Oy. rewrite Eg in Oy |- *. cbv beta in Ea. rewrite Ea in Oy |- *.
  destruct (get_ex (memory r) (encode (lay gh ls) y)) as [a Ga].
  { rewrite Lu. pose proof Hgh. apply (encode_bounds gh); [now apply wf_lay|]. apply (local_in_storage gh); [lia|now apply wf_lay|auto]. }
  destruct (get_ex memory0 (encode (lay 0 w) y)) as [b Gb].
  { rewrite LN. pose proof (lims_le w Sa) as Lw. apply (encode_bounds 0); [now apply wf_lay|]. apply (local_in_storage 0); [lia|now apply wf_lay|]. now rewrite map_x0_lay, map_x1_lay. }
  exists a, b. split; [auto|]. split; [auto|]. rewrite Forall_forall in Vu, F0. split; [apply Vu|apply F0]; eapply get_In; eauto.
Qed.

Lemma serial_nodes (n : Z) : 0 <= n < nodes (lay 0 w) -> box w (position (lay 0 w) n).
Proof using All. intros Hn. destruct (node_facts 0 w false ltac:(lia) ltac:(auto) (lims_le w Sa)) as (P & _). now apply P. Qed.

Lemma serial_length : length (serial_grid gs) = length gs.
Proof using All. rewrite grid_lay, length_lay. apply length_whole, Lb. Qed.
Lemma node_length n : 0 <= n < nodes (serial_grid gs) -> length (position (serial_grid gs) n) = length gs.
Proof using All. rewrite grid_lay. intros Hn. rewrite (local_len w _ (serial_nodes n Hn)). apply length_whole, Lb. Qed.

(* the serial loop ends *)
Lemma serial_loop_ends {T} (blank : T -> Prop) (f0 : Z -> T -> option T) memory0 : zlen memory0 = cells (lay 0 w) -> Forall blank memory0 ->
  (forall n c, 0 <= n < nodes (lay 0 w) -> blank c -> exists v, f0 n c = Some v) -> exists D, for_cells false (lay 0 w) f0 memory0 = Some D.
Proof using All.
  intros L F H. destruct (node_facts 0 w false ltac:(lia) ltac:(auto) (lims_le w Sa)) as (P & I & _).
  destruct (fold_pass_make f0 (addr_int false (lay 0 w)) (zrange 0 (nodes (lay 0 w))) memory0 (NoDup_zrange _ _)) as (D & E & _).
  - intros i j Hi Hj; apply in_zrange in Hi, Hj; auto.
  - intros n Hn. apply in_zrange in Hn. destruct (P n Hn) as (_ & _ & R). destruct (get_ex memory0 (addr_int false (lay 0 w) n)) as [c Gc]; [lia|].
    destruct (H n c Hn) as [v Ev]; [rewrite Forall_forall in F; apply F; eapply get_In; eauto|]. eauto.
  - exists D. exact E.
Qed.

Lemma loop_start {T} (valid blank : T -> Prop) (fr : Z -> list axis -> Z -> T -> option T) (f0 : Z -> T -> option T) memory memory0 :
  (forall v, blank v -> valid v) -> filled blank np gs gh memory -> zlen memory0 = cells (serial_grid gs) -> Forall blank memory0 ->
  (forall n c, 0 <= n < nodes (serial_grid gs) -> blank c -> exists v, f0 n c = Some v) ->
  (forall n c v, 0 <= n < nodes (serial_grid gs) -> valid c -> f0 n c = Some v -> valid v) ->
  (forall r ge i n a b, 0 <= r < np -> setup_mpi np gs gh r = Some ge -> length (ge_axes ge) = length gs -> 0 <= i < nodes (ge_axes ge) -> 0 <= n < nodes (serial_grid gs) ->
    position (ge_axes ge) i = position (serial_grid gs) n -> blank a -> blank b -> fr r (ge_axes ge) i a = f0 n b) ->
  exists D, for_cells false (serial_grid gs) f0 memory0 = Some D /\ zlen D = cells (serial_grid gs) /\ Forall valid D /\
    exists e H, (forall r, 0 <= r < np -> for_cells true (ge_axes (G0 r)) (fr r (ge_axes (G0 r))) (memory r) = Some (e r)) /\ held valid np G e /\ owned np gs bs gh H e /\ on_whole gs bs H D.
Proof using All.
  rewrite grid_lay. intros Hb Fm Lm F0 Hs Hv Hf. destruct (serial_loop_ends blank f0 memory0 Lm F0 Hs) as [D ED].
  assert (filled valid np gs gh memory) as Fv by (intros r ge Hr E; destruct (Fm r ge Hr E) as [? Fb]; split; [auto|]; eapply Forall_impl; [|exact Fb]; auto).
  destruct (pass_ranks np gs bs gh B Hnp Hne Hgh B0 Lb Sa HI Hw valid (fun a b => blank a /\ blank b) f0 (fun r => fr r (ge_axes (G0 r))) memory0 D memory ED Lm) as (L & V & e & H & E1 & He & O & W); auto.
  - eapply Forall_impl; [|exact F0]. auto.
  - now apply held_filled.
  - now apply blank_paired.
  - intros r ls i i0 a b Hr Ea Ff Lo Ll Hi Hi0 Ep _ _ [Ba Bb] _ _. pose proof (same_geom r Hr) as Eg. cbv beta in Ea, Eg. rewrite Eg in Ea. cbv beta.
    apply (Hf r (G0 r) i i0 a b); auto; [now apply made|rewrite Ea, length_lay; auto|now rewrite Ea|now rewrite Ea].
  - exists D. split; [auto|]. split; [auto|]. split; [auto|]. exists e, H. split; [|auto]. intros r Hr. specialize (E1 r Hr). pose proof (same_geom r Hr) as Eg. cbv beta in E1, Eg. rewrite Eg in E1. exact E1.
Qed.

(* ranks that end with grids that hold the field of D *)
Lemma computed {T} (valid : T -> Prop) (prog : Z -> proc (list T)) e H D n ch : gsteps n (ranks np prog, no_chans) (ranks np (fun r => Ret (e r)), ch) -> quiet ch ->
  held valid np G e -> owned np gs bs gh H e -> on_whole gs bs H D -> Forall valid D -> computes valid np gs bs gh prog D.
Proof using All.
  intros Gs Q He O W V. destruct (conclude np prog e n no_chans ch Hnp Q Gs) as (f & Ff & If).
  pose proof (end_state np gs bs gh B Hnp Hne Hgh B0 Lb Sa HI Hw valid e H D W He O) as X.
  split; [|split; [|exact V]].
  - exists e. split; [exists f; auto|]. split.
    + intros r ge y Hr E Oy. destruct (X r ge Hr E) as (_ & _ & Y). unfold whole. destruct (Y y Oy) as (v & Hv). exists v. fold (whole gs bs). fold (serial_grid gs). rewrite grid_lay. exact Hv.
    + intros r ge Hr E. destruct (X r ge Hr E) as (? & ? & _). auto.
  - fold (serial_grid gs). rewrite grid_lay. apply W.
Qed.
Lemma filling_steps {T} (start : Z -> list axis -> list T -> option (list T)) memory e :
  (forall r, 0 <= r < np -> start r (ge_axes (G0 r)) (memory r) = Some (e r)) -> gsteps 1 (ranks np (filling np gs gh start memory), no_chans) (ranks np (fun r => Ret (e r)), no_chans).
Proof using All.
  intros E. erewrite ranks_ext; [apply (one_barrier np gs bs gh B Hnp Hne Hgh B0 Lb Sa HI Hw)|]. intros r Hr. unfold filling. rewrite (made r Hr). cbn [lift]. rewrite (E r Hr). reflexivity.
Qed.
Lemma loop_computes {T} (valid blank : T -> Prop) (fr : Z -> list axis -> Z -> T -> option T) (f0 : Z -> T -> option T) memory memory0 :
  (forall v, blank v -> valid v) -> filled blank np gs gh memory -> zlen memory0 = cells (serial_grid gs) -> Forall blank memory0 ->
  (forall n c, 0 <= n < nodes (serial_grid gs) -> blank c -> exists v, f0 n c = Some v) ->
  (forall n c v, 0 <= n < nodes (serial_grid gs) -> valid c -> f0 n c = Some v -> valid v) ->
  (forall r ge i n a b, 0 <= r < np -> setup_mpi np gs gh r = Some ge -> length (ge_axes ge) = length gs -> 0 <= i < nodes (ge_axes ge) -> 0 <= n < nodes (serial_grid gs) ->
    position (ge_axes ge) i = position (serial_grid gs) n -> blank a -> blank b -> fr r (ge_axes ge) i a = f0 n b) ->
  exists D, for_cells false (serial_grid gs) f0 memory0 = Some D /\ computes valid np gs bs gh (filling np gs gh (fun r axs => for_cells true axs (fr r axs)) memory) D.
Proof using All.
  intros H1 H2 H3 H4 H5 H6 H7. destruct (loop_start valid blank fr f0 memory memory0 H1 H2 H3 H4 H5 H6 H7) as (D & ED & LD & VD & e & H & E & He & O & W).
  exists D. split; [auto|]. apply (computed valid _ e H D 1 no_chans); auto; [|apply quiet_empty]. apply filling_steps. exact E.
Qed.

(* ---- random numbers of the ranks in one sequence ---- *)
Definition vdec : forall x y : list Z, {x = y} + {x <> y} := list_eq_dec Z.eq_dec.
Definition holder (y : list Z) : option (Z * Z) :=
  find (fun p => if vdec (position (ge_axes (G0 (fst p))) (snd p)) y then true else false) (flat_map (fun r => map (pair r) (zrange 0 (nodes (ge_axes (G0 r))))) (zrange 0 np)).
Lemma holder_is r i : 0 <= r < np -> 0 <= i < nodes (ge_axes (G0 r)) -> holder (position (ge_axes (G0 r)) i) = Some (r, i).
Proof using All.
  intros Hr Hi. unfold holder. match goal with |- find ?p ?l = _ => destruct (find p l) as [[r' i']|] eqn:E end.
  - apply find_some in E as [I E]. apply in_flat_map in I as (q & Hq & I). apply in_map_iff in I as (k & Ek & Hk). injection Ek as -> ->. apply in_zrange in Hq, Hk. cbn [fst snd] in E. destruct (vdec _ _) as [Ep|]; [clear E|discriminate].
    destruct (lims_r r Hr) as (ls & Ea & _ & Lo & _). destruct (lims_r r' Hq) as (ls' & Ea' & _ & Lo' & _). pose proof Hgh as G1.
    destruct (node_facts gh ls true ltac:(lia) ltac:(discriminate) Lo) as (P & I & _). destruct (node_facts gh ls' true ltac:(lia) ltac:(discriminate) Lo') as (P' & _).
    cbv beta in Ea, Ea', Hi, Hk, Ep. rewrite Ea in Hi. rewrite Ea' in Hk. 
    assert (r' = r) as ->.
    { pose proof (deco_setup np gs gh Hnp Hne Hok ltac:(lia)) as DC. refine (dc_own _ _ _ _ DC (position (ge_axes (G0 r)) i) r' r Hq Hr _ _); cbv beta; unfold owns.
      - rewrite <- Ep, Ea', map_x0_lay, map_x1_lay. now apply P'.
      - rewrite Ea, map_x0_lay, map_x1_lay. now apply P. }
    rewrite Ea in Ea', Ep. rewrite <- Ea' in Hk.
    f_equal. f_equal. apply I; auto. destruct (P i Hi) as (_ & -> & _), (P i' Hk) as (_ & -> & _). now rewrite Ep.
  - exfalso. eapply (find_none _ _) in E; [|apply in_flat_map; exists r; split; [now apply in_zrange|]; apply in_map, in_zrange; exact Hi]. cbn [fst snd] in E. destruct (vdec _ _); congruence.
Qed.
Definition merge (k : nat) (rnd : Z -> nat -> Z) (m : nat) : Z :=
  match holder (position (serial_grid gs) (Z.of_nat (m / k))) with Some (r, i) => rnd r (k * Z.to_nat i + m mod k)%nat | None => 0 end.
Lemma merge_ok k rnd : merged k np gs gh rnd (merge k rnd).
Proof using All.
  intros r ge i n j Hr E Hi Hn Ep Hj. rewrite (made r Hr) in E. injection E as <-. unfold merge.
  assert ((k * Z.to_nat n + j) / k = Z.to_nat n /\ (k * Z.to_nat n + j) mod k = j)%nat as [-> ->].
  { split; symmetry; [apply (Nat.div_unique _ k _ j)|apply (Nat.mod_unique _ k (Z.to_nat n))]; lia. }
  rewrite Z2Nat.id by lia. rewrite <- Ep. cbv beta. rewrite holder_is by auto. reflexivity.
Qed.
End Grids.
