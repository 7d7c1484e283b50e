(* The semi-implicit Cahn-Hilliard solver on several ranks follows the serial one. *)
From Coq Require Import QArith.QArith QArith.Qcanon Sorting.Permutation.
From Verif Require Import Model.Base Model.Boundary Model.Layout Model.Access Model.Setup Model.Codec Model.MPI Model.Ghostswap Model.File Model.Stencil Model.Evolve Model.Simulate Model.Dynamics Model.Split Model.SplitRanks
  Spec.Box Spec.Access Spec.Bytes Spec.Decomp Spec.Schedule Spec.Stencil Spec.Split Spec.Program
  Proof.BaseL Proof.LayoutL Proof.AccessL Proof.CodecL Proof.SetupL Proof.MPIL Proof.HaloL Proof.StencilL Proof.StencilS Proof.StencilQ Proof.StencilM Proof.SimulateL Proof.StagesL Proof.TessellateF Proof.GrainsizeL
  Proof.SplitL Proof.SplitP Proof.SplitE Proof.SplitR Proof.TotalL Proof.ProgramL Proof.ProgramF Proof.SplitRL.
Local Open Scope Z_scope.

Definition pair_cell (v : list Qc) : Prop := zlen v = 2.
Lemma fold_sum_left (l : list msg) (pq : pod Qc) s : fold_left (fun s m => s + pd_dec pq m)%Qc l s = (s + sumQ (map (pd_dec pq) l))%Qc.
Proof. revert s; induction l as [|m l IH]; intros s; cbn [fold_left map sumQ]; [ring|]. rewrite IH. ring. Qed.
Lemma sumQ_ones {X} (l : list X) : sumQ (map (fun _ => 1%Qc) l) = q_of (zlen l).
Proof.
  induction l as [|a l IH]; [reflexivity|]. cbn [map sumQ]. rewrite IH. replace (zlen (a :: l)) with (1 + zlen l) by (unfold zlen; cbn [length]; lia). unfold q_of. apply Qc_is_canon. cbn [this Q2Qc]. rewrite !this_add.
  cbn [this Q2Qc]. rewrite !Qred_correct. rewrite inject_Z_plus. reflexivity.
Qed.

Section Main.
Context (np : Z) (gs : list gaxis) (bs : list (Z * Z)) (gh B : Z).
Context (Hnp : 0 < np) (Hne : gs <> []) (Hgh : 1 <= gh) (B0 : 0 <= B).
Context (Lb : length bs = length gs) (Sa : Forall serial_axis (whole_lims gs bs)).
Context (HI : forall r ge, 0 <= r < np -> setup_mpi np gs gh r = Some ge -> cells (ge_axes ge) * B <= int_max).
Context (Hw : forall r ge, 0 <= r < np -> setup_mpi np gs gh r = Some ge ->
     Forall (fun a => a_x0 a < a_x1 a /\ gh <= a_x1 a - a_x0 a) (ge_axes ge)).
Context (Ht : Forall tiled (whole_lims gs bs)).
Notation w := (whole_lims gs bs).
Notation G := (fun r => with_bounds set_bounds_axis bs (match setup_mpi np gs gh r with Some ge => ge | None => dgeom end)).
Context (c : codec (list Qc)) (pq : pod Qc) (S : serialises c pair_cell) (HB : forall v, pair_cell v -> c_size c v <= B) (Pq : pod_ok pq (fun _ => True)).
Context (en : energetics) (h D K dt omega tolerance : Qc) (residual_step max_iter : Z) (root : Qc -> Qc).
Context (Hh : h <> 0%Qc) (Hdt : (0 <= dt * D)%Qc) (HK : (0 <= K)%Qc) (Hen : forall c, (0 <= nonlinear en c)%Qc).
Notation wt := (weight w h).
Notation on_w := (on_whole gs bs).
Notation lims_at := (lims_of np gs bs gh B Hnp Hne Hgh B0 Lb Sa HI Hw).

Lemma sum_all {A} (v : Z -> Qc) (P : Z -> Qc -> proc A) ch :
  gsteps 1 (ranks np (fun r => allreduce pq (v r) (P r)), ch) (ranks np (fun r => P r (sumQ (map v (zrange 0 np)))), ch).
Proof using All.
  apply gsteps_1. pose proof (all_coll np 6 (fun r => pd_enc pq (v r)) (fun r ms => P r (fold_left (fun s m => s + pd_dec pq m)%Qc ms 0%Qc)) ch Hnp) as H.
  cbv beta in H. rewrite fold_sum_left, map_map in H. replace (0 + sumQ (map (fun r => pd_dec pq (pd_enc pq (v r))) (zrange 0 np)))%Qc with (sumQ (map v (zrange 0 np))) in H; [exact H|].
  assert (map (fun r => pd_dec pq (pd_enc pq (v r))) (zrange 0 np) = map v (zrange 0 np)) as ->; [|ring]. apply map_ext. intros r. now apply (proj2 Pq).
Qed.

(* every node of the domain is a node of one rank *)
Lemma rank_nodes (V : list Z -> Qc) : sumQ (map (fun r => sumQ (map V (local_nodes (ge_axes (G r))))) (zrange 0 np)) = sumQ (map V (local_nodes (lay 0 w))).
Proof using All.
  assert (Forall (fun g => gx_0 g < gx_1 g) gs) as Hg1.
  { rewrite <- (whole_gaxes gs bs Lb). unfold gaxes. apply Forall_map. eapply Forall_impl; [|exact Sa]. intros l (X & _). exact X. }
  assert (gok gs) as Hg by (eapply Forall_impl; [|exact Hg1]; cbv beta; lia).
  set (axs := fun r => match setup_mpi np gs gh r with Some ge => ge_axes ge | None => [] end).
  assert (forall r, 0 <= r < np -> exists ge, setup_mpi np gs gh r = Some ge /\ axs r = ge_axes ge) as HA.
  { intros r Hr. pose proof (made np gs bs gh B Hnp Hne Hgh B0 Lb Sa HI Hw r Hr) as E. eexists. split; [exact E|]. unfold axs. now rewrite E. }
  assert (forall r, 0 <= r < np -> Permutation (local_nodes (ge_axes (G r))) (local_nodes (axs r))) as Pr.
  { intros r Hr. destruct (HA r Hr) as (ge & E & EA). destruct (lims_at r Hr) as (ls & Ea & Ff & Lo & Ll). destruct (bounds_same np gs bs gh B Hnp Hne Hgh B0 Lb Sa HI Hw r ge Hr E) as (_ & _ & Go & _).
    destruct (rank_geometry np gs gh (map (fun _ => (0, 0)) gs) r ge Hnp Hne Hg Hr (map_length _ _) E) as (_ & _ & _ & _ & _ & _ & _ & _ & _ & _ & ls0 & E0 & Lk & _).
    cbv beta in Ea, Go |- *. unfold owns in Go. rewrite Ea in Go |- *. rewrite EA. rewrite E0 in Go |- *. destruct (local_nodes_spec gh (lay gh ls) (wf_lay gh ls Lo)) as [N1 M1]. destruct (local_nodes_spec gh (lay gh ls0) (wf_lay gh ls0 Lk)) as [N2 M2].
    apply NoDup_Permutation; auto. intros x. rewrite M1, M2. apply Go. }
  cbv beta. assert (map (fun r => sumQ (map V (local_nodes (ge_axes (G r))))) (zrange 0 np) = map (fun r => sumQ (map V (local_nodes (axs r)))) (zrange 0 np)) as ->.
  { apply map_ext_in. intros r Hr. apply in_zrange in Hr. apply sumQ_perm, Permutation_map, Pr. exact Hr. }
  rewrite <- sumQ_concat.
  assert (concat (map (fun r => map V (local_nodes (axs r))) (zrange 0 np)) = map V (concat (map (fun r => local_nodes (axs r)) (zrange 0 np)))) as -> by now rewrite concat_map, map_map.
  apply sumQ_perm, Permutation_map. etransitivity; [exact (owned_permutation np gs gh axs Hnp Hne Hg HA)|].
  assert (wf_axes 0 (lay 0 w)) as Ww by (apply wf_lay, lims_le, Sa).
  destruct (domain_nodes_spec gs Hg) as (N1 & M1 & _). destruct (local_nodes_spec 0 (lay 0 w) Ww) as [N2 M2]. destruct (whole_box gs bs Lb) as [Bx0 Bx1].
  apply NoDup_Permutation; auto. intros x. rewrite M1, M2, map_x0_lay, map_x1_lay. now rewrite Bx0, Bx1.
Qed.
Lemma grid_size : sumQ (map (fun r => q_of (nodes (ge_axes (G r)))) (zrange 0 np)) = q_of (nodes (lay 0 w)).
Proof using All.
  assert (forall g ls, lims_ok ls -> 0 <= nodes (lay g ls)) as Nn.
  { intros g ls Lo. rewrite nodes_lay. apply prodZ_nonneg. apply Forall_map. exact Lo || (eapply Forall_impl; [|exact Lo]; cbv beta; lia). }
  pose proof (rank_nodes (fun _ => 1%Qc)) as R. rewrite sumQ_ones in R. unfold local_nodes in R at 2. rewrite zlen_map, zlen_zrange in R by (apply Nn, lims_le, Sa). rewrite Z.sub_0_r in R. rewrite <- R. f_equal.
  apply map_ext_in. intros r Hr. apply in_zrange in Hr. rewrite sumQ_ones. unfold local_nodes. destruct (lims_at r Hr) as (ls & Ea & Ff & Lo & Ll). cbv beta in Ea |- *. rewrite Ea. rewrite zlen_map, zlen_zrange by now apply Nn. f_equal. lia.
Qed.

Definition two (X : cells2) : Prop := zlen X = cells (lay 0 w) /\ Forall pair_cell X.
Lemma two_is X : two X <-> two_fields w X.
Proof using All. reflexivity. Qed.

(* the cells that a rank and the serial program read around node i of the rank *)
Lemma reads (F : list Z -> list Qc) (d : Z -> cells2) (X : cells2) r ls i i0 : stored np gs bs gh F d -> on_w F X -> 0 <= r < np -> ge_axes (G r) = lay gh ls -> Forall2 fits ls w -> lims_ok ls ->
  0 <= i < nodes (lay gh ls) -> 0 <= i0 < nodes (lay 0 w) -> position (lay gh ls) i = position (lay 0 w) i0 ->
  grid_read_int true (lay gh ls) (d r) i = grid_read_int false (lay 0 w) X i0 /\ grid_read true (lay gh ls) (d r) (position (lay 0 w) i0) = grid_read false (lay 0 w) X (position (lay 0 w) i0) /\
  beside true (lay gh ls) (d r) false (lay 0 w) X (position (lay 0 w) i0) /\ length (lay gh ls) = length (position (lay 0 w) i0) /\ length (lay 0 w) = length (position (lay 0 w) i0).
Proof using All.
  intros St On Hr Ea Ff Lo Hi Hi0 Ep. destruct (node_facts gh ls true ltac:(lia) ltac:(discriminate) Lo) as (P & _). destruct (P i Hi) as (Bi & _). rewrite Ep in Bi.
  pose proof (alike_rank np gs bs gh B Hnp Hne Hgh B0 Lb Sa HI Hw F d X r ls _ St On Hr Ea Ff Bi) as [A0 An]. pose proof (local_len ls _ Bi) as L1. pose proof (local_len w _ (fits_box ls w _ Ff Bi)) as L2.
  split; [|split; [auto|split; [|rewrite !length_lay; auto]]].
  - destruct (read_int_position true gh ls (d r) i) as [-> _]; [lia|discriminate|auto|auto|]. destruct (read_int_position false 0 w X i0) as [-> _]; [lia|auto|apply lims_le, Sa|auto|]. rewrite Ep. exact A0.
  - intros j e Hj He. destruct (An j Hj). destruct He as [-> | ->]; auto.
Qed.

(* a pass *)
Notation pass_w color X Y := (pass (lay 0 w) en h D K dt omega wt color (zrange 0 (nodes (lay 0 w))) X Y).
Lemma all_order : all_nodes w (zrange 0 (nodes (lay 0 w))).
Proof using All. apply Permutation_refl. Qed.
Lemma pass_step color Fo Fn d e X Y : color = 0 \/ color = 1 -> two X -> on_w Fo X -> stored np gs bs gh Fo d -> two Y -> on_w Fn Y -> stored np gs bs gh Fn e -> held pair_cell np G e ->
  exists Y' e' F', pass_w color X Y = Some Y' /\ two Y' /\ on_w F' Y' /\ held pair_cell np G e' /\ owned np gs bs gh F' e' /\
    forall r, 0 <= r < np -> pass_on en h D K dt omega true (ge_axes (G r)) wt color (d r) (e r) = Some (e' r).
Proof using All.
  intros Hc TX OX Sd TY OY Se He.
  destruct (pass_all w Sa h Hh en D K dt omega Hdt HK Hen color (zrange 0 (nodes (lay 0 w))) (tiled_apart w Sa color Ht Hc) all_order X Y TX TY) as (Y' & E & TY' & _).
  assert (for_cells false (lay 0 w) (tile en h D K dt omega wt false 0 w color X Y) Y = Some Y') as Ef.
  { rewrite <- (pass_tiles en h D K dt omega wt false 0 w ltac:(lia) ltac:(auto) (lims_le w Sa) color X Y (separate_whole w color Sa Ht Hc) (proj1 TY)), <- pass_serial. exact E. }
  destruct (pass_ranks np gs bs gh B Hnp Hne Hgh B0 Lb Sa HI Hw pair_cell eq (tile en h D K dt omega wt false 0 w color X Y)
    (fun r n cell => if skipped (ge_axes (G r)) color n then Some cell else relaxed_on en h D K dt omega true (ge_axes (G r)) wt (d r) (e r) n) Y Y' e Ef (proj1 TY) (proj2 TY) He) as (L' & V' & e' & F' & R & He' & Oe' & On').
  { apply (owned_paired np gs bs gh B Hnp Hne Hgh B0 Lb Sa HI Hw eq pair_cell Fn); auto; [|exact (proj2 TY)]. apply (stored_owned np gs bs gh B Hnp Hne Hgh B0 Lb Sa HI Hw). exact Se. }
  { intros r ls i i0 a b Hr Ea Ff Lo Ll Hi Hi0 Ep Bi Bw -> _ _. cbv beta in Ea |- *. rewrite Ea. unfold tile. assert (skipped (lay gh ls) color i = skipped (lay 0 w) color i0) as -> by (unfold skipped; now rewrite Ep).
    destruct (skipped (lay 0 w) color i0); [auto|]. destruct (reads Fo d X r ls i i0 Sd OX Hr Ea Ff Lo Hi Hi0 Ep) as (R1 & _ & _ & L1 & L2). destruct (reads Fn e Y r ls i i0 Se OY Hr Ea Ff Lo Hi Hi0 Ep) as (R2 & _ & R3 & _).
    apply (relaxed_same en h D K dt omega wt true (lay gh ls) (d r) (e r) i false (lay 0 w) X Y i0 (position (lay 0 w) i0)); auto. }
  { intros i0 cell v Hi0 Vc Ev. unfold tile in Ev. destruct (skipped (lay 0 w) color i0); [congruence|].
    pose proof (relax_eq w Sa h Hh en D K dt omega Hdt HK Hen X Y i0 TX TY Hi0) as Re. rewrite relax_on, Ev in Re. cbn [bind] in Re. unfold grid_write_int, addr_int in Re.
    destruct TY as [LY _]. rewrite N_cells in LY. rewrite put_ok in Re by lia. injection Re as Re. unfold pair_cell. pose proof (f_equal (fun l => nth (Z.to_nat i0) l []) Re) as Rn. cbv beta in Rn.
    rewrite !nth_set_nth_eq in Rn by (unfold zlen in LY; lia). rewrite Rn. reflexivity. }
  exists Y', e', F'. split; [auto|]. split; [auto|]. split; [auto|]. split; [auto|]. split; [auto|].
  intros r Hr. specialize (R r Hr). destruct (lims_at r Hr) as (ls & Ea & Ff & Lo & Ll). destruct (He r Hr) as [Le _]. cbv beta in Ea, R, Le |- *. rewrite Ea in R, Le |- *. rewrite <- R.
  rewrite (pass_tiles en h D K dt omega wt true gh ls ltac:(lia) ltac:(discriminate) Lo color (d r) (e r) (separate_rank gh ls w color Hgh Ff Sa Ht Hc) Le). reflexivity.
Qed.

(* the sums over the nodes *)
Notation miss X Y := (missing w h en D K dt X Y).
Notation src X := (source w en X).
Lemma fold_pairs (f : Z -> option (Qc * Qc)) (U V : Z -> Qc) l : forall a b, (forall n, In n l -> f n = Some (U n, V n)) ->
  fold_opt (fun '(residual, normB) n => do e <- f n; Some (residual + fst e, normB + snd e)%Qc) l (a, b) = Some (a + sumQ (map U l), b + sumQ (map V l))%Qc.
Proof using All.
  induction l as [|n l IH]; intros a b H; cbn [fold_opt map sumQ]; [f_equal; f_equal; ring|]. rewrite (H n) by now left. cbn [bind fst snd]. rewrite IH by (intros; apply H; now right). f_equal. f_equal; ring.
Qed.
Lemma errors_eq X Y n : two X -> two Y -> 0 <= n < nodes (lay 0 w) ->
  errors_on en h D K dt false (lay 0 w) X Y n = Some (miss X Y (position (lay 0 w) n), src X (position (lay 0 w) n)).
Proof using All.
  intros Wo Wn Hn. pose proof (proj1 Wo) as Lo. pose proof (proj1 Wn) as Ln. rewrite N_cells in Lo, Ln. pose proof (pos_dom w Sa n Hn) as Bp. unfold errors_on.
  change (field_laplacian_on h false (lay 0 w)) with (field_laplacian (lay 0 w) h).
  assert (forall data : cells2, zlen data = nodes (lay 0 w) -> grid_read_int false (lay 0 w) data n = Some (nth (Z.to_nat n) data [0; 0]%Qc)) as R.
  { intros data L. unfold grid_read_int, addr_int. apply get_nth. lia. }
  rewrite !(field_laplacian_eq w Sa h Hh) by (auto; lia). cbn [bind]. rewrite !R by auto. cbn [bind].
  rewrite !comp_get by (rewrite (two_nth w) by auto; lia). cbn [bind]. rewrite <- !(node_field w Sa) by (auto; lia).
  unfold missing, source, defect1, defect2. f_equal. f_equal; ring.
Qed.
Lemma residual_step_eq Fo Fn d e X Y : two X -> on_w Fo X -> stored np gs bs gh Fo d -> two Y -> on_w Fn Y -> stored np gs bs gh Fn e ->
  exists s t, (forall r, 0 <= r < np -> residuals_on en h D K dt true (ge_axes (G r)) (d r) (e r) = Some (s r, t r)) /\
    residuals (lay 0 w) en h D K dt (zrange 0 (nodes (lay 0 w))) X Y = Some (sumQ (map s (zrange 0 np)), sumQ (map t (zrange 0 np))).
Proof using All.
  intros TX OX Sd TY OY Se. exists (fun r => sumQ (map (miss X Y) (local_nodes (ge_axes (G r))))), (fun r => sumQ (map (src X) (local_nodes (ge_axes (G r))))). split.
  - intros r Hr. destruct (lims_at r Hr) as (ls & Ea & Ff & Lo & Ll). cbv beta in Ea |- *. rewrite Ea. unfold residuals_on, local_nodes. rewrite !map_map.
    rewrite (fold_pairs _ (fun n => miss X Y (position (lay gh ls) n)) (fun n => src X (position (lay gh ls) n))); [f_equal; f_equal; ring|].
    intros n Hn. apply in_zrange in Hn. destruct (node_facts gh ls true ltac:(lia) ltac:(discriminate) Lo) as (P & _). destruct (P n Hn) as (Bn & _).
    destruct (node_facts 0 w false ltac:(lia) ltac:(auto) (lims_le w Sa)) as (_ & _ & O0). destruct (O0 _ (fits_box ls w _ Ff Bn)) as (n0 & Hn0 & Ep).
    destruct (reads Fo d X r ls n n0 Sd OX Hr Ea Ff Lo Hn Hn0 (eq_sym Ep)) as (R1 & _ & _ & L1 & L2). destruct (reads Fn e Y r ls n n0 Se OY Hr Ea Ff Lo Hn Hn0 (eq_sym Ep)) as (R2 & R4 & R3 & _).
    rewrite (errors_same en h D K dt true (lay gh ls) (d r) (e r) n false (lay 0 w) X Y n0 (position (lay 0 w) n0)) by auto. rewrite errors_eq by auto. now rewrite Ep.
  - rewrite !rank_nodes. rewrite (residuals_eq w Sa h Hh en D K dt) by (auto using all_order). unfold total, local_nodes. now rewrite !map_map.
Qed.

(* ---- the loop ---- *)
Definition forward (_ _ : Z) : list Z := zrange 0 (nodes (lay 0 w)).
Notation size := (q_of (nodes (lay 0 w))).
Notation solve_w := (Split.solve (lay 0 w) en h D K dt omega tolerance residual_step root).
Notation rsolve := (rank_solve en h D K dt omega tolerance residual_step root).

Lemma solve_ranks {A} Fo d X : two X -> on_w Fo X -> stored np gs bs gh Fo d -> forall fuel iter res Fn e Y ch (Kk : Z -> cells2 -> Z -> proc A), two Y -> on_w Fn Y -> stored np gs bs gh Fn e -> held pair_cell np G e -> quiet ch ->
  exists Y' iter' res' F' e' k ch', solve_w fuel wt forward iter res X Y = Some (Y', iter', res') /\ two Y' /\ on_w F' Y' /\ stored np gs bs gh F' e' /\ held pair_cell np G e' /\ quiet ch' /\
    gsteps k (ranks np (fun r => rsolve c pq (G r) fuel wt size iter res (d r) (e r) (Kk r)), ch) (ranks np (fun r => Kk r (e' r) iter'), ch').
Proof using All.
  intros TX OX Sd. induction fuel as [|fuel IH]; intros iter res Fn e Y ch Kk TY OY Se He Q; cbn [Split.solve rank_solve].
  { exists Y, iter, res, Fn, e, O, ch. repeat (split; [auto; fail|]). constructor. }
  destruct (above res tolerance) eqn:Ab.
  2: { exists Y, iter, res, Fn, e, O, ch. repeat (split; [auto; fail|]). constructor. }
  destruct (pass_step 1 Fo Fn d e X Y (or_intror eq_refl) TX OX Sd TY OY Se He) as (Y1 & e1 & F1 & E1 & T1 & O1 & He1 & Ow1 & R1).
  unfold sweep. change (forward iter 1) with (zrange 0 (nodes (lay 0 w))). change (forward iter 0) with (zrange 0 (nodes (lay 0 w))). rewrite E1. cbn [bind].
  match goal with |- context [gsteps _ (ranks np ?P, ch) _] => set (Prog := P) end.
  set (Tail := fun r (new : cells2) => let iter := iter + 1 in
        if (iter <? residual_step) || (Z.rem iter residual_step =? 0)
        then lift (residuals_on en h D K dt true (ge_axes (G r)) (d r) new) (fun rr =>
             allreduce pq (fst rr) (fun residual => allreduce pq (snd rr) (fun normB =>
             lift (relative_to root size (residual, normB)) (fun residual => rsolve c pq (G r) fuel wt size iter residual (d r) new (Kk r)))))
        else rsolve c pq (G r) fuel wt size iter res (d r) new (Kk r)).
  destruct (exchange np gs bs gh B Hnp Hne Hgh B0 Lb Sa HI Hw c pair_cell F1 e1 (fun r new => lift (pass_on en h D K dt omega true (ge_axes (G r)) wt 0 (d r) new) (fun new => ghostswap c (G r) new (Tail r))) ch S HB He1 Ow1 Q)
    as (e2 & k1 & ch1 & Q1 & He2 & Se2 & Gs1).
  destruct (pass_step 0 Fo F1 d e2 X Y1 (or_introl eq_refl) TX OX Sd T1 O1 Se2 He2) as (Y2 & e3 & F2 & E2 & T2 & O2 & He3 & Ow3 & R2). rewrite E2. cbn [bind].
  destruct (exchange np gs bs gh B Hnp Hne Hgh B0 Lb Sa HI Hw c pair_cell F2 e3 Tail ch1 S HB He3 Ow3 Q1) as (e4 & k2 & ch2 & Q2 & He4 & Se4 & Gs2).
  assert (gsteps (k1 + k2) (ranks np Prog, ch) (ranks np (fun r => Tail r (e4 r)), ch2)) as Gs12.
  { eapply gsteps_app.
    - erewrite ranks_ext; [exact Gs1|]. intros r Hr. unfold Prog. rewrite (R1 r Hr). reflexivity.
    - erewrite ranks_ext; [exact Gs2|]. intros r Hr. cbv beta. rewrite (R2 r Hr). reflexivity. }
  destruct ((iter + 1 <? residual_step) || (Z.rem (iter + 1) residual_step =? 0)) eqn:Chk; cbn [bind].
  - destruct (residual_step_eq Fo F2 d e4 X Y2 TX OX Sd T2 O2 Se4) as (s & t & Rr & Rs). change (forward (iter + 1 - 1) 2) with (zrange 0 (nodes (lay 0 w))). rewrite Rs. cbn [bind].
    destruct (relative_some w Sa en Hen tolerance root (sumQ (map s (zrange 0 np)), sumQ (map t (zrange 0 np)))) as [v Ev].
    rewrite Ev. cbn [bind].
    destruct (IH (iter + 1) v F2 e4 Y2 ch2 Kk T2 O2 Se4 He4 Q2) as (Y' & iter' & res' & F' & e' & k & ch' & A1 & A2 & A3 & A4 & A5 & A6 & A7).
    exists Y', iter', res', F', e', ((k1 + k2) + (1 + (1 + k)))%nat, ch'. repeat (split; [auto; fail|]).
    eapply gsteps_app; [exact Gs12|].
    set (Last := fun r residual normB => lift (relative_to root size (residual, normB)) (fun residual => rsolve c pq (G r) fuel wt size (iter + 1) residual (d r) (e4 r) (Kk r))).
    eapply gsteps_app; [erewrite ranks_ext; [apply (sum_all s (fun r residual => allreduce pq (t r) (fun normB => Last r residual normB)))|]|].
    { intros r Hr. unfold Tail. cbv zeta. rewrite Chk. rewrite (Rr r Hr). reflexivity. }
    cbv beta. eapply gsteps_app; [apply (sum_all t (fun r normB => Last r (sumQ (map s (zrange 0 np))) normB))|]. cbv beta.
    erewrite ranks_ext; [exact A7|]. intros r Hr. unfold Last. change (relative_to root size) with (relative (lay 0 w) root). rewrite Ev. reflexivity.
  - destruct (IH (iter + 1) res F2 e4 Y2 ch2 Kk T2 O2 Se4 He4 Q2) as (Y' & iter' & res' & F' & e' & k & ch' & A1 & A2 & A3 & A4 & A5 & A6 & A7).
    exists Y', iter', res', F', e', ((k1 + k2) + k)%nat, ch'. repeat (split; [auto; fail|]). eapply gsteps_app; [exact Gs12|]. erewrite ranks_ext; [exact A7|]. intros r Hr. unfold Tail. cbv zeta. rewrite Chk. reflexivity.
Qed.

(* ---- the steps ---- *)
Notation run_w := (Split.run (lay 0 w) en h D K dt omega tolerance residual_step max_iter root).
Notation rrun := (rank_run en h D K dt omega tolerance residual_step max_iter root).
Notation own := (owned np gs bs gh).
Definition always (_ : Z) := forward.

Lemma run_ranks {A} (Ab : Z -> proc A) (Kk : Z -> cells2 -> proc A) n : forall j Fo Fn d e X Y ch, two X -> on_w Fo X -> own Fo d -> held pair_cell np G d -> two Y -> on_w Fn Y -> own Fn e -> held pair_cell np G e -> quiet ch ->
  (run_w n j wt always (X, Y) = Exit (-1) /\ exists k ch', quiet ch' /\ gsteps k (ranks np (fun r => rrun c pq (G r) n wt size (d r) (e r) (Ab r) (Kk r)), ch) (ranks np Ab, ch')) \/
  (exists X' Y' F' d' k ch', run_w n j wt always (X, Y) = Done (X', Y') /\ two X' /\ on_w F' X' /\ own F' d' /\ held pair_cell np G d' /\ quiet ch' /\
    gsteps k (ranks np (fun r => rrun c pq (G r) n wt size (d r) (e r) (Ab r) (Kk r)), ch) (ranks np (fun r => Kk r (d' r)), ch')).
Proof using All.
  induction n as [|n IH]; intros j Fo Fn d e X Y ch TX OX Od Hd TY OY Oe He Q; cbn [Split.run rank_run].
  { right. exists X, Y, Fo, d, O, ch. repeat (split; [auto; fail|]). constructor. }
  set (Next := fun r (old new : cells2) (iter : Z) => if iter =? max_iter then Ab r else rrun c pq (G r) n wt size new old (Ab r) (Kk r)).
  destruct (exchange np gs bs gh B Hnp Hne Hgh B0 Lb Sa HI Hw c pair_cell Fo d (fun r old => ghostswap c (G r) (e r) (fun new => rsolve c pq (G r) (Z.to_nat max_iter) wt size 0 (Fin 1%Qc) old new (Next r old))) ch S HB Hd Od Q)
    as (d1 & k1 & ch1 & Q1 & Hd1 & Sd1 & Gs1).
  destruct (exchange np gs bs gh B Hnp Hne Hgh B0 Lb Sa HI Hw c pair_cell Fn e (fun r new => rsolve c pq (G r) (Z.to_nat max_iter) wt size 0 (Fin 1%Qc) (d1 r) new (Next r (d1 r))) ch1 S HB He Oe Q1)
    as (e1 & k2 & ch2 & Q2 & He1 & Se1 & Gs2).
  destruct (solve_ranks Fo d1 X TX OX Sd1 (Z.to_nat max_iter) 0 (Fin 1%Qc) Fn e1 Y ch2 (fun r => Next r (d1 r)) TY OY Se1 He1 Q2) as (Y' & iter' & res' & F' & e2 & k3 & ch3 & A1 & A2 & A3 & A4 & A5 & A6 & A7).
  assert (gsteps (k1 + (k2 + k3)) (ranks np (fun r => ghostswap c (G r) (d r) (fun old => ghostswap c (G r) (e r) (fun new => rsolve c pq (G r) (Z.to_nat max_iter) wt size 0 (Fin 1%Qc) old new (Next r old)))), ch)
    (ranks np (fun r => Next r (d1 r) (e2 r) iter'), ch3)) as Gs.
  { eapply gsteps_app; [exact Gs1|]. eapply gsteps_app; [exact Gs2|exact A7]. }
  unfold Split.step. change (always j) with forward. rewrite A1. cbn [req obind]. destruct (iter' =? max_iter) eqn:Em; cbn [obind].
  - left. split; [auto|]. exists (k1 + (k2 + k3))%nat, ch3. split; [auto|]. erewrite (ranks_ext np Ab); [exact Gs|]. intros r Hr. unfold Next. now rewrite Em.
  - pose proof (stored_owned np gs bs gh B Hnp Hne Hgh B0 Lb Sa HI Hw F' e2 A4) as Ow2. pose proof (stored_owned np gs bs gh B Hnp Hne Hgh B0 Lb Sa HI Hw Fo d1 Sd1) as Ow1.
    assert (ranks np (fun r => Next r (d1 r) (e2 r) iter') = ranks np (fun r => rrun c pq (G r) n wt size (e2 r) (d1 r) (Ab r) (Kk r))) as En.
    { apply ranks_ext. intros r Hr. unfold Next. now rewrite Em. }
    rewrite En in Gs.
    destruct (IH (j + 1) F' Fo e2 d1 Y' X ch3 A2 A3 Ow2 A5 TX OX Ow1 Hd1 A6) as [(E & k & ch' & Qe & Ge)|(X2 & Y2 & F2 & d2 & k & ch' & E & T2 & O2 & Ow & H2 & Qe & Ge)].
    + left. split; [auto|]. exists ((k1 + (k2 + k3)) + k)%nat, ch'. split; [auto|]. eapply gsteps_app; [exact Gs|exact Ge].
    + right. exists X2, Y2, F2, d2, ((k1 + (k2 + k3)) + k)%nat, ch'. repeat (split; [auto; fail|]). eapply gsteps_app; [exact Gs|exact Ge].
Qed.

(* ---- the calls ---- *)
Notation update_w := (Split.update (lay 0 w) en h D K dt omega tolerance residual_step max_iter root).
Notation rupdates := (rank_updates en h D K dt omega tolerance residual_step max_iter root).
Lemma update_always n schedule X : two X -> (forall a b d, all_nodes w (schedule a b d)) ->
  update_w n schedule X = got (old, _) <- run_w (Z.to_nat n) 0 wt always (X, X); Done old.
Proof using All.
  intros TX Hs. unfold Split.update. rewrite lap_weight_eq by auto. cbn [req obind].
  assert (forall k, valid w (always k)) as Va by (intros k a b; apply Permutation_refl). assert (forall k, valid w (schedule k)) as Vs by (intros k a b; apply Hs).
  pose proof (run_order w Sa h Hh en D K dt omega Hdt HK Hen Ht tolerance residual_step max_iter root schedule always Vs Va (Z.to_nat n) 0 X X TX TX) as [E _].
  exact (f_equal (fun z => got (old, _) <- z; Done old) E).
Qed.
Lemma rank_weight r : 0 <= r < np -> lap_weight (ge_axes (G r)) h = Some wt.
Proof using All.
  intros Hr. destruct (lims_at r Hr) as (ls & Ea & Ff & Lo & Ll). cbv beta in Ea |- *. rewrite Ea, <- (lap_weight_eq w h Hh). unfold lap_weight, dxs, zlen. rewrite !length_lay, Ll. now rewrite (length_whole gs bs Lb).
Qed.
Lemma updates_ranks ns : forall j schedule F d X ch, two X -> on_w F X -> own F d -> held pair_cell np G d -> quiet ch -> (forall a b e f, all_nodes w (schedule a b e f)) ->
  (serial_updates en h D K dt omega tolerance residual_step max_iter root (lay 0 w) j ns schedule X = Exit (-1) /\ exists k ch', quiet ch' /\ gsteps k (ranks np (fun r => rupdates c pq (G r) ns (d r)), ch) (ranks np (fun _ => Ret None), ch')) \/
  (exists X' F' d' k ch', serial_updates en h D K dt omega tolerance residual_step max_iter root (lay 0 w) j ns schedule X = Done X' /\ two X' /\ on_w F' X' /\ own F' d' /\ held pair_cell np G d' /\ quiet ch' /\
    gsteps k (ranks np (fun r => rupdates c pq (G r) ns (d r)), ch) (ranks np (fun r => Ret (Some (d' r))), ch')).
Proof using All.
  induction ns as [|n ns IH]; intros j schedule F d X ch TX OX Od Hd Q Hs; cbn [serial_updates rank_updates].
  { right. exists X, F, d, O, ch. repeat (split; [auto; fail|]). constructor. }
  rewrite update_always by auto. unfold rank_update.
  set (Go := fun r (gridSize : Qc) (old : cells2) => lift (lap_weight (ge_axes (G r)) h) (fun wx => rrun c pq (G r) (Z.to_nat n) wx gridSize old old (Ret None) (fun old => rupdates c pq (G r) ns old))).
  destruct (exchange np gs bs gh B Hnp Hne Hgh B0 Lb Sa HI Hw c pair_cell F d (fun r old => barrier (allreduce pq (q_of (nodes (ge_axes (G r)))) (fun gridSize => Go r gridSize old))) ch S HB Hd Od Q)
    as (d1 & k1 & ch1 & Q1 & Hd1 & Sd1 & Gs1).
  pose proof (stored_owned np gs bs gh B Hnp Hne Hgh B0 Lb Sa HI Hw F d1 Sd1) as Ow1.
  assert (gsteps (k1 + (1 + 1)) (ranks np (fun r => ghostswap c (G r) (d r) (fun old => barrier (allreduce pq (q_of (nodes (ge_axes (G r)))) (fun gridSize => Go r gridSize old)))), ch)
    (ranks np (fun r => rrun c pq (G r) (Z.to_nat n) wt size (d1 r) (d1 r) (Ret None) (fun old => rupdates c pq (G r) ns old)), ch1)) as Gs.
  { eapply gsteps_app; [exact Gs1|]. eapply gsteps_app; [apply (one_barrier np gs bs gh B Hnp Hne Hgh B0 Lb Sa HI Hw)|].
    pose proof (sum_all (fun r => q_of (nodes (ge_axes (G r)))) (fun r gridSize => Go r gridSize (d1 r)) ch1) as SA. cbv beta in SA. pose proof grid_size as Sz. cbv beta in Sz. rewrite Sz in SA.
    erewrite (ranks_ext np (fun r => rrun _ _ _ _ _ _ _ _ _ _)); [exact SA|]. intros r Hr. unfold Go. now rewrite (rank_weight r Hr). }
  destruct (run_ranks (fun _ => Ret None) (fun r old => rupdates c pq (G r) ns old) (Z.to_nat n) 0 F F d1 d1 X X ch1 TX OX Ow1 Hd1 TX OX Ow1 Hd1 Q1) as [(E & k & ch' & Qe & Ge)|(X2 & Y2 & F2 & d2 & k & ch' & E & T2 & O2 & Ow & H2 & Qe & Ge)].
  - left. rewrite E. cbn [obind]. split; [auto|]. exists ((k1 + (1 + 1)) + k)%nat, ch'. split; [auto|]. eapply gsteps_app; [exact Gs|exact Ge].
  - rewrite E. cbn [obind].
    destruct (IH (j + 1) schedule F2 d2 X2 ch' T2 O2 Ow H2 Qe Hs) as [(E' & k' & ch2 & Qf & Gf)|(X3 & F3 & d3 & k' & ch2 & E' & T3 & O3 & Ow3 & H3 & Qf & Gf)].
    + left. split; [auto|]. exists ((k1 + (1 + 1)) + (k + k'))%nat, ch2. split; [auto|]. eapply gsteps_app; [exact Gs|]. eapply gsteps_app; [exact Ge|exact Gf].
    + right. exists X3, F3, d3, ((k1 + (1 + 1)) + (k + k'))%nat, ch2. repeat (split; [auto; fail|]). eapply gsteps_app; [exact Gs|]. eapply gsteps_app; [exact Ge|exact Gf].
Qed.
End Main.

Theorem split_ranks c pq np gs bs gh B en h D K dt omega tolerance residual_step max_iter root ns schedule (data : Z -> cells2) data0 :
  grids np gs bs gh B -> Forall tiled (whole_lims gs bs) -> serialises c pair_cell -> (forall v, pair_cell v -> c_size c v <= B) -> pod_ok pq (fun _ => True) ->
  h <> 0%Qc -> (0 <= dt * D)%Qc -> (0 <= K)%Qc -> (forall c, 0 <= nonlinear en c)%Qc ->
  zlen data0 = cells (whole gs bs) -> Forall pair_cell data0 ->
  (forall r ge, 0 <= r < np -> setup_mpi np gs gh r = Some ge -> zlen (data r) = cells (ge_axes ge) /\ Forall pair_cell (data r)) -> same_field np gs bs gh data data0 ->
  (forall a b e f, Permutation (schedule a b e f) (zrange 0 (nodes (whole gs bs)))) ->
  let program := split_program en h D K dt omega tolerance residual_step max_iter root c pq np gs bs gh data ns in
  let serial := serial_updates en h D K dt omega tolerance residual_step max_iter root (whole gs bs) 0 ns schedule data0 in
  (serial = Exit (-1) /\ always_ends np program (fun _ => None)) \/
  (exists data' data0', serial = Done data0' /\ zlen data0' = cells (whole gs bs) /\ Forall pair_cell data0' /\ always_ends np program (fun r => Some (data' r)) /\ same_field np gs bs gh data' data0').
Proof.
  intros (Hnp & Hne & Hgh & B0 & Hbs & Hg) Ht S HB Pq Hh Hdt HK Hen L0 V0 HD HS Hsch program serial. destruct (whole_serial gs bs Hbs) as [Lb Sa]. unfold serial. rewrite whole_lay in * by auto.
  assert (forall r ge, 0 <= r < np -> setup_mpi np gs gh r = Some ge -> cells (ge_axes ge) * B <= int_max) as HI by (intros r ge Hr Eg; apply (Hg r ge Hr Eg)).
  assert (forall r ge, 0 <= r < np -> setup_mpi np gs gh r = Some ge -> Forall (fun a => a_x0 a < a_x1 a /\ gh <= a_x1 a - a_x0 a) (ge_axes ge)) as Hw by (intros r ge Hr Eg; apply (Hg r ge Hr Eg)).
  destruct (start_state np gs bs gh B Hnp Hne Hgh B0 Lb Sa HI Hw pair_cell data data0 L0) as (F & WF & Hd & Od).
  { intros r ge Hr Eg. destruct (HD r ge Hr Eg) as (? & ?). split; [auto|]. split; [auto|]. intros y Oy. destruct (HS r ge y Hr Eg Oy) as (v & E1 & E2). rewrite whole_lay in E2 by auto. congruence. }
  assert (forall r, 0 <= r < np -> program r = rank_updates en h D K dt omega tolerance residual_step max_iter root c pq (with_bounds set_bounds_axis bs (match setup_mpi np gs gh r with Some ge => ge | None => dgeom end)) ns (data r)) as Pr.
  { intros r Hr. unfold program, split_program. rewrite (made np gs bs gh B Hnp Hne Hgh B0 Lb Sa HI Hw r Hr). reflexivity. }
  destruct (updates_ranks np gs bs gh B Hnp Hne Hgh B0 Lb Sa HI Hw Ht c pq S HB Pq en h D K dt omega tolerance residual_step max_iter root Hh Hdt HK Hen ns 0 schedule F data data0 no_chans (conj L0 V0) WF Od Hd quiet_empty Hsch)
    as [(E & k & ch' & Q & Gs)|(X' & F' & d' & k & ch' & E & [T1 T2] & O' & Ow & Hd' & Q & Gs)].
  - left. split; [exact E|]. destruct (conclude np program (fun _ => None) k no_chans ch' Hnp Q) as (fin & F1 & F2); [|exists fin; auto]. erewrite (ranks_ext np program); [exact Gs|exact Pr].
  - right. exists d', X'. split; [exact E|]. split; [auto|]. split; [auto|]. split.
    + destruct (conclude np program (fun r => Some (d' r)) k no_chans ch' Hnp Q) as (fin & F1 & F2); [|exists fin; auto]. erewrite (ranks_ext np program); [exact Gs|exact Pr].
    + intros r ge y Hr Eg Oy. destruct (end_state np gs bs gh B Hnp Hne Hgh B0 Lb Sa HI Hw pair_cell d' F' X' O' Hd' Ow r ge Hr Eg) as (_ & _ & Y). rewrite whole_lay by auto. exact (Y y Oy).
Qed.
