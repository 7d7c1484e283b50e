(* The solidification program on several ranks follows the serial one. *)
From Coq Require Import QArith.QArith QArith.Qcanon.
From Verif Require Import Model.Base Model.Boundary Model.Layout Model.Access Model.Setup Model.Codec Model.MPI Model.Ghostswap Model.Stencil Model.Evolve Model.Simulate Model.Dynamics Model.SolidRanks
  Spec.Box Spec.Access Spec.Bytes Spec.Decomp Spec.Schedule Spec.Stencil Spec.Program
  Proof.BaseL Proof.LayoutL Proof.AccessL Proof.CodecL Proof.SetupL Proof.MPIL Proof.HaloL Proof.StencilL Proof.StencilS Proof.StencilQ Proof.SimulateL Proof.StagesL Proof.ProgramL Proof.ProgramF Proof.ProgramN Proof.ProgramT.
Local Open Scope Z_scope.

(* ---- a loop over two grids, each node reading and writing its own cells, is two loops ---- *)
Section PairLoop.
Context {X Y : Type} (at_ : Z -> Z) (g : list Y -> Z -> X -> option X) (h : Z -> Y -> option Y) (F : list X * list Y -> Z -> option (list X * list Y)).
Lemma pair_fold l : NoDup l -> (forall i j, In i l -> In j l -> at_ i = at_ j -> i = j) ->
  (forall i new ref, In i l -> F (new, ref) i = do new' <- visit (g ref) at_ new i; do ref' <- visit h at_ ref i; Some (new', ref')) ->
  (forall i a ref ref', In i l -> get ref (at_ i) = get ref' (at_ i) -> g ref i a = g ref' i a) ->
  forall ref0 new ref, (forall i, In i l -> get ref (at_ i) = get ref0 (at_ i)) ->
  fold_opt F l (new, ref) = do new' <- fold_opt (visit (g ref0) at_) l new; do ref' <- fold_opt (visit h at_) l ref; Some (new', ref').
Proof.
  induction l as [|i l IH]; intros N I HF Hg ref0 new ref Hr; cbn [fold_opt]; [reflexivity|]. inversion N; subst.
  rewrite HF by now left. assert (visit (g ref) at_ new i = visit (g ref0) at_ new i) as ->.
  { unfold visit. destruct (get new (at_ i)); cbn [bind]; [|auto]. rewrite (Hg i x ref ref0); [auto|now left|apply Hr; now left]. }
  destruct (visit (g ref0) at_ new i) as [new1|]; cbn [bind]; [|auto]. destruct (visit h at_ ref i) as [ref1|] eqn:V; cbn [bind].
  - apply IH; auto.
    + intros; apply I; auto; now right.
    + intros; apply HF; now right.
    + intros; apply Hg; auto; now right.
    + intros j Hj. destruct (visit_inv h at_ _ _ _ V) as (c & v & _ & _ & P & _). rewrite (get_put _ _ _ (at_ j) _ P). destruct (Z.eqb_spec (at_ j) (at_ i)) as [Ea|]; [|apply Hr; now right].
      exfalso. apply I in Ea; [subst; auto|now right|now left].
  - now destruct (fold_opt (visit (g ref0) at_) l new1).
Qed.
End PairLoop.

Definition two_cell (v : list Qc) : Prop := zlen v = 2.
Lemma two_puts a p q : two_cell a -> exists b, put a 0 p = Some b /\ put b 1 q = Some [p; q].
Proof.
  intros H. destruct a as [|x [|y [|z a]]]; try (cbv in H; discriminate H); [|unfold two_cell, zlen in H; cbn [length] in H; lia]. exists [p; y]. split; reflexivity.
Qed.

Section Nodes.
Context (dx : list Qc) (flux : Qc -> Qc -> Qc * Qc) (melt : Qc -> Qc) (tau dt DiffT : Qc).
Definition solid_new (mpi : bool) (axs : list axis) (old D : list (list Qc)) (ref : list Qc) (i : Z) (newX : list Qc) : option (list Qc) :=
  let x := position axs i in
  do oldX <- grid_read mpi axs old x; do phi <- get oldX 0; do u <- get oldX 1;
  do dgpX <- grid_read mpi axs D x;
  do div <- fold_opt (fun div d =>
      do y <- shift x d (-1); do c <- grid_read mpi axs D y; do vl <- get c d; do here <- get dgpX d;
      do h <- get dx d; do rh <- recip h; Some (div + (here - vl) * rh)%Qc) (zrange 0 (zlen axs)) 0%Qc;
  do phi' <- new_phase melt tau dt phi u div;
  do newX <- put newX 0 phi';
  do lapT <- flaplacian mpi axs dx old x 1;
  do before <- grid_read_int mpi axs ref i;
  do rdt <- recip dt;
  put newX 1 (u + dt * (DiffT * lapT + (phi - before) * rdt))%Qc.
Definition solid_ref (mpi : bool) (axs : list axis) (old : list (list Qc)) (i : Z) (_ : Qc) : option Qc :=
  do oldX <- grid_read mpi axs old (position axs i); get oldX 0.

Lemma node_two mpi g ls old D i new ref : 0 <= g -> (mpi = false -> g = 0) -> lims_ok ls -> 0 <= i < nodes (lay g ls) ->
  solidify_node mpi (lay g ls) dx melt tau dt DiffT old D (new, ref) i =
  do new' <- visit (solid_new mpi (lay g ls) old D ref) (addr_int mpi (lay g ls)) new i;
  do ref' <- visit (solid_ref mpi (lay g ls) old) (addr_int mpi (lay g ls)) ref i; Some (new', ref').
Proof.
  intros Hg Hm Lo Hi. destruct (read_int_position mpi g ls new i Hg Hm Lo Hi) as [Rn Wn].
  unfold solidify_node, visit, solid_new, solid_ref. cbv zeta. rewrite <- Rn. unfold grid_read_int, grid_write_int in *.
  destruct (grid_read mpi (lay g ls) old (position (lay g ls) i)) as [oldX|]; cbn [bind]; [|now destruct (get new (addr_int mpi (lay g ls) i))].
  destruct (get oldX 0) as [phi|]; cbn [bind]; [|now destruct (get new (addr_int mpi (lay g ls) i))].
  destruct (get oldX 1) as [u|]; cbn [bind]; [|now destruct (get new (addr_int mpi (lay g ls) i))].
  destruct (grid_read mpi (lay g ls) D (position (lay g ls) i)) as [dg|]; cbn [bind]; [|now destruct (get new (addr_int mpi (lay g ls) i))].
  destruct (get new (addr_int mpi (lay g ls) i)) as [newX|]; cbn [bind]; [|reflexivity].
  match goal with |- context [fold_opt ?f ?l ?s] => destruct (fold_opt f l s) as [dv|] end; cbn [bind]; [|reflexivity].
  destruct (new_phase melt tau dt phi u dv) as [phi'|]; cbn [bind]; [|reflexivity].
  destruct (put newX 0 phi') as [n1|]; cbn [bind]; [|reflexivity].
  destruct (flaplacian mpi (lay g ls) dx old (position (lay g ls) i) 1) as [lap|]; cbn [bind]; [|reflexivity].
  destruct (get ref (addr_int mpi (lay g ls) i)) as [before|]; cbn [bind]; [|reflexivity].
  destruct (recip dt) as [rdt|]; cbn [bind]; [|reflexivity].
  destruct (put n1 1 _) as [n2|]; cbn [bind]; [|reflexivity]. rewrite <- Wn. reflexivity.
Qed.
Lemma loop_two mpi g ls old D new ref : 0 <= g -> (mpi = false -> g = 0) -> lims_ok ls ->
  fold_opt (solidify_node mpi (lay g ls) dx melt tau dt DiffT old D) (zrange 0 (nodes (lay g ls))) (new, ref) =
  do new' <- for_cells mpi (lay g ls) (solid_new mpi (lay g ls) old D ref) new; do ref' <- for_cells mpi (lay g ls) (solid_ref mpi (lay g ls) old) ref; Some (new', ref').
Proof.
  intros Hg Hm Lo. destruct (node_facts g ls mpi Hg Hm Lo) as (_ & I & _).
  apply (pair_fold (addr_int mpi (lay g ls)) (fun ref => solid_new mpi (lay g ls) old D ref) (solid_ref mpi (lay g ls) old)).
  - apply NoDup_zrange.
  - intros i j Hi Hj. apply in_zrange in Hi, Hj. apply I; auto.
  - intros i n r Hi. apply in_zrange in Hi. now apply node_two.
  - intros i a r r' _ E. unfold solid_new, grid_read_int. now rewrite E.
  - auto.
Qed.
Lemma start_cells mpi g ls old ref : 0 <= g -> (mpi = false -> g = 0) -> lims_ok ls -> zlen ref = cells (lay g ls) ->
  solidify_start mpi (lay g ls) old ref = for_cells mpi (lay g ls) (solid_ref mpi (lay g ls) old) ref.
Proof.
  intros Hg Hm Lo L. unfold solidify_start. rewrite (for_nodes_cells mpi g ls) by auto. unfold for_cells. apply (fold_opt_rel (fun _ => True)); auto. intros i d Hi _. apply in_zrange in Hi.
  unfold solid_ref. now rewrite (proj1 (read_int_position mpi g ls old i Hg Hm Lo Hi)).
Qed.

Section Local.
Context (g1 : Z) (ls ls0 : list limits) (i i0 : Z) (G1 : 0 <= g1) (Lo : lims_ok ls) (Lo0 : lims_ok ls0) (Ll : length ls = length ls0)
  (Hi : 0 <= i < nodes (lay g1 ls)) (Hi0 : 0 <= i0 < nodes (lay 0 ls0)) (Ep : position (lay g1 ls) i = position (lay 0 ls0) i0) (Lp : length (position (lay 0 ls0) i0) = length ls0).
Notation al old old0 := (alike (lay g1 ls) old (lay 0 ls0) old0 (position (lay 0 ls0) i0)).
Lemma zlens : zlen (lay g1 ls) = zlen (lay 0 ls0) /\ zlen (lay 0 ls0) = zlen (position (lay 0 ls0) i0).
Proof using All. unfold zlen. rewrite !length_lay. lia. Qed.
Lemma flux_local old old0 a b : al old old0 -> two_cell a -> two_cell b -> heat_flux true (lay g1 ls) dx flux old i a = heat_flux false (lay 0 ls0) dx flux old0 i0 b.
Proof using All.
  intros [A0 A1] Ta Tb. unfold heat_flux. cbv zeta. rewrite Ep, A0. destruct (grid_read false (lay 0 ls0) old0 (position (lay 0 ls0) i0)) as [cc|]; cbn [bind]; [|auto]. destruct (get cc 0) as [center|]; cbn [bind]; [|auto].
  destruct zlens as [-> Z2].
  rewrite (map_opt_ext_in _ (fun d => do y <- shift (position (lay 0 ls0) i0) d 1; do c <- grid_read false (lay 0 ls0) old0 y; do vr <- get c 0; do h <- get dx d; do rh <- recip h; Some ((vr - center) * rh)%Qc)).
  2:{ intros d Hd. apply in_zrange in Hd. rewrite shift_eq by lia. cbn [bind]. destruct (A1 d ltac:(lia)) as [-> _]. reflexivity. }
  destruct (map_opt _ _) as [gr|]; cbn [bind]; [|auto]. destruct (get gr 0) as [gx|]; cbn [bind]; [|auto]. destruct (get gr 1) as [gy|]; cbn [bind]; [|auto]. destruct (flux gx gy) as [fx fy].
  destruct (two_puts a fx fy Ta) as (a1 & -> & Ea). destruct (two_puts b fx fy Tb) as (b1 & -> & Eb). cbn [bind]. now rewrite Ea, Eb.
Qed.
Lemma flux_two mpi axs old j a v : two_cell a -> heat_flux mpi axs dx flux old j a = Some v -> two_cell v.
Proof using.
  intros Ta. unfold heat_flux. cbv zeta. destruct (grid_read mpi axs old (position axs j)) as [cc|]; cbn [bind]; [|discriminate]. destruct (get cc 0) as [ce|]; cbn [bind]; [|discriminate].
  destruct (map_opt _ _) as [gr|]; cbn [bind]; [|discriminate]. destruct (get gr 0) as [gx|]; cbn [bind]; [|discriminate]. destruct (get gr 1) as [gy|]; cbn [bind]; [|discriminate]. destruct (flux gx gy) as [fx fy].
  destruct (two_puts a fx fy Ta) as (a1 & -> & E). cbn [bind]. rewrite E. intros H. injection H as <-. reflexivity.
Qed.
Lemma ref_local old old0 a b : al old old0 -> solid_ref true (lay g1 ls) old i a = solid_ref false (lay 0 ls0) old0 i0 b.
Proof using All. intros [A0 _]. unfold solid_ref. now rewrite Ep, A0. Qed.
Lemma new_local old old0 D D0 ref ref0 a b : al old old0 -> al D D0 -> grid_read_int true (lay g1 ls) ref i = grid_read_int false (lay 0 ls0) ref0 i0 -> two_cell a -> two_cell b ->
  solid_new true (lay g1 ls) old D ref i a = solid_new false (lay 0 ls0) old0 D0 ref0 i0 b.
Proof using All.
  intros A [B0 B1] Er Ta Tb. pose proof A as [A0 _]. unfold solid_new. cbv zeta. rewrite Er, Ep, A0, B0. destruct zlens as [Z1 Z2].
  rewrite (flaplacian_alike (lay g1 ls) (lay 0 ls0) dx old old0) by (auto; rewrite ?length_lay; lia). rewrite Z1.
  destruct (grid_read false (lay 0 ls0) old0 (position (lay 0 ls0) i0)) as [oldX|]; cbn [bind]; [|auto]. destruct (get oldX 0) as [phi|]; cbn [bind]; [|auto]. destruct (get oldX 1) as [u|]; cbn [bind]; [|auto].
  destruct (grid_read false (lay 0 ls0) D0 (position (lay 0 ls0) i0)) as [dg|]; cbn [bind]; [|auto].
  rewrite (fold_opt_rel (fun _ => True) _ (fun div d =>
      do y <- shift (position (lay 0 ls0) i0) d (-1); do c <- grid_read false (lay 0 ls0) D0 y; do vl <- get c d; do here <- get dg d;
      do h <- get dx d; do rh <- recip h; Some (div + (here - vl) * rh)%Qc)); auto.
  2:{ intros d s Hd _. apply in_zrange in Hd. rewrite shift_eq by lia. cbn [bind]. destruct (B1 d ltac:(lia)) as [_ ->]. reflexivity. }
  destruct (fold_opt _ _ _) as [dv|]; cbn [bind]; [|auto]. destruct (new_phase melt tau dt phi u dv) as [phi'|]; cbn [bind]; [|auto].
  destruct (flaplacian false (lay 0 ls0) dx old0 (position (lay 0 ls0) i0) 1) as [lap|]; cbn [bind]; [|now destruct (put a 0 phi'), (put b 0 phi')].
  destruct (grid_read_int false (lay 0 ls0) ref0 i0) as [before|]; cbn [bind]; [|now destruct (put a 0 phi'), (put b 0 phi')].
  destruct (recip dt) as [rdt|]; cbn [bind]; [|now destruct (put a 0 phi'), (put b 0 phi')].
  match goal with |- (do newX <- put a 0 ?p; put newX 1 ?q) = _ => destruct (two_puts a p q Ta) as (a1 & -> & Ea); destruct (two_puts b p q Tb) as (b1 & -> & Eb) end. cbn [bind]. now rewrite Ea, Eb.
Qed.
Lemma new_two mpi axs old D ref j a v : two_cell a -> solid_new mpi axs old D ref j a = Some v -> two_cell v.
Proof using.
  intros Ta. unfold solid_new. cbv zeta.
  repeat match goal with |- (do _ <- ?e; _) = _ -> _ => let X := fresh in destruct e as [X|] eqn:?; cbn [bind]; [|discriminate] end.
  intros E. unfold two_cell in *. apply put_some in E as [_ ->]. match goal with H : put a 0 _ = Some _ |- _ => apply put_some in H as [_ ->] end. unfold zlen in *. now rewrite !length_set_nth.
Qed.
End Local.
End Nodes.

Section Main.
Context (np : Z) (gs : list gaxis) (bs : list (Z * Z)) (gh B : Z).
Context (Hnp : 0 < np) (Hne : gs <> []) (Hgh : 1 <= gh) (B0 : 0 <= B).
Context (Lb : length bs = length gs) (Sa : Forall serial_axis (whole_lims gs bs)).
Context (HI : forall r ge, 0 <= r < np -> setup_mpi np gs gh r = Some ge -> cells (ge_axes ge) * B <= int_max).
Context (Hw : forall r ge, 0 <= r < np -> setup_mpi np gs gh r = Some ge ->
     Forall (fun a => a_x0 a < a_x1 a /\ gh <= a_x1 a - a_x0 a) (ge_axes ge)).
Notation w := (whole_lims gs bs).
Notation G := (fun r => with_bounds set_bounds_axis bs (match setup_mpi np gs gh r with Some ge => ge | None => dgeom end)).
Context (c : codec (list Qc)) (S : serialises c two_cell) (HB : forall v, two_cell v -> c_size c v <= B).
Context (dx : list Qc) (flux : Qc -> Qc -> Qc * Qc) (melt : Qc -> Qc) (tau dt DiffT : Qc).
Notation on_w := (on_whole gs bs).
Notation own := (owned np gs bs gh).
Notation sto := (stored np gs bs gh).
Notation ssteps := (solid_steps dx flux melt tau dt DiffT).
Notation anyQ := (fun _ : Qc => True).

Lemma allQ (l : list Qc) : Forall anyQ l. Proof. apply Forall_forall; auto. Qed.
Lemma own_int {X} (Fr : list Z -> X) rf Rf r ls i i0 : own Fr rf -> on_w Fr Rf -> 0 <= r < np -> ge_axes (G r) = lay gh ls -> lims_ok ls -> 0 <= i < nodes (lay gh ls) -> 0 <= i0 < nodes (lay 0 w) ->
  position (lay gh ls) i = position (lay 0 w) i0 -> grid_read_int true (lay gh ls) (rf r) i = grid_read_int false (lay 0 w) Rf i0.
Proof using All.
  intros O [_ W] Hr Ea Lo Hi Hi0 Ep. destruct (node_facts gh ls true ltac:(lia) ltac:(discriminate) Lo) as (P & _). destruct (node_facts 0 w false ltac:(lia) ltac:(auto) (lims_le w Sa)) as (P0 & _).
  destruct (P i Hi) as (Bi & Ai & _). destruct (P0 i0 Hi0) as (Bi0 & Ai0 & _). unfold grid_read_int. rewrite Ai, Ai0, (W _ Bi0). rewrite Ep. rewrite <- Ea. apply O; [auto|].
  unfold owns. cbv beta in Ea |- *. rewrite Ea, map_x0_lay, map_x1_lay. rewrite <- Ep. exact Bi.
Qed.

Lemma all_paired {X} (vd : X -> Prop) u (N : list X) : held vd np G u -> zlen N = cells (lay 0 w) -> paired np gs bs gh any u N.
Proof using All.
  intros Hu LN r y Hr Oy. destruct (lims_of np gs bs gh B Hnp Hne Hgh B0 Lb Sa HI Hw r Hr) as (ls & Ea & Ff & Lo & Ll). destruct (Hu r Hr) as [Lu _]. pose proof (owned_in_w np gs bs gh B Hnp Hne Hgh B0 Lb Sa HI Hw r y Hr Oy) as By. cbv beta in Ea, Lu |- *. unfold owns in Oy. cbv beta in Oy. rewrite Ea in Oy, Lu |- *.
  destruct (get_ex (u r) (encode (lay gh ls) y)) as [a Ga].
  { rewrite Lu. apply (encode_bounds gh); [now apply wf_lay|]. apply (local_in_storage gh); [lia|now apply wf_lay|auto]. }
  destruct (get_ex N (encode (lay 0 w) y)) as [b Gb].
  { rewrite LN. apply (encode_bounds 0); [apply wf_lay, lims_le, Sa|]. apply (local_in_storage 0); [lia|apply wf_lay, lims_le, Sa|]. now rewrite map_x0_lay, map_x1_lay. }
  exists a, b. split; [auto|]. split; [auto|exact I].
Qed.

Lemma steps_ranks {A} (n : nat) : forall F d u Fr rf D N Rf st ch (K : Z -> list (list Qc) -> list Qc -> proc A), on_w F D -> Forall two_cell D -> held two_cell np G d -> sto F d ->
  zlen N = cells (lay 0 w) -> Forall two_cell N -> held two_cell np G u -> on_w Fr Rf -> held anyQ np G rf -> own Fr rf -> quiet ch ->
  repeat_step n (solidify_step false (lay 0 w) dx flux melt tau dt DiffT) (D, N, Rf) = Some st ->
  exists F' d' rf' k ch', on_w F' (fst (fst st)) /\ Forall two_cell (fst (fst st)) /\ held two_cell np G d' /\ sto F' d' /\ zlen (snd st) = cells (lay 0 w) /\ held anyQ np G rf' /\ quiet ch' /\
    gsteps k (ranks np (fun r => ssteps c (G r) n (d r) (u r) (rf r) (K r)), ch) (ranks np (fun r => K r (d' r) (rf' r)), ch').
Proof using All.
  induction n as [|n IH]; intros F d u Fr rf D N Rf st ch K WD VD Hd St LN VN Hu WR Hrf Or Q Es; cbn [repeat_step] in Es.
  - injection Es as <-. exists F, d, rf, O, ch. cbn [fst snd solid_steps]. repeat (split; [auto; fail|]). split; [exact (proj1 WR)|]. repeat (split; [auto; fail|]). constructor.
  - destruct (solidify_step false (lay 0 w) dx flux melt tau dt DiffT (D, N, Rf)) as [s1|] eqn:E1; cbn [bind] in Es; [|discriminate]. unfold solidify_step in E1.
    set (Z0 := repeat [0; 0]%Qc (length D)) in *. set (z0 := fun r => repeat [0; 0]%Qc (length (d r))).
    assert (zlen Z0 = cells (lay 0 w) /\ Forall two_cell Z0) as [LZ VZ].
    { split; [unfold Z0, zlen; rewrite repeat_length; exact (proj1 WD)|]. apply Forall_forall. intros v Hv. apply repeat_spec in Hv. now subst v. }
    assert (held two_cell np G z0) as Hz.
    { intros r Hr. destruct (Hd r Hr) as [L _]. split; [unfold z0, zlen; rewrite repeat_length; exact L|]. apply Forall_forall. intros v Hv. apply repeat_spec in Hv. now subst v. }
    destruct (for_cells false (lay 0 w) (heat_flux false (lay 0 w) dx flux D) Z0) as [E'|] eqn:Ep; cbn [bind] in E1; [|discriminate].
    destruct (pass_ranks np gs bs gh B Hnp Hne Hgh B0 Lb Sa HI Hw two_cell any (heat_flux false (lay 0 w) dx flux D) (fun r => heat_flux true (ge_axes (G r)) dx flux (d r)) Z0 E' z0 Ep LZ VZ Hz
      (all_paired two_cell z0 Z0 Hz LZ)) as (LE' & VE' & e1 & H1 & X1 & He1 & O1 & W1).
    { intros r ls i i0 a b Hr Ea Ff Lo Ll Hi Hi0 Epos Bi Bw _ Va Vb. cbv beta in Ea |- *. rewrite Ea. apply flux_local; auto; try lia.
      - apply lims_le, Sa. - rewrite Ll. symmetry. now apply length_whole. - now apply local_len in Bw. - rewrite <- Epos. eapply (alike_rank np gs bs gh B); eauto. }
    { intros i0 a v Hi Va Ev. exact (flux_two dx flux false (lay 0 w) D i0 a v Va Ev). }
    destruct (exchange np gs bs gh B Hnp Hne Hgh B0 Lb Sa HI Hw c two_cell H1 e1 (fun r Dg => lift (fold_opt (solidify_node true (ge_axes (G r)) dx melt tau dt DiffT (d r) Dg) (zrange 0 (nodes (ge_axes (G r)))) (u r, rf r)) (fun st =>
           ghostswap c (G r) (fst st) (fun g => ssteps c (G r) n g (d r) (snd st) (K r)))) ch S HB He1 O1 Q) as (e2 & k1 & ch1 & Q1 & He2 & St2 & Gs1).
    rewrite loop_two in E1 by (auto; try lia; apply lims_le, Sa).
    destruct (for_cells false (lay 0 w) (solid_new dx melt tau dt DiffT false (lay 0 w) D E' Rf) N) as [N'|] eqn:En; cbn [bind] in E1; [|discriminate].
    destruct (for_cells false (lay 0 w) (solid_ref false (lay 0 w) D) Rf) as [Rf'|] eqn:Er; cbn [bind] in E1; [|discriminate]. injection E1 as <-.
    destruct (pass_ranks np gs bs gh B Hnp Hne Hgh B0 Lb Sa HI Hw two_cell any (solid_new dx melt tau dt DiffT false (lay 0 w) D E' Rf) (fun r => solid_new dx melt tau dt DiffT true (ge_axes (G r)) (d r) (e2 r) (rf r)) N N' u En LN VN Hu
      (all_paired two_cell u N Hu LN)) as (LN' & VN' & u1 & F1 & X2 & Hu1 & O2 & W2).
    { intros r ls i i0 a b Hr Ea Ff Lo Ll Hi Hi0 Epos Bi Bw _ Va Vb. cbv beta in Ea |- *. rewrite Ea. apply new_local; auto; try lia.
      - apply lims_le, Sa. - rewrite Ll. symmetry. now apply length_whole. - now apply local_len in Bw.
      - rewrite <- Epos. eapply (alike_rank np gs bs gh B); eauto. - rewrite <- Epos. eapply (alike_rank np gs bs gh B); eauto.
      - eapply own_int; eauto. }
    { intros i0 a v Hi Va Ev. exact (new_two dx melt tau dt DiffT false (lay 0 w) D E' Rf i0 a v Va Ev). }
    destruct (pass_ranks np gs bs gh B Hnp Hne Hgh B0 Lb Sa HI Hw anyQ any (solid_ref false (lay 0 w) D) (fun r => solid_ref true (ge_axes (G r)) (d r)) Rf Rf' rf Er (proj1 WR) (allQ Rf) Hrf
      (all_paired anyQ rf Rf Hrf (proj1 WR))) as (LR' & _ & rf1 & Fr1 & X3 & Hrf1 & O3 & W3).
    { intros r ls i i0 a b Hr Ea Ff Lo Ll Hi Hi0 Epos Bi Bw _ Va Vb. cbv beta in Ea |- *. rewrite Ea. apply ref_local; auto; try lia.
      - apply lims_le, Sa. - rewrite Ll. symmetry. now apply length_whole. - now apply local_len in Bw. - rewrite <- Epos. eapply (alike_rank np gs bs gh B); eauto. }
    { auto. }
    destruct (exchange np gs bs gh B Hnp Hne Hgh B0 Lb Sa HI Hw c two_cell F1 u1 (fun r g => ssteps c (G r) n g (d r) (rf1 r) (K r)) ch1 S HB Hu1 O2 Q1) as (d1 & k2 & ch2 & Q2 & Hd1 & St1 & Gs2).
    destruct (IH F1 d1 d Fr1 rf1 N' D Rf' st ch2 K W2 VN' Hd1 St1 (proj1 WD) VD Hd W3 Hrf1 O3 Q2 Es) as (F' & d' & rf' & k' & ch' & A1 & A2 & A3 & A4 & A5 & A6 & A7 & A8).
    exists F', d', rf', (1 + (k1 + (k2 + k')))%nat, ch'. repeat (split; [auto; fail|]).
    eapply gsteps_app; [apply (one_barrier np gs bs gh B Hnp Hne Hgh B0 Lb Sa HI Hw)|].
    eapply gsteps_app; [erewrite ranks_ext; [exact Gs1|]|eapply gsteps_app; [erewrite ranks_ext; [exact Gs2|]|exact A8]].
    + intros r Hr. specialize (X1 r Hr). unfold z0 in X1. cbv beta in X1 |- *. rewrite X1. reflexivity.
    + intros r Hr. destruct (lims_of np gs bs gh B Hnp Hne Hgh B0 Lb Sa HI Hw r Hr) as (ls & Ea & _ & Lo & _). specialize (X2 r Hr). specialize (X3 r Hr). cbv beta in Ea, X2, X3 |- *. rewrite Ea in X2, X3 |- *.
      rewrite loop_two by (auto; try lia; discriminate). rewrite X2, X3. reflexivity.
Qed.
Notation scalls := (solid_calls dx flux melt tau dt DiffT).
Lemma calls_ranks ns0 : forall first F d rf D Rf D' ns ch, on_w F D -> Forall two_cell D -> held two_cell np G d -> own F d -> zlen Rf = cells (lay 0 w) -> held anyQ np G rf -> quiet ch ->
  (forall r, 0 <= r < np -> Forall2 (fun a b => fst a = fst b /\ zlen (snd a) = cells (ge_axes (G r)) /\ Forall two_cell (snd a)) (ns r) ns0) ->
  Forall (fun b => zlen (snd b) = cells (lay 0 w) /\ Forall two_cell (snd b)) ns0 ->
  serial_solid dx flux melt tau dt DiffT (lay 0 w) ns0 D Rf = Some D' ->
  exists F' d' k ch', on_w F' D' /\ Forall two_cell D' /\ held two_cell np G d' /\ own F' d' /\ quiet ch' /\
    gsteps k (ranks np (fun r => scalls c (G r) first (ns r) (d r) (rf r)), ch) (ranks np (fun r => Ret (d' r)), ch').
Proof using All.
  induction ns0 as [|[n N] ns0 IH]; intros first F d rf D Rf D' ns ch WD VD Hd Od LR Hrf Q Hns Hn0 Es; cbn [serial_solid] in Es.
  { injection Es as <-. exists F, d, O, ch. repeat (split; [auto; fail|]). erewrite ranks_ext; [constructor|]. intros r Hr. specialize (Hns r Hr). inversion Hns. reflexivity. }
  inversion Hn0 as [|? ? [LN VN] Hn1]; subst. cbn [snd] in LN, VN. set (u := fun r => snd (hd (O, []) (ns r))). set (ns' := fun r => tl (ns r)).
  assert (forall r, 0 <= r < np -> ns r = (n, u r) :: ns' r /\ zlen (u r) = cells (ge_axes (G r)) /\ Forall two_cell (u r) /\ Forall2 (fun a b => fst a = fst b /\ zlen (snd a) = cells (ge_axes (G r)) /\ Forall two_cell (snd a)) (ns' r) ns0) as Hh.
  { intros r Hr. specialize (Hns r Hr). unfold u, ns'. inversion Hns as [|[n' v] b' l l' (P1 & P2 & P3) Q' E1 E2]; subst. cbn [fst snd hd tl] in *. subst n'. auto. }
  unfold solidify_update in Es. destruct (solidify_start false (lay 0 w) D Rf) as [R1|] eqn:Est; cbn [bind] in Es; [|discriminate].
  destruct (repeat_step n (solidify_step false (lay 0 w) dx flux melt tau dt DiffT) (D, N, R1)) as [[[D1 N1] R2]|] eqn:Er; cbn [bind] in Es; [|discriminate].
  cbn [fst snd] in Es.
  set (Tail := fun r (old : list (list Qc)) => lift (solidify_start true (ge_axes (G r)) old (rf r)) (fun ref =>
        ghostswap c (G r) old (fun old => ssteps c (G r) n old (u r) ref (fun old ref => scalls c (G r) false (ns' r) old ref)))).
  destruct (exchange np gs bs gh B Hnp Hne Hgh B0 Lb Sa HI Hw c two_cell F d (fun r old => barrier (if first then barrier (Tail r old) else Tail r old)) ch S HB Hd Od Q) as (d1 & k1 & ch1 & Q1 & Hd1 & St1 & Gs1).
  rewrite start_cells in Est by (auto; try lia; apply lims_le, Sa).
  destruct (pass_ranks np gs bs gh B Hnp Hne Hgh B0 Lb Sa HI Hw anyQ any (solid_ref false (lay 0 w) D) (fun r => solid_ref true (ge_axes (G r)) (d1 r)) Rf R1 rf Est LR (allQ Rf) Hrf
      (all_paired anyQ rf Rf Hrf LR)) as (LR1 & _ & rf1 & Fr1 & X3 & Hrf1 & O3 & W3).
  { intros r ls i i0 a b Hr Ea Ff Lo Ll Hi Hi0 Epos Bi Bw _ Va Vb. cbv beta in Ea |- *. rewrite Ea. apply ref_local; auto; try lia.
    - apply lims_le, Sa. - rewrite Ll. symmetry. now apply length_whole. - now apply local_len in Bw. - rewrite <- Epos. eapply (alike_rank np gs bs gh B); eauto. }
  { auto. }
  pose proof (stored_owned np gs bs gh B Hnp Hne Hgh B0 Lb Sa HI Hw F d1 St1) as Od1.
  destruct (exchange np gs bs gh B Hnp Hne Hgh B0 Lb Sa HI Hw c two_cell F d1 (fun r old => ssteps c (G r) n old (u r) (rf1 r) (fun old ref => scalls c (G r) false (ns' r) old ref)) ch1 S HB Hd1 Od1 Q1) as (d2 & k2 & ch2 & Q2 & Hd2 & St2 & Gs2).
  assert (held two_cell np G u) as Hu by (intros r Hr; destruct (Hh r Hr) as (_ & ? & ? & _); auto).
  destruct (steps_ranks n F d2 u Fr1 rf1 D N R1 _ ch2 (fun r old ref => scalls c (G r) false (ns' r) old ref) WD VD Hd2 St2 LN VN Hu W3 Hrf1 O3 Q2 Er)
    as (F3 & d3 & rf3 & k3 & ch3 & A1 & A2 & A3 & A4 & A5 & A6 & A7 & A8). cbn [fst snd] in A1, A2, A5.
  destruct (IH false F3 d3 rf3 D1 R2 D' ns' ch3 A1 A2 A3 (stored_owned np gs bs gh B Hnp Hne Hgh B0 Lb Sa HI Hw F3 d3 A4) A5 A6 A7) as (F' & d' & k' & ch' & C1 & C0 & C2 & C3 & C4 & C5); auto.
  { intros r Hr. now destruct (Hh r Hr) as (_ & _ & _ & ?). }
  assert (exists kb, gsteps kb (ranks np (fun r => barrier (if first then barrier (Tail r (d1 r)) else Tail r (d1 r))), ch1) (ranks np (fun r => Tail r (d1 r)), ch1)) as [kb Gb].
  { destruct first.
    - exists (1 + 1)%nat. eapply gsteps_app; [apply (one_barrier np gs bs gh B Hnp Hne Hgh B0 Lb Sa HI Hw)|apply (one_barrier np gs bs gh B Hnp Hne Hgh B0 Lb Sa HI Hw)].
    - exists 1%nat. apply (one_barrier np gs bs gh B Hnp Hne Hgh B0 Lb Sa HI Hw). }
  exists F', d', (k1 + (kb + (k2 + (k3 + k'))))%nat, ch'. repeat (split; [auto; fail|]).
  eapply gsteps_app; [erewrite ranks_ext; [exact Gs1|]|].
  { intros r Hr. destruct (Hh r Hr) as (-> & _). reflexivity. }
  eapply gsteps_app; [exact Gb|]. eapply gsteps_app; [erewrite ranks_ext; [exact Gs2|]|eapply gsteps_app; [exact A8|exact C5]].
  intros r Hr. unfold Tail. destruct (lims_of np gs bs gh B Hnp Hne Hgh B0 Lb Sa HI Hw r Hr) as (ls & Ea & _ & Lo & _). specialize (X3 r Hr). destruct (Hrf r Hr) as [Lr _]. cbv beta in Ea, X3, Lr |- *. rewrite Ea in X3, Lr |- *.
  rewrite start_cells by (auto; try lia; discriminate). rewrite X3. reflexivity.
Qed.
End Main.

Lemma solid_ranks_from first c np gs bs gh B dx flux melt tau dt DiffT (D : Z -> list (list Qc)) (ref : Z -> list Qc) ns D0 ref0 ns0 D0' :
  grids np gs bs gh B -> serialises c two_cell -> (forall v, two_cell v -> c_size c v <= B) ->
  zlen D0 = cells (whole gs bs) -> Forall two_cell D0 -> zlen ref0 = cells (whole gs bs) ->
  (forall r ge, 0 <= r < np -> setup_mpi np gs gh r = Some ge -> zlen (D r) = cells (ge_axes ge) /\ Forall two_cell (D r) /\ zlen (ref r) = cells (ge_axes ge) /\
     Forall2 (fun a b => fst a = fst b /\ zlen (snd a) = cells (ge_axes ge) /\ Forall two_cell (snd a)) (ns r) ns0) ->
  Forall (fun b => zlen (snd b) = cells (whole gs bs) /\ Forall two_cell (snd b)) ns0 ->
  same_field np gs bs gh D D0 -> serial_solid dx flux melt tau dt DiffT (whole gs bs) ns0 D0 ref0 = Some D0' ->
  computes two_cell np gs bs gh (fun r => lift (setup_mpi np gs gh r) (fun ge => solid_calls dx flux melt tau dt DiffT c (with_bounds set_bounds_axis bs ge) first (ns r) (D r) (ref r))) D0'.
Proof.
  intros (Hnp & Hne & Hgh & B0 & Hbs & Hg) S HB L0 V0 LR HD Hn0 HS Es. destruct (whole_serial gs bs Hbs) as [Lb Sa]. rewrite whole_lay in * by auto.
  assert (forall r ge, 0 <= r < np -> setup_mpi np gs gh r = Some ge -> cells (ge_axes ge) * B <= int_max) as HI by (intros r ge Hr Eg; apply (Hg r ge Hr Eg)).
  assert (forall r ge, 0 <= r < np -> setup_mpi np gs gh r = Some ge -> Forall (fun a => a_x0 a < a_x1 a /\ gh <= a_x1 a - a_x0 a) (ge_axes ge)) as Hw by (intros r ge Hr Eg; apply (Hg r ge Hr Eg)).
  destruct (start_state np gs bs gh B Hnp Hne Hgh B0 Lb Sa HI Hw two_cell D D0 L0) as (F & WF & Hd & Od).
  { intros r ge Hr Eg. destruct (HD r ge Hr Eg) as (? & ? & _). split; [auto|]. split; [auto|]. intros y Oy. destruct (HS r ge y Hr Eg Oy) as (v & E1 & E2). rewrite whole_lay in E2 by auto. congruence. }
  destruct (calls_ranks np gs bs gh B Hnp Hne Hgh B0 Lb Sa HI Hw c S HB dx flux melt tau dt DiffT ns0 first F D ref D0 ref0 D0' ns no_chans WF V0 Hd Od LR) as (F' & d' & k & ch' & A1 & A0 & A2 & A3 & A4 & A5); auto.
  { intros r Hr. destruct (bounds_same np gs bs gh B Hnp Hne Hgh B0 Lb Sa HI Hw r _ Hr (made np gs bs gh B Hnp Hne Hgh B0 Lb Sa HI Hw r Hr)) as (_ & -> & _).
    destruct (HD r _ Hr (made np gs bs gh B Hnp Hne Hgh B0 Lb Sa HI Hw r Hr)) as (_ & _ & ? & _). split; [auto|apply allQ]. }
  { apply quiet_empty. }
  { intros r Hr. destruct (bounds_same np gs bs gh B Hnp Hne Hgh B0 Lb Sa HI Hw r _ Hr (made np gs bs gh B Hnp Hne Hgh B0 Lb Sa HI Hw r Hr)) as (_ & -> & _).
    now destruct (HD r _ Hr (made np gs bs gh B Hnp Hne Hgh B0 Lb Sa HI Hw r Hr)) as (_ & _ & _ & ?). }
  pose proof (end_state np gs bs gh B Hnp Hne Hgh B0 Lb Sa HI Hw two_cell d' F' D0' A1 A2 A3) as Y. split; [exists d'; split; [|split]|split; [rewrite whole_lay by auto; apply A1|exact A0]].
  - match goal with |- always_ends np ?P _ => destruct (conclude np P d' k no_chans ch' Hnp A4) as (fin & F1 & F2) end; [|exists fin; auto].
    erewrite ranks_ext; [exact A5|]. intros r Hr. cbv beta. rewrite (made np gs bs gh B Hnp Hne Hgh B0 Lb Sa HI Hw r Hr). reflexivity.
  - intros r ge y Hr Eg Oy. rewrite whole_lay by auto. destruct (Y r ge Hr Eg) as (_ & _ & Z). now apply Z.
  - intros r ge Hr Eg. destruct (Y r ge Hr Eg) as (? & ? & _). auto.
Qed.
Theorem solid_ranks c np gs bs gh B dx flux melt tau dt DiffT (D : Z -> list (list Qc)) (ref : Z -> list Qc) ns D0 ref0 ns0 D0' :
  grids np gs bs gh B -> serialises c two_cell -> (forall v, two_cell v -> c_size c v <= B) ->
  zlen D0 = cells (whole gs bs) -> Forall two_cell D0 -> zlen ref0 = cells (whole gs bs) ->
  (forall r ge, 0 <= r < np -> setup_mpi np gs gh r = Some ge -> zlen (D r) = cells (ge_axes ge) /\ Forall two_cell (D r) /\ zlen (ref r) = cells (ge_axes ge) /\
     Forall2 (fun a b => fst a = fst b /\ zlen (snd a) = cells (ge_axes ge) /\ Forall two_cell (snd a)) (ns r) ns0) ->
  Forall (fun b => zlen (snd b) = cells (whole gs bs) /\ Forall two_cell (snd b)) ns0 ->
  same_field np gs bs gh D D0 -> serial_solid dx flux melt tau dt DiffT (whole gs bs) ns0 D0 ref0 = Some D0' ->
  computes two_cell np gs bs gh (solid_program dx flux melt tau dt DiffT c np gs bs gh D ref ns) D0'.
Proof. exact (solid_ranks_from true c np gs bs gh B dx flux melt tau dt DiffT D ref ns D0 ref0 ns0 D0'). Qed.
