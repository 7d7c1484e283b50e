(* The residual, the loop and the steps of the semi-implicit Cahn-Hilliard solver. *)
From Coq Require Import QArith.QArith QArith.Qcanon Sorting.Permutation Lqa.
From Verif Require Import Model.Base Model.Boundary Model.Layout Model.Access Model.File Model.Stencil Model.Evolve Model.Split
  Spec.Box Spec.Access Spec.Stencil Spec.Split Proof.BaseL Proof.LayoutL Proof.AccessL Proof.StencilL Proof.StencilQ Proof.StencilS Proof.StencilM
  Proof.EvolveL Proof.SplitL Proof.SplitP Proof.SplitE.
Local Open Scope Z_scope.

Lemma sumQ_perm l m : Permutation l m -> sumQ l = sumQ m.
Proof. induction 1; cbn [sumQ]; [auto| |ring|congruence]. now rewrite IHPermutation. Qed.

Section Run.
Context (ls : list limits) (Hs : Forall serial_axis ls) (h : Qc) (Hh : h <> 0%Qc).
Context (en : energetics) (D K dt omega : Qc).
Notation axs := (lay 0 ls).
Notation N := (nodes axs).
Notation pos := (position axs).

Definition missing (old new : cells2) (x : list Z) : Qc :=
  let a := defect1 ls h D dt old new x in let b := defect2 ls h K (contractive en) (expansive en) old new x in (a * a + b * b)%Qc.
Definition source (old : cells2) (x : list Z) : Qc :=
  let a := field ls old 0 x in let b := expansive en (field ls old 0 x) in (a * a + b * b)%Qc.

Lemma residuals_eq order old new : all_nodes ls order -> two_fields ls old -> two_fields ls new ->
  residuals axs en h D K dt order old new = Some (total ls (missing old new), total ls (source old)).
Proof.
  intros P Wo Wn. pose proof (proj1 Wo) as Lo. pose proof (proj1 Wn) as Ln. rewrite N_cells in Lo, Ln. unfold residuals.
  assert (forall l r b, (forall n, In n l -> 0 <= n < N) ->
    fold_opt (fun '(residual, normB) n =>
      let x := pos n in
      do lapC <- field_laplacian axs h new x 0;
      do lapU <- field_laplacian axs h new x 1;
      do o <- grid_read_int false axs old n;
      do g <- grid_read_int false axs new n;
      do cOld <- get o 0;
      do cNew <- get g 0;
      do uNew <- get g 1;
      let B1 := cOld in
      let B2 := expansive en cOld in
      let AX1 := (cNew - D * dt * lapU)%Qc in
      let AX2 := (uNew - contractive en cNew + K * lapC)%Qc in
      let R1 := (B1 - AX1)%Qc in
      let R2 := (B2 - AX2)%Qc in
      Some (residual + (R1 * R1 + R2 * R2), normB + (B1 * B1 + B2 * B2))%Qc) l (r, b) =
    Some (r + sumQ (map (fun n => missing old new (pos n)) l), b + sumQ (map (fun n => source old (pos n)) l))%Qc) as A.
  { induction l as [|n l IH]; intros r b I; cbn [fold_opt map sumQ]; [f_equal; f_equal; ring|].
    pose proof (I n (or_introl eq_refl)) as Hn. pose proof (pos_dom ls Hs n Hn) as B.
    assert (forall data : cells2, zlen data = N -> grid_read_int false axs data n = Some (nth (Z.to_nat n) data [0; 0]%Qc)) as R.
    { intros data L. unfold grid_read_int, addr_int. apply get_nth. lia. }
    rewrite !(field_laplacian_eq ls Hs h Hh) by (auto; lia). cbn [bind]. rewrite !R by auto. cbn [bind].
    rewrite !comp_get by (rewrite (two_nth ls) by auto; lia). cbn [bind]. rewrite <- !(node_field ls Hs) by (auto; lia).
    rewrite IH by (intros; apply I; now right). unfold missing at 2, source at 2, defect1, defect2. f_equal. f_equal; ring. }
  assert (forall n, In n order -> 0 <= n < N) as I by (intros n Hn; apply (in_zrange 0 N n); eapply Permutation_in; [exact P|exact Hn]).
  etransitivity; [exact (A order 0%Qc 0%Qc I)|]. f_equal. unfold total. f_equal.
  - rewrite (sumQ_perm _ (map (fun n => missing old new (pos n)) (zrange 0 N))) by now apply Permutation_map. ring.
  - rewrite (sumQ_perm _ (map (fun n => source old (pos n)) (zrange 0 N))) by now apply Permutation_map. ring.
Qed.

Context (Hdt : (0 <= dt * D)%Qc) (HK : (0 <= K)%Qc) (Hen : forall c, (0 <= nonlinear en c)%Qc) (Ht : Forall tiled ls).
Context (tolerance : Qc) (residual_step max_iter : Z) (root : Qc -> Qc).
Notation w := (weight ls h).
Notation solve := (Split.solve axs en h D K dt omega tolerance residual_step root).
Notation step := (Split.step axs en h D K dt omega tolerance residual_step max_iter root).
Notation run := (Split.run axs en h D K dt omega tolerance residual_step max_iter root).
Notation sweep := (Split.sweep axs en h D K dt omega w).
Notation relative := (Split.relative axs root).

Lemma N_pos : 0 < N.
Proof.
  rewrite nodes_lay. apply prodZ_pos. apply Forall_map. eapply Forall_impl; [|exact Hs]. intros l (H & _). lia.
Qed.
Lemma relative_some r : exists v, relative r = Some v.
Proof.
  unfold Split.relative. destruct (Qc_eq_dec _ _); [eauto|]. rewrite recip_eq; [eauto|]. apply dbl_nz. intros E. apply (f_equal this) in E. pose proof N_pos as P.
  assert (this (q_of N) == inject_Z N)%Q as Q by apply Qred_correct. rewrite E in Q. change (this 0%Qc) with 0%Q in Q. unfold Qeq in Q. cbn in Q. lia.
Qed.
Definition valid (order : Z -> Z -> list Z) : Prop := forall it p, all_nodes ls (order it p).

Lemma solve_order order order' old : valid order -> valid order' -> two_fields ls old -> forall fuel iter r new, two_fields ls new ->
  exists new' iter' r', solve fuel w order iter r old new = Some (new', iter', r') /\ solve fuel w order' iter r old new = Some (new', iter', r') /\ two_fields ls new'.
Proof.
  intros V V' Wo. induction fuel as [|fuel IH]; intros iter r new Wn; cbn [Split.solve]; [eauto 8|]. destruct (above r tolerance); [|eauto 8].
  destruct (sweep_order ls Hs h Hh en D K dt omega Hdt HK Hen (order iter) (order' iter) Ht (V iter) (V' iter) old new Wo Wn) as (a & -> & -> & Wa). cbn [bind].
  destruct ((iter + 1 <? residual_step) || (Z.rem (iter + 1) residual_step =? 0)); cbn [bind].
  - rewrite !residuals_eq by auto. cbn [bind]. destruct (relative_some (total ls (missing old a), total ls (source old))) as [v ->]. cbn [bind]. apply IH; auto.
  - apply IH; auto.
Qed.
Lemma step_order order order' old new : valid order -> valid order' -> two_fields ls old -> two_fields ls new ->
  step w order (old, new) = step w order' (old, new) /\
  (step w order (old, new) = Exit (-1) \/ exists new', step w order (old, new) = Done (new', old) /\ two_fields ls new').
Proof.
  intros V V' Wo Wn. unfold Split.step. destruct (solve_order order order' old V V' Wo (Z.to_nat max_iter) 0 (Fin 1%Qc) new Wn) as (a & i & r & -> & -> & Wa).
  cbn [req obind]. split; [reflexivity|]. destruct (i =? max_iter); eauto.
Qed.
Lemma run_order schedule schedule' : (forall k, valid (schedule k)) -> (forall k, valid (schedule' k)) -> forall n k old new, two_fields ls old -> two_fields ls new ->
  run n k w schedule (old, new) = run n k w schedule' (old, new) /\
  (run n k w schedule (old, new) = Exit (-1) \/ exists old' new', run n k w schedule (old, new) = Done (old', new') /\ two_fields ls old' /\ two_fields ls new').
Proof.
  intros V V'. induction n as [|n IH]; intros k old new Wo Wn; cbn [Split.run]; [split; eauto 8|].
  destruct (step_order (schedule k) (schedule' k) old new (V k) (V' k) Wo Wn) as [<- C]. destruct C as [->|(new' & -> & W')]; cbn [obind]; [split; auto|]. apply IH; auto.
Qed.

(* a loop that ends before max_iter has just found a small residual *)
Lemma solve_accepted order old : valid order -> two_fields ls old -> forall fuel iter r new new' iter' r', two_fields ls new ->
  (above r tolerance = false -> relative (total ls (missing old new), total ls (source old)) = Some r) ->
  solve fuel w order iter r old new = Some (new', iter', r') ->
  iter' = iter + Z.of_nat fuel \/ (above r' tolerance = false /\ relative (total ls (missing old new'), total ls (source old)) = Some r').
Proof.
  intros V Wo. induction fuel as [|fuel IH]; intros iter r new new' iter' r' Wn G E; cbn [Split.solve] in E.
  { injection E as <- <- <-. left. lia. }
  destruct (above r tolerance) eqn:Ab; [|injection E as <- <- <-; right; auto].
  destruct (sweep_order ls Hs h Hh en D K dt omega Hdt HK Hen (order iter) (order iter) Ht (V iter) (V iter) old new Wo Wn) as (a & S & _ & Wa). rewrite S in E. cbn [bind] in E.
  destruct ((iter + 1 <? residual_step) || (Z.rem (iter + 1) residual_step =? 0)); cbn [bind] in E.
  - rewrite residuals_eq in E by auto. cbn [bind] in E. destruct (relative_some (total ls (missing old a), total ls (source old))) as [v R]. rewrite R in E. cbn [bind] in E.
    apply IH in E; auto. destruct E as [E|E]; [left; lia|auto].
  - apply IH in E; auto; [|congruence]. destruct E as [E|E]; [left; lia|auto].
Qed.
Lemma relative_small r v : (0 <= fst r)%Qc -> relative r = Some v -> above v tolerance = false ->
  (fst r = 0%Qc /\ snd r = 0%Qc) \/ (snd r <> 0%Qc /\ root (fst r / snd r) <= c2 * Qc_of N * tolerance)%Qc.
Proof.
  intros P. unfold Split.relative. destruct (Qc_eq_dec (snd r) 0) as [E|E].
  - intros [= <-]. destruct (Qc_eq_dec (fst r) 0); [auto|discriminate].
  - assert (0 < Qc_of N)%Qc as NP.
    { unfold Qclt. assert (this (Qc_of N) == inject_Z N)%Q as -> by apply Qred_correct. change (this 0) with (inject_Z 0). rewrite <- Zlt_Qlt. apply N_pos. }
    change (q_of N) with (Qc_of N). assert (0 < c2 * Qc_of N)%Qc as CP.
    { revert NP. unfold Qclt. rewrite this_mul. change (this c2) with 2%Q. change (this 0) with 0%Q. intros. nra. }
    assert (c2 * Qc_of N <> 0)%Qc as Z by (intros Z; rewrite Z in CP; now apply Qclt_not_eq in CP). rewrite recip_eq by auto. cbn [bind]. intros [= <-] A. right. split; [auto|].
    cbn [above] in A. apply qgt_false in A. set (q := root (fst r / snd r)) in *. set (m := (c2 * Qc_of N)%Qc) in *.
    replace q with (q * / m * m)%Qc by (field; auto). rewrite (Qcmult_comm m). apply Qcmult_le_compat_r; [exact A|now apply Qclt_le_weak].
Qed.
Lemma missing_nonneg old new : (0 <= total ls (missing old new))%Qc.
Proof.
  apply (total_nonneg ls Hs). intros x _. unfold missing. rewrite <- (Qcplus_0_l 0). apply Qcplus_le_compat; apply sq_nonneg.
Qed.
Lemma step_accepted order old new new' old' : valid order -> two_fields ls old -> two_fields ls new -> (tolerance < 1)%Qc -> 0 <= max_iter ->
  step w order (old, new) = Done (new', old') ->
  old' = old /\ two_fields ls new' /\
  ((total ls (missing old new') = 0%Qc /\ total ls (source old) = 0%Qc) \/
   (total ls (source old) <> 0%Qc /\ root (total ls (missing old new') / total ls (source old)) <= c2 * Qc_of N * tolerance)%Qc).
Proof.
  intros V Wo Wn T M E. unfold Split.step in E. destruct (solve_order order order old V V Wo (Z.to_nat max_iter) 0 (Fin 1%Qc) new Wn) as (a & i & r & S & _ & Wa).
  rewrite S in E. cbn [req obind] in E. destruct (Z.eqb_spec i max_iter) as [|Ne]; [discriminate|]. injection E as <- <-. split; [auto|]. split; [auto|].
  apply (solve_accepted order old V Wo) in S; auto.
  - destruct S as [S|[A R]]; [lia|]. pose proof (relative_small (total ls (missing old a), total ls (source old)) r (missing_nonneg old a) R A) as C. exact C.
  - intros A. cbn [above] in A. apply qgt_false in A. exfalso. apply (Qcle_not_lt _ _ A T).
Qed.

(* ---- consequences ---- *)
Context (Hc : Forall closed ls).
Lemma mass_defect old new : (total ls (field ls old 0) - total ls (field ls new 0) = total ls (defect1 ls h D dt old new))%Qc.
Proof.
  unfold defect1. rewrite (total_add ls Hs (fun x => field ls old 0 x - field ls new 0 x)%Qc), (total_sub ls Hs), (total_mul ls Hs).
  rewrite (laplace_total ls Hs Hc h Hh) by (apply field_continued; auto). ring.
Qed.
Lemma total_square f : (total ls f * total ls f <= Qc_of N * total ls (fun x => f x * f x))%Qc.
Proof.
  unfold total. pose proof (sum_square (map (fun n => f (pos n)) (zrange 0 N))) as S. rewrite zlen_map, zlen_zrange, Z.sub_0_r, map_map in S by (pose proof N_pos; lia). exact S.
Qed.
Lemma Qc_of_N_pos : (0 < Qc_of N)%Qc.
Proof. unfold Qclt. assert (this (Qc_of N) == inject_Z N)%Q as -> by apply Qred_correct. change (this 0) with (inject_Z 0). rewrite <- Zlt_Qlt. apply N_pos. Qed.
Lemma mass_missing old new : let d := (total ls (field ls new 0) - total ls (field ls old 0))%Qc in (d * d <= Qc_of N * total ls (missing old new))%Qc.
Proof.
  intros d. replace (d * d)%Qc with (total ls (defect1 ls h D dt old new) * total ls (defect1 ls h D dt old new))%Qc by (rewrite <- mass_defect; unfold d; ring).
  eapply Qcle_trans; [apply total_square|]. rewrite !(Qcmult_comm (Qc_of N)). apply Qcmult_le_compat_r; [|apply Qclt_le_weak, Qc_of_N_pos].
  apply (total_le ls Hs). intros x _. unfold missing. set (a := defect1 ls h D dt old new x). set (b := defect2 _ _ _ _ _ _ _ _).
  pose proof (sq_nonneg b) as B. rewrite <- (Qcplus_0_r (a * a)) at 1. apply Qcplus_le_compat; [apply Qcle_refl|exact B].
Qed.
End Run.
