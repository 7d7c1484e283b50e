(* One pass of the semi-implicit Cahn-Hilliard solver over the tiles of a colour, on a grid with ghosts: the values do not depend on the
   values written in the same pass. *)
From Coq Require Import QArith.QArith QArith.Qcanon Sorting.Permutation.
From Verif Require Import Model.Base Model.Boundary Model.Layout Model.Access Model.Setup Model.Stencil Model.Evolve Model.Dynamics Model.Split Model.SplitRanks
  Spec.Box Spec.Access Spec.Stencil Spec.Split
  Proof.BaseL Proof.LayoutL Proof.AccessL Proof.StencilL Proof.StencilS Proof.HaloL Proof.SimulateL Proof.StagesL Proof.SplitL Proof.SplitP Proof.ProgramL Proof.ProgramN.
Local Open Scope Z_scope.

Section Local.
Context (en : energetics) (h D K dt omega wt : Qc).
Notation relaxed := (relaxed_on en h D K dt omega).
Notation errors := (errors_on en h D K dt).

(* what is read around x is the same *)
Definition beside {T} mpi1 axs1 (d1 : list T) mpi2 axs2 (d2 : list T) (x : list Z) : Prop :=
  forall j e, 0 <= j < zlen x -> e = 1 \/ e = -1 -> grid_read mpi1 axs1 d1 (nb x j e) = grid_read mpi2 axs2 d2 (nb x j e).
Lemma probe_beside {T} mpi1 axs1 (d1 : list T) mpi2 axs2 d2 x i : beside mpi1 axs1 d1 mpi2 axs2 d2 x -> 0 <= i < zlen x -> probe mpi1 axs1 d1 x i = probe mpi2 axs2 d2 x i.
Proof.
  intros A Hi. unfold probe. rewrite shift_eq by auto. cbn [bind]. rewrite (A i 1 Hi) by auto. destruct (grid_read mpi2 axs2 d2 (nb x i 1)); cbn [bind]; [|auto].
  rewrite shift_eq by (rewrite nb_zlen; auto). cbn [bind]. rewrite nb_nb by auto. change (1 + -2) with (-1). rewrite (A i (-1) Hi) by auto. reflexivity.
Qed.
Lemma fringe_beside mpi1 axs1 d1 mpi2 axs2 d2 x f : length axs1 = length x -> length axs2 = length x -> beside mpi1 axs1 d1 mpi2 axs2 d2 x ->
  fringe_laplacian_on h mpi1 axs1 d1 x f = fringe_laplacian_on h mpi2 axs2 d2 x f.
Proof.
  intros L1 L2 A. unfold fringe_laplacian_on. assert (dxs axs1 h = dxs axs2 h) as -> by (unfold dxs; congruence). assert (zlen axs1 = zlen x) as -> by (unfold zlen; congruence). assert (zlen axs2 = zlen x) as -> by (unfold zlen; congruence).
  match goal with |- bind ?a _ = bind ?b _ => assert (a = b) as -> end; [|reflexivity].
  apply (fold_opt_rel (fun st => fst st = x)); [| |reflexivity].
  - intros i [s lp] Hi Es. cbn [fst] in Es. subst s. apply in_zrange in Hi. now rewrite (probe_beside mpi1 axs1 d1 mpi2 axs2 d2 x).
  - intros i [s lp] [s' lp'] Hi Es E. cbn [fst] in *. subst s. apply in_zrange in Hi. destruct (probe mpi2 axs2 d2 x i) as [[[s0 hh] l]|] eqn:Ep; cbn [bind] in E; [|discriminate].
    apply probe_back in Ep; [|auto]. subst s0. repeat match type of E with (do _ <- ?e; _) = _ => destruct e; cbn [bind] in E; [|discriminate] end. now inversion E.
Qed.
Lemma flap_beside mpi1 axs1 d1 mpi2 axs2 d2 x f : length axs1 = length x -> length axs2 = length x -> beside mpi1 axs1 d1 mpi2 axs2 d2 x -> grid_read mpi1 axs1 d1 x = grid_read mpi2 axs2 d2 x ->
  field_laplacian_on h mpi1 axs1 d1 x f = field_laplacian_on h mpi2 axs2 d2 x f.
Proof.
  intros L1 L2 A A0. unfold field_laplacian_on, flaplacian. assert (dxs axs1 h = dxs axs2 h) as -> by (unfold dxs; congruence). assert (zlen axs1 = zlen x) as -> by (unfold zlen; congruence). assert (zlen axs2 = zlen x) as -> by (unfold zlen; congruence).
  rewrite A0. destruct (grid_read mpi2 axs2 d2 x) as [v|]; cbn [bind]; [|auto]. destruct (get v f) as [y|]; cbn [bind]; [|auto].
  f_equal. apply (fold_opt_rel (fun st => fst st = x)); [| |reflexivity].
  - intros i [s lp] Hi Es. cbn [fst] in Es. subst s. apply in_zrange in Hi. now rewrite (probe_beside mpi1 axs1 d1 mpi2 axs2 d2 x).
  - intros i [s lp] [s' lp'] Hi Es E. cbn [fst] in *. subst s. apply in_zrange in Hi. destruct (probe mpi2 axs2 d2 x i) as [[[s0 hh] l]|] eqn:Ep; cbn [bind] in E; [|discriminate].
    apply probe_back in Ep; [|auto]. subst s0. repeat match type of E with (do _ <- ?e; _) = _ => destruct e; cbn [bind] in E; [|discriminate] end. now inversion E.
Qed.
Lemma relaxed_same mpi1 axs1 old1 new1 n1 mpi2 axs2 old2 new2 n2 x : position axs1 n1 = x -> position axs2 n2 = x -> length axs1 = length x -> length axs2 = length x ->
  grid_read_int mpi1 axs1 old1 n1 = grid_read_int mpi2 axs2 old2 n2 -> grid_read_int mpi1 axs1 new1 n1 = grid_read_int mpi2 axs2 new2 n2 -> beside mpi1 axs1 new1 mpi2 axs2 new2 x ->
  relaxed mpi1 axs1 wt old1 new1 n1 = relaxed mpi2 axs2 wt old2 new2 n2.
Proof.
  intros P1 P2 L1 L2 Eo En A. unfold relaxed_on. rewrite P1, P2, Eo, En. destruct (grid_read_int mpi2 axs2 old2 n2); cbn [bind]; [|auto]. destruct (grid_read_int mpi2 axs2 new2 n2); cbn [bind]; [|auto].
  rewrite !(fringe_beside mpi1 axs1 new1 mpi2 axs2 new2 x) by auto. reflexivity.
Qed.
Lemma errors_same mpi1 axs1 old1 new1 n1 mpi2 axs2 old2 new2 n2 x : position axs1 n1 = x -> position axs2 n2 = x -> length axs1 = length x -> length axs2 = length x ->
  grid_read_int mpi1 axs1 old1 n1 = grid_read_int mpi2 axs2 old2 n2 -> grid_read_int mpi1 axs1 new1 n1 = grid_read_int mpi2 axs2 new2 n2 -> beside mpi1 axs1 new1 mpi2 axs2 new2 x ->
  grid_read mpi1 axs1 new1 x = grid_read mpi2 axs2 new2 x ->
  errors mpi1 axs1 old1 new1 n1 = errors mpi2 axs2 old2 new2 n2.
Proof.
  intros P1 P2 L1 L2 Eo En A A0. unfold errors_on. rewrite P1, P2, Eo, En. rewrite !(flap_beside mpi1 axs1 new1 mpi2 axs2 new2 x) by auto. reflexivity.
Qed.

(* ---- a pass as a loop over the cells that reads the former grid ---- *)
Section Grid.
Context (mpi : bool) (g : Z) (ls : list limits) (Hg : 0 <= g) (Hm : mpi = false -> g = 0) (Lo : lims_ok ls) (color : Z).
Notation axs := (lay g ls).
Notation N := (nodes axs).
Definition separate : Prop := forall n k j e, 0 <= n < N -> 0 <= k < N -> skipped axs color n = false -> skipped axs color k = false -> n <> k ->
  0 <= j < zlen ls -> e = 1 \/ e = -1 -> encode axs (adjust mpi axs (nb (position axs n) j e)) <> addr_int mpi axs k.

Definition tile (old new : cells2) (n : Z) (cell : list Qc) : option (list Qc) := if skipped axs color n then Some cell else relaxed mpi axs wt old new n.
Lemma pass_tiles old new : separate -> zlen new = cells axs -> pass_on en h D K dt omega mpi axs wt color old new = for_cells mpi axs (tile old new) new.
Proof.
  intros Sep Ln. unfold pass_on, for_cells. destruct (node_facts g ls mpi Hg Hm Lo) as (P & I & _).
  assert (forall n, 0 <= n < N -> length (position axs n) = length ls) as Lp by (intros n Hn; apply local_len, (proj1 (P n Hn))).
  assert (forall l cur, NoDup l -> (forall n, In n l -> 0 <= n < N) -> zlen cur = cells axs ->
    (forall n, In n l -> skipped axs color n = false -> get cur (addr_int mpi axs n) = get new (addr_int mpi axs n) /\
       forall j e, 0 <= j < zlen ls -> e = 1 \/ e = -1 -> get cur (encode axs (adjust mpi axs (nb (position axs n) j e))) = get new (encode axs (adjust mpi axs (nb (position axs n) j e)))) ->
    fold_opt (fun new n => if skipped axs color n then Some new else do v <- relaxed mpi axs wt old new n; grid_write_int mpi axs new n v) l cur =
    fold_opt (fun d i => do c <- grid_read_int mpi axs d i; do c <- tile old new i c; grid_write_int mpi axs d i c) l cur) as A.
  { induction l as [|k l IH]; intros cur ND In_ Lc Inv; cbn [fold_opt]; [auto|]. inversion ND as [|? ? Nk ND']; subst. pose proof (In_ k (or_introl eq_refl)) as Hk. destruct (P k Hk) as (_ & _ & Rk).
    destruct (get_ex cur (addr_int mpi axs k)) as [v Gv]; [lia|]. change (grid_read_int mpi axs cur k) with (get cur (addr_int mpi axs k)). change (tile old new k) with (fun cell : list Qc => if skipped axs color k then Some cell else relaxed mpi axs wt old new k). cbv beta. rewrite Gv. cbn [bind]. destruct (skipped axs color k) eqn:Sk; cbn [bind].
    - change (grid_write_int mpi axs cur k v) with (put cur (addr_int mpi axs k) v). assert (put cur (addr_int mpi axs k) v = Some cur) as ->.
      { rewrite put_ok by lia. f_equal. rewrite (get_nth _ _ v) in Gv by lia. assert (nth (Z.to_nat (addr_int mpi axs k)) cur v = v) as Ev by congruence. rewrite <- Ev at 1. apply set_nth_same. }
      cbn [bind]. apply IH; auto; [intros; apply In_; now right|]. intros n Hn Sn. apply Inv; auto. now right.
    - assert (relaxed mpi axs wt old cur k = relaxed mpi axs wt old new k) as ->.
      { destruct (Inv k (or_introl eq_refl) Sk) as [I1 I2]. apply (relaxed_same mpi axs old cur k mpi axs old new k (position axs k)); auto; try (rewrite length_lay; symmetry; apply Lp; auto).
        intros j e Hj He. rewrite !grid_read_eq by (rewrite nb_len, length_lay; auto). apply I2; auto. unfold zlen in Hj |- *. rewrite Lp in Hj by auto. exact Hj. }
      destruct (relaxed mpi axs wt old new k) as [u|]; cbn [bind]; [|auto]. change (grid_write_int mpi axs cur k u) with (put cur (addr_int mpi axs k) u). destruct (put_ex cur (addr_int mpi axs k) u) as (cur' & Ep & Lc'); [lia|]. rewrite Ep. cbn [bind].
      apply IH; auto; [intros; apply In_; now right|congruence|]. intros n Hn Sn. pose proof (In_ n (or_intror Hn)) as Hn'. assert (n <> k) as Ne by congruence. destruct (Inv n (or_intror Hn) Sn) as [I1 I2]. split.
      + rewrite <- I1. eapply get_put_ne; [exact Ep|]. intros Ea. apply Ne. symmetry. now apply I.
      + intros j e Hj He. rewrite <- I2 by auto. eapply get_put_ne; [exact Ep|]. intros Ea. exact (Sep n k j e Hn' Hk Sn Sk Ne Hj He (eq_sym Ea)). }
  apply A; auto; [apply NoDup_zrange|intros n Hn; now apply in_zrange].
Qed.
End Grid.
End Local.

(* on a tiled domain, in the whole grid and in that of a rank *)
Lemma separate_of mpi g ls w color : 0 <= g -> (mpi = false -> g = 0) -> lims_ok ls -> Forall serial_axis w -> Forall tiled w -> color = 0 \/ color = 1 ->
  (forall x, box ls x -> box w x) ->
  (forall x j e, box ls x -> 0 <= j < zlen ls -> e = 1 \/ e = -1 -> in_box (map a_s0 (lay g ls)) (map a_s1 (lay g ls)) (adjust mpi (lay g ls) (nb x j e)) /\
     (box w (adjust mpi (lay g ls) (nb x j e)) -> adjust mpi (lay g ls) (nb x j e) = cbs w (nb x j e))) -> length w = length ls ->
  separate mpi g ls color.
Proof.
  intros Hg Hm Lo Sw Tw Hc Sub Adj Lw n k j e Hn Hk Sn Sk Ne Hj He E. destruct (node_facts g ls mpi Hg Hm Lo) as (P & I & _).
  destruct (P n Hn) as (Bn & _ & _). destruct (P k Hk) as (Bk & Ek & _). rewrite Ek in E. destruct (Adj (position (lay g ls) n) j e Bn Hj He) as [A1 A2].
  assert (in_box (map a_s0 (lay g ls)) (map a_s1 (lay g ls)) (position (lay g ls) k)) as Bs by (apply (local_in_storage g); [auto|now apply wf_lay|now rewrite map_x0_lay, map_x1_lay]).
  apply (encode_inj g) in E; [|now apply wf_lay|auto|auto]. rewrite E in A2. specialize (A2 (Sub _ Bk)).
  pose proof (dom_nonneg w _ Tw (Sub _ Bn)) as N1. pose proof (dom_nonneg w _ Tw (Sub _ Bk)) as N2.
  assert (forall i, 0 <= sumZ (position (lay g ls) i) -> skipped (lay g ls) color i = Bool.eqb (Z.even (sumZ (position (lay g ls) i))) (color =? 0)) as Sc.
  { intros i Hi. unfold skipped. rewrite Z.rem_mod_nonneg by lia. rewrite Zmod_even. destruct Hc as [-> | ->], (Z.even (sumZ _)); reflexivity. }
  rewrite Sc in Sn, Sk by auto.
  destruct (cbs_colour w (position (lay g ls) n) j e Sw Tw (Sub _ Bn)) as [F|F]; [unfold zlen in *; lia|auto| |].
  - rewrite F in A2. destruct (position_into g (lay g ls) n (wf_lay g ls Lo) Hn) as [_ J]. apply Ne. symmetry. now apply J.
  - rewrite <- A2 in F. rewrite F in Sk. destruct (Z.even (sumZ (position (lay g ls) n))), (color =? 0); discriminate.
Qed.
Lemma separate_rank gh ls w color : 1 <= gh -> Forall2 fits ls w -> Forall serial_axis w -> Forall tiled w -> color = 0 \/ color = 1 -> separate true gh ls color.
Proof.
  intros Hg Ff Sw Tw Hc. pose proof (fits_lims _ _ Ff) as Lo. assert (length w = length ls) as Lw by (clear - Ff; induction Ff; simpl; auto).
  apply (separate_of true gh ls w color); auto; try lia; try discriminate; [intros x; eapply fits_box; eauto|]. intros x j e Bx Hj He.
  destruct (axes_key gh ls w (nb x j e) Hg Ff Sw (nb_near ls x j e Bx Hj He)) as [K1 K2]. destruct (lay_nth_x0 gh ls) as (_ & _ & -> & ->). split; [exact K1|].
  intros Bw. rewrite <- K2. symmetry. now apply wrap_in.
Qed.
Lemma separate_whole w color : Forall serial_axis w -> Forall tiled w -> color = 0 \/ color = 1 -> separate false 0 w color.
Proof.
  intros Sw Tw Hc. apply (separate_of false 0 w w color); auto; try lia; [apply lims_le, Sw|]. intros x j e Bx Hj He. pose proof (local_len w x Bx) as Lx.
  rewrite adjust_cbs by (rewrite nb_len; auto). split; [|auto]. apply (local_in_storage 0); [lia|apply wf_lay, lims_le, Sw|]. rewrite map_x0_lay, map_x1_lay. now apply nb_box.
Qed.

(* the serial functions are these *)
Lemma relax_on axs en h D K dt omega w old new n : relax axs en h D K dt omega w old new n = do v <- relaxed_on en h D K dt omega false axs w old new n; grid_write_int false axs new n v.
Proof.
  unfold relax, relaxed_on. change (fringe_laplacian_on h false axs) with (fringe_laplacian axs h).
  repeat (match goal with |- (do _ <- ?e; _) = _ => destruct e; cbn [bind]; [|reflexivity] end). reflexivity.
Qed.
Lemma pass_serial axs en h D K dt omega w color old new : pass axs en h D K dt omega w color (zrange 0 (nodes axs)) old new = pass_on en h D K dt omega false axs w color old new.
Proof.
  unfold pass, pass_on. apply (fold_opt_rel (fun _ => True)); auto. intros n s _ _. destruct (skipped axs color n); [auto|]. apply relax_on.
Qed.
Lemma residuals_serial axs en h D K dt old new : residuals axs en h D K dt (zrange 0 (nodes axs)) old new = residuals_on en h D K dt false axs old new.
Proof.
  unfold residuals, residuals_on. apply (fold_opt_rel (fun _ => True)); auto. intros n [r b] _ _. unfold errors_on. change (field_laplacian_on h false axs) with (field_laplacian axs h).
  repeat (match goal with |- (let x := _ in _) = _ => intros | |- _ => cbv zeta; match goal with |- (do _ <- ?e; _) = _ => destruct e; cbn [bind]; [|reflexivity] end end). reflexivity.
Qed.
