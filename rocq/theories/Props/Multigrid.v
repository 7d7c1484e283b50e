(* C83 to C86: the multigrid Poisson solver. *)
From Coq Require Import QArith.QArith QArith.Qcanon Lqa.
From Verif Require Import Model.Base Model.Boundary Model.Layout Model.Access Model.Stencil Model.Evolve Model.Multigrid Spec.Box Spec.Stencil Spec.Multigrid
  Proof.BaseL Proof.LayoutL Proof.AccessL Proof.StencilL Proof.StencilS Proof.StencilM Proof.MultigridL Proof.MultigridS Proof.MultigridG Proof.MultigridC Proof.MultigridF Proof.MultigridR Proof.MultigridD.
Local Open Scope Z_scope.

(* ---------------------------------------------------------------- C83 *)
(* Solutions are left as they are, by smoothing and by a whole cycle, whatever new arrays contain. *)
Theorem C83_fixed : forall ls dx junk s j gamma nu1 nu2 u f,
  fits ls s j -> spaced ls dx -> sized ls junk -> sized ls u -> sized ls f -> solution ls dx s (value ls f) (value ls u) ->
  (forall n, smooth (lay 0 ls) dx s n u f = Some u) /\ mg (lay 0 ls) dx junk gamma nu1 nu2 s u f = Some u.
Proof.
  intros ls dx junk s j gamma nu1 nu2 u f Hf Hdx SJ Su Sf H. pose proof (fits_base ls _ _ Hf) as Hl. pose proof (divides_half _ _ (fits_divides ls _ _ Hf)) as Hd. pose proof Hf as (Hs & Hne & _). split.
  - intros n. apply (smooth_fixed ls Hl Hne dx Hdx s Hs Hd); auto.
  - apply (MG_fixed ls dx Hdx) with (j := j); auto. apply (fits_levels ls _ _ Hf).
Qed.
Print Assumptions C83_fixed.

(* What one sweep leaves as it is, is a solution. *)
Theorem C83_converse : forall ls dx s u f,
  Forall (fun l => l_x0 l = 0 /\ 1 < l_x1 l /\ (s | l_x1 l - 1)) ls -> ls <> [] -> 0 < s -> spaced ls dx -> sized ls u -> sized ls f ->
  smooth (lay 0 ls) dx s 1 u f = Some u -> solution ls dx s (value ls f) (value ls u).
Proof.
  intros ls dx s u f H Hne Hs Hdx Su Sf E x Hx. refine (sweep_solution ls _ Hne dx Hdx s Hs _ u f Su Sf E x Hx); eapply Forall_impl; [|exact H| |exact H]; cbv beta; tauto.
Qed.
Print Assumptions C83_converse.

(* There is at most one for each set of boundary values. *)
Theorem C83_unique : forall ls dx s f g h,
  Forall (fun l => l_x0 l = 0 /\ 1 < l_x1 l /\ (s | l_x1 l - 1)) ls -> ls <> [] -> 0 < s -> spaced ls dx ->
  solution ls dx s f g -> solution ls dx s f h -> (forall x, lattice ls s x -> ~ inside ls s x -> g x = h x) -> forall x, lattice ls s x -> g x = h x.
Proof.
  intros ls dx s f g h H Hne Hs Hdx. refine (solutions_equal ls _ Hne dx Hdx s Hs _ f g h); eapply Forall_impl; [|exact H| |exact H]; cbv beta; tauto.
Qed.
Print Assumptions C83_unique.

(* A cycle never fails and keeps the values outside the inner nodes of its lattice, such as the boundary. *)
Theorem C83_boundary : forall ls dx junk s j gamma nu1 nu2 u f,
  fits ls s j -> spaced ls dx -> sized ls junk -> sized ls u -> sized ls f ->
  exists r, mg (lay 0 ls) dx junk gamma nu1 nu2 s u f = Some r /\ sized ls r /\ forall x, node ls x -> ~ inside ls s x -> value ls r x = value ls u x.
Proof.
  intros ls dx junk s j gamma nu1 nu2 u f Hf Hdx SJ Su Sf. apply (MG_frame ls dx Hdx junk gamma nu1 nu2 SJ j); auto. apply (fits_levels ls _ _ Hf).
Qed.
Print Assumptions C83_boundary.

(* ---------------------------------------------------------------- C84 *)
(* Bounds on the error of the values are kept by any number of sweeps. *)
Theorem C84_error : forall ls dx s n u f g lo hi,
  Forall (fun l => l_x0 l = 0 /\ 1 < l_x1 l /\ (s | l_x1 l - 1)) ls -> ls <> [] -> 0 < s -> spaced ls dx -> sized ls u -> sized ls f ->
  solution ls dx s (value ls f) g ->
  (forall x, lattice ls s x -> lo <= value ls u x - g x /\ value ls u x - g x <= hi)%Qc ->
  exists r, smooth (lay 0 ls) dx s n u f = Some r /\ sized ls r /\
    (forall x, node ls x -> ~ inside ls s x -> value ls r x = value ls u x) /\
    (forall x, lattice ls s x -> lo <= value ls r x - g x /\ value ls r x - g x <= hi)%Qc.
Proof.
  intros ls dx s n u f g lo hi H Hne Hs Hdx Su Sf Sg B.
  assert (Forall (fun l => l_x0 l = 0 /\ 1 < l_x1 l) ls) as Hl by (eapply Forall_impl; [|exact H]; cbv beta; tauto). assert (divides ls s) as Hd by (eapply Forall_impl; [|exact H]; cbv beta; tauto).
  destruct (smooth_error ls Hl Hne dx Hdx s Hs Hd n u f g lo hi Su Sf Sg B) as (r & E & Sr & Br). destruct (smooth_frame ls Hl Hne dx Hdx s Hs Hd n u f Su Sf) as (r' & E' & _ & F). rewrite E in E'. injection E' as <-. exists r. auto.
Qed.
Print Assumptions C84_error.

(* ---------------------------------------------------------------- C85 *)
(* the values at the coarse nodes and on the boundary *)
Definition coarse_or_boundary (ls : list limits) (s : Z) (x : list Z) : Prop := lattice ls s x /\ (lattice ls (2 * s) x \/ ~ inside ls s x).
Lemma ready_coarse ls s y : 0 < s -> Forall (fun l => l_x0 l = 0 /\ 1 < l_x1 l) ls -> ready ls s 0 y -> coarse_or_boundary ls s y.
Proof.
  intros Hs Hl (L & [N|A]); split; auto. left. split; [apply L|]. apply Forall_forall. intros c Hc. apply (In_nth _ _ 0) in Hc as (n & Hn & <-). rewrite (node_len ls y (proj1 L)) in Hn. specialize (A (Z.of_nat n)). rewrite Nat2Z.id in A. apply A. unfold zlen. lia.
Qed.
(* In two and more dimensions linear interpolation is exact for functions of degree one along each axis, *)
Theorem C85_linear : forall ls s g u,
  Forall (fun l => l_x0 l = 0 /\ 1 < l_x1 l /\ (s | l_x1 l - 1)) ls -> (2 <= length ls)%nat -> 0 < s -> affine_along (zlen ls) g -> sized ls u ->
  (forall x, coarse_or_boundary ls s x -> value ls u x = g x) ->
  exists r, refine (lay 0 ls) (midpoint (lay 0 ls)) s u = Some r /\ sized ls r /\ forall x, lattice ls s x -> value ls r x = g x.
Proof.
  intros ls s g u H H2 Hs Hg Su Hu. assert (Forall (fun l => l_x0 l = 0 /\ 1 < l_x1 l) ls) as Hl by (eapply Forall_impl; [|exact H]; cbv beta; tauto). assert (divides ls s) as Hd by (eapply Forall_impl; [|exact H]; cbv beta; tauto).
  apply (midpoint_exact ls Hl H2 s Hs Hd g); auto. intros y Hy. apply Hu. now apply ready_coarse.
Qed.
Print Assumptions C85_linear.

(* cubic interpolation for functions of degree three, on grids with at least four coarse intervals along each axis, *)
Theorem C85_cubic : forall ls s g u,
  Forall (fun l => l_x0 l = 0 /\ (2 * s | l_x1 l - 1) /\ 8 * s <= l_x1 l - 1) ls -> (2 <= length ls)%nat -> 0 < s -> cubic_along (zlen ls) g -> sized ls u ->
  (forall x, coarse_or_boundary ls s x -> value ls u x = g x) ->
  exists r, refine (lay 0 ls) (cubic (lay 0 ls)) s u = Some r /\ sized ls r /\ forall x, lattice ls s x -> value ls r x = g x.
Proof.
  intros ls s g u H H2 Hs Hg Su Hu. assert (Forall (fun l => l_x0 l = 0 /\ 1 < l_x1 l) ls) as Hl by (eapply Forall_impl; [|exact H]; cbv beta; intros l (A & _ & B); split; [auto|lia]).

  apply (cubic_exact ls Hl H2 s Hs g); auto; [eapply Forall_impl; [|exact H]; cbv beta; tauto|]. intros y Hy. apply Hu. now apply ready_coarse.
Qed.
Print Assumptions C85_cubic.

(* and so is the restriction to the coarse grid in two and three dimensions. *)
Theorem C85_restriction : forall ls s g u,
  Forall (fun l => l_x0 l = 0 /\ 1 < l_x1 l /\ (2 * s | l_x1 l - 1)) ls -> (length ls = 2 \/ length ls = 3)%nat -> 0 < s -> affine_along (zlen ls) g -> sized ls u ->
  (forall x, inside ls s x -> value ls u x = g x) ->
  exists r, coarsen (lay 0 ls) s u = Some r /\ sized ls r /\ forall x, inside ls s x -> value ls r x = g x.
Proof.
  intros ls s g u H H2 Hs Hg Su Hu. apply (coarsen_exact ls) with (g := g); auto; eapply Forall_impl; [|exact H| |exact H]; cbv beta; tauto.
Qed.
Print Assumptions C85_restriction.

(* In one dimension neither method interpolates anything. *)
Theorem C85_line_refuted : forall l s, l_x0 l = 0 -> 0 < s -> (2 * s | l_x1 l - 1) -> s < l_x1 l - 1 ->
  (forall m u, refine (lay 0 [l]) m s u = Some u) /\
  exists u, sized [l] u /\ (forall x, coarse_or_boundary [l] s x -> value [l] u x = 1%Qc) /\ value [l] u [s] <> 1%Qc /\ lattice [l] s [s].
Proof.
  intros l s H0 Hs D Hb. split; [reflexivity|]. assert (Forall (fun l => l_x0 l = 0 /\ 1 < l_x1 l) [l]) as Hl by (constructor; [lia|constructor]).
  set (one := repeat 1%Qc (Z.to_nat (cells (lay 0 [l])))). assert (sized [l] one) as S1.
  { unfold sized, one, zlen. rewrite repeat_length, cells_nodes_0. pose proof (nodes_nonneg 0 (lay 0 [l]) (wf_lay 0 [l] (lims [l] Hl))). lia. }
  assert (forall x, node [l] x -> value [l] one x = 1%Qc) as V1.
  { intros x Hx. destruct (node_index [l] Hl x Hx) as (n & Hn & <-). rewrite (value_index [l] Hl) by auto. rewrite <- (nth_repeat 1%Qc (Z.to_nat (cells (lay 0 [l]))) (Z.to_nat n)) at 1. apply nth_indep.
    unfold one. rewrite repeat_length. rewrite <- cells_nodes_0 in Hn. lia. }
  assert (node [l] [s]) as Ns by (apply (node_iff [l] Hl); repeat constructor; lia).
  destruct (wr_value [l] Hl one [s] 0%Qc S1 Ns) as (u & _ & Su & Vs & G & _). exists u. split; [auto|]. split; [|split].
  - intros x ((Nx & Lx) & H). rewrite G; [now apply V1|auto|]. intros ->. destruct H as [(_ & H)|H].
    + inversion H as [|? ? (k & Ek) _]; subst. assert (2 * k = 1) by nia. lia.
    + apply H. repeat constructor; try lia. apply Z.divide_refl.
  - rewrite Vs. discriminate.
  - split; [auto|]. repeat constructor. apply Z.divide_refl.
Qed.
Print Assumptions C85_line_refuted.

(* ---------------------------------------------------------------- C86 *)
(* update is defined on grids of 2^k+1 nodes (k >= 2; other axes a multiple), vanishes on the boundary, is linear in the right-hand side inside and does not depend
   on what new arrays contain. *)
Theorem C86_update : forall ls dx junk1 junk2 junk3 j a b f1 f2 f3,
  fits ls 1 (S j) -> spaced ls dx -> sized ls junk1 -> sized ls junk2 -> sized ls junk3 -> sized ls f1 -> sized ls f2 -> sized ls f3 ->
  (forall x, inside ls 1 x -> value ls f3 x = a * value ls f1 x + b * value ls f2 x)%Qc ->
  exists r1 r2 r3, update (lay 0 ls) dx junk1 f1 = Some r1 /\ update (lay 0 ls) dx junk2 f2 = Some r2 /\ update (lay 0 ls) dx junk3 f3 = Some r3 /\
    sized ls r3 /\ (forall x, node ls x -> value ls r3 x = a * value ls r1 x + b * value ls r2 x)%Qc /\ (forall x, node ls x -> ~ inside ls 1 x -> value ls r3 x = 0%Qc).
Proof.
  intros ls dx J1 J2 J3 j a b f1 f2 f3 Hf Hdx S1 S2 S3 F1 F2 F3 HF.
  destruct (update_lin ls dx Hdx a b J1 J2 J3 j f1 f2 f3 S1 S2 S3 Hf) as (r1 & r2 & r3 & E1 & E2 & E3 & _ & _ & R3 & L); [repeat split; auto|]. destruct (update_frame ls dx Hdx J3 j f3 S3 Hf F3) as (r & E & _ & B). rewrite E3 in E. injection E as <-.
  exists r1, r2, r3. auto 10.
Qed.
Print Assumptions C86_update.
Theorem C86_junk : forall ls dx junk1 junk2 j f,
  fits ls 1 (S j) -> spaced ls dx -> sized ls junk1 -> sized ls junk2 -> sized ls f -> update (lay 0 ls) dx junk1 f = update (lay 0 ls) dx junk2 f.
Proof.
  intros ls dx J1 J2 j f Hf Hdx S1 S2 Sf. pose proof (fits_base ls _ _ Hf) as Hl. destruct (update_lin ls dx Hdx 1%Qc 0%Qc J1 J1 J2 j f f f S1 S1 S2 Hf) as (r1 & r1' & r2 & E1 & _ & E2 & R1 & _ & R2 & L); [repeat split; auto; intros; ring|].
  rewrite E1, E2. f_equal. apply (value_ext ls Hl); auto. intros x Hx. rewrite L by auto. ring.
Qed.
Print Assumptions C86_junk.

(* The error of a cycle is the cycle applied to the error, with a zero right-hand side. *)
Theorem C86_error : forall ls dx junk zero s j gamma nu1 nu2 u f g e,
  fits ls s j -> spaced ls dx -> sized ls junk -> sized ls u -> sized ls f -> sized ls g -> sized ls e -> sized ls zero ->
  solution ls dx s (value ls f) (value ls g) -> (forall x, node ls x -> value ls e x = value ls u x - value ls g x)%Qc -> (forall x, inside ls s x -> value ls zero x = 0%Qc) ->
  exists r d, mg (lay 0 ls) dx junk gamma nu1 nu2 s u f = Some r /\ mg (lay 0 ls) dx junk gamma nu1 nu2 s e zero = Some d /\
    forall x, node ls x -> (value ls r x - value ls g x = value ls d x)%Qc.
Proof.
  intros ls dx J z s j gamma nu1 nu2 u f g e Hf Hdx SJ Su Sf Sg Se Sz Hg He Hz. pose proof (fits_levels ls _ _ Hf) as H32.
  destruct (MG_lin ls dx Hdx 1%Qc (- (1))%Qc J J J gamma nu1 nu2 SJ SJ SJ j 32 s f f z u g e H32 Hf) as (r & r' & d & E & E' & E'' & _ & _ & _ & L).
  - repeat split; auto. intros x Hx. rewrite Hz by auto. ring.
  - repeat split; auto. intros x Hx. rewrite He by auto. ring.
  - rewrite (MG_fixed ls dx Hdx J gamma nu1 nu2 j 32 s g f) in E' by auto. injection E' as <-. exists r, d. split; [exact E|]. split; [exact E''|]. intros x Hx. rewrite L by auto. ring.
Qed.
Print Assumptions C86_error.

(* In one dimension the coarse levels have no effect: update is four sweeps on the finest grid, *)
Theorem C86_line_refuted : forall l h junk j f,
  fits [l] 1 (S (S j)) -> h <> 0%Qc -> sized [l] junk -> sized [l] f -> update (lay 0 [l]) [h] junk f = smooth (lay 0 [l]) [h] 1 4 (zeros (lay 0 [l])) f.
Proof.
  intros l h J j f Hf Hh SJ Sf. pose proof Hf as (_ & _ & F & _). inversion F as [|? ? (H0 & H1 & _) _]; subst. apply (update_line l (l_x1 l - 1)) with (j := j); auto; lia.
Qed.
Print Assumptions C86_line_refuted.
(* so that with a source at node 1 the result is zero from node 9 on, while the solution exists and is zero at no inner node. *)
Theorem C86_line_far_refuted : forall l h junk j f,
  fits [l] 1 (S (S j)) -> h <> 0%Qc -> sized [l] junk -> sized [l] f -> value [l] f [1] <> 0%Qc -> (forall c, 2 <= c < l_x1 l - 1 -> value [l] f [c] = 0%Qc) ->
  (exists r, update (lay 0 [l]) [h] junk f = Some r /\ forall c, 9 <= c < l_x1 l - 1 -> value [l] r [c] = 0%Qc) /\
  (exists g, solution [l] [h] 1 (value [l] f) g /\ g [0] = 0%Qc /\ g [l_x1 l - 1] = 0%Qc) /\
  (forall g c, solution [l] [h] 1 (value [l] f) g -> g [0] = 0%Qc -> g [l_x1 l - 1] = 0%Qc -> 1 <= c < l_x1 l - 1 -> g [c] <> 0%Qc).
Proof.
  intros l h J j f Hf Hh SJ Sf F1 F2. pose proof Hf as (_ & _ & F & X). inversion F as [|? ? (H0 & H1 & D) _]; subst. assert (2 <= l_x1 l - 1) as HN. { destruct D as (k & Ek). rewrite !pow_S in Ek. lia. }
  assert (l_x1 l = l_x1 l - 1 + 1) as EN by lia. split; [|split].
  - destruct (update_quiet l (l_x1 l - 1) H0 EN ltac:(lia) h Hh J f SJ Sf F2 j Hf) as (r & E & Q). exists r. split; [auto|]. intros c Hc. apply Q. lia.
  - eexists. apply (tent_solution l (l_x1 l - 1)); auto. lia.
  - intros g c Sg G0 GN Hc. apply (solution_nonzero l (l_x1 l - 1) EN ltac:(lia) h Hh f F2 g c); auto.
Qed.
Print Assumptions C86_line_far_refuted.

(* update does not return when every axis has at least 9 nodes and none has 2^k+1, nor when some axis has fewer than 5. *)
Theorem C86_sizes_refuted : forall axs dx junk f,
  axs <> [] -> (forall a, In a axs -> 9 <= a_x1 a) -> (forall k a, 0 < k -> In a axs -> a_x1 a <> 2 ^ k + 1) -> update axs dx junk f = None.
Proof. intros axs dx J f. apply update_none. Qed.
Print Assumptions C86_sizes_refuted.
Theorem C86_small_refuted : forall axs dx junk f,
  (forall a, In a axs -> 2 <= a_x1 a) -> (exists a, In a axs /\ a_x1 a < 5) -> update axs dx junk f = None.
Proof. intros axs dx J f. apply update_small. Qed.
Print Assumptions C86_small_refuted.

(* ---------------------------------------------------------------- cases *)
Definition span (n : Z) : limits := mkLim 0 n 0 n 0 0.
Definition square : list limits := [span 9; span 17].
Lemma square_fits : fits square 1 2.
Proof.
  split; [lia|]. split; [discriminate|]. split.
  - repeat constructor; cbn; try lia; [exists 1|exists 2]; reflexivity.
  - left. reflexivity.
Qed.
Lemma square_spaced : spaced square [Q2Qc (1 # 8); Q2Qc (1 # 16)].
Proof. split; [reflexivity|]. repeat constructor; discriminate. Qed.
Definition on (ls : list limits) (g : list Z -> Qc) : list Qc := map (fun n => g (position (lay 0 ls) n)) (zrange 0 (nodes (lay 0 ls))).
(* x + 2y + xy is harmonic: a solution with f = 0 and nonzero boundary values *)
Definition saddle (x : list Z) : Qc := match x with [a; b] => Qc_of (a + 2 * b + a * b) | _ => 0%Qc end.
Example C83_case : sized square (on square saddle) /\ sized square (zeros (lay 0 square)) /\
  option_map (map this) (mg (lay 0 square) [Q2Qc (1 # 8); Q2Qc (1 # 16)] (zeros (lay 0 square)) 1 1 1 1 (on square saddle) (zeros (lay 0 square))) = Some (map this (on square saddle)) /\
  this (value square (on square saddle) [3; 4]) = 23%Q.
Proof. repeat split; vm_compute; reflexivity. Qed.
Example C83_square : fits square 1 2 /\ spaced square [Q2Qc (1 # 8); Q2Qc (1 # 16)] /\ solution square [Q2Qc (1 # 8); Q2Qc (1 # 16)] 1 (value square (zeros (lay 0 square))) saddle.
Proof.
  split; [apply square_fits|]. split; [apply square_spaced|]. intros x Hx. inversion Hx as [|? a ? x1 (Ha & _) Hx1]; subst. inversion Hx1 as [|? b ? x2 (Hb & _) Hx2]; subst. inversion Hx2; subst.
  rewrite (zeros_value square (fits_base _ _ _ square_fits)) by (apply (inside_node square (fits_base _ _ _ square_fits) 1); [lia|auto]).
  cbn [span l_x1] in *. unfold laplacian_at. change (zrange 0 (zlen square)) with [0; 1]. cbn [map sumQ nth Z.to_nat]. change (Z.to_nat 1) with 1%nat. cbn [nth].
  change (nb [a; b] 0 (- (1))) with [a + -1; b]. change (nb [a; b] 0 1) with [a + 1; b]. change (nb [a; b] 1 (- (1))) with [a; b + -1]. change (nb [a; b] 1 1) with [a; b + 1]. unfold saddle.
  assert (forall z p m : Z, p + m = 2 * z -> (Qc_of m - Q2Qc (2 # 1) * Qc_of z + Qc_of p = 0)%Qc) as K.
  { intros z p m E. assert (Qc_of p + Qc_of m = Q2Qc (2 # 1) * Qc_of z)%Qc as E'. { rewrite <- Qc_of_add, E. rewrite Qc_of_mul. reflexivity. } replace (Qc_of m - Q2Qc (2 # 1) * Qc_of z + Qc_of p)%Qc with ((Qc_of p + Qc_of m) - Q2Qc (2 # 1) * Qc_of z)%Qc by ring. rewrite E'. ring. }
  rewrite !K by ring. unfold Qcdiv. ring.
Qed.
(* bounds for C84, with the zero solution *)
Example C84_case : forallb (fun x => Qle_bool 0 (saddle x - 0)%Qc && Qle_bool (saddle x - 0)%Qc (168 # 1))%bool (map (position (lay 0 square)) (zrange 0 153)) = true.
Proof. vm_compute. reflexivity. Qed.
(* xy for the linear, x^3 y^3 for the cubic interpolation *)
Example C85_case : affine_along 2 saddle /\ Forall (fun l => l_x0 l = 0 /\ (2 * 1 | l_x1 l - 1) /\ 8 * 1 <= l_x1 l - 1) square /\
  cubic_along 2 (fun x => match x with [a; b] => Qc_of (a * a * a * (b * b * b)) | _ => 0%Qc end).
Proof.
  split; [|split].
  - intros x i Hi Lx. destruct x as [|a [|b [|? ?]]]; unfold zlen in Lx; cbn [length] in Lx; try lia. assert (i = 0 \/ i = 1) as [-> | ->] by lia.
    + exists (Qc_of (2 * b)), (Qc_of (1 + b)). intros t. change (saddle (along [a; b] 0 t)) with (Qc_of (t + 2 * b + t * b)). rewrite <- Qc_of_mul, <- Qc_of_add. f_equal. ring.
    + exists (Qc_of a), (Qc_of (2 + a)). intros t. change (saddle (along [a; b] 1 t)) with (Qc_of (a + 2 * t + a * t)). rewrite <- Qc_of_mul, <- Qc_of_add. f_equal. ring.
  - repeat constructor; cbn; try lia; [exists 4|exists 8]; reflexivity.
  - intros x i Hi Lx. destruct x as [|a [|b [|? ?]]]; unfold zlen in Lx; cbn [length] in Lx; try lia. assert (i = 0 \/ i = 1) as [-> | ->] by lia.
    + exists 0%Qc, 0%Qc, 0%Qc, (Qc_of (b * b * b)). intros t. change (along [a; b] 0 t) with [t; b]. rewrite !Qc_of_mul. ring.
    + exists 0%Qc, 0%Qc, 0%Qc, (Qc_of (a * a * a)). intros t. change (along [a; b] 1 t) with [a; t]. rewrite !Qc_of_mul. ring.
Qed.
Example C86_case : fits [span 5; span 5] 1 1 /\ sized [span 5; span 5] (on [span 5; span 5] (fun _ => 1%Qc)).
Proof.
  split; [split; [lia|]; split; [discriminate|]; split; [repeat constructor; cbn; try lia; exists 1; reflexivity|left; reflexivity]|]. reflexivity.
Qed.
Example C86_line_case : let f := on [span 17] (fun x => match x with [1] => 1%Qc | _ => 0%Qc end) in
  fits [span 17] 1 3 /\ sized [span 17] f /\ value [span 17] f [1] <> 0%Qc /\ forall c, 2 <= c < l_x1 (span 17) - 1 -> value [span 17] f [c] = 0%Qc.
Proof.
  split; [split; [lia|]; split; [discriminate|]; split; [repeat constructor; cbn; try lia; exists 1; reflexivity|left; reflexivity]|]. split; [reflexivity|]. split; [vm_compute; discriminate|].
  intros c Hc. cbn in Hc. assert (In c (zrange 2 16)) as I by (apply in_zrange; lia). vm_compute in I. repeat (destruct I as [<-|I]; [apply Qc_is_canon; vm_compute; reflexivity|]). destruct I.
Qed.
