(* C91, continued: the initial grids of the programs with a potential, a seed, or zeros.  Serial build, exact arithmetic. *)
From Coq Require Import QArith.QArith QArith.Qcanon.
From Verif Require Import Model.Base Model.Boundary Model.Layout Model.Access Model.Stencil Model.Dynamics Model.Generate
  Spec.Box Spec.Stencil Spec.Split Spec.Generate Proof.BaseL Proof.LayoutL Proof.AccessL Proof.StencilL Proof.StencilS Proof.StencilM Proof.SpinF Proof.SiteL Proof.SplitL Proof.GenerateL.
From Verif Require Model.Split Props.Generate.
Local Open Scope list_scope.
Local Open Scope Z_scope.

Lemma laplace_ext ls h f g x : (forall y, f y = g y) -> laplace ls h f x = laplace ls h g x.
Proof. intros E. unfold laplace, second_difference. apply sumQ_ext. intros i _. now rewrite !E. Qed.
(* writing a cell with the same field 0 *)
Lemma field_kept ls u n c c' u' : get u n = Some c -> nth 0 c' 0%Qc = nth 0 c 0%Qc -> put u n c' = Some u' -> forall y, field ls u' 0 y = field ls u 0 y.
Proof.
  intros G E P y. unfold field, grid_read. destruct (addr_vec false (lay 0 ls) y 0) as [a|]; [|reflexivity]. cbn [bind]. destruct (Z.eq_dec n a) as [->|N].
  - rewrite (get_put_eq _ _ _ _ P), G. exact E.
  - rewrite (get_put_ne _ _ _ _ _ P N). reflexivity.
Qed.
Section Potential.
Context (ls : list limits) (F : Forall serial_axis ls) (h : Qc) (Hh : h <> 0%Qc) (dfdc : Qc -> Qc) (K : Qc).
Notation axs := (lay 0 ls).
Notation body := (fun u n =>
    do l <- flaplacian false axs (repeat h (length axs)) u (position axs n) 0;
    do c <- grid_read_int false axs u n;
    do v <- get c 0;
    do c <- put c 1 (dfdc v - K * l)%Qc;
    grid_write_int false axs u n c).
Lemma potentials u : two_fields ls u -> forall k, (k <= Z.to_nat (nodes axs))%nat ->
  exists u', fold_opt body (zrange 0 (Z.of_nat k)) u = Some u' /\ two_fields ls u' /\ (forall y, field ls u' 0 y = field ls u 0 y) /\
    forall n, 0 <= n < Z.of_nat k -> field ls u' 1 (position axs n) = (dfdc (field ls u 0 (position axs n)) - K * laplace ls h (field ls u 0) (position axs n))%Qc.
Proof.
  intros Tu. pose proof (nodes_pos ls F) as Np. induction k as [|k IH]; intros Hk; [exists u; split; [reflexivity|]; split; [auto|]; split; [auto|]; intros n Hn; lia|].
  destruct (IH ltac:(lia)) as (v & E & [Lv Fv] & V0 & V1). rewrite Nat2Z.inj_succ, <- Z.add_1_r, zrange_snoc, fold_opt_app, E by lia. cbn [bind fold_opt].
  assert (0 <= Z.of_nat k < nodes axs) as Hn by lia. pose proof (site_ok ls _ F Hn) as B.
  pose proof (field_laplacian_eq ls F h Hh v (position axs (Z.of_nat k)) 0 (conj Lv Fv) B ltac:(lia)) as El. unfold Model.Split.field_laplacian, Model.Split.dxs in El. rewrite El. cbn [bind].
  pose proof (val_Forall [] ls F _ v _ Lv Fv B) as Hc. cbv beta in Hc. rewrite (read_node [] ls F v _ Lv Hn). cbn [bind]. destruct (nth_val [] ls F v _ Lv Hn) as [_ G]. set (c := at_or [] axs v _) in *.
  assert (exists a b, c = [a; b]) as (a & b & Ec) by (destruct c as [|a [|b [|e c]]]; try discriminate Hc; [eauto|rewrite !zlen_cons in Hc; pose proof (zlen_nonneg c); lia]).
  assert (field ls v 0 (position axs (Z.of_nat k)) = a) as Ea by (rewrite (field_cell ls) by lia; unfold SplitL.cell_at; unfold field, cell_at, at_or in *; unfold c in Ec; destruct (grid_read false axs v (position axs (Z.of_nat k))); [rewrite Ec; reflexivity|discriminate]).
  rewrite Ec. change (get [a; b] 0) with (Some a). cbn [bind]. set (mu := (dfdc a - _)%Qc). change (put [a; b] 1 mu) with (Some [a; mu]). cbn [bind].
  destruct (write_node [] ls F v (Z.of_nat k) [a; mu] Lv Hn) as (w & W & Lw & Vw & Kw & Qw). rewrite W. cbn [bind]. exists w. split; [reflexivity|].
  assert (two_fields ls w) as Tw by (split; [auto|]; apply Qw; [auto|reflexivity]). split; [exact Tw|].
  unfold grid_write_int, addr_int in W. cbn [bind] in W. assert (forall y, field ls w 0 y = field ls v 0 y) as Fw by (apply (field_kept ls v (Z.of_nat k) c [a; mu]); auto; rewrite Ec; reflexivity).
  split; [intros y; rewrite Fw; apply V0|]. intros n Hn'. destruct (Z.eq_dec n (Z.of_nat k)) as [->|N].
  - assert (field ls w 1 (position axs (Z.of_nat k)) = mu) as -> by (unfold field, at_or in *; destruct (grid_read false axs w (position axs (Z.of_nat k))); [rewrite Vw; reflexivity|discriminate Vw]).
    unfold mu. rewrite <- Ea, V0, (laplace_ext ls h _ (field ls u 0) _ V0). reflexivity.
  - rewrite <- V1 by lia. assert (0 <= n < nodes axs) as Hn2 by lia. pose proof (get_put_ne _ _ _ n _ W (not_eq_sym N)) as Gn. rewrite (proj2 (nth_val [] ls F w n Lw Hn2)), (proj2 (nth_val [] ls F v n Lv Hn2)) in Gn. injection Gn as Gn.
    unfold field. rewrite (read_val [] ls F v), (read_val [] ls F w) by (auto; now apply site_ok). now rewrite Gn.
Qed.
End Potential.

(* the potential of the semi-implicit Cahn-Hilliard program is that of the composition, everywhere; comp gives the composition of the
   nodes in order *)
Theorem C91_potential : forall ls h dfdc K comp, Forall serial_axis ls -> h <> 0%Qc ->
  starts ls (fun c => zlen c = 2) (split_start false (lay 0 ls) (repeat h (length ls)) dfdc K comp) (fun d => two_fields ls d /\
    (forall j, 0 <= j < zlen (Spec.Spin.all_nodes ls) -> field ls d 0 (node ls j) = comp j) /\
    forall x, domain ls x -> field ls d 1 x = (dfdc (field ls d 0 x) - K * laplace ls h (field ls d 0) x)%Qc).
Proof.
  intros ls h dfdc K comp F Hh u L A. pose proof (nodes_pos ls F) as Np.
  destruct (for_cells_all [] ls F (fun n c => put c 0 (comp n)) (fun n c => [comp n; nth 1 c 0%Qc]) u L) as (u1 & E1 & L1 & V1).
  { intros n Hn. pose proof (val_Forall [] ls F _ u _ L A (site_ok ls n F Hn)) as Hc. cbv beta in Hc. set (c := at_or [] (lay 0 ls) u _) in *. clearbody c. pattern c. apply Props.Generate.pair_cell; [exact Hc|reflexivity]. }
  assert (two_fields ls u1) as T1 by (split; [auto|]; apply (Forall_nodes [] ls F); auto; intros n Hn; rewrite V1 by auto; reflexivity).
  destruct (potentials ls F h Hh dfdc K u1 T1 (Z.to_nat (nodes (lay 0 ls))) (le_n _)) as (d & E & Td & V0 & V). rewrite Z2Nat.id in E, V by lia. rewrite length_lay in E.
  exists d. split; [unfold split_start, split_first, split_second; rewrite E1; exact E|]. split; [apply Td|]. split; [auto|]. split.
  - intros j Hj. assert (zlen (Spec.Spin.all_nodes ls) = nodes (lay 0 ls)) as En by (rewrite (all_nodes_position ls F), BaseL.zlen_map, zlen_zrange; lia). rewrite node_position by (auto; lia). rewrite V0. unfold field. rewrite (read_val [] ls F u1) by (auto; apply site_ok; auto; lia). rewrite V1 by lia. reflexivity.
  - intros x B. destruct (position_all ls F x B) as (n & Hn & <-). rewrite V by auto. rewrite V0, (laplace_ext ls h _ (field ls u1 0) _ V0). reflexivity.
Qed.
Print Assumptions C91_potential.
(* the derivative of the free energy is the sum of the two parts that the solver uses, so the initial grid solves the equations of a step of
   length zero *)
Theorem C91_consistent : forall ls h D K comp en dfdc, Forall serial_axis ls -> h <> 0%Qc ->
  (en = Model.Split.vanilla /\ dfdc = full_vanilla \/ exists A B C0 Ca Cb, en = Model.Split.parametric A B C0 Ca Cb /\ dfdc = full_parametric A B C0 Ca Cb) ->
  starts ls (fun c => zlen c = 2) (split_start false (lay 0 ls) (repeat h (length ls)) dfdc K comp)
    (fun d => solves ls h D K 0 (Model.Split.contractive en) (Model.Split.expansive en) d d).
Proof.
  intros ls h D K comp en dfdc F Hh He u L A. destruct (C91_potential ls h dfdc K comp F Hh u L A) as (d & E & Ld & Td & _ & V). exists d. split; [auto|]. split; [auto|]. intros x B.
  assert (forall c, dfdc c = Model.Split.contractive en c + Model.Split.expansive en c)%Qc as Sp.
  { intros c. destruct He as [[-> ->]|(a & b & C0 & Ca & Cb & -> & ->)].
    - unfold full_vanilla, Model.Split.vanilla, Model.Split.cube. cbn [Model.Split.contractive Model.Split.expansive]. ring.
    - unfold full_parametric, Model.Split.parametric. cbn [Model.Split.contractive Model.Split.expansive]. unfold Model.Split.QA, Model.Split.QB, Model.Split.QC, Model.Split.QD, Model.Split.cube, Model.Split.square, Model.Split.fourth.
      replace Model.Split.c3 with (1 + 1 + 1)%Qc by (apply Qc_is_canon; reflexivity). ring. }
  unfold defect1, defect2. split; [ring|]. rewrite (V x B), Sp. ring.
Qed.
Print Assumptions C91_consistent.
(* with its noise the composition stays within 1/8 of the mean *)
Theorem C91_amplitude : forall rnd top C0 n, Props.Generate.random rnd -> (forall k, rnd k <= top) -> 0 < top ->
  (C0 - Q2Qc (1 # 8) <= split_noise rnd top C0 n <= C0 + Q2Qc (1 # 8))%Qc.
Proof.
  intros rnd top C0 n R T P. destruct (Props.Generate.unit_bounds rnd top n R T P) as [A B]. unfold split_noise. set (r := unit_random rnd top n) in *. clearbody r. unfold Qcle in *. rewrite !this_sub, !this_add, this_mul.
  change (this 0%Qc) with 0%Q in *. change (this 1%Qc) with 1%Q in *. change (this (Q2Qc (1 # 8))) with (1 # 8)%Q. change (this (Q2Qc (1 # 4))) with (1 # 4)%Q. split; Lqa.lra.
Qed.
Print Assumptions C91_amplitude.
(* the solid seed: the nodes at a distance below 6 from the centre (the distance is cut to an integer before it is compared with 5) *)
Theorem C91_seed : forall ls L undercooling, Forall serial_axis ls -> zlen ls = 2 -> 0 <= L ->
  starts ls (fun c => zlen c = 2) (seed_start false (lay 0 ls) L undercooling) (fun d => forall x y, domain ls [x; y] ->
    ((x - L / 2) ^ 2 + (y - L / 2) ^ 2 < 6 ^ 2 -> Spec.Generate.cell_at ls d [x; y] = [1%Qc; undercooling]) /\
    (6 ^ 2 <= (x - L / 2) ^ 2 + (y - L / 2) ^ 2 -> Spec.Generate.cell_at ls d [x; y] = [0%Qc; undercooling])).
Proof.
  intros ls S uc F D HS u L A.
  set (r := fun x : list Z => match x with [a; b] => Z.sqrt ((a - S / 2) * (a - S / 2) + (b - S / 2) * (b - S / 2)) | _ => 0 end).
  destruct (for_cells_box [] ls F (fun n c => do c <- put c 1 uc; match position (lay 0 ls) n with [x; y] => let r := Z.sqrt ((x - Z.quot S 2) * (x - Z.quot S 2) + (y - Z.quot S 2) * (y - Z.quot S 2)) in put c 0 (if r <=? 5 then 1%Qc else 0%Qc) | _ => None end)
    (fun x _ => [if r x <=? 5 then 1%Qc else 0%Qc; uc]) u L) as (d & E & Ld & V).
  { intros n Hn. pose proof (site_ok ls n F Hn) as B. pose proof (val_Forall [] ls F _ u _ L A B) as Hc. cbv beta in Hc. set (c := at_or [] (lay 0 ls) u _) in *. clearbody c. pattern c. apply Props.Generate.pair_cell; [exact Hc|]. intros a b.
    change (put [a; b] 1 uc) with (Some [a; uc]). cbn [bind]. pose proof (local_len _ _ B) as Lp. unfold zlen in D. destruct (position (lay 0 ls) n) as [|x [|y [|z p]]]; cbn [length] in Lp; try lia. unfold r. rewrite Z.quot_div_nonneg by lia. cbv zeta. reflexivity. }
  exists d. split; [exact E|]. split; [auto|]. intros x y B. pose proof (V _ B) as Vx. unfold Spec.Generate.cell_at. fold (at_or (@nil Qc) (lay 0 ls) d [x; y]). rewrite Vx. unfold r. rewrite !Z.pow_2_r.
  set (q := (x - S / 2) * (x - S / 2) + (y - S / 2) * (y - S / 2)). assert (0 <= q) as Hq by (unfold q; apply Z.add_nonneg_nonneg; apply Z.square_nonneg). pose proof (Z.sqrt_spec q Hq) as Sq. pose proof (Z.sqrt_nonneg q) as S0. change (6 * 6) with 36. set (t := Z.sqrt q) in *. clearbody t. clearbody q. unfold Z.succ in Sq. destruct Sq as [Sa Sb].
  split; intros H; destruct (Z.leb_spec t 5); try reflexivity; exfalso; nia.
Qed.
Print Assumptions C91_seed.
Theorem C91_zero : forall ls, Forall serial_axis ls -> starts ls any (zero_start false (lay 0 ls)) (Forall (fun v => v = 0%Qc)).
Proof.
  intros ls F u L A. destruct (for_cells_box 0%Qc ls F (fun _ _ => Some 0%Qc) (fun _ _ => 0%Qc) u L) as (d & E & Ld & V); [reflexivity|]. exists d. split; [exact E|]. split; [auto|]. apply (Forall_val 0%Qc ls F); auto.
Qed.
Print Assumptions C91_zero.
Example C91_start_case : let ls := Props.Generate.torus [12; 12] in Forall serial_axis ls /\ zlen ls = 2 /\
  (exists d, seed_start false (lay 0 ls) 12 (Q2Qc (-1 # 2)) (repeat [0; 0]%Qc 144) = Some d /\ map (map this) (firstn 2 (skipn 6 d)) = [[0; -1 # 2]; [0; -1 # 2]]%Q /\ map (map this) (firstn 1 (skipn 18 d)) = [[1; -1 # 2]]%Q) /\
  exists d, split_start false (lay 0 (Props.Generate.torus [4])) [1%Qc] full_vanilla 1 (fun n => Q2Qc (inject_Z n)) (repeat [0; 0]%Qc 4) = Some d /\ map (map this) d = [[0; -4]; [1; 0]; [2; 6]; [3; 28]]%Q.
Proof.
  cbv zeta. assert (Spec.Spin.big_torus (Props.Generate.torus [12; 12])) as BT by (repeat constructor; cbn; lia). split; [now apply SpinL.torus_serial|]. split; [reflexivity|]. split; eexists; (split; [vm_compute; reflexivity|]); try split; vm_compute; reflexivity.
Qed.
