(* Diffusion couples. *)
From Coq Require Import QArith.QArith QArith.Qcanon Lqa.
From Verif Require Import Model.Base Model.Boundary Model.Layout Model.Access Model.Stencil Model.Couple Spec.Box Spec.Access Spec.Stencil Spec.Couple
  Proof.BaseL Proof.LayoutL Proof.AccessL Proof.StencilL Proof.StencilS Proof.StencilM Proof.GradientL.
Local Open Scope Z_scope.

Definition quarter : Qc := Q2Qc (1 # 4).

(* ---- the values of the bar ---- *)
Lemma this_quarter : (this quarter == 1 # 4)%Q. Proof. reflexivity. Qed.
Lemma bar_left n k : bar n k 0 = bar n 0 0.
Proof. induction k as [|k IH]; [reflexivity|]. cbn [bar]. cbn [Z.ltb]. exact IH. Qed.
Lemma bar_right n k x : n <= x -> bar n k x = bar n 0 x.
Proof. intros H. induction k as [|k IH]; [reflexivity|]. cbn [bar]. destruct (Z.ltb_spec x n); [lia|]. rewrite andb_false_r. exact IH. Qed.
Lemma bar_step n k x : 0 < x < n -> bar n (S k) x = (bar n k x + quarter * (bar n k (x - 1) - c2 * bar n k x + bar n k (x + 1)))%Qc.
Proof. intros H. cbn [bar]. destruct (Z.ltb_spec 0 x), (Z.ltb_spec x n); try lia. reflexivity. Qed.
Lemma bar_0_left n : 0 < n -> bar n 0 0 = 1%Qc.
Proof. intros H. cbn [bar]. destruct (Z.ltb_spec (2 * 0) n); [reflexivity|lia]. Qed.
Lemma bar_0_right n x : 0 <= n -> n <= x -> bar n 0 x = 0%Qc.
Proof. intros H H'. cbn [bar]. destruct (Z.ltb_spec (2 * x) n); [lia|reflexivity]. Qed.

(* between 0 and 1, and falling *)
Lemma bar_range n k x : 0 <= x <= n -> (0 <= bar n k x)%Qc /\ (bar n k x <= 1)%Qc.
Proof.
  revert x. induction k as [|k IH]; intros x H; [cbn [bar]; destruct (2 * x <? n); split; discriminate|].
  destruct (Z.eq_dec x 0) as [->|]; [rewrite bar_left, <- (bar_left n k); apply IH; lia|].
  destruct (Z.eq_dec x n) as [->|]; [rewrite bar_right, <- (bar_right n k) by lia; apply IH; lia|].
  rewrite bar_step by lia. pose proof (IH x ltac:(lia)) as [A A']. pose proof (IH (x - 1) ltac:(lia)) as [B B']. pose proof (IH (x + 1) ltac:(lia)) as [C C'].
  unfold Qcle in *. rewrite !this_add, this_mul, this_add, this_sub, this_mul, this_quarter. change (this c2) with (2 # 1)%Q. change (this 0%Qc) with 0%Q in *. change (this 1%Qc) with 1%Q in *. split; lra.
Qed.
Lemma bar_falls n k x : 0 <= x < n -> (bar n k (x + 1) <= bar n k x)%Qc.
Proof.
  revert x. induction k as [|k IH]; intros x H; [cbn [bar]; destruct (Z.ltb_spec (2 * (x + 1)) n), (Z.ltb_spec (2 * x) n); try discriminate; lia|].
  assert (forall a b c d e : Q, e <= d -> d <= c -> c <= b -> b <= a -> True)%Q as _ by auto.
  destruct (Z.eq_dec x 0) as [->|]; [|destruct (Z.eq_dec (x + 1) n) as [E|]].
  - rewrite (bar_left n (S k)), <- (bar_left n k). destruct (Z.eq_dec n 1) as [->|]; [rewrite (bar_right 1 (S k)), <- (bar_right 1 k) by lia; apply (IH 0); lia|].
    change (0 + 1) with 1. rewrite bar_step by lia. change (1 - 1) with 0. pose proof (IH 0 ltac:(lia)) as A. pose proof (IH 1 ltac:(lia)) as B. change (0 + 1) with 1 in A.
    unfold Qcle in *. rewrite !this_add, this_mul, this_add, this_sub, this_mul, this_quarter. change (this c2) with (2 # 1)%Q. lra.
  - rewrite (bar_right n (S k) (x + 1)), <- (bar_right n k (x + 1)) by lia. rewrite bar_step by lia. pose proof (IH x ltac:(lia)) as A. pose proof (IH (x - 1) ltac:(lia)) as B. replace (x - 1 + 1) with x in B by lia.
    unfold Qcle in *. rewrite !this_add, this_mul, this_add, this_sub, this_mul, this_quarter. change (this c2) with (2 # 1)%Q. lra.
  - rewrite !bar_step by lia. replace (x + 1 - 1) with x by lia. pose proof (IH x ltac:(lia)) as A. pose proof (IH (x - 1) ltac:(lia)) as B. replace (x - 1 + 1) with x in B by lia. pose proof (IH (x + 1) ltac:(lia)) as C.
    unfold Qcle in *. rewrite !this_add, !this_mul, !this_add, !this_sub, !this_mul, this_quarter. change (this c2) with (2 # 1)%Q. lra.
Qed.

(* towards the straight line *)
Definition line (n x : Z) : Qc := (1 - Qc_of x / Qc_of n)%Qc.
Definition rate (n : Z) : Qc := (1 - Q2Qc (2 # 1) / (Qc_of n * Qc_of n))%Qc.
Definition bump (n x : Z) : Qc := (Qc_of x * Qc_of (n - x))%Qc.
Lemma of_Z z : (this (Qc_of z) == inject_Z z)%Q.
Proof. unfold Qc_of. cbn [this Q2Qc]. apply Qred_correct. Qed.
Lemma of_nz n : 0 < n -> Qc_of n <> 0%Qc.
Proof. intros H E. apply (f_equal this) in E. assert (this (Qc_of n) == 0)%Q as G by (rewrite E; reflexivity). rewrite of_Z in G. unfold Qeq in G. cbn in G. lia. Qed.
Lemma bump_step n x : (bump n x + quarter * (bump n (x - 1) - c2 * bump n x + bump n (x + 1)) = bump n x - Q2Qc (1 # 2))%Qc.
Proof.
  apply Qc_is_canon. unfold bump. repeat (rewrite ?this_add, ?this_sub, ?this_mul). rewrite !of_Z, this_quarter. change (this c2) with (2 # 1)%Q. change (this (Q2Qc (1 # 2))) with (1 # 2)%Q.
  unfold Z.sub. rewrite !inject_Z_plus, !inject_Z_opp, !inject_Z_plus, ?inject_Z_opp. change (inject_Z 1) with 1%Q. field.
Qed.
Lemma power_pos r k : (0 <= r)%Qc -> (0 <= power r k)%Qc.
Proof. intros H. induction k as [|k IH]; [discriminate|]. cbn [power]. rewrite <- (Qcmult_0_l (power r k)). now apply Qcmult_le_compat_r. Qed.
Lemma rate_this n : 0 < n -> (this (rate n) == 1 - 2 / (inject_Z n * inject_Z n))%Q.
Proof. intros H. unfold rate, Qcdiv. rewrite this_sub, this_mul, this_inv, this_mul, !of_Z. reflexivity. Qed.
Lemma inj_pos n : 0 < n -> (0 < inject_Z n)%Q.
Proof. intros H. change 0%Q with (inject_Z 0). now rewrite <- Zlt_Qlt. Qed.
Lemma rate_bump n x : 0 <= x <= n -> 0 < n -> (bump n x - Q2Qc (1 # 2) <= rate n * bump n x)%Qc.
Proof.
  intros Hx Hn. unfold Qcle, bump. rewrite this_sub, !this_mul, rate_this by auto. change (this (Q2Qc (1 # 2))) with (1 # 2)%Q. rewrite !of_Z. unfold Z.sub. rewrite inject_Z_plus, inject_Z_opp.
  assert (4 * (x * (n - x)) <= n * n) as L by (pose proof (Z.square_nonneg (n - 2 * x)); nia). rewrite Zle_Qle in L. unfold Z.sub in L. rewrite !inject_Z_mult, inject_Z_plus, inject_Z_opp in L. change (inject_Z 4) with 4%Q in L. pose proof (inj_pos n Hn) as P.
  set (N := inject_Z n) in *. set (X := inject_Z x) in *. clearbody N X. assert (0 < N * N)%Q as PP by (apply Qmult_lt_0_compat; auto).
  assert (X * (N + - X) * 2 / (N * N) <= 1 # 2)%Q as G by (apply Qle_shift_div_r; [auto|lra]).
  assert ((1 - 2 / (N * N)) * (X * (N + - X)) == X * (N + - X) - X * (N + - X) * 2 / (N * N))%Q as -> by (field; intros Z0; rewrite Z0 in P; exact (Qlt_irrefl _ P)). lra.
Qed.
Lemma rate_pos n : 2 <= n -> (0 <= rate n)%Qc.
Proof.
  intros H. unfold Qcle. rewrite rate_this by lia. change (this 0%Qc) with 0%Q. pose proof (inj_pos n ltac:(lia)) as P. assert (4 <= n * n) as L by nia. rewrite Zle_Qle, inject_Z_mult in L. change (inject_Z 4) with 4%Q in L.
  assert (0 < inject_Z n * inject_Z n)%Q as PP by (apply Qmult_lt_0_compat; auto). assert (2 / (inject_Z n * inject_Z n) <= 1)%Q as G by (apply Qle_shift_div_r; [auto|lra]). lra.
Qed.
Lemma line_mid n x : 0 < n -> (line n (x - 1) - c2 * line n x + line n (x + 1) = 0)%Qc.
Proof.
  intros H. unfold line. pose proof (of_nz n H) as N. replace (x - 1) with (x + -1) by lia. rewrite !Qc_of_add, Qc_of_m1, Qc_of_1, c2_eq. field. exact N.
Qed.
Lemma bump_pos n x : 0 <= x <= n -> (0 <= bump n x)%Qc.
Proof. intros H. unfold Qcle, bump. rewrite this_mul, !of_Z, <- inject_Z_mult. change (this 0%Qc) with (inject_Z 0). rewrite <- Zle_Qle. nia. Qed.
Lemma bar_error n k x : 0 < n -> 0 <= x <= n ->
  (line n x - power (rate n) k * bump n x <= bar n k x)%Qc /\ (bar n k x <= line n x + power (rate n) k * bump n x)%Qc.
Proof.
  intros Hn. assert (line n 0 = 1)%Qc as L0 by (unfold line; rewrite Qc_of_0; unfold Qcdiv; ring). assert (line n n = 0)%Qc as Ln by (unfold line; pose proof (of_nz n Hn); field; auto).
  assert (bump n 0 = 0)%Qc as B0 by (unfold bump; rewrite Qc_of_0; ring). assert (bump n n = 0)%Qc as Bn by (unfold bump; rewrite Z.sub_diag, Qc_of_0; ring).
  assert (forall k, (line n 0 - power (rate n) k * bump n 0 <= bar n k 0)%Qc /\ (bar n k 0 <= line n 0 + power (rate n) k * bump n 0)%Qc) as E0.
  { intros j. rewrite bar_left, bar_0_left, L0, B0 by auto. replace (1 - power (rate n) j * 0)%Qc with 1%Qc by ring. replace (1 + power (rate n) j * 0)%Qc with 1%Qc by ring. split; apply Qcle_refl. }
  assert (forall k, (line n n - power (rate n) k * bump n n <= bar n k n)%Qc /\ (bar n k n <= line n n + power (rate n) k * bump n n)%Qc) as En.
  { intros j. rewrite bar_right, bar_0_right, Ln, Bn by lia. replace (0 - power (rate n) j * 0)%Qc with 0%Qc by ring. replace (0 + power (rate n) j * 0)%Qc with 0%Qc by ring. split; apply Qcle_refl. }
  revert x. induction k as [|k IH]; intros x Hx.
  - destruct (Z.eq_dec x 0) as [->|]; [apply (E0 O)|]. destruct (Z.eq_dec x n) as [->|]; [apply (En O)|]. cbn [power]. rewrite Qcmult_1_l.
    pose proof (bar_range n 0 x Hx) as [R0 R1]. assert (1 <= bump n x)%Qc as B1 by (unfold Qcle, bump; rewrite this_mul, !of_Z, <- inject_Z_mult; change (this 1%Qc) with (inject_Z 1); rewrite <- Zle_Qle; nia).
    assert (0 <= line n x /\ line n x <= 1)%Qc as [A1 A2].
    { unfold line, Qcdiv, Qcle. rewrite this_sub, this_mul, this_inv, !of_Z. change (this 0%Qc) with 0%Q. change (this 1%Qc) with 1%Q. pose proof (inj_pos n Hn) as P. assert (0 <= inject_Z x)%Q as X0 by (change 0%Q with (inject_Z 0); rewrite <- Zle_Qle; lia). assert (inject_Z x <= inject_Z n)%Q as X1 by (rewrite <- Zle_Qle; lia).
      assert (inject_Z x / inject_Z n <= 1)%Q by (apply Qle_shift_div_r; [auto|lra]). assert (0 <= inject_Z x / inject_Z n)%Q by (apply Qle_shift_div_l; [auto|lra]). unfold Qdiv in *. split; lra. }
    unfold Qcle in *. rewrite this_sub, this_add. change (this 0%Qc) with 0%Q in *. change (this 1%Qc) with 1%Q in *. split; lra.
  - destruct (Z.eq_dec x 0) as [->|]; [apply (E0 (S k))|]. destruct (Z.eq_dec x n) as [->|]; [apply (En (S k))|]. rewrite bar_step by lia.
    destruct (IH x Hx) as [A A']. destruct (IH (x - 1) ltac:(lia)) as [B B']. destruct (IH (x + 1) ltac:(lia)) as [C C'].
    pose proof (line_mid n x Hn) as Lm. pose proof (bump_step n x) as Bs. pose proof (rate_bump n x Hx Hn) as Rb. pose proof (power_pos (rate n) k (rate_pos n ltac:(lia))) as Pp.
    cbn [power]. set (p := power (rate n) k) in *. clearbody p. set (r := rate n) in *. clearbody r.
    assert (p * (bump n x - Q2Qc (1 # 2)) <= r * p * bump n x)%Qc as K.
    { replace (r * p * bump n x)%Qc with (r * bump n x * p)%Qc by ring. rewrite (Qcmult_comm p). now apply Qcmult_le_compat_r. }
    rewrite <- Bs in K.
    generalize dependent (bar n k x); intros u. generalize dependent (bar n k (x - 1)); intros ul. generalize dependent (bar n k (x + 1)); intros ur.
    generalize dependent (line n x); intros L. generalize dependent (line n (x - 1)); intros Ll. generalize dependent (line n (x + 1)); intros Lr.
    generalize dependent (bump n x); intros b. generalize dependent (bump n (x - 1)); intros bl. generalize dependent (bump n (x + 1)); intros br. intros. clear Bs Rb E0 En IH B0 Bn Ln L0.
    apply (f_equal this) in Lm. assert (this (Ll - c2 * L + Lr)%Qc == 0)%Q as Lq by (rewrite Lm; reflexivity). clear Lm.
    unfold Qcle in *. repeat (rewrite ?this_add, ?this_sub, ?this_mul, ?this_quarter in * ). change (this c2) with (2 # 1)%Q in *.
    set (pb := (p * b)%Q) in *. assert (this p * (b + (1 # 4) * (bl - (2 # 1) * b + br)) == pb + (1 # 4) * (p * bl - (2 # 1) * pb + p * br))%Q as Kq by (unfold pb; ring). rewrite Kq in K.
    set (pl := (p * bl)%Q) in *. set (pr := (p * br)%Q) in *. set (rp := (r * p * b)%Q) in *. clearbody pb pl pr rp. split; lra.
Qed.

(* ---- the programs ---- *)
Section Programs.
Context (b nx : Z) (Hnx : 1 <= nx).
Notation axs := (couple_axes b nx).
Lemma chain_addr x : addr_chain false axs 0 0 [x] = Some (check_boundary false x 0 nx b b).
Proof. unfold couple_axes. cbn [lay addr_chain subscript nth_error bind a_x0 a_x1 a_b0 a_b1 a_s0 a_sx l_x0 l_x1 l_b0 l_b1 map]. cbn [prodZ fold_right]. f_equal. unfold prodZ. cbn. lia. Qed.
Lemma inside x : 0 <= x < nx -> check_boundary false x 0 nx b b = x.
Proof. intros H. unfold check_boundary. destruct (Z.ltb_spec x 0); [lia|]. destruct (Z.leb_spec nx x); [lia|]. reflexivity. Qed.
Lemma peek_in g x : 0 <= x < nx -> peek false axs g x = get g x.
Proof. intros H. unfold peek, grid_read_chain. rewrite chain_addr, inside by auto. reflexivity. Qed.
Lemma poke_in g x v : 0 <= x < nx -> poke false axs g x v = put g x v.
Proof. intros H. unfold poke. rewrite chain_addr, inside by auto. reflexivity. Qed.
Lemma put_same F j : 0 <= j < nx -> put (tab nx F) j (F j) = Some (tab nx F).
Proof. intros H. rewrite put_tab by auto. f_equal. apply tab_ext. intros k _. destruct (Z.eqb_spec k j); congruence. Qed.
Lemma fill_start m1 m2 : zlen m1 = nx -> zlen m2 = nx -> couple_fill false axs nx (m1, m2) = Some (tab nx (bar (nx - 1) 0), tab nx (bar (nx - 1) 0)).
Proof.
  intros L1 L2. unfold couple_fill. change (first_node axs) with 0. change (end_node axs) with nx. rewrite (list_tab m1), (list_tab m2), L1, L2.
  set (F := fun j => nth (Z.to_nat j) m1 0%Qc). set (G := fun j => nth (Z.to_nat j) m2 0%Qc). set (step := fun '(old, new) x => _).
  assert (forall m, 0 <= m -> m <= nx -> fold_opt step (zrange 0 m) (tab nx F, tab nx G) =
     Some (tab nx (fun k => if k <? m then bar (nx - 1) 0 k else F k), tab nx (fun k => if k <? m then bar (nx - 1) 0 k else G k))) as A.
  { apply (natlike_ind (fun m => m <= nx -> fold_opt step (zrange 0 m) (tab nx F, tab nx G) =
       Some (tab nx (fun k => if k <? m then bar (nx - 1) 0 k else F k), tab nx (fun k => if k <? m then bar (nx - 1) 0 k else G k)))).
    - intros _. rewrite zrange_nil by lia. cbn [fold_opt]. f_equal. f_equal; apply tab_ext; intros j Hj; (destruct (Z.ltb_spec j 0); [lia|auto]).
    - intros m Hm IH Hm'. rewrite <- Z.add_1_r in *. rewrite zrange_snoc by lia. rewrite fold_opt_app, IH by lia. cbn [bind fold_opt]. unfold step at 1. rewrite !poke_in, !put_tab by lia. cbn [bind].
      assert (couple_start nx m = bar (nx - 1) 0 m) as ->.
      { unfold couple_start. cbn [bar]. rewrite Z.quot_div_nonneg by lia. pose proof (Z.div_mod nx 2 ltac:(lia)). pose proof (Z.mod_pos_bound nx 2 ltac:(lia)). destruct (Z.ltb_spec m (nx / 2)), (Z.ltb_spec (2 * m) (nx - 1)); auto; lia. }
      f_equal. f_equal; apply tab_ext; intros j Hj; (destruct (Z.eqb_spec j m) as [->|]; [destruct (Z.ltb_spec m (m + 1)); [auto|lia]|]; destruct (Z.ltb_spec j m), (Z.ltb_spec j (m + 1)); auto; lia). }
  rewrite A by lia. f_equal. f_equal; apply tab_ext; intros j Hj; (destruct (Z.ltb_spec j nx); [auto|lia]).
Qed.
Lemma print_tab F : couple_print false axs (tab nx F) = Some (map F (zrange 0 nx)).
Proof.
  unfold couple_print. change (first_node axs) with 0. change (end_node axs) with nx. 
  assert (forall l, Forall (fun x => 0 <= x < nx) l -> map_opt (peek false axs (tab nx F)) l = Some (map F l)) as A.
  { induction 1 as [|x l Hx _ IH]; [reflexivity|]. cbn [map_opt map]. rewrite peek_in, get_tab by auto. cbn [bind]. now rewrite IH. }
  apply A. apply Forall_forall. intros x Hx. now apply in_zrange in Hx.
Qed.
Lemma dt_eq dx D : D <> 0%Qc -> couple_dt dx D = Some (dx * dx * / D * quarter)%Qc.
Proof. intros H. unfold couple_dt. now rewrite recip_eq. Qed.

Definition moved (U : Z -> Qc) (x : Z) : Qc := (U x + quarter * (U (x - 1)%Z - c2 * U x + U (x + 1)%Z))%Qc.
Lemma first_step_eq dx D U V : dx <> 0%Qc -> D <> 0%Qc ->
  first_step false axs nx dx D (dx * dx * / D * quarter)%Qc (tab nx U, tab nx V) =
  Some (tab nx (fun x => if (0 <? x) && (x <? nx - 1) then moved U x else V x), tab nx U).
Proof.
  intros Hdx HD. unfold first_step. change (first_node axs) with 0. change (end_node axs) with nx.
  rewrite (fold_tab _ nx nx (fun x v => if (0 <? x) && (x <? nx - 1) then moved U x else v)).
  3:{ intros j G Hj. destruct (Z.eqb_spec j 0) as [->|N0]; [symmetry; apply put_same; lia|]. destruct (Z.eqb_spec j (nx - 1)) as [->|N1].
    - cbn [orb]. rewrite Z.ltb_irrefl, andb_false_r. symmetry. apply put_same. lia.
    - destruct (Z.ltb_spec 0 j); [|lia]. destruct (Z.ltb_spec j (nx - 1)); [|lia]. cbn [orb andb]. rewrite !peek_in, !get_tab by lia. cbn [bind]. rewrite recip_eq by now apply sq_nz. cbn [bind]. rewrite poke_in by lia. f_equal. unfold moved. field. auto. }
  2: lia.
  cbn [bind]. f_equal. f_equal. apply tab_ext. intros j Hj. destruct (Z.ltb_spec j nx); [auto|lia].
Qed.
Lemma first_run dx D k : dx <> 0%Qc -> D <> 0%Qc -> forall j U V, (forall x, 0 <= x < nx -> U x = bar (nx - 1) j x) -> (forall x, x = 0 \/ x = nx - 1 -> V x = bar (nx - 1) 0 x) ->
  exists V', repeat_step k (first_step false axs nx dx D (dx * dx * / D * quarter)%Qc) (tab nx U, tab nx V) = Some (tab nx (bar (nx - 1) (k + j)), tab nx V').
Proof.
  intros Hdx HD. induction k as [|k IH]; intros j U V HU HV; cbn [repeat_step].
  - exists V. f_equal. f_equal. apply tab_ext. exact HU.
  - rewrite first_step_eq by auto. cbn [bind]. destruct (IH (S j) (fun x => if (0 <? x) && (x <? nx - 1) then moved U x else V x) U) as (V' & E).
    + intros x Hx. destruct (Z.ltb_spec 0 x), (Z.ltb_spec x (nx - 1)); cbn [andb].
      * rewrite bar_step by lia. unfold moved. now rewrite !HU by lia.
      * assert (x = nx - 1) as -> by lia. rewrite (bar_right _ (S j)) by lia. apply HV. auto.
      * assert (x = 0) as -> by lia. rewrite bar_left. apply HV. auto.
      * assert (x = 0) as -> by lia. rewrite bar_left. apply HV. auto.
    + intros x [->| ->]; rewrite HU by lia; [apply bar_left|apply bar_right; lia].
    + exists V'. rewrite E. f_equal. f_equal. f_equal. f_equal. lia.
Qed.
End Programs.

Section Second.
Context (nx : Z) (Hnx : 1 <= nx).
Notation axs := (couple_axes Dirichlet nx).
Lemma couple_serial : Forall serial_axis [mkLim 0 nx 0 nx Dirichlet Dirichlet].
Proof. constructor; [|constructor]. unfold serial_axis, serial_side. cbn. lia. Qed.
Lemma couple_cells : cells axs = nx. Proof. unfold couple_axes, cells. cbn. unfold prodZ. cbn. lia. Qed.
Lemma couple_nodes : nodes axs = nx. Proof. unfold couple_axes, nodes. cbn. unfold prodZ. cbn. lia. Qed.
Lemma lap_tab U i : 0 < i < nx - 1 -> laplacian_at false axs [1%Qc] (tab nx U) i = Some (U (i - 1)%Z - c2 * U i + U (i + 1)%Z)%Qc.
Proof.
  intros H. unfold couple_axes. rewrite laplacian_at_serial; [|apply couple_serial|reflexivity|repeat constructor; discriminate|rewrite tab_len by lia; now rewrite <- couple_cells at 1|fold axs; rewrite couple_nodes; lia].
  f_equal. unfold lap. change (zlen [mkLim 0 nx 0 nx Dirichlet Dirichlet]) with 1. change (zrange 0 1) with [0]. cbn [map sumQ].
  assert (position (lay 0 [mkLim 0 nx 0 nx Dirichlet Dirichlet]) i = [i]) as ->.
  { cbn [lay position a_xx a_x0 l_x0 map]. unfold prodZ. cbn [fold_right]. rewrite Z.quot_1_r, Z.add_0_r. reflexivity. }
  unfold second_difference, spacing. assert (forall c, 0 <= c < nx -> at_or 0%Qc (lay 0 [mkLim 0 nx 0 nx Dirichlet Dirichlet]) (tab nx U) [c] = U c) as A.
  { intros c Hc. unfold at_or. change (lay 0 [mkLim 0 nx 0 nx Dirichlet Dirichlet]) with axs. unfold grid_read. rewrite <- addr_chain_vec by reflexivity. rewrite chain_addr, inside by auto. cbn [bind]. now rewrite get_tab by auto. }
  change (nb [i] 0 1) with [i + 1]. change (nb [i] 0 (-1)) with [i + -1]. rewrite !A by lia. cbn [Z.to_nat nth]. replace (i + -1) with (i - 1) by lia. change (Q2Qc (2 # 1)) with c2. change (Z.to_nat 0) with 0%nat. cbn iota. field. discriminate.
Qed.
Lemma lap_any U i : 0 <= i < nx -> exists l, laplacian_at false axs [1%Qc] (tab nx U) i = Some l.
Proof.
  intros H. unfold couple_axes. eexists. apply laplacian_at_serial; [apply couple_serial|reflexivity|repeat constructor; discriminate|rewrite tab_len by lia; now rewrite <- couple_cells at 1|fold axs; rewrite couple_nodes; lia].
Qed.
Definition ends (U : Z -> Qc) (x : Z) : Qc := if x =? nx - 1 then 0%Qc else if x =? 0 then 1%Qc else U x.
Lemma poke_ends U : (do old <- poke false axs (tab nx U) 0 1%Qc; poke false axs old nx 0%Qc) = Some (tab nx (ends U)).
Proof.
  rewrite poke_in, put_tab by lia. cbn [bind]. unfold poke. rewrite chain_addr. assert (check_boundary false nx 0 nx Dirichlet Dirichlet = nx - 1) as ->.
  { unfold check_boundary. destruct (Z.ltb_spec nx 0); [lia|]. destruct (Z.leb_spec nx nx); [reflexivity|lia]. }
  cbn [bind]. now rewrite put_tab by lia.
Qed.
(* one iteration: the old grid has its ends set, the new one has the right values inside *)
Lemma second_step_eq D U V : D <> 0%Qc -> exists V',
  second_step false axs D (1 * 1 * / D * quarter)%Qc (tab nx U, tab nx V) = Some (tab nx V', tab nx (ends U)) /\
  forall x, 0 < x < nx - 1 -> V' x = moved (ends U) x.
Proof.
  intros HD. unfold second_step. rewrite couple_nodes. change (first_node axs) with 0. change (end_node axs) with nx. set (step := fun '(old, new) i => _).
  assert (forall m, 0 <= m -> m <= nx -> exists V', fold_opt step (zrange 0 m) (tab nx U, tab nx V) = Some (tab nx (if m =? 0 then U else ends U), tab nx V') /\
     forall x, 0 < x < nx - 1 -> x < m -> V' x = moved (ends U) x) as A.
  { apply (natlike_ind (fun m => m <= nx -> exists V', fold_opt step (zrange 0 m) (tab nx U, tab nx V) = Some (tab nx (if m =? 0 then U else ends U), tab nx V') /\
     forall x, 0 < x < nx - 1 -> x < m -> V' x = moved (ends U) x)).
    - intros _. exists V. rewrite zrange_nil by lia. split; [reflexivity|]. lia.
    - intros m Hm IH Hm'. rewrite <- Z.add_1_r in *. destruct (IH ltac:(lia)) as (V1 & E & Hv). rewrite zrange_snoc by lia. rewrite fold_opt_app, E by lia. cbn [bind fold_opt].
      set (W := if m =? 0 then U else ends U). destruct (lap_any W m ltac:(lia)) as (l & El). 
      exists (fun k => if k =? m then (D * (1 * 1 * / D * quarter) * l + W m)%Qc else V1 k). split.
      + unfold step at 1. rewrite El. cbn [bind]. rewrite peek_in, get_tab by lia. cbn [bind]. unfold grid_write_int, addr_int. rewrite put_tab by lia. cbn [bind].
        pose proof (poke_ends W) as Pe. destruct (poke false axs (tab nx W) 0 1%Qc) as [o|]; [|discriminate]. cbn [bind] in *. rewrite Pe. cbn [bind]. f_equal. f_equal. destruct (Z.eqb_spec (m + 1) 0); [lia|]. apply tab_ext. intros j Hj.
        unfold W. destruct (m =? 0); [reflexivity|]. unfold ends. destruct (j =? nx - 1), (j =? 0); reflexivity.
      + intros x Hx Hx'. destruct (Z.eqb_spec x m) as [->|]; [|apply Hv; lia]. assert (W = ends U) as EW by (unfold W; destruct (Z.eqb_spec m 0); [lia|reflexivity]).
        rewrite EW in *. rewrite lap_tab in El by lia. injection El as <-. unfold moved. field. auto. }
  destruct (A nx ltac:(lia) ltac:(lia)) as (V' & E & Hv). exists V'. rewrite E. cbn [bind]. destruct (Z.eqb_spec nx 0); [lia|]. split; [reflexivity|]. intros x Hx. apply Hv; lia.
Qed.
Lemma ends_bar k U : (forall x, 0 < x < nx - 1 -> U x = bar (nx - 1) k x) -> forall x, 0 <= x < nx -> ends U x = bar (nx - 1) k x.
Proof.
  intros H x Hx. unfold ends. destruct (Z.eqb_spec x (nx - 1)) as [->|]; [rewrite bar_right, bar_0_right by lia; reflexivity|].
  destruct (Z.eqb_spec x 0) as [->|]; [rewrite bar_left, bar_0_left by lia; reflexivity|]. apply H. lia.
Qed.
Lemma second_run D k : D <> 0%Qc -> forall j U V, (forall x, 0 < x < nx - 1 -> U x = bar (nx - 1) j x) ->
  exists U', repeat_step (S k) (second_step false axs D (1 * 1 * / D * quarter)%Qc) (tab nx U, tab nx V) = Some (tab nx U', tab nx (bar (nx - 1) (k + j))).
Proof.
  intros HD. induction k as [|k IH]; intros j U V HU.
  - cbn [repeat_step]. destruct (second_step_eq D U V HD) as (V' & E & _). rewrite E. cbn [bind]. exists V'. f_equal. f_equal. apply tab_ext. now apply ends_bar.
  - change (repeat_step (S (S k)) ?f ?s) with (do s' <- f s; repeat_step (S k) f s'). destruct (second_step_eq D U V HD) as (V' & E & Hv). rewrite E. cbn [bind].
    destruct (IH (S j) V' (ends U)) as (U' & E').
    + intros x Hx. rewrite Hv by auto. rewrite bar_step by lia. unfold moved. rewrite !(ends_bar j U HU) by lia. reflexivity.
    + exists U'. rewrite E'. f_equal. f_equal. f_equal. f_equal. lia.
Qed.
End Second.
