From Coq Require Import QArith Qcanon Qround Lqa Permutation.
From Verif Require Import Model.Base Model.Boundary Model.Layout Model.Access Model.Setup Model.Num Model.Sparse Model.Simulate Model.Tessellate Model.Digits Model.Seedswap
  Spec.Box Spec.Access Spec.Decomp Spec.Tessellate Spec.Seedswap
  Proof.BaseL Proof.LayoutL Proof.AccessL Proof.SetupL Proof.TessellateL Proof.TessellateF Proof.GrainsizeL Proof.DigitsL.
Local Open Scope Z_scope.

Lemma truncZ_frac (q : Qc) a b : 0 < b -> (this q == inject_Z a / inject_Z b)%Q -> truncZ q = Z.quot a b.
Proof.
  intros Hb E. unfold truncZ. destruct (this q) as [n d]. cbn [Qnum Qden]. assert (n * b = a * Zpos d) as E'.
  { assert (inject_Z a / inject_Z b == a # Z.to_pos b)%Q as E2. { unfold Qdiv, Qinv, inject_Z, Qeq. simpl. destruct b; simpl; lia. } rewrite E2 in E. unfold Qeq in E. simpl in E. rewrite Z2Pos.id in E by lia. exact E. }
  rewrite <- (Z.quot_mul_cancel_r n (Zpos d) b) by lia. rewrite E'. replace (Zpos d * b) with (b * Zpos d) by lia. rewrite Z.quot_mul_cancel_r by lia. reflexivity.
Qed.
Definition M : Z := 1000000.
Lemma this_Zq z : (this (Zq z) == inject_Z z)%Q. Proof. apply this_of_Z. Qed.
Lemma this_dec6 n : (this (decimal n (-6)) == inject_Z n / inject_Z M)%Q.
Proof. rewrite this_decimal. unfold Qdiv. reflexivity. Qed.
Lemma this_plus (a b : Qc) : (this (a + b)%Qc == this a + this b)%Q. Proof. apply Qred_correct. Qed.
Lemma this_mult (a b : Qc) : (this (a * b)%Qc == this a * this b)%Q. Proof. apply Qred_correct. Qed.
Lemma this_div (a b : Qc) : (this (a / b)%Qc == this a / this b)%Q.
Proof. unfold Qcdiv. rewrite this_mult. unfold Qdiv. apply Qmult_comp; [reflexivity|]. unfold Qcinv. cbn [this Q2Qc]. apply Qred_correct. Qed.

Lemma read_frac g n : read_coord g (decimal n (-6)) = Z.quot (gx_0 g * M + (glen g - 1) * n) M.
Proof.
  unfold read_coord. apply truncZ_frac; [reflexivity|]. rewrite this_plus, this_mult, !this_Zq, this_dec6. rewrite inject_Z_plus, !inject_Z_mult. field. discriminate.
Qed.
Definition sixth (L k : Z) : Z := Digits.nearest (Zq k / Zq L * decimal 1 6)%Qc.
Lemma sixth_spec L k : 0 < L -> 2 * M * k - L <= 2 * L * sixth L k <= 2 * M * k + L.
Proof.
  intros HL. unfold sixth. destruct (nearest_spec (Zq k / Zq L * decimal 1 6)%Qc) as [A B]. set (n := Digits.nearest _) in *.
  assert (this (Zq k / Zq L * decimal 1 6)%Qc == inject_Z k / inject_Z L * inject_Z M)%Q as E. { rewrite this_mult, this_div, !this_Zq. reflexivity. }
  rewrite E in A, B. assert (0 < inject_Z L)%Q as PL by now apply inj_pos.
  assert (inject_Z k / inject_Z L * inject_Z M * inject_Z L == inject_Z k * inject_Z M)%Q as E2 by (field; intros C; rewrite C in PL; discriminate).
  apply (fun h => Qmult_le_compat_r _ _ (inject_Z L) h (Qlt_le_weak _ _ PL)) in A. apply (fun h => Qmult_le_compat_r _ _ (inject_Z L) h (Qlt_le_weak _ _ PL)) in B.
  assert (inject_Z k * inject_Z M - (1 # 2) * inject_Z L <= inject_Z n * inject_Z L)%Q as A' by lra.
  assert (inject_Z n * inject_Z L <= inject_Z k * inject_Z M + (1 # 2) * inject_Z L)%Q as B' by lra.
  split; rewrite Zle_Qle.
  - rewrite inject_Z_plus, !inject_Z_mult || idtac. unfold Z.sub. rewrite inject_Z_plus, inject_Z_opp, !inject_Z_mult. change (inject_Z 2) with (2 # 1)%Q. lra.
  - rewrite inject_Z_plus, !inject_Z_mult. change (inject_Z 2) with (2 # 1)%Q. lra.
Qed.
Lemma written_sixth g c : written g c = decimal (sixth (glen g) (c - gx_0 g)) (-6). Proof. reflexivity. Qed.
Lemma sixth_range L k : 0 <= k < L -> 0 <= sixth L k <= M.
Proof. intros H. pose proof (sixth_spec L k ltac:(lia)) as [A B]. unfold M in *. nia. Qed.
Lemma sixth_0 L : 0 < L -> sixth L 0 = 0.
Proof. intros H. pose proof (sixth_spec L 0 H) as [A B]. nia. Qed.

Lemma reread g c : gx_0 g <= c < gx_1 g -> glen g * (glen g - 1) < 2 * M -> read_coord g (written g c) = fallen g c.
Proof.
  intros Hc Hl. rewrite written_sixth, read_frac. unfold fallen. set (k := c - gx_0 g). set (L := glen g) in *. assert (0 <= k < L) as Hk by (unfold k, L, glen; lia).
  destruct (Z.eqb_spec c (gx_0 g)) as [->|Ne].
  - rewrite orb_true_r. assert (k = 0) as -> by (unfold k; lia). rewrite sixth_0 by lia. rewrite Z.mul_0_r, Z.add_0_r. apply Z.quot_mul. discriminate.
  - rewrite orb_false_r. assert (1 <= k) by (unfold k in *; lia). pose proof (sixth_spec L k ltac:(lia)) as [A B]. set (n := sixth L k) in *.
    assert (- M < (L - 1) * n - M * k < 0) as [E1 E2].
    { pose proof (Z.mul_le_mono_nonneg_r _ _ (L - 1) ltac:(lia) A) as A'. pose proof (Z.mul_le_mono_nonneg_r _ _ (L - 1) ltac:(lia) B) as B'.
      assert (2 * L * ((L - 1) * n - M * k) = 2 * L * n * (L - 1) - 2 * L * M * k) as E by ring.
      assert ((2 * M * k + L) * (L - 1) - 2 * L * M * k = L * (L - 1) - 2 * M * k) as Eb by ring. assert ((2 * M * k - L) * (L - 1) - 2 * L * M * k = - (L * (L - 1)) - 2 * M * k) as Ea by ring.
      set (e := (L - 1) * n - M * k) in *. clearbody e. assert (2 * M * k <= 2 * M * (L - 1)) by (unfold M; lia). assert (2 * M * 1 <= 2 * M * k) by (unfold M; lia).
      assert (2 * L * e < 0) by lia. assert (2 * L * (- M) < 2 * L * e) by (unfold M in *; lia). split; nia. }
    set (e := (L - 1) * n - M * k) in *. replace (gx_0 g * M + (L - 1) * n) with (M * c + e) by (unfold e, k; ring).
    destruct (Z.leb_spec c 0).
    + rewrite <- (Z.opp_involutive (M * c + e)), Z.quot_opp_l by discriminate. rewrite <- (Z.quot_unique (- (M * c + e)) M (- c) (- e)); unfold M in *; lia.
    + assert (Z.quot (M * c + e) M = c - 1) as ->; [|reflexivity]. symmetry. apply Z.quot_unique with (r := e + M); unfold M in *; lia.
Qed.

Lemma read_in g s : gx_0 g < gx_1 g -> (0 <= s)%Qc -> (s <= 1)%Qc -> gx_0 g <= read_coord g s < gx_1 g.
Proof.
  intros Hg H0 H1. unfold read_coord. set (q := (Zq (gx_0 g) + Zq (glen g - 1) * s)%Qc).
  assert (this q == inject_Z (gx_0 g) + inject_Z (glen g - 1) * this s)%Q as E by (unfold q; now rewrite this_plus, this_mult, !this_Zq).
  unfold Qcle in H0, H1. change (this 0) with 0%Q in H0. change (this 1) with 1%Q in H1.
  assert (0 <= inject_Z (glen g - 1))%Q as P by (change 0%Q with (inject_Z 0); rewrite <- Zle_Qle; unfold glen; lia).
  assert (inject_Z (gx_0 g) <= this q)%Q as A by (rewrite E; nra). assert (this q <= inject_Z (gx_1 g - 1))%Q as B.
  { rewrite E. replace (gx_1 g - 1) with (gx_0 g + (glen g - 1)) by (unfold glen; lia). rewrite inject_Z_plus. nra. }
  unfold truncZ. destruct (this q) as [n d]. unfold Qle in A, B. simpl in A, B. cbn [Qnum Qden].
  assert (Z.quot (gx_0 g * Zpos d) (Zpos d) <= Z.quot n (Zpos d) <= Z.quot ((gx_1 g - 1) * Zpos d) (Zpos d)) as [C1 C2]. { split; apply Z.quot_le_mono; lia. }
  rewrite !Z.quot_mul in * by lia. lia.
Qed.

(* ---- the stream ---- *)
Definition ends (trail : bool) (rest : list Qc) : bool := match rest with [] => trail | _ => true end.
Lemma next_cons trail q t l : next_number trail (mkNums (q :: t) true l) = mkNums t (ends trail t) (Some q). Proof. reflexivity. Qed.
Lemma not_big (q : Qc) : (q <= 1)%Qc -> (if Qclt_le_dec (Q2Qc (10001 # 10000)) q then false else true) = true.
Proof. intros H. destruct (Qclt_le_dec _ _) as [C|]; [|reflexivity]. exfalso. unfold Qclt, Qcle in *. change (this 1) with 1%Q in H. change (this (Q2Qc (10001 # 10000))) with (10001 # 10000)%Q in C. lra. Qed.
Lemma read_row trail gs row rest l : length row = length gs -> gs <> [] -> Forall (fun x => (x <= 1)%Qc) row ->
  read_seed trail gs (mkNums (row ++ rest) true l) = Some (Simulate.zip_with read_coord gs row, mkNums rest (ends trail rest) (Some (last row 0%Qc))).
Proof.
  revert row l. induction gs as [|g gs IH]; intros [|q row] l Hl Hne F; try discriminate; [congruence|]. inversion F as [|? ? F1 F2]; subst. cbn [app read_seed]. rewrite next_cons. cbn [last_ bind]. rewrite not_big by auto. cbn [guard bind].
  destruct gs as [|g' gs].
  - destruct row; [|discriminate]. cbn [app read_seed bind fst snd]. reflexivity.
  - destruct row as [|q' row]; [discriminate|]. change (ends trail ((q' :: row) ++ rest)) with true. rewrite IH by (auto; discriminate). cbn [bind fst snd]. reflexivity.
Qed.
Lemma read_stale trail gs q g : (q <= 1)%Qc -> g = false -> read_seed trail gs (mkNums [] g (Some q)) = Some (map (fun a => read_coord a q) gs, mkNums [] false (Some q)).
Proof.
  intros H ->. induction gs as [|a gs IH]; [reflexivity|]. cbn [read_seed]. change (next_number trail (mkNums [] false (Some q))) with (mkNums [] false (Some q)). cbn [last_ bind]. rewrite not_big by auto. cbn [guard bind]. rewrite IH. reflexivity.
Qed.
Lemma read_ghost trail gs q : gs <> [] -> (q <= 1)%Qc -> read_seed trail gs (mkNums [] true (Some q)) = Some (map (fun a => read_coord a q) gs, mkNums [] false (Some q)).
Proof.
  intros Hne H. destruct gs as [|a gs]; [congruence|]. cbn [read_seed]. change (next_number trail (mkNums [] true (Some q))) with (mkNums [] false (Some q)). cbn [last_ bind]. rewrite not_big by auto. cbn [guard bind]. rewrite read_stale by auto. reflexivity.
Qed.

Section Serial.
Context (gs : list gaxis) (gh : Z) (Hne : gs <> []) (H3 : (length gs <= 3)%nat) (Hg : Forall (fun g => gx_0 g < gx_1 g) gs).
Notation axs := (ge_axes (setup_single gs gh)).
Definition padded (cs : list Z) : seed := cs ++ repeat 0 (3 - length gs).
Lemma axs_len : length axs = length gs. Proof. unfold setup_single. cbn [ge_axes]. rewrite length_lay, map_length. reflexivity. Qed.
Lemma axs_g : map (fun a => mkG (a_g0 a) (a_g1 a)) axs = gs.
Proof. unfold setup_single. cbn [ge_axes]. clear. induction gs as [|[a b] t IH]; [reflexivity|]. simpl. now rewrite IH. Qed.
Lemma axs_x : map a_x0 axs = map gx_0 gs /\ map a_x1 axs = map gx_1 gs.
Proof. unfold setup_single. cbn [ge_axes]. rewrite map_x0_lay, map_x1_lay, !map_map. split; reflexivity. Qed.
Lemma local_padded cs : in_box (map gx_0 gs) (map gx_1 gs) cs -> is_local axs (padded cs) = Some true.
Proof.
  intros B. pose proof (in_box_length _ _ _ B) as [L1 _]. rewrite map_length in L1. destruct (is_local_spec axs (padded cs)) as (b & E & S).
  { rewrite axs_len. unfold padded. rewrite app_length. lia. }
  rewrite E. destruct axs_x as [X0 X1]. rewrite X0, X1, axs_len in S. f_equal. apply S. unfold padded. rewrite firstn_app, <- L1, Nat.sub_diag, firstn_all, firstn_O, app_nil_r. exact B.
Qed.
Lemma row_in row : unit_row (length gs) row -> in_box (map gx_0 gs) (map gx_1 gs) (Simulate.zip_with read_coord gs row).
Proof.
  clear Hne H3. intros [L F]. revert row L F. induction Hg as [|g t H1 _ IH]; intros [|q row] L F; try discriminate; [exact I|]. inversion F as [|? ? [F1 F2] F3]; subst. cbn [map Simulate.zip_with]. split; [now apply read_in|]. apply IH; auto. now inversion Hg.
Qed.
Lemma stale_in q : (0 <= q)%Qc -> (q <= 1)%Qc -> in_box (map gx_0 gs) (map gx_1 gs) (map (fun a => read_coord a q) gs).
Proof. clear Hne H3. intros Q0 Q1. induction Hg as [|g t H1 _ IH]; [exact I|]. cbn [map]. split; [now apply read_in|apply IH; now inversion Hg]. Qed.
Definition last_number (rows : list (list Qc)) : Qc := last (last rows []) 0%Qc.
Lemma last_in {A} (l : list A) d : l <> [] -> In (last l d) l.
Proof. induction l as [|a l IH]; [congruence|]. intros _. destruct l; [left; reflexivity|]. right. apply IH. discriminate. Qed.

Lemma read_rows trail rows : forall fuel l, Forall (unit_row (length gs)) rows -> rows <> [] -> (length rows + 2 <= fuel)%nat ->
  read_seeds fuel trail axs (mkNums (concat rows) true l) = Some (map (fun row => padded (Simulate.zip_with read_coord gs row)) rows ++ if trail then [padded (map (fun a => read_coord a (last_number rows)) gs)] else []).
Proof.
  induction rows as [|row rows IH]; intros fuel l F Ne Hf; [congruence|]. inversion F as [|? ? F1 F2]; subst. destruct fuel as [|fuel]; [simpl in Hf; lia|]. cbn [read_seeds concat good_]. rewrite axs_g.
  pose proof F1 as [Lr Fr]. assert (row <> []) as Nr by (intros ->; destruct gs; [congruence|discriminate]).
  assert (Forall (fun x => (x <= 1)%Qc) row) as Fr1 by (eapply Forall_impl; [|exact Fr]; simpl; tauto). rewrite (read_row trail gs row (concat rows) l Lr Hne Fr1). cbn [bind fst snd]. rewrite axs_len. fold (padded (Simulate.zip_with read_coord gs row)).
  rewrite local_padded by now apply row_in. cbn [bind]. destruct rows as [|row' rows].
  - cbn [concat]. unfold ends. destruct fuel as [|fuel]; [simpl in Hf; lia|]. cbn [read_seeds good_]. destruct trail.
    + rewrite axs_g. assert ((0 <= last row 0)%Qc /\ (last row 0 <= 1)%Qc) as [Q0 Q1] by (rewrite Forall_forall in Fr; apply Fr; now apply last_in). rewrite read_ghost by auto. cbn [bind fst snd]. rewrite axs_len.
      fold (padded (map (fun a => read_coord a (last row 0%Qc)) gs)). rewrite local_padded by now apply stale_in. cbn [bind]. destruct fuel as [|fuel]; [simpl in Hf; lia|]. reflexivity.
    + reflexivity.
  - assert (ends trail (concat (row' :: rows)) = true) as ->. { inversion F2 as [|? ? [L' _] _]; subst. destruct row'; [destruct gs; [congruence|discriminate]|reflexivity]. }
    rewrite (IH fuel (Some (last row 0%Qc)) F2 ltac:(discriminate) ltac:(simpl in *; lia)). cbn [bind]. reflexivity.
Qed.

Theorem read_file trail rows : Forall (unit_row (length gs)) rows -> rows <> [] ->
  gen_seeds_from_file trail axs (concat rows) = Some (map (fun row => padded (Simulate.zip_with read_coord gs row)) rows ++ if trail then [padded (map (fun a => read_coord a (last_number rows)) gs)] else []).
Proof.
  intros F Ne. unfold gen_seeds_from_file. apply read_rows; auto. assert (length rows <= length (concat rows))%nat; [|lia].
  clear Ne. induction F as [|row rows [L _] _ IH]; [reflexivity|]. simpl. rewrite app_length. destruct gs; [congruence|]. simpl in L. lia.
Qed.
End Serial.

Lemma written_row gs s : Forall (fun g => gx_0 g < gx_1 g) gs -> in_box (map gx_0 gs) (map gx_1 gs) (firstn (length gs) s) ->
  map_opt (fun k => do g <- get gs k; do c <- get s k; Some (written g c)) (zrange 0 (zlen gs)) = Some (Simulate.zip_with written gs s) /\ unit_row (length gs) (Simulate.zip_with written gs s).
Proof.
  intros Hg B. assert (length gs <= length s)%nat as L. { pose proof (in_box_length _ _ _ B) as [L1 _]. rewrite map_length, firstn_length in L1. lia. }
  split. { pose proof (map_opt_zip written gs s [] [] eq_refl L) as E. change (zlen []) with 0 in E. simpl app in E. change (0 + zlen gs) with (zlen gs) in E. exact E. }
  split; [now apply zip_with_length|]. clear L. revert s B. induction Hg as [|g t H1 _ IH]; intros [|c s] B; cbn [Simulate.zip_with]; try constructor.
  - simpl in B. destruct B as [B _]. rewrite written_sixth. pose proof (sixth_range (glen g) (c - gx_0 g) ltac:(unfold glen; lia)) as [A1 A2]. unfold Qcle. rewrite !this_dec6. change (this 0) with 0%Q. change (this 1) with 1%Q.
    unfold M in *. unfold Qle, Qdiv, Qinv, Qmult, inject_Z. simpl. lia.
  - apply IH. simpl in B. apply B.
Qed.

(* ---- several ranks ---- *)
Lemma read_rank trail axs axs' : length axs = length axs' -> map (fun a => mkG (a_g0 a) (a_g1 a)) axs = map (fun a => mkG (a_g0 a) (a_g1 a)) axs' -> (length axs <= 3)%nat ->
  (forall s, is_local axs s = Some true -> is_local axs' s = Some true) ->
  forall fuel st all, read_seeds fuel trail axs' st = Some all ->
  read_seeds fuel trail axs st = Some (filter (fun s => match is_local axs s with Some b => b | None => false end) all) /\ Forall (fun s => length s = 3%nat /\ is_local axs' s = Some true) all.
Proof.
  intros L G H3 Sub. induction fuel as [|f IH]; intros st all E; [discriminate|]. cbn [read_seeds] in *. destruct (good_ st); [|injection E as <-; split; [reflexivity|constructor]].
  rewrite G. destruct (read_seed trail _ st) as [[c st']|] eqn:Er; [|discriminate]. cbn [bind fst snd] in *. rewrite L.
  assert (length c = length axs') as Lc.
  { clear - Er. assert (length (map (fun a => mkG (a_g0 a) (a_g1 a)) axs') = length axs') as <- by apply map_length. revert st c st' Er. generalize (map (fun a => mkG (a_g0 a) (a_g1 a)) axs'). intros gs. induction gs as [|g gs IH]; intros st c st' Er; cbn [read_seed] in Er; [injection Er as <- <-; reflexivity|].
    destruct (last_ (next_number trail st)) as [q|]; [|discriminate]. cbn [bind] in Er. destruct (guard _); [|discriminate]. cbn [bind] in Er. destruct (read_seed trail gs _) as [[c' st2]|] eqn:E2; [|discriminate]. cbn [bind fst snd] in Er. injection Er as <- <-. simpl. f_equal. eapply IH; eauto. }
  set (s := c ++ repeat 0 (3 - length axs')) in *. assert (length s = 3%nat) as Ls by (unfold s; rewrite app_length, repeat_length; lia).
  destruct (is_local_spec axs s ltac:(lia)) as (b & Eb & _). destruct (is_local_spec axs' s ltac:(lia)) as (b' & Eb' & _). rewrite Eb. rewrite Eb' in E. cbn [bind] in *.
  destruct (read_seeds f trail axs' st') as [t|] eqn:Et; [|discriminate]. cbn [bind] in E. injection E as <-. destruct (IH st' t Et) as [-> F]. cbn [bind]. destruct b'.
  - cbn [filter]. rewrite Eb. split; [destruct b; reflexivity|]. constructor; auto.
  - destruct b; [rewrite (Sub s Eb) in Eb'; discriminate|]. split; auto.
Qed.

Theorem file_ranks np gs gh trail file all : 0 < np -> gs <> [] -> (length gs <= 3)%nat -> Forall (fun g => gx_0 g < gx_1 g) gs ->
  gen_seeds_from_file trail (ge_axes (setup_single gs gh)) file = Some all ->
  exists mine, (forall r ge, 0 <= r < np -> setup_mpi np gs gh r = Some ge -> gen_seeds_from_file trail (ge_axes ge) file = Some (mine r) /\ Forall (fun s => owns ge (firstn (length gs) s)) (mine r)) /\
    Permutation (concat (map mine (zrange 0 np))) all.
Proof.
  intros Hnp Hne H3 Hg E0. assert (gok gs) as Hok by (eapply Forall_impl; [|exact Hg]; simpl; lia).
  pose proof (axs_len gs gh) as SL. pose proof (axs_g gs gh) as SG. destruct (axs_x gs gh) as [SX0 SX1]. set (axs' := ge_axes (setup_single gs gh)) in *.
  set (own := fun r s => match setup_mpi np gs gh r with Some ge => match is_local (ge_axes ge) s with Some b => b | None => false end | None => false end).
  assert (forall r ge, 0 <= r < np -> setup_mpi np gs gh r = Some ge -> length (ge_axes ge) = length gs /\ map (fun a => mkG (a_g0 a) (a_g1 a)) (ge_axes ge) = gs /\
    forall s, length s = 3%nat -> is_local (ge_axes ge) s = Some (own r s) /\ (own r s = true <-> owns ge (firstn (length gs) s))) as Geo.
  { intros r ge Hr E. destruct (rank_geometry np gs gh (map (fun _ => (0, 0)) gs) r ge Hnp Hne Hok Hr (map_length _ _) E) as (_ & _ & _ & _ & _ & _ & _ & _ & _ & _ & ls0 & Ea & _ & L0 & G0 & G1).
    assert (length (ge_axes ge) = length gs) as La by (rewrite Ea, length_lay; auto). split; [auto|]. split.
    - rewrite Ea. clear - G0 G1 L0. revert gs G0 G1 L0. induction ls0 as [|l ls IH]; intros [|g gs] G0 G1 L0; simpl in *; try discriminate; [reflexivity|].
      inversion G0; inversion G1. rewrite (IH gs) by (auto; lia). f_equal. destruct g. simpl in *. congruence.
    - intros s Ls. destruct (is_local_spec (ge_axes ge) s ltac:(lia)) as (b & Eb & B). unfold own. rewrite E, Eb. rewrite La in B. auto. }
  assert (forall s, length s = 3%nat -> is_local axs' s = Some true <-> in_box (map gx_0 gs) (map gx_1 gs) (firstn (length gs) s)) as Ser.
  { intros s Ls. destruct (is_local_spec axs' s ltac:(lia)) as (b & Eb & B). rewrite SX0, SX1, SL in B. rewrite Eb. rewrite <- B. split; congruence. }
  assert (forall r ge s, 0 <= r < np -> setup_mpi np gs gh r = Some ge -> is_local (ge_axes ge) s = Some true -> is_local axs' s = Some true) as Sub.
  { intros r ge s Hr E Hs. destruct (Geo r ge Hr E) as (La & _ & _). assert (length gs <= length s)%nat as Ll.
    { apply Nat.nlt_ge. intros C. unfold is_local in Hs. destruct (map_opt _ _) as [bs|] eqn:Em; [|discriminate]. assert (exists v, (do c <- get s (zlen s); do a <- get (ge_axes ge) (zlen s); Some ((a_x0 a <=? c) && (c <? a_x1 a))) = Some v) as [v Ev].
      { assert (In (zlen s) (zrange 0 (zlen (ge_axes ge)))) as I by (apply in_zrange; unfold zlen; rewrite La; lia). clear - Em I. revert bs Em I. generalize (zrange 0 (zlen (ge_axes ge))). intros l. induction l as [|k l IH]; intros bs Em I; [destruct I|]. cbn [map_opt] in Em.
        destruct (do c <- get s k; do a <- get (ge_axes ge) k; Some ((a_x0 a <=? c) && (c <? a_x1 a))) as [v|] eqn:Ek; [|discriminate]. destruct I as [<- | I]; [eauto|]. cbn [bind] in Em. destruct (map_opt _ l) as [t|]; [|discriminate]. eapply IH; eauto. }
      rewrite (get_none s (zlen s)) in Ev by lia. discriminate. }
    destruct (is_local_spec axs' s ltac:(lia)) as (b & Eb & B). destruct (is_local_spec (ge_axes ge) s ltac:(lia)) as (b2 & Eb2 & B2). rewrite Eb. f_equal. apply B. rewrite SX0, SX1, SL.
    assert (b2 = true) as -> by congruence. rewrite La in B2. eapply owned_inside; [exact Hnp|exact Hne|exact Hok|exact Hr|exact E|]. now apply B2. }
  exists (fun r => filter (own r) all). unfold gen_seeds_from_file in *.
  assert (forall r ge, 0 <= r < np -> setup_mpi np gs gh r = Some ge -> read_seeds (S (S (length file))) trail (ge_axes ge) (mkNums file true None) = Some (filter (own r) all) /\ Forall (fun s => length s = 3%nat /\ is_local axs' s = Some true) all) as RR.
  { intros r ge Hr E. destruct (Geo r ge Hr E) as (La & Lg & Lo). destruct (read_rank trail (ge_axes ge) axs' ltac:(congruence) ltac:(congruence) ltac:(rewrite La; exact H3) (fun s => Sub r ge s Hr E) (S (S (length file))) (mkNums file true None) all E0) as [R1 R2].
    split; [|auto]. rewrite R1. f_equal. unfold own. now rewrite E. }
  destruct (setup_eq np gs gh 0 Hnp Hne Hok ltac:(lia)) as (p & _ & _ & _ & _ & S4). destruct (RR 0 _ ltac:(lia) S4) as [_ Fa].
  split.
  - intros r ge Hr E. destruct (RR r ge Hr E) as [R1 _]. split; [exact R1|]. apply Forall_forall. intros s Hs. apply filter_In in Hs as [Hs Os]. rewrite Forall_forall in Fa. destruct (Fa s Hs) as [Ls _]. now apply (Geo r ge Hr E).
  - apply perm_owned; [apply NoDup_zrange|]. intros s Hs. rewrite Forall_forall in Fa. destruct (Fa s Hs) as [Ls Bs]. apply Ser in Bs; [|auto].
    destruct (partition np gs gh _ Hnp Hne Hok Bs) as (r & ge & Hr & E & O & U). exists r. split; [now apply in_zrange|].
    split; [apply (Geo r ge Hr E); auto|]. intros r' Hr' Or'. apply in_zrange in Hr'.
    destruct (setup_eq np gs gh r' Hnp Hne Hok Hr') as (p' & _ & _ & _ & _ & S4'). eapply U; eauto. apply (Geo r' _ Hr' S4'); auto.
Qed.
