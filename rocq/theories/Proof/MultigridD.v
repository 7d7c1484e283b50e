(* One dimension, where the coarse levels have no effect, and the sizes for which update is undefined. *)
From Coq Require Import QArith.QArith QArith.Qcanon Lqa.
From Verif Require Import Model.Base Model.Boundary Model.Layout Model.Access Model.Stencil Model.Evolve Model.Multigrid Spec.Box Spec.Stencil Spec.Multigrid
  Proof.BaseL Proof.LayoutL Proof.AccessL Proof.StencilL Proof.StencilS Proof.StencilM Proof.MultigridL Proof.MultigridS Proof.MultigridG Proof.MultigridC Proof.MultigridF.
Local Open Scope Z_scope.

Section Sizes.
Context (axs : list axis) (dx junk : list Qc).
Lemma bind_none {A B} (o : option A) (k : A -> option B) : (forall a, o = Some a -> k a = None) -> bind o k = None.
Proof. destruct o; cbn; auto. Qed.
Lemma MG_none gamma nu1 nu2 : 0 < gamma -> forall levels s u f, 0 < s -> (forall m a, 0 < m -> In a axs -> a_x1 a <> 2 ^ m * s + 1) -> MG axs dx junk levels gamma nu1 nu2 s u f = None.
Proof.
  intros Hg. induction levels as [|levels IH]; intros s u f Hs H; [reflexivity|]. cbn [MG]. apply bind_none. intros _ _.
  destruct (existsb _ _) eqn:E.
  - exfalso. apply existsb_exists in E as (a & Hi & Ea). apply Z.eqb_eq in Ea. apply (H 1 a); auto; lia.
  - do 3 (apply bind_none; intros ? _). rewrite zrange_cons by lia. cbn [fold_opt]. rewrite IH; [reflexivity|lia|]. intros m b Hm Hb C. apply (H (m + 1) b); auto; [lia|]. rewrite C, Z.pow_add_r by lia. ring.
Qed.
Lemma finer_none gamma nu1 nu2 : 0 < gamma -> (forall m a, 0 < m -> In a axs -> a_x1 a <> 2 ^ m + 1) -> forall fuel s u f, 0 < s -> finer axs dx junk fuel gamma nu1 nu2 s u f = None.
Proof.
  intros Hg H. induction fuel as [|fuel IH]; intros s u f Hs; cbn [finer]; rewrite (proj2 (Z.ltb_lt _ _) Hs); [reflexivity|].
  apply bind_none. intros v _. apply bind_none. intros w Ew. destruct (Z.eq_dec s 1) as [->|Ne].
  - unfold mg in Ew. rewrite MG_none in Ew; [discriminate|auto|lia|]. intros m a Hm Ha C. apply (H m a Hm Ha). lia.
  - apply IH. rewrite Z.quot_div_nonneg by lia. apply Z.div_str_pos. lia.
Qed.
Lemma coarsest_min m : (forall a, In a axs -> m <= Z.quot (a_x1 a - 1) 4) -> forall s, coarsest axs = Some s -> m <= s /\ exists a, In a axs /\ s = Z.quot (a_x1 a - 1) 4.
Proof.
  intros H s E. unfold coarsest in E. destruct axs as [|a r] eqn:EA; [discriminate|]. injection E as <-.
  assert (forall r s, (forall a, In a r -> In a axs) -> m <= s -> (exists a, In a axs /\ s = Z.quot (a_x1 a - 1) 4) ->
    let t := fold_left (fun s a => if Z.quot (a_x1 a - 1) 4 <? s then Z.quot (a_x1 a - 1) 4 else s) r s in m <= t /\ exists a, In a axs /\ t = Z.quot (a_x1 a - 1) 4) as A.
  { clear - H EA. rewrite <- EA in H. clear EA r a. induction r as [|b r IH]; intros s Hr Hs Hex; cbn [fold_left]; [auto|]. apply IH; [intros; apply Hr; cbn; auto| |].
    - destruct (Z.quot (a_x1 b - 1) 4 <? s); [apply H, Hr; cbn; auto|auto].
    - destruct (Z.quot (a_x1 b - 1) 4 <? s); [exists b; split; [apply Hr; cbn; auto|auto]|auto]. }
  rewrite EA in A. apply A; [intros; cbn; auto|apply H; cbn; auto|exists a; cbn; auto].
Qed.
Lemma update_none f : axs <> [] -> (forall a, In a axs -> 9 <= a_x1 a) -> (forall m a, 0 < m -> In a axs -> a_x1 a <> 2 ^ m + 1) -> update axs dx junk f = None.
Proof.
  intros Hne H9 H. unfold update. apply bind_none. intros u _. unfold FMG. apply bind_none. intros s Es. apply bind_none. intros w _. apply finer_none; auto; [lia|].
  destruct (coarsest_min 2) with (s := s) as (L & _); auto.
  - intros a Ha. specialize (H9 a Ha). rewrite Z.quot_div_nonneg by lia. apply Z.div_le_lower_bound; lia.
  - rewrite Z.quot_div_nonneg by lia. apply Z.div_str_pos. lia.
Qed.
Lemma fold_min_le r : forall s b, In b r -> fold_left (fun s a => if Z.quot (a_x1 a - 1) 4 <? s then Z.quot (a_x1 a - 1) 4 else s) r s <= Z.quot (a_x1 b - 1) 4.
Proof.
  assert (forall r s, fold_left (fun s a => if Z.quot (a_x1 a - 1) 4 <? s then Z.quot (a_x1 a - 1) 4 else s) r s <= s) as L.
  { induction r0 as [|a r0 IH]; intros s; cbn [fold_left]; [lia|]. specialize (IH (if Z.quot (a_x1 a - 1) 4 <? s then Z.quot (a_x1 a - 1) 4 else s)). destruct (Z.ltb_spec (Z.quot (a_x1 a - 1) 4) s); lia. }
  induction r as [|a r IH]; intros s b []; cbn [fold_left]; [subst a|now apply IH].
  specialize (L r (if Z.quot (a_x1 b - 1) 4 <? s then Z.quot (a_x1 b - 1) 4 else s)). destruct (Z.ltb_spec (Z.quot (a_x1 b - 1) 4) s); lia.
Qed.
(* the loops do not end: the stride is 0 *)
Lemma coarsest_zero : (forall a, In a axs -> 2 <= a_x1 a) -> (exists a, In a axs /\ a_x1 a < 5) -> coarsest axs = Some 0 /\ inner axs 0 = None.
Proof.
  intros H2 (b & Hb & H5). assert (exists s, coarsest axs = Some s /\ s <= Z.quot (a_x1 b - 1) 4) as (s & E & L).
  { unfold coarsest. clear H2. destruct axs as [|a r]; [destruct Hb|]. eexists. split; [reflexivity|]. destruct Hb as [->|Hb]; [|now apply fold_min_le].
    clear. generalize (Z.quot (a_x1 b - 1) 4). induction r as [|c r IH]; intros s; cbn [fold_left]; [lia|]. specialize (IH (if Z.quot (a_x1 c - 1) 4 <? s then Z.quot (a_x1 c - 1) 4 else s)). destruct (Z.ltb_spec (Z.quot (a_x1 c - 1) 4) s); lia. }
  destruct (coarsest_min 0) with (s := s) as (L0 & _); auto.
  { intros a Ha. specialize (H2 a Ha). rewrite Z.quot_div_nonneg by lia. apply Z.div_pos; lia. }
  pose proof (H2 b Hb). assert (Z.quot (a_x1 b - 1) 4 = 0) as Q by (apply Z.quot_small; lia). split; [rewrite E; f_equal; lia|].
  unfold inner. clear E L L0 H5 Q. destruct axs as [|a r]; [destruct Hb|]. cbn [map_opt]. specialize (H2 a (or_introl eq_refl)). unfold loop at 1. rewrite (proj2 (Z.ltb_lt 0 (a_x1 a - 1))) by lia. reflexivity.
Qed.
Lemma update_small f : (forall a, In a axs -> 2 <= a_x1 a) -> (exists a, In a axs /\ a_x1 a < 5) -> update axs dx junk f = None.
Proof.
  intros H2 H5. destruct (coarsest_zero H2 H5) as (C & I). unfold update. apply bind_none. intros u _. unfold FMG. rewrite C. cbn [bind]. apply bind_none. intros w. unfold smooth.
  rewrite zrange_cons by lia. cbn [fold_opt]. rewrite I. cbn [bind]. destruct (weights dx 0); discriminate.
Qed.
End Sizes.

(* one pass over nodes no two of which are neighbours *)
Section Pass.
Context (ls : list limits) (Hl : Forall (fun l => l_x0 l = 0 /\ 1 < l_x1 l) ls) (Hne : ls <> []) (dx : list Qc) (Hdx : spaced ls dx).
Notation axs := (lay 0 ls).
Notation val := (value ls).
Lemma divides_one : divides ls 1. Proof. apply Forall_forall. intros. apply Z.divide_1_l. Qed.
Definition wt : Qc * list Qc := (w ls dx 1, map (fun r => w ls dx 1 * r)%Qc (map (rr dx 1) (zrange 0 (zlen ls)))).
Lemma pass c xs f u : (forall x, In x xs <-> inside ls 1 x) -> (forall x i k, In x xs -> c x = true -> 0 <= i < zlen ls -> k = 1 \/ k = -1 -> c (nb x i k) = false) -> sized ls u -> sized ls f ->
  exists r, assign axs (filter c xs) (relaxed axs 1 f wt) u = Some r /\ sized ls r /\
    forall y, node ls y -> (inside ls 1 y -> c y = true -> val r y = relv ls dx 1 u f y) /\ ((~ inside ls 1 y \/ c y = false) -> val r y = val u y).
Proof.
  intros Hxs Hc Su Sf.
  destruct (assign_done ls (fun pre v => sized ls v /\ forall y, node ls y -> (In y pre -> val v y = relv ls dx 1 u f y) /\ (~ In y pre -> val v y = val u y)) (filter c xs) (relaxed axs 1 f wt)) with (u := u) as (r & E & Sr & V).
  - intros v pre x post E (Sv & V). assert (In x (filter c xs)) as Hx by (rewrite E, in_app_iff; cbn; auto). apply filter_In in Hx as (Hx & Cx). pose proof (proj1 (Hxs x) Hx) as Ix.
    unfold wt. rewrite (relaxed_eq ls Hl Hne dx Hdx 1 ltac:(lia) divides_one) by auto.
    assert (relv ls dx 1 v f x = relv ls dx 1 u f x) as ->.
    { rewrite !(relv_eq ls Hne dx Hdx 1 ltac:(lia)). f_equal. apply sumQ_ext. intros i Hi. apply in_zrange in Hi.
      assert (forall k, k = 1 \/ k = -1 -> val v (nb x i k) = val u (nb x i k)) as K; [|rewrite !K by auto; reflexivity].
      intros k Hk. apply V; [apply (near ls Hl 1); auto using divides_one; lia|]. intros C. assert (In (nb x i k) (filter c xs)) as C' by (rewrite E, in_app_iff; auto). apply filter_In in C' as (_ & C'). rewrite Hc in C'; auto. discriminate. }
    destruct (wr_value ls Hl v x (relv ls dx 1 u f x) Sv) as (v' & W & Sv' & Vx & G & _); [eapply inside_node; eauto; lia|]. do 2 eexists. split; [reflexivity|]. split; [exact W|]. split; [auto|].
    intros y Ny. rewrite in_app_iff. cbn [In]. destruct (list_eq_dec Z.eq_dec y x) as [->|Ne].
    + split; [auto|]. tauto.
    + rewrite G by auto. split; [intros [Hy|[Hy|[]]]; [now apply V|congruence]|]. intros Hy. apply V; tauto.
  - split; [auto|]. intros y Ny. split; [intros []|auto].
  - exists r. split; [auto|]. split; [auto|]. intros y Ny. destruct (V y Ny) as (V1 & V2). split.
    + intros Iy Cy. apply V1, filter_In. split; [now apply Hxs|auto].
    + intros H. apply V2. intros C. apply filter_In in C as (C1 & C2). apply Hxs in C1. destruct H as [H|H]; [auto|congruence].
Qed.
End Pass.

Section Line.
Context (l : limits) (N : Z) (H0 : l_x0 l = 0) (H1 : l_x1 l = N + 1) (HN : 1 <= N) (h : Qc) (Hh : h <> 0%Qc).
Notation ls := [l].
Notation axs := (lay 0 [l]).
Notation dx := [h].
Notation val := (value [l]).
Lemma Hl : Forall (fun l => l_x0 l = 0 /\ 1 < l_x1 l) ls. Proof. repeat constructor; lia. Qed.
Lemma Hne : ls <> []. Proof. discriminate. Qed.
Lemma Hdx : spaced ls dx. Proof. split; [auto|]. repeat constructor. auto. Qed.
Lemma node1 x : node ls x <-> exists c, x = [c] /\ 0 <= c <= N.
Proof.
  rewrite node_iff by apply Hl. split.
  - intros F. inversion F as [|? c ? x' Hc F']; subst. inversion F'; subst. exists c. split; [auto|]. lia.
  - intros (c & -> & Hc). repeat constructor; lia.
Qed.
Lemma inside1 s x : inside ls s x <-> exists c, x = [c] /\ s <= c < N /\ (s | c).
Proof.
  unfold inside. split.
  - intros F. inversion F as [|? c ? x' (Hc & D) F']; subst. inversion F'; subst. exists c. split; [auto|]. split; [lia|auto].
  - intros (c & -> & Hc & D). repeat constructor; auto; lia.
Qed.
(* the colours separate neighbours *)
Lemma rem2 c : 0 <= c -> Z.rem (sumZ [c]) 2 = c mod 2. Proof. intros H. unfold sumZ. cbn [fold_right]. rewrite Z.add_0_r. apply Z.rem_mod_nonneg; lia. Qed.
Lemma mod2 c : c mod 2 = if Z.even c then 0 else 1. Proof. apply Zmod_even. Qed.
Lemma colour1 c : 0 <= c -> first_colour [c] = Z.even c. Proof. intros H. unfold first_colour. rewrite rem2, mod2 by auto. now destruct (Z.even c). Qed.
Lemma colour2 c : 0 <= c -> second_colour axs [c] = negb (Z.even c). Proof. intros H. unfold second_colour. cbn [length lay Nat.ltb Nat.leb]. rewrite rem2, mod2 by auto. now destruct (Z.even c). Qed.
Lemma nb1 c k : nb [c] 0 k = [c + k]. Proof. reflexivity. Qed.
Lemma even_step c k : k = 1 \/ k = -1 -> Z.even (c + k) = negb (Z.even c). Proof. intros [-> | ->]; rewrite Z.even_add; now destruct (Z.even c). Qed.
Lemma sep1 x i k : inside ls 1 x -> first_colour x = true -> 0 <= i < zlen ls -> k = 1 \/ k = -1 -> first_colour (nb x i k) = false.
Proof.
  intros Hx C Hi Hk. apply inside1 in Hx as (c & -> & Hc & _). assert (i = 0) as -> by (unfold zlen in Hi; cbn in Hi; lia). rewrite nb1, colour1, even_step by lia. rewrite colour1 in C by lia. now rewrite C.
Qed.
Lemma sep2 x i k : inside ls 1 x -> second_colour axs x = true -> 0 <= i < zlen ls -> k = 1 \/ k = -1 -> second_colour axs (nb x i k) = false.
Proof.
  intros Hx C Hi Hk. apply inside1 in Hx as (c & -> & Hc & _). assert (i = 0) as -> by (unfold zlen in Hi; cbn in Hi; lia). rewrite nb1, colour2, even_step by lia. rewrite colour2 in C by lia. now rewrite C.
Qed.
(* what relaxation writes *)
Lemma relv1 f c : exists p q, forall u, relv ls dx 1 u f [c] = (p * val f [c] + q * (val u [c - 1]%Z + val u [c + 1]%Z))%Qc.
Proof.
  exists (- w ls dx 1)%Qc, (w ls dx 1 * rr dx 1 0)%Qc. intros u'. rewrite (relv_eq ls Hne dx Hdx 1 ltac:(lia)). change (zrange 0 (zlen ls)) with [0]. cbn [map sumQ].
  rewrite !nb1. change (c + - (1)) with (c - 1). ring.
Qed.
(* equal but for the even nodes inside *)
Definition odd_equal (u u' : list Qc) : Prop := sized ls u /\ sized ls u' /\ forall y, node ls y -> ~ inside ls 2 y -> val u y = val u' y.
Lemma smooth_forget n u u' f : 1 <= n -> sized ls f -> odd_equal u u' -> smooth axs dx 1 n u f = smooth axs dx 1 n u' f.
Proof.
  intros Hn Sf (Su & Su' & E). unfold smooth. rewrite (weights_eq ls Hne dx Hdx 1) by lia. cbn [bind]. rewrite (zrange_cons 0 n) by lia. cbn [fold_opt]. f_equal.
  destruct (inner_ok ls 1 ltac:(lia)) as (xs & -> & _ & Hxs). cbn [bind]. unfold relax_sweep. fold (wt ls dx). f_equal.
  destruct (pass ls Hl Hne dx Hdx first_colour xs f u) as (r & -> & Sr & V); auto. { intros x i k Hx. apply sep1. now apply Hxs. }
  destruct (pass ls Hl Hne dx Hdx first_colour xs f u') as (r' & -> & Sr' & V'); auto. { intros x i k Hx. apply sep1. now apply Hxs. }
  f_equal. apply (value_ext ls Hl); auto. intros x Nx. destruct (V x Nx) as (V1 & V2). destruct (V' x Nx) as (V1' & V2').
  destruct (inside_dec ls 1 x) as [Ix|Ix].
  - pose proof Ix as Ix'. apply inside1 in Ix' as (c & -> & Hc & _). destruct (first_colour [c]) eqn:C.
    + rewrite V1, V1' by auto. rewrite colour1 in C by lia. destruct (relv1 f c) as (p & q & R). rewrite !R. f_equal. f_equal.
      assert (forall d, d = c - 1 \/ d = c + 1 -> val u [d] = val u' [d]) as K; [|rewrite !K by auto; reflexivity].
      intros d Hd. apply E; [apply node1; exists d; split; [auto|lia]|]. intros I2. apply inside1 in I2 as (d' & Ed & _ & (z & Ez)). injection Ed as <-. apply Z.even_spec in C as (e & Ee). lia.
    + rewrite V2, V2' by auto. apply E; auto. intros I2. apply inside1 in I2 as (d' & Ed & _ & (z & Ez)). injection Ed as <-. rewrite colour1, Ez, Z.even_mul in C by lia. cbn in C. rewrite orb_true_r in C. discriminate.
  - rewrite V2, V2' by auto. apply E; auto. intros I2. apply Ix. now apply (inside_double ls 1); [lia|].
Qed.
Lemma smooth_add n m u f : 0 <= n -> 0 <= m -> smooth axs dx 1 (n + m) u f = (do v <- smooth axs dx 1 n u f; smooth axs dx 1 m v f).
Proof.
  intros Hn Hm. unfold smooth. rewrite (weights_eq ls Hne dx Hdx 1) by lia. cbn [bind]. rewrite (zrange_app 0 n (n + m)) by lia. rewrite fold_opt_app. destruct (fold_opt _ (zrange 0 n) u) as [v|]; [|reflexivity]. cbn [bind].
  replace (zrange n (n + m)) with (map (fun x => x + n) (zrange 0 m)) by (rewrite <- zrange_shift; f_equal; lia). clear. revert v. induction (zrange 0 m) as [|a z IH]; intros v; [reflexivity|]. cbn [map fold_opt]. destruct (do xs <- inner axs 1; _) as [v'|]; cbn [bind]; auto.
Qed.
Context (J f : list Qc) (SJ : sized ls J) (Sf : sized ls f).
Lemma inside_two s x : inside ls (2 * s) x -> 0 < s -> inside ls 2 x.
Proof. intros H Hs. apply inside1 in H as (c & -> & Hc & (z & Ez)). apply inside1. exists c. split; [auto|]. split; [lia|]. exists (z * s). lia. Qed.
Lemma MG_unfold levels s u d : MG axs dx J (S levels) 1 2 2 s u d =
  (do _ <- guard (2 * s + 1 <=? int_max);
   if existsb (fun a => 2 * s + 1 =? a_x1 a) axs then smooth axs dx s 40 u d
   else do u <- smooth axs dx s 2 u d; do e <- defect axs dx s u d J; do e <- coarsen axs s e;
     do v <- fold_opt (fun v (_ : Z) => MG axs dx J levels 1 2 2 (2 * s) v e) (zrange 0 1) (zeros axs);
     do v <- refine axs (midpoint axs) s v; smooth axs dx s 2 (add u v) d).
Proof. reflexivity. Qed.
(* the last level *)
Lemma last_level j u : fits ls 1 (S j) -> odd_equal u (zeros axs) -> mg axs dx J 1 2 2 1 u f = smooth axs dx 1 4 (zeros axs) f.
Proof.
  intros Hf HE. pose proof (zeros_sized ls Hl) as Sz. unfold mg. rewrite (MG_unfold 31). destruct (fits_stop ls _ _ Hf) as (-> & G). rewrite (proj2 (Z.leb_le _ _) G). cbn [guard bind]. change 4 with (2 + 2). rewrite smooth_add by lia. rewrite (smooth_forget 2 u (zeros axs) f) by (auto; lia).
  destruct (smooth_frame ls Hl Hne dx Hdx 1 ltac:(lia) (divides_one ls) 2 (zeros axs) f Sz Sf) as (u1 & -> & S1 & _). cbn [bind].
  destruct (defect_ok ls Hl dx Hdx 1 ltac:(lia) (divides_one ls) u1 f J S1 Sf SJ) as (d & -> & Sd & _). cbn [bind]. change (coarsen axs 1 d) with (Some d). cbn [bind].
  destruct (fold_opt_ind (fun v => sized ls v /\ forall y, node ls y -> ~ inside ls 2 y -> val v y = 0%Qc) (fun v (_ : Z) => MG axs dx J 31 1 2 2 (2 * 1) v d) (zrange 0 1)) with (s := zeros axs) as (v & E & Sv & V).
  - intros v _ _ (Sv & V). destruct (MG_frame ls dx Hdx J 1 2 2 SJ j 31 (2 * 1) v d) as (r & E & Sr & F); auto; [|now apply fits_double|].
    + pose proof (small_levels ls _ Hf). lia.
    + exists r. split; [exact E|]. split; [auto|]. intros y Ny Iy. rewrite F; auto.
  - split; [auto|]. intros. now apply zeros_value; [apply Hl|].
  - rewrite E. cbn [bind]. change (refine axs (midpoint axs) 1 v) with (Some v). cbn [bind].
    change (smooth axs dx 1 2 (add u1 v) f = smooth axs dx 1 2 u1 f). apply smooth_forget; [lia|auto|]. split; [now apply add_sized|]. split; [auto|].
    intros y Ny Iy. rewrite (add_value ls Hl), V by auto. ring.
Qed.
Lemma finer_line : forall i j fuel u, (i < fuel)%nat -> fits ls 1 (i + S (S j)) -> sized ls u -> (forall y, node ls y -> ~ inside ls 2 y -> val u y = 0%Qc) ->
  finer axs dx J fuel 1 2 2 (2 ^ Z.of_nat i) u f = smooth axs dx 1 4 (zeros axs) f.
Proof.
  pose proof (zeros_sized ls Hl) as Sz. induction i as [|i IH]; intros j [|fuel] u Hfuel Hf Su V; try lia; cbn [finer].
  - change (2 ^ Z.of_nat 0) with 1. cbn [Z.ltb Z.compare]. change (refine axs (cubic axs) 1 u) with (Some u). cbn [bind]. rewrite (last_level _ u Hf); [|split; [auto|]; split; [auto|]; intros y Ny Iy; rewrite V by auto; symmetry; now apply (zeros_value ls Hl)].
    destruct (smooth axs dx 1 4 (zeros axs) f) as [r|]; [|reflexivity]. cbn [bind]. apply finer_stop.
  - pose proof (fits_pow ls _ _ Hf) as Hfi. pose proof Hfi as (Hs & _). rewrite (proj2 (Z.ltb_lt _ _) Hs). change (refine axs (cubic axs) (2 ^ Z.of_nat (S i)) u) with (Some u). cbn [bind]. unfold mg.
    pose proof (small_levels ls _ Hf) as H32.
    destruct (MG_frame ls dx Hdx J 1 2 2 SJ (S (S j)) 32 (2 ^ Z.of_nat (S i)) u f) as (r & -> & Sr & F); auto; [lia|]. cbn [bind]. rewrite half_pow. apply (IH (S j)); auto; [lia| |].
    + now replace (i + S (S (S j)))%nat with (S i + S (S j))%nat by lia.
    + intros y Ny Iy. rewrite F; auto. intros C. apply Iy. rewrite pow_S in C. apply (inside_two _ _ C). apply Z.pow_pos_nonneg; lia.
Qed.
Lemma update_line j : fits ls 1 (S (S j)) -> update axs dx J f = smooth axs dx 1 4 (zeros axs) f.
Proof.
  intros Hf. pose proof (zeros_sized ls Hl) as Sz. unfold update. rewrite (clear_zeros ls J Hl SJ). cbn [bind]. unfold FMG. rewrite (coarsest_fits ls _ Hf). cbn [bind].
  assert (fits ls (2 ^ Z.of_nat (S j)) 1) as Hfj by (apply fits_pow; now rewrite Nat.add_comm). pose proof (divides_half _ _ (fits_divides _ _ _ Hfj)) as Hd. pose proof Hfj as (Hs & _).
  destruct (smooth_frame ls Hl Hne dx Hdx (2 ^ Z.of_nat (S j)) Hs Hd 40 (zeros axs) f Sz Sf) as (u & -> & Su & F). cbn [bind]. rewrite half_pow. apply (finer_line j 0); auto.
  - pose proof (fuel_pow (S j)). lia.
  - now replace (j + 2)%nat with (S (S j)) by lia.
  - intros y Ny Iy. rewrite F; auto; [now apply (zeros_value ls Hl)|]. intros C. apply Iy. rewrite pow_S in C. apply (inside_two _ _ C). apply Z.pow_pos_nonneg; lia.
Qed.
(* the sweeps carry values two nodes further each *)
Definition quiet (k : Z) (u : list Qc) : Prop := sized ls u /\ forall c, k <= c <= N -> val u [c] = 0%Qc.
Context (Hf2 : forall c, 2 <= c < N -> val f [c] = 0%Qc).
Lemma pass_quiet (c : list Z -> bool) xs k u : (forall x, In x xs <-> inside ls 1 x) -> (forall x i k, In x xs -> c x = true -> 0 <= i < zlen ls -> k = 1 \/ k = -1 -> c (nb x i k) = false) -> 1 <= k -> quiet k u ->
  exists r, assign axs (filter c xs) (relaxed axs 1 f (wt ls dx)) u = Some r /\ quiet (k + 1) r.
Proof.
  intros Hxs Hc Hk (Su & Q). destruct (pass ls Hl Hne dx Hdx c xs f u Hxs Hc Su Sf) as (r & E & Sr & V). exists r. split; [auto|]. split; [auto|]. intros d Hd.
  destruct (V [d]) as (V1 & V2); [apply node1; exists d; split; [auto|lia]|].
  destruct (inside_dec ls 1 [d]) as [I|I]; [|rewrite V2 by auto; apply Q; lia]. destruct (c [d]) eqn:C; [|rewrite V2 by auto; apply Q; lia].
  rewrite V1 by auto. apply inside1 in I as (d' & Ed & Hd' & _). injection Ed as <-. destruct (relv1 f d) as (p & q & R). rewrite R, Hf2, !Q by lia. ring.
Qed.
Lemma smooth_quiet n : forall k u, (1 <= k) -> quiet k u -> exists r, smooth axs dx 1 (Z.of_nat n) u f = Some r /\ quiet (k + 2 * Z.of_nat n) r.
Proof.
  induction n as [|n IH]; intros k u Hk Q.
  - exists u. unfold smooth. rewrite (weights_eq ls Hne dx Hdx 1) by lia. split; [reflexivity|]. now rewrite Z.add_0_r.
  - rewrite Nat2Z.inj_succ, <- Z.add_1_l, smooth_add by lia. destruct (pass_quiet first_colour) with (k := k) (u := u) (xs := (match inner axs 1 with Some xs => xs | None => [] end)) as (r1 & E1 & Q1); auto.
    { destruct (inner_ok ls 1 ltac:(lia)) as (xs & -> & _ & Hxs). auto. } { destruct (inner_ok ls 1 ltac:(lia)) as (xs & -> & _ & Hxs). intros x i k' Hx. apply sep1. now apply Hxs. }
    destruct (pass_quiet (second_colour axs)) with (k := k + 1) (u := r1) (xs := (match inner axs 1 with Some xs => xs | None => [] end)) as (r2 & E2 & Q2); auto; [| |lia|].
    { destruct (inner_ok ls 1 ltac:(lia)) as (xs & -> & _ & Hxs). auto. } { destruct (inner_ok ls 1 ltac:(lia)) as (xs & -> & _ & Hxs). intros x i k' Hx. apply sep2. now apply Hxs. }
    assert (smooth axs dx 1 1 u f = Some r2) as ->.
    { unfold smooth. rewrite (weights_eq ls Hne dx Hdx 1) by lia. cbn [bind]. change (zrange 0 1) with [0]. cbn [fold_opt]. destruct (inner_ok ls 1 ltac:(lia)) as (xs & E & _ & Hxs). rewrite E in E1, E2 |- *. cbn [bind]. unfold relax_sweep. fold (wt ls dx). rewrite E1. cbn [bind]. now rewrite E2. }
    cbn [bind]. destruct (IH (k + 1 + 1) r2) as (r & E & Q3); [lia|auto|]. exists r. split; [auto|]. now replace (k + 2 * (1 + Z.of_nat n)) with (k + 1 + 1 + 2 * Z.of_nat n) by lia.
Qed.
Lemma update_quiet j : fits ls 1 (S (S j)) -> exists r, update axs dx J f = Some r /\ forall c, 9 <= c <= N -> val r [c] = 0%Qc.
Proof.
  intros Hf. rewrite (update_line j Hf). destruct (smooth_quiet 4 1 (zeros axs)) as (r & E & _ & Q); [lia| |exists r; split; [exact E|]; intros c Hc; apply Q; lia].
  split; [now apply zeros_sized; apply Hl|]. intros c Hc. apply (zeros_value ls Hl). apply node1. exists c. split; [auto|lia].
Qed.
(* the solution is nowhere zero inside *)
Lemma lap1 g c : laplacian_at ls dx 1 g [c] = ((g [c - 1]%Z - c2 * g [c] + g [c + 1]%Z) * / (h * h))%Qc.
Proof. unfold laplacian_at. change (zrange 0 (zlen ls)) with [0]. cbn [map sumQ]. rewrite !nb1. change (c + - (1)) with (c - 1). change (Z.to_nat 0) with 0%nat. cbn [nth]. change (Qc_of 1) with 1%Qc. unfold Qcdiv, c2. replace ((1 * h) * (1 * h))%Qc with (h * h)%Qc by ring. ring. Qed.
Lemma hh_nz : (h * h <> 0)%Qc. Proof. intros C. apply Qcmult_integral in C as [C|C]; auto. Qed.
Lemma lap1_zero g c : laplacian_at ls dx 1 g [c] = 0%Qc -> (g [c - 1]%Z = c2 * g [c] - g [c + 1]%Z)%Qc.
Proof.
  rewrite lap1. intros E. apply Qcmult_integral in E as [E|E].
  - transitivity (g [c - 1]%Z - (g [c - 1]%Z - c2 * g [c] + g [c + 1]%Z))%Qc; [rewrite E|]; ring.
  - exfalso. apply hh_nz. rewrite <- (Qcmult_1_r (h * h)), <- (Qcmult_inv_r (h * h) hh_nz), E. ring.
Qed.
Lemma descend g : (forall c, 2 <= c < N -> laplacian_at ls dx 1 g [c] = 0%Qc) -> g [N] = 0%Qc -> forall k, (Z.of_nat k < N) -> g [N - Z.of_nat k] = (Qc_of (Z.of_nat k) * g [N - 1]%Z)%Qc.
Proof.
  intros E EN. assert (forall k, (Z.of_nat k + 1 < N -> g [N - Z.of_nat k] = (Qc_of (Z.of_nat k) * g [N - 1]%Z)%Qc /\ g [N - Z.of_nat k - 1] = (Qc_of (Z.of_nat k + 1) * g [N - 1]%Z)%Qc)) as A.
  { induction k as [|k IH]; intros Hk.
    - change (Z.of_nat 0) with 0. rewrite Z.sub_0_r, EN. change (Qc_of (0 + 1)) with 1%Qc. change (Qc_of 0) with 0%Qc. split; ring.
    - destruct IH as (A & B); [lia|]. rewrite Nat2Z.inj_succ, <- Z.add_1_r. replace (N - (Z.of_nat k + 1)) with (N - Z.of_nat k - 1) by ring. split; [auto|].
      rewrite lap1_zero by (apply E; lia). replace (N - Z.of_nat k - 1 + 1) with (N - Z.of_nat k) by ring. rewrite A, B, !Qc_of_add. change (Qc_of 1) with 1%Qc. replace c2 with (1 + 1)%Qc by (apply Qc_is_canon; reflexivity). ring. }
  intros k Hk. destruct k as [|k]; [change (Z.of_nat 0) with 0; rewrite Z.sub_0_r, EN; change (Qc_of 0) with 0%Qc; ring|].
  destruct (A k) as (_ & B); [lia|]. rewrite Nat2Z.inj_succ, <- Z.add_1_r. now replace (N - (Z.of_nat k + 1)) with (N - Z.of_nat k - 1) by ring.
Qed.
Lemma solution_nonzero g c : val f [1] <> 0%Qc -> solution ls dx 1 (val f) g -> g [0] = 0%Qc -> g [N] = 0%Qc -> 1 <= c < N -> g [c] <> 0%Qc.
Proof.
  intros F1 Sg G0 GN Hc E. assert (forall c, 2 <= c < N -> laplacian_at ls dx 1 g [c] = 0%Qc) as L. { intros d Hd. rewrite Sg by (apply inside1; exists d; split; [auto|]; split; [lia|apply Z.divide_1_l]). apply Hf2. lia. }
  pose proof (descend g L GN) as D. assert (g [N - 1] = 0%Qc) as Z1.
  { specialize (D (Z.to_nat (N - c)) ltac:(lia)). rewrite Z2Nat.id in D by lia. replace (N - (N - c)) with c in D by ring. rewrite E in D. symmetry in D. apply Qcmult_integral in D as [D|D]; [|auto].
    exfalso. pose proof (Qc_of_pos (N - c) ltac:(lia)) as P. rewrite D in P. discriminate. }
  apply F1. rewrite <- Sg by (apply inside1; exists 1; split; [auto|]; split; [lia|apply Z.divide_1_l]). rewrite lap1. change (1 - 1) with 0. rewrite G0.
  assert (forall d, 1 <= d <= N -> g [d] = 0%Qc) as AllZ.
  { intros d Hd. destruct (Z.eq_dec d N) as [->|Ne]; [auto|]. specialize (D (Z.to_nat (N - d)) ltac:(lia)). rewrite Z2Nat.id in D by lia. replace (N - (N - d)) with d in D by ring. rewrite D, Z1. ring. }
  rewrite !AllZ by lia. ring.
Qed.
(* and there is one *)
Definition tent (c : Z) : Qc := if c =? 0 then 0%Qc else (- (val f [1%Z] * (h * h)) * Qc_of (N - c) * / Qc_of N)%Qc.
Lemma tent_solution : 2 <= N -> let g x := match x with [c] => tent c | _ => 0%Qc end in solution ls dx 1 (val f) g /\ g [0] = 0%Qc /\ g [N] = 0%Qc.
Proof.
  intros H2 g. assert (Qc_of N <> 0)%Qc as NZ by (intros C; pose proof (Qc_of_pos N ltac:(lia)) as P; rewrite C in P; discriminate).
  split; [|split; [reflexivity|]].
  - intros x Hx. apply inside1 in Hx as (c & -> & Hc & _). rewrite lap1. cbn [g]. unfold tent. rewrite (proj2 (Z.eqb_neq c 0)), (proj2 (Z.eqb_neq (c + 1) 0)) by lia.
    replace c2 with (1 + 1)%Qc by (apply Qc_is_canon; reflexivity). pose proof hh_nz as HZ. destruct (Z.eqb_spec (c - 1) 0) as [E|Ne].
    + assert (c = 1) as -> by lia. change (1 + 1) with 2. replace (N - 1) with (N - 2 + 1) by ring. replace N with (N - 2 + 2) at 2 4 by ring. rewrite !Qc_of_add. change (Qc_of 2) with (1 + 1)%Qc || replace (Qc_of 2) with (1 + 1)%Qc by (apply Qc_is_canon; reflexivity).
      change (Qc_of 1) with 1%Qc. assert (Qc_of (N - 2) + (1 + 1) <> 0)%Qc as NZ'. { intros C. apply NZ. rewrite <- C. replace N with (N - 2 + 2) at 1 by ring. rewrite Qc_of_add. reflexivity. } field. auto.
    + rewrite (Hf2 c) by lia. replace (N - (c - 1)) with (N - c - 1 + 1 + 1) by ring. replace (N - c) with (N - c - 1 + 1) at 2 by ring. replace (N - (c + 1)) with (N - c - 1) by ring. rewrite !Qc_of_add. change (Qc_of 1) with 1%Qc. ring.
  - cbn [g]. unfold tent. rewrite (proj2 (Z.eqb_neq N 0)) by lia. rewrite Z.sub_diag. change (Qc_of 0) with 0%Qc. ring.
Qed.
End Line.
