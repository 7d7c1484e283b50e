From Coq Require Import String QArith Qcanon.
From Verif Require Import Model.Base Model.Text Model.Num Model.Boundary Model.Layout Model.Setup Model.Sparse Model.Evolve Model.Convert
  Spec.Bytes Spec.Access Spec.Evolve Spec.Convert Proof.BaseL Proof.TextL Proof.SparseL Proof.FileL Proof.EvolveL.
Local Open Scope list_scope.
Local Open Scope Z_scope.

(* ---- lists ---- *)
Lemma get_ext {A} (a b : list A) : zlen a = zlen b -> (forall i, 0 <= i < zlen a -> get a i = get b i) -> a = b.
Proof.
  intros L H. revert b L H. induction a as [|x a IH]; intros [|y b] L H; try reflexivity; [unfold zlen in L; cbn in L; lia..|].
  rewrite !zlen_cons in L. pose proof (zlen_nonneg a). pose proof (H 0 ltac:(rewrite zlen_cons; lia)) as E. change (Some x = Some y) in E. injection E as ->. f_equal.
  apply IH; [lia|]. intros i Hi. specialize (H (i + 1) ltac:(rewrite zlen_cons; lia)). unfold get in *. destruct (Z.ltb_spec (i + 1) 0); [lia|]. destruct (Z.ltb_spec i 0); [lia|].
  replace (Z.to_nat (i + 1)) with (S (Z.to_nat i)) in H by lia. exact H.
Qed.
Lemma get_map_zrange {A} (f : Z -> A) n i : 0 <= i < n -> get (map f (zrange 0 n)) i = Some (f i).
Proof.
  intros H. unfold get. destruct (Z.ltb_spec i 0); [lia|]. rewrite nth_error_map, nth_error_zrange by lia. cbn [option_map]. do 2 f_equal. lia.
Qed.
Lemma get_repeat {A} (x : A) n i : 0 <= i < Z.of_nat n -> get (repeat x n) i = Some x.
Proof. intros H. unfold get. destruct (Z.ltb_spec i 0); [lia|]. rewrite (nth_error_nth' _ x) by (rewrite repeat_length; lia). f_equal. apply nth_repeat. Qed.
Lemma zlen_repeat {A} (x : A) n : zlen (repeat x n) = Z.of_nat n.
Proof. unfold zlen. now rewrite repeat_length. Qed.

(* ---- loops over the nodes ---- *)
Lemma each_ok {T U} (f : T -> U -> option U) fr (src : list T) : forall r, map_opt (fun v => f v fr) src = Some r ->
  each src (zlen src) f (repeat fr (length src)) = Some r.
Proof.
  intros r H. unfold each.
  assert (forall s2 s1 d r, length d = length s1 -> map_opt (fun v => f v fr) s2 = Some r -> src = s1 ++ s2 ->
    fold_opt (fun dst i => do v <- get src i; do u <- get dst i; do u <- f v u; put dst i u) (zrange (zlen s1) (zlen s1 + zlen s2)) (d ++ repeat fr (length s2)) = Some (d ++ r)) as X.
  { clear r H. induction s2 as [|v s2 IH]; intros s1 d r L H E.
    - cbn in H. injection H as <-. rewrite zrange_nil by (unfold zlen; cbn [length]; lia). reflexivity.
    - cbn [map_opt] in H. destruct (f v fr) as [u|] eqn:Ef; cbn [bind] in H; [|discriminate]. destruct (map_opt (fun v => f v fr) s2) as [r'|] eqn:Er; cbn [bind] in H; [|discriminate]. injection H as <-.
      rewrite zlen_cons. pose proof (zlen_nonneg s2). pose proof (zlen_nonneg s1). rewrite zrange_cons by lia. cbn [fold_opt length repeat].
      assert (get src (zlen s1) = Some v) as G1 by (subst src; unfold get; destruct (Z.ltb_spec (zlen s1) 0); [lia|]; rewrite CodecL.to_nat_zlen, nth_error_app2, Nat.sub_diag by lia; reflexivity).
      assert (zlen s1 = zlen d) as Ls by (unfold zlen; lia).
      assert (get (d ++ fr :: repeat fr (length s2)) (zlen s1) = Some fr) as G2 by (rewrite Ls; unfold get; destruct (Z.ltb_spec (zlen d) 0); [pose proof (zlen_nonneg d); lia|]; rewrite CodecL.to_nat_zlen, nth_error_app2, Nat.sub_diag by lia; reflexivity).
      rewrite G1. cbn [bind]. rewrite G2. cbn [bind]. rewrite Ef. cbn [bind].
      assert (put (d ++ fr :: repeat fr (length s2)) (zlen s1) u = Some ((d ++ [u]) ++ repeat fr (length s2))) as ->.
      { rewrite Ls, <- app_assoc. cbn [app]. unfold zlen. rewrite SparseL.put_nth by (rewrite app_length; cbn; lia). f_equal. clear. induction d; cbn; [reflexivity|now f_equal]. }
      cbn [bind]. replace (zlen s1 + 1) with (zlen (s1 ++ [v])) by (rewrite zlen_app; reflexivity). replace (zlen s1 + (1 + zlen s2)) with (zlen (s1 ++ [v]) + zlen s2) by (rewrite zlen_app; unfold zlen; cbn [length]; lia).
      rewrite (IH (s1 ++ [v]) (d ++ [u]) r'); [now rewrite <- app_assoc| |auto|subst src; now rewrite <- app_assoc]. rewrite !app_length. cbn. lia. }
  specialize (X src [] [] r eq_refl H eq_refl). cbn [app] in X. change (zlen (@nil T)) with 0 in X. rewrite Z.add_0_l in X. exact X.
Qed.

(* ---- layouts ---- *)
Lemma nodes_cells axs : wf_axes 0 axs -> nodes axs = cells axs.
Proof. induction axs as [|a axs IH]; [reflexivity|]. intros (S0 & S1 & H & SX & XX & W). cbn [nodes cells]. rewrite S0, S1, SX, XX, IH by auto. f_equal. lia. Qed.
Lemma cells_box a b : wf_axes 0 a -> wf_axes 0 b -> map a_x0 a = map a_x0 b -> map a_x1 a = map a_x1 b -> cells a = cells b.
Proof.
  revert b. induction a as [|x a IH]; intros [|y b] W1 W2 E1 E2; try discriminate; [reflexivity|]. destruct W1 as (S0 & S1 & _ & SX & _ & W1), W2 as (T0 & T1 & _ & TX & _ & W2).
  cbn in E1, E2. injection E1 as E0 E1. injection E2 as E3 E2. cbn [cells]. rewrite S0, S1, SX, T0, T1, TX, E0, E3, (IH b) by auto. reflexivity.
Qed.
Lemma wf_le axs : wf_axes 0 axs -> Forall (fun l => fst l <= snd l) (map (fun a => (a_x0 a, a_x1 a)) axs).
Proof. induction axs as [|a axs IH]; [constructor|]. intros (_ & _ & H & _ & _ & W). cbn [map]. constructor; auto. Qed.
Lemma box_of_eq axs : box_of axs = map (fun l => mkG (fst l) (snd l)) (map (fun a => (a_x0 a, a_x1 a)) axs).
Proof. unfold box_of. rewrite map_map. reflexivity. Qed.
Lemma single_whole gs : Forall (fun a => a_x0 a = a_g0 a /\ a_x1 a = a_g1 a) (ge_axes (setup_single gs 0)).
Proof. cbn. induction gs as [|g gs IH]; cbn; constructor; auto. Qed.

(* a grid made for the limits of another one, with new cells *)
Lemma new_like {T U} (g1 : sgrid T) (fr : U) fields (d : list U) : serial_grid g1 -> zlen d = zlen (sg_data g1) ->
  let g2 := mkS fields (sg_axes (new_grid fr fields (box_of (sg_axes g1)))) (sg_dx (new_grid fr fields (box_of (sg_axes g1)))) d in
  serial_grid g2 /\ box g2 = box g1 /\ cells (sg_axes g2) = cells (sg_axes g1) /\ length (sg_axes g2) = length (sg_axes g1).
Proof.
  intros (Ne & W & Wh & L) Ld. cbv zeta. unfold serial_grid, box. cbn [sg_axes sg_data new_grid]. rewrite box_of_eq.
  destruct (wf_single (map (fun a => (a_x0 a, a_x1 a)) (sg_axes g1)) (wf_le _ W)) as (W2 & E0 & E1 & _). set (axs := ge_axes _) in *. rewrite !map_map in E0, E1. cbn [fst snd] in E0, E1.
  assert (length axs = length (sg_axes g1)) as Ll by (unfold axs; rewrite len_single; apply map_length).
  assert (cells axs = cells (sg_axes g1)) as C by (apply cells_box; auto). rewrite C, Ld, L. split; [|split; [|auto]].
  - split; [intros E; rewrite E in Ll; destruct (sg_axes g1); [easy|cbn in Ll; lia]|]. split; [auto|]. split; [apply single_whole|reflexivity].
  - clear - E0 E1 Ll. revert E0 E1 Ll. generalize (sg_axes g1) as l. induction axs as [|a axs IH]; intros [|b l]; cbn; intros E0 E1 Ll; try discriminate; [reflexivity|].
    injection E0 as E0 E0'. injection E1 as E1 E1'. rewrite E0, E1. f_equal. apply IH; auto.
Qed.
Lemma fill_ok {T U} (g1 : sgrid T) (fr : U) fields f r : serial_grid g1 -> map_opt (fun v => f v fr) (sg_data g1) = Some r ->
  fill_from g1 (new_grid fr fields (box_of (sg_axes g1))) f =
    Some (mkS fields (sg_axes (new_grid fr fields (box_of (sg_axes g1)))) (sg_dx (new_grid fr fields (box_of (sg_axes g1)))) r).
Proof.
  intros Sg H. unfold fill_from. assert (zlen r = zlen (sg_data g1)) as Lr by (unfold zlen; now rewrite (map_opt_length _ _ _ H)).
  destruct (new_like g1 fr fields r Sg Lr) as (_ & _ & C & _). destruct Sg as (Ne & W & Wh & L). rewrite nodes_cells, <- L by auto. cbn [sg_data new_grid sg_fields] in *.
  cbn [sg_axes new_grid] in C. rewrite C, <- L, CodecL.to_nat_zlen, (each_ok f fr (sg_data g1) r H). reflexivity.
Qed.

(* ---- rows ---- *)
Lemma fold_put {A} (f : Z -> A) (row : list A) n : zlen row = n -> fold_opt (fun row j => put row j (f j)) (zrange 0 n) row = Some (map f (zrange 0 n)).
Proof.
  intros L. pose proof (zlen_nonneg row). assert (forall k, (Z.of_nat k <= n) -> exists r, fold_opt (fun row j => put row j (f j)) (zrange 0 (Z.of_nat k)) row = Some r /\ zlen r = n /\
    forall i, 0 <= i < n -> get r i = if i <? Z.of_nat k then Some (f i) else get row i) as X.
  { induction k as [|k IH]; intros Hk.
    - exists row. split; [reflexivity|]. split; [auto|]. intros i Hi. destruct (Z.ltb_spec i (Z.of_nat 0)); [lia|reflexivity].
    - destruct IH as (r & E & Lr & G); [lia|]. replace (Z.of_nat (S k)) with (Z.of_nat k + 1) by lia. rewrite zrange_snoc, fold_opt_app, E by lia. cbn [bind fold_opt].
      assert (exists r', put r (Z.of_nat k) (f (Z.of_nat k)) = Some r') as (r' & P) by (eexists; apply put_ok; lia). rewrite P. cbn [bind]. exists r'. split; [reflexivity|]. split; [now rewrite (put_len _ _ _ _ P)|].
      intros i Hi. destruct (Z.eq_dec i (Z.of_nat k)) as [->|Ni].
      + rewrite (get_put_eq _ _ _ _ P). destruct (Z.ltb_spec (Z.of_nat k) (Z.of_nat k + 1)); [reflexivity|lia].
      + rewrite (get_put_ne _ _ _ _ _ P) by auto. rewrite G by auto. destruct (Z.ltb_spec i (Z.of_nat k)), (Z.ltb_spec i (Z.of_nat k + 1)); try reflexivity; lia. }
  destruct (X (Z.to_nat n)) as (r & E & Lr & G); [lia|]. rewrite Z2Nat.id in E, G by lia. rewrite E. f_equal. apply get_ext.
  - rewrite BaseL.zlen_map, zlen_zrange; lia.
  - intros i Hi. rewrite Lr in Hi. rewrite G, get_map_zrange by lia. destruct (Z.ltb_spec i n); [reflexivity|lia].
Qed.
Lemma put_map {A} (f : Z -> A) n k v : 0 <= k < n -> put (map f (zrange 0 n)) k v = Some (map (fun j => if j =? k then v else f j) (zrange 0 n)).
Proof.
  intros H. assert (zlen (map f (zrange 0 n)) = n) as L by (rewrite BaseL.zlen_map, zlen_zrange; lia). assert (exists r, put (map f (zrange 0 n)) k v = Some r) as (r & P) by (eexists; apply put_ok; lia). rewrite P. f_equal.
  apply get_ext; rewrite (put_len _ _ _ _ P), L; [rewrite BaseL.zlen_map, zlen_zrange; lia|]. intros i Hi. rewrite get_map_zrange by auto. destruct (Z.eqb_spec i k) as [->|N].
  - now rewrite (get_put_eq _ _ _ _ P).
  - rewrite (get_put_ne _ _ _ _ _ P) by auto. now rewrite get_map_zrange.
Qed.

(* ---- MC -> PF -> MC ---- *)
Lemma max_over {A} (h : A -> Z) (l : list A) s : exists m, fold_opt (fun fields v => Some (if h v >? fields then h v else fields)) l s = Some m /\ s <= m /\ (forall v, In v l -> h v <= m).
Proof.
  revert s. induction l as [|v l IH]; intros s; [exists s; cbn; split; [reflexivity|]; split; [lia|tauto]|]. cbn [fold_opt bind].
  destruct (IH (if h v >? s then h v else s)) as (m & E & H1 & H2). exists m. split; [exact E|]. rewrite Z.gtb_ltb in *. destruct (Z.ltb_spec s (h v)); (split; [lia|]); intros w [->|Hw]; auto; lia.
Qed.
Lemma max_id_ok g : serial_grid g -> exists m, max_id g = Some m /\ 0 <= m /\ forall v, In v (sg_data g) -> v <= m.
Proof.
  intros (Ne & W & Wh & L). unfold max_id. rewrite nodes_cells, <- L by auto.
  rewrite (fold_items (fun fields v => Some (if v >? fields then v else fields))) by (intros s i a Ha; now rewrite SparseL.get_nth, Ha). apply (max_over (fun v => v)).
Qed.
Lemma MC2PF_ok junk g : serial_grid g -> Forall (fun v => 0 <= v) (sg_data g) ->
  exists pf m, MC2PF junk g = Some pf /\ serial_grid pf /\ box pf = box g /\ length (sg_axes pf) = length (sg_axes g) /\ sg_fields pf = m + 1 /\
    0 <= m /\ (forall v, In v (sg_data g) -> v <= m) /\ sg_data pf = map (indicator (m + 1)) (sg_data g).
Proof.
  intros Sg P. unfold MC2PF. destruct (max_id_ok g Sg) as (m & -> & M0 & M). cbn [bind].
  assert (map_opt (fun v => do row <- fold_opt (fun row j => put row j 0%Qc) (zrange 0 (m + 1)) (repeat junk (Z.to_nat (m + 1))); put row v 1%Qc) (sg_data g) = Some (map (indicator (m + 1)) (sg_data g))) as E.
  { apply map_opt_map. rewrite Forall_forall in P. intros v Hv. specialize (P v Hv). specialize (M v Hv).
    rewrite (fold_put (fun _ => 0%Qc)) by (rewrite zlen_repeat; lia). cbn [bind]. rewrite put_map by lia. reflexivity. }
  rewrite (fill_ok g _ _ _ _ Sg E). eexists. exists m. split; [reflexivity|].
  destruct (new_like g (repeat junk (Z.to_nat (m + 1))) (m + 1) (map (indicator (m + 1)) (sg_data g)) Sg ltac:(apply BaseL.zlen_map)) as (S2 & B2 & C2 & L2).
  split; [exact S2|]. split; [exact B2|]. split; [exact L2|]. split; [reflexivity|]. auto.
Qed.
Lemma one_gt_zero : qgt 1%Qc 0%Qc = true.
Proof. reflexivity. Qed.
Lemma qgt_self a : qgt a a = false.
Proof. apply qgt_false. apply Qcle_refl. Qed.
Lemma argmax_indicator fields id : 0 <= id < fields ->
  (do m <- get (indicator fields id) 0;
   do r <- fold_opt (fun (st : Z * Qc) j => do value <- get (indicator fields id) j; Some (if qgt value (snd st) then (j, value) else st)) (zrange 0 fields) (0, m);
   Some (fst r)) = Some id.
Proof.
  intros H. unfold indicator at 1. rewrite get_map_zrange by lia. cbn [bind].
  assert (forall k, Z.of_nat k <= fields -> fold_opt (fun (st : Z * Qc) j => do value <- get (indicator fields id) j; Some (if qgt value (snd st) then (j, value) else st)) (zrange 0 (Z.of_nat k)) (0, if 0 =? id then 1%Qc else 0%Qc) =
    Some (if (id =? 0) || (id <? Z.of_nat k) then (id, 1%Qc) else (0, 0%Qc))) as X.
  { induction k as [|k IH]; intros Hk.
    - rewrite zrange_nil by lia. cbn [fold_opt]. destruct (Z.ltb_spec id (Z.of_nat 0)); [lia|]. rewrite orb_false_r, (Z.eqb_sym 0 id). destruct (Z.eqb_spec id 0); [now subst|reflexivity].
    - replace (Z.of_nat (S k)) with (Z.of_nat k + 1) by lia. rewrite zrange_snoc, fold_opt_app, IH by lia. cbn [bind fold_opt]. unfold indicator. rewrite get_map_zrange by lia. cbn [bind].
      destruct (Z.eqb_spec id 0) as [->|N0]; cbn [orb snd].
      + destruct (Z.eqb_spec (Z.of_nat k) 0) as [E0|N]; [now rewrite qgt_self|reflexivity].
      + destruct (Z.ltb_spec id (Z.of_nat k)), (Z.ltb_spec id (Z.of_nat k + 1)); try lia; cbn [snd].
        * destruct (Z.eqb_spec (Z.of_nat k) id); [lia|]. reflexivity.
        * replace (Z.of_nat k) with id by lia. rewrite Z.eqb_refl. reflexivity.
        * destruct (Z.eqb_spec (Z.of_nat k) id); [lia|]. now rewrite qgt_self. }
  specialize (X (Z.to_nat fields) ltac:(lia)). rewrite Z2Nat.id in X by lia. rewrite X. cbn [bind]. destruct (Z.ltb_spec id fields); [|lia]. rewrite orb_true_r. reflexivity.
Qed.
Lemma PF2MC_ok junk pf fields ids : serial_grid pf -> sg_fields pf = fields -> sg_data pf = map (indicator fields) ids -> Forall (fun v => 0 <= v < fields) ids ->
  exists g, PF2MC junk pf = Some g /\ serial_grid g /\ box g = box pf /\ sg_data g = ids /\ sg_fields g = 1.
Proof.
  intros Sg Hf Hd Hi. unfold PF2MC. rewrite Hf.
  assert (map_opt (fun row => do m <- get row 0;
       do r <- fold_opt (fun (st : Z * Qc) j => do value <- get row j; Some (if qgt value (snd st) then (j, value) else st)) (zrange 0 fields) (0, m); Some (fst r)) (sg_data pf) = Some ids) as E.
  { rewrite Hd. clear Hd. induction Hi as [|v ids Hv _ IH]; [reflexivity|]. cbn [map map_opt]. rewrite argmax_indicator by auto. cbn [bind]. rewrite IH. reflexivity. }
  rewrite (fill_ok pf junk 1 _ _ Sg E). eexists. split; [reflexivity|]. assert (zlen ids = zlen (sg_data pf)) as Li by (rewrite Hd; symmetry; apply BaseL.zlen_map).
  destruct (new_like pf junk 1 ids Sg Li) as (S2 & B2 & _). auto.
Qed.
