(* sparse objects and voxel text *)
From Coq Require Import String QArith Qcanon.
From Verif Require Import Model.Base Model.Text Model.Num Model.Boundary Model.Layout Model.Setup Model.Sparse Model.Evolve Model.Convert
  Spec.Bytes Spec.Access Spec.Evolve Spec.Convert Proof.BaseL Proof.TextL Proof.SparseL Proof.FileL Proof.EvolveL Proof.EndianF Proof.ConvertL.
Local Open Scope string_scope.
Local Open Scope list_scope.
Local Open Scope Z_scope.

Ltac refill H := let F := fresh in pose proof H as F; match type of F with ?a = _ => match goal with |- context [fill_from ?x ?y ?z] => change (fill_from x y z) with a end end; rewrite F; clear F.
(* ---- MC -> sPF -> MC ---- *)
Lemma MC2sPF_ok g : serial_grid g -> exists s, MC2sPF g = Some s /\ serial_grid s /\ box s = box g /\ length (sg_axes s) = length (sg_axes g) /\
  sg_data s = map (fun v => [Some (v, 1%Qc)]) (sg_data g).
Proof.
  intros Sg. unfold MC2sPF.
  assert (map_opt (fun v => sset_op num_Qc [] v (fun _ => 1%Qc)) (sg_data g) = Some (map (fun v => [Some (v, 1%Qc)]) (sg_data g))) as E by (apply map_opt_map; intros v _; reflexivity).
  rewrite (fill_ok g _ 0 _ _ Sg E). eexists. split; [reflexivity|].
  destruct (new_like g (@nil (option (Z * Qc))) 0 (map (fun v => [Some (v, 1%Qc)]) (sg_data g)) Sg ltac:(apply BaseL.zlen_map)) as (S2 & B2 & C2 & L2). auto.
Qed.
Lemma sPF2MC_ok junk (s : sgrid (sobj Qc)) ids : serial_grid s -> sg_data s = map (fun v => [Some (v, 1%Qc)]) ids ->
  exists g, sPF2MC junk s = Some g /\ serial_grid g /\ box g = box s /\ sg_data g = ids /\ sg_fields g = 1.
Proof.
  intros Sg Hd. unfold sPF2MC.
  match goal with |- context [fill_from _ _ ?f] => assert (map_opt (fun v => f v junk) (sg_data s) = Some ids) as E end.
  { rewrite Hd. clear. induction ids as [|v ids IH]; [reflexivity|]. cbn [map map_opt]. rewrite IH. reflexivity. }
  refill (fill_ok s junk 1 _ _ Sg E). eexists. split; [reflexivity|]. assert (zlen ids = zlen (sg_data s)) as Li by (rewrite Hd; symmetry; apply BaseL.zlen_map).
  destruct (new_like s junk 1 ids Sg Li) as (S2 & B2 & _). auto.
Qed.

(* ---- sPF -> PF -> sPF ---- *)
Lemma at_index_nil k : at_index [] k = 0%Qc.
Proof. reflexivity. Qed.
Lemma at_index_snoc l k v j : ~ In k (map fst l) -> at_index (l ++ [(k, v)]) j = if j =? k then v else at_index l j.
Proof.
  intros N. unfold at_index. induction l as [|[a b] l IH]; cbn [app find fst snd].
  - rewrite (Z.eqb_sym k j). destruct (j =? k); reflexivity.
  - cbn in N. destruct (Z.eqb_spec a j) as [->|Na]; [|apply IH; tauto]. destruct (Z.eqb_spec j k); [subst; tauto|reflexivity].
Qed.
Lemma at_index_out l k : ~ In k (map fst l) -> at_index l k = 0%Qc.
Proof. intros N. rewrite at_index_aval. unfold aval. now rewrite (proj2 (lookup_none l k) N). Qed.
Definition row_of (fields : Z) (l : list (Z * Qc)) : list Qc := map (at_index l) (zrange 0 fields).
Lemma row_ok l fields row : NoDup (map fst l) -> Forall (fun k => 0 <= k < fields) (map fst l) -> zlen row = fields ->
  (do row <- fold_opt (fun row j => put row j 0%Qc) (zrange 0 fields) row;
   fold_opt (fun row j => do k <- sindex (map Some l) j; do v <- svalue (map Some l) j; put row k v) (zrange 0 (zlen (map Some l))) row) = Some (row_of fields l).
Proof.
  intros ND K L. rewrite (fold_put (fun _ => 0%Qc)) by auto. cbn [bind]. rewrite BaseL.zlen_map.
  rewrite (fold_items (fun row it => put row (fst it) (snd it))).
  2:{ intros s i a Ha. unfold sindex, svalue. rewrite (sitem_map _ _ _ Ha). reflexivity. }
  change (map (fun _ => 0%Qc) (zrange 0 fields)) with (row_of fields []).
  assert (forall r d, l = d ++ r -> fold_opt (fun row it => put row (fst it) (snd it)) r (row_of fields d) = Some (row_of fields l)) as X.
  { induction r as [|[k v] r IH]; intros d E; [rewrite app_nil_r in E; now subst d|]. cbn [fold_opt fst snd]. unfold row_of at 1. rewrite put_map.
    2:{ rewrite Forall_forall in K. apply K. rewrite E, map_app. apply in_or_app. right. left. reflexivity. }
    cbn [bind]. rewrite <- (IH (d ++ [(k, v)])) by (now rewrite <- app_assoc). f_equal. apply map_ext. intros j. symmetry. apply at_index_snoc.
    rewrite E, map_app in ND. apply NoDup_remove_2 in ND. intros I. apply ND. apply in_or_app. auto. }
  apply (X l []). reflexivity.
Qed.
Lemma max_index_ok (g : sgrid (sobj Qc)) (ls : list (list (Z * Qc))) : serial_grid g -> sg_data g = map (map Some) ls -> exists m, max_index g = Some m /\ 0 <= m /\ forall l k, In l ls -> In k (map fst l) -> k <= m.
Proof.
  intros (Ne & W & Wh & L) Hd. unfold max_index. assert (nodes (sg_axes g) = zlen ls) as -> by (rewrite nodes_cells by auto; etransitivity; [symmetry; exact L|]; rewrite Hd; apply BaseL.zlen_map).
  rewrite Hd.
  rewrite (fold_items (fun fields l => fold_opt (fun fields it => Some (if fst it >? fields then fst it else fields)) l fields)).
  2:{ intros s i a Ha. rewrite SparseL.get_nth, nth_error_map, Ha. cbn [option_map bind]. rewrite BaseL.zlen_map. apply fold_items.
      intros s0 j b Hb. unfold sindex. rewrite (sitem_map _ _ _ Hb). reflexivity. }
  clear Hd. assert (forall s, 0 <= s -> exists m, fold_opt (fun fields l => fold_opt (fun fields it => Some (if fst it >? fields then fst it else fields)) l fields) ls s = Some m /\
     s <= m /\ forall (l : list (Z * Qc)) k, In l ls -> In k (map fst l) -> k <= m) as X.
  { induction ls as [|l ls IH]; intros s Hs; [exists s; cbn; split; [reflexivity|]; split; [lia|tauto]|]. cbn [fold_opt].
    destruct (max_over (@fst Z Qc) l s) as (m & E & M1 & M2). rewrite E. cbn [bind]. destruct (IH m ltac:(lia)) as (m' & E' & M1' & M2'). exists m'. split; [exact E'|]. split; [lia|].
    intros l' k [->|Hl] Hk; [|now apply (M2' l' k)]. apply in_map_iff in Hk as (it & <- & Hit). specialize (M2 it Hit). lia. }
  apply (X 0). lia.
Qed.
Lemma sPF2PF_ok junk (g : sgrid (sobj Qc)) (ls : list (list (Z * Qc))) : serial_grid g -> length (sg_axes g) <> 3%nat -> sg_data g = map (map Some) ls -> Forall (fun l => NoDup (map fst l) /\ Forall (fun k => 0 <= k) (map fst l)) ls ->
  exists pf m, sPF2PF junk g = Some pf /\ serial_grid pf /\ box pf = box g /\ length (sg_axes pf) = length (sg_axes g) /\ sg_fields pf = m + 1 /\ 0 <= m /\
    (forall l k, In l ls -> In k (map fst l) -> k <= m) /\ sg_data pf = map (row_of (m + 1)) ls.
Proof.
  intros Sg N3 Hd Hl. unfold sPF2PF. destruct (max_index_ok g ls Sg Hd) as (m & -> & M0 & M). cbn [bind]. cbv zeta.
  replace (length (box_of (sg_axes g)) =? 3)%nat with false by (symmetry; apply Nat.eqb_neq; unfold box_of; now rewrite map_length).
  match goal with |- context [fill_from _ _ ?f] => assert (map_opt (fun v => f v (repeat junk (Z.to_nat (m + 1)))) (sg_data g) = Some (map (row_of (m + 1)) ls)) as E end.
  { rewrite Hd. clear Hd. revert M. induction Hl as [|l ls [ND K] _ IH]; intros M; [reflexivity|]. cbn [map map_opt].
    rewrite row_ok; [|auto| |rewrite zlen_repeat; lia].
    - cbn [bind]. rewrite IH by (intros l' k Hl' Hk; apply (M l' k); [now right|auto]). reflexivity.
    - rewrite Forall_forall in *. intros k Hk. specialize (K k Hk). specialize (M l k (or_introl eq_refl) Hk). lia. }
  refill (fill_ok g _ (m + 1) _ _ Sg E). eexists. exists m. split; [reflexivity|].
  destruct (new_like g (repeat junk (Z.to_nat (m + 1))) (m + 1) (map (row_of (m + 1)) ls) Sg) as (S2 & B2 & C2 & L2); [rewrite Hd, !BaseL.zlen_map; reflexivity|].
  split; [exact S2|]. split; [exact B2|]. split; [exact L2|]. split; [reflexivity|]. auto.
Qed.
(* the entries of a row above the threshold, in order *)
Lemma sparsify_ok row fields : zlen row = fields -> exists l, 
  fold_opt (fun o j => do v <- get row j; if qgt v epsilon then sset_op num_Qc o j (fun _ => v) else Some o) (zrange 0 fields) [] = Some (map Some l) /\
  NoDup (map fst l) /\ forall k, at_index l k = match get row k with Some v => if qgt v epsilon then v else 0%Qc | None => 0%Qc end.
Proof.
  intros L. assert (forall n, Z.of_nat n <= fields -> exists l,
    fold_opt (fun o j => do v <- get row j; if qgt v epsilon then sset_op num_Qc o j (fun _ => v) else Some o) (zrange 0 (Z.of_nat n)) [] = Some (map Some l) /\
    NoDup (map fst l) /\ Forall (fun k => 0 <= k < Z.of_nat n) (map fst l) /\
    forall k, 0 <= k < Z.of_nat n -> at_index l k = match get row k with Some v => if qgt v epsilon then v else 0%Qc | None => 0%Qc end) as X.
  { induction n as [|n IH]; intros Hn; [exists []; split; [reflexivity|]; split; [constructor|]; split; [constructor|]; lia|].
    destruct IH as (l & E & ND & K & A); [lia|]. replace (Z.of_nat (S n)) with (Z.of_nat n + 1) by lia. rewrite zrange_snoc, fold_opt_app, E by lia. cbn [bind fold_opt].
    destruct (get_ok row (Z.of_nat n)) as (v & Gv); [lia|]. rewrite Gv. cbn [bind].
    assert (~ In (Z.of_nat n) (map fst l)) as NI by (intros I; rewrite Forall_forall in K; specialize (K _ I); lia).
    destruct (qgt v epsilon) eqn:Q.
    - rewrite sset_op_map. cbn [bind]. eexists. split; [reflexivity|]. split; [now apply NoDup_aset|]. split.
      + apply Forall_forall. intros k Hk. apply keys_aset in Hk. destruct Hk as [->|Hk]; [lia|]. rewrite Forall_forall in K. specialize (K k Hk). lia.
      + intros k Hk. rewrite at_index_aval. unfold aval. rewrite lookup_aset. destruct (Z.eqb_spec k (Z.of_nat n)) as [->|Nk]; [now rewrite Gv, Q|].
        rewrite <- A by lia. rewrite at_index_aval. reflexivity.
    - exists l. split; [reflexivity|]. split; [auto|]. split; [eapply Forall_impl; [|exact K]; cbn; intros; lia|].
      intros k Hk. destruct (Z.eq_dec k (Z.of_nat n)) as [->|Nk]; [rewrite Gv, Q; now apply at_index_out|]. apply A. lia. }
  pose proof (zlen_nonneg row). destruct (X (Z.to_nat fields)) as (l & E & ND & K & A); [lia|]. rewrite Z2Nat.id in * by lia. exists l. split; [exact E|]. split; [auto|]. intros k.
  destruct (Z_le_dec 0 k), (Z_lt_dec k fields); [apply A; lia| | |]; (rewrite at_index_out; [|intros I; rewrite Forall_forall in K; specialize (K _ I); lia]); rewrite get_none by lia; reflexivity.
Qed.
Lemma zero_small : qgt 0%Qc epsilon = false.
Proof. reflexivity. Qed.
Lemma PF2sPF_ok pf fields : serial_grid pf -> sg_fields pf = fields -> Forall (fun row => zlen row = fields) (sg_data pf) ->
  exists g, PF2sPF pf = Some g /\ serial_grid g /\ box g = box pf /\ exists ls, sg_data g = map (map Some) ls /\
    Forall2 (fun row l => NoDup (map fst l) /\ forall k, at_index l k = match get row k with Some v => if qgt v epsilon then v else 0%Qc | None => 0%Qc end) (sg_data pf) ls.
Proof.
  intros Sg Hf Hr. unfold PF2sPF. rewrite Hf.
  assert (exists ls, map_opt (fun row => fold_opt (fun o j => do v <- get row j; if qgt v epsilon then sset_op num_Qc o j (fun _ => v) else Some o) (zrange 0 fields) (@nil (option (Z * Qc)))) (sg_data pf) = Some (map (map Some) ls) /\
    Forall2 (fun row l => NoDup (map fst l) /\ forall k, at_index l k = match get row k with Some v => if qgt v epsilon then v else 0%Qc | None => 0%Qc end) (sg_data pf) ls) as (ls & E & F).
  { clear Hf. induction Hr as [|row d Hrow _ (ls & E & F)]; [exists []; split; [reflexivity|constructor]|]. destruct (sparsify_ok row fields Hrow) as (l & El & ND & A).
    exists (l :: ls). cbn [map_opt map]. rewrite El. cbn [bind]. rewrite E. split; [reflexivity|]. constructor; auto. }
  rewrite (fill_ok pf _ 0 _ _ Sg E). eexists. split; [reflexivity|].
  destruct (new_like pf (@nil (option (Z * Qc))) 0 (map (map Some) ls) Sg) as (S2 & B2 & _); [rewrite BaseL.zlen_map; unfold zlen; now rewrite (Forall2_len _ _ _ F)|].
  split; [exact S2|]. split; [exact B2|]. exists ls. auto.
Qed.

(* ---- voxel text ---- *)
Lemma put_mid {A} (pre : list A) x old v : put (pre ++ x :: old) (zlen pre) v = Some ((pre ++ [v]) ++ old).
Proof. rewrite <- app_assoc. cbn [app]. unfold zlen. rewrite SparseL.put_nth by (rewrite app_length; cbn; lia). f_equal. induction pre; cbn; [reflexivity|now f_equal]. Qed.
Lemma vox_read data : Forall int_range data -> forall ws count pre old, Forall (fun b => is_space b = true) ws -> length old = length data ->
  exists s, fold_opt (fun (st : list Z * list byte) i => let (v, s) := read_int0 (snd st) in do d <- put (fst st) i v; Some (d, s))
    (zrange (zlen pre) (zlen pre + zlen data)) (pre ++ old, ws ++ vox_text count data) = Some (pre ++ data, s).
Proof.
  induction 1 as [|v data Hv _ IH]; intros ws count pre old Hw L.
  - destruct old; [|cbn in L; lia]. rewrite zrange_nil by (unfold zlen; cbn [length]; lia). eexists. reflexivity.
  - destruct old as [|x old]; [cbn in L; lia|]. pose proof (zlen_nonneg data). rewrite zlen_cons, zrange_cons by lia. cbn [fold_opt snd fst vox_text].
    unfold read_int0 at 1. rewrite read_show by (auto; reflexivity). cbn [bind]. rewrite put_mid. cbn [bind].
    replace (zlen pre + 1) with (zlen (pre ++ [v])) by (rewrite zlen_app; reflexivity). replace (zlen pre + (1 + zlen data)) with (zlen (pre ++ [v]) + zlen data) by (rewrite zlen_app; unfold zlen; cbn [length]; lia).
    destruct (count + 1 =? 20).
    + destruct (IH [32; 10] 0 (pre ++ [v]) old) as (s & E); [repeat constructor|cbn in L; lia|]. exists s. replace (pre ++ v :: data) with ((pre ++ [v]) ++ data) by (rewrite <- app_assoc; reflexivity). exact E.
    + destruct (IH [32] (count + 1) (pre ++ [v]) old) as (s & E); [repeat constructor|cbn in L; lia|]. exists s. replace (pre ++ v :: data) with ((pre ++ [v]) ++ data) by (rewrite <- app_assoc; reflexivity). exact E.
Qed.
Lemma show_digits n : Forall (fun b : byte => b <> 10) (show_int n).
Proof.
  unfold show_int. destruct (Z.ltb_spec n 0).
  - constructor; [lia|]. destruct (show_nat_spec (S (Z.to_nat (Z.log2 (- n)))) (- n)) as (F & _); [lia|pose proof (Z.log2_nonneg (- n)); lia|].
    eapply Forall_impl; [|exact F]. intros b Hb. apply digit_bounds in Hb. lia.
  - destruct (show_nat_spec (S (Z.to_nat (Z.log2 n))) n) as (F & _); [lia|pose proof (Z.log2_nonneg n); lia|].
    eapply Forall_impl; [|exact F]. intros b Hb. apply digit_bounds in Hb. lia.
Qed.
Lemma read0_ok ws n rest : Forall (fun b => is_space b = true) ws -> int_range n -> no_digit rest -> read_int0 (ws ++ show_int n ++ rest) = (n, rest).
Proof. intros. unfold read_int0. rewrite read_show by auto. reflexivity. Qed.
Ltac flat := vm_compute; repeat (apply Forall_cons; [intros ?; discriminate|]); apply Forall_nil.
Lemma cells_ext a b : wf_axes 0 a -> wf_axes 0 b -> map (fun x => a_x1 x - a_x0 x) a = map (fun x => a_x1 x - a_x0 x) b -> cells a = cells b.
Proof.
  revert b. induction a as [|x a IH]; intros [|y b] W1 W2 E1; try discriminate; [reflexivity|]. destruct W1 as (S0 & S1 & _ & SX & _ & W1), W2 as (T0 & T1 & _ & TX & _ & W2).
  cbn in E1. injection E1 as E0 E1. cbn [cells]. rewrite S0, S1, SX, T0, T1, TX, (IH b) by auto. f_equal. lia.
Qed.
Lemma vox_ok junk g : serial_grid g -> length (sg_axes g) = 3%nat -> Forall (fun l => int_range (snd l - fst l)) (box g) -> Forall int_range (sg_data g) ->
  exists text g', MC2vox g = Some text /\ vox2MC junk text = Some g' /\ serial_grid g' /\ sg_data g' = sg_data g /\ sg_fields g' = 1 /\
    box g' = map (fun l => (0, snd l - fst l)) (box g) /\ sg_dx g' = [1%Qc; 1%Qc; 1%Qc].
Proof.
  intros Sg L3 Hb Hd. destruct Sg as (Ne & W & Wh & L). destruct g as [fields axs dx data]. cbn [sg_axes sg_data sg_fields sg_dx] in *. unfold box in Hb. cbn [sg_axes] in Hb.
  destruct axs as [|a [|b [|c [|d axs]]]]; cbn in L3; try lia. clear L3. cbn [map] in Hb. inversion Hb as [|? ? Ha Hb1]; subst. inversion Hb1 as [|? ? Hbb Hb2]; subst. inversion Hb2 as [|? ? Hc _]; subst. cbn [fst snd] in Ha, Hbb, Hc. clear Hb Hb1 Hb2.
  pose proof W as W0. destruct W0 as (Sa0 & Sa1 & La & Sxa & _ & Sb0 & Sb1 & Lb & Sxb & _ & Sc0 & Sc1 & Lc & Sxc & _).
  unfold MC2vox. cbn [sg_axes sg_data map]. rewrite nodes_cells, <- L by auto. rewrite EndianF.get_all. cbn [bind].
  set (g' := new_grid junk 1 [mkG 0 (a_x1 a - a_x0 a); mkG 0 (a_x1 b - a_x0 b); mkG 0 (a_x1 c - a_x0 c)]).
  assert (wf_axes 0 (sg_axes g') /\ cells (sg_axes g') = zlen data) as (W' & C').
  { assert (wf_axes 0 (sg_axes g')) as W' by (refine (proj1 (wf_single [(0, a_x1 a - a_x0 a); (0, a_x1 b - a_x0 b); (0, a_x1 c - a_x0 c)] _)); repeat constructor; cbn; lia). split; [exact W'|]. rewrite L. apply cells_ext; auto. cbn. rewrite !Z.sub_0_r. reflexivity. }
  destruct (vox_read data Hd [] 0 [] (sg_data g')) as (s & E); [constructor| |].
  { unfold g' at 1. cbn [new_grid sg_data]. rewrite repeat_length. change (ge_axes _) with (sg_axes g'). rewrite C', CodecL.to_nat_zlen. reflexivity. }
  change (zlen (@nil Z)) with 0 in E. rewrite Z.add_0_l in E. cbn [app] in E.
  eexists. exists (mkS 1 (sg_axes g') (sg_dx g') data). split; [reflexivity|]. split.
  - unfold vox2MC. cbn [app].
    match goal with |- context [read_int0 (show_int ?n ++ ?r)] => replace (read_int0 (show_int n ++ r)) with (n, r) by (symmetry; apply (read0_ok []); auto; reflexivity) end.
    do 2 match goal with |- context [read_int0 (?w :: show_int ?n ++ ?r)] => replace (read_int0 (w :: show_int n ++ r)) with (n, r) by (symmetry; apply (read0_ok [w]); [repeat constructor|auto|reflexivity]) end.
    match goal with |- context [getline (10 :: ?l)] => change (getline (10 :: l)) with (@nil byte, l) end. cbv beta iota.
    match goal with |- context [getline ?l] => replace l with ((bytes "'grwXXX'" ++ [9; 9; 9; 9] ++ bytes "52.00 1.000 1.0" ++ [9; 9] ++ show_int (distinct data)) ++ (10 : byte) :: (bytes "3.000 0.000 0.000" ++ [9; 9; 9] ++ bytes "0") ++ (10 : byte) :: vox_text 0 data) by (rewrite <- !app_assoc; reflexivity) end.
    rewrite getline_app. 2: { rewrite !Forall_app. repeat split; try apply show_digits; flat. }
    rewrite getline_app. 2: { rewrite !Forall_app. repeat split; flat. }
    fold g'. rewrite nodes_cells, C', E by auto. reflexivity.
  - split; [|repeat split]. split; [cbn; discriminate|]. split; [exact W'|]. split; [apply single_whole|]. symmetry. exact C'.
Qed.
