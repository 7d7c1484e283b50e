From Coq Require Import String Sorted QArith.QArith QArith.Qcanon.
From Verif Require Import Model.Base Model.Text Model.Num Model.Boundary Model.Layout Model.Access Model.Sparse Model.File Model.Stencil Model.Evolve Model.Image Model.Vtk Model.Table.
From Verif Require Import Spec.Box Spec.Access Spec.Image Spec.Table.
From Verif Require Import Proof.BaseL Proof.TextL Proof.LayoutL Proof.AccessL Proof.ImageL Proof.ImageF Proof.TableL.
Local Open Scope list_scope.
Local Open Scope Z_scope.

Lemma tabbed_word l w : l = w :: tl l -> tabbed l = w ++ flat_map (fun w => (9 : byte) :: w) (tl l).
Proof. intros ->. reflexivity. Qed.
Lemma tabbed_app l m : l <> [] -> tabbed (l ++ m) = tabbed l ++ flat_map (fun w => (9 : byte) :: w) m.
Proof. destruct l as [|a l]; [easy|]. intros _. cbn. now rewrite flat_map_app, app_assoc. Qed.
Lemma split_tabbed l : l <> [] -> Forall word l -> split 9 (tabbed l) = l /\ ~ In 10 (tabbed l).
Proof. destruct l as [|a l]; [easy|]. intros _ H. cbn [tabbed]. split; [now apply split_tabs|now apply tabs_no_newline]. Qed.
Lemma table_rows {A} (f : A -> list (list byte)) xs : (forall x, In x xs -> f x <> [] /\ Forall word (f x)) ->
  table_of (List.concat (map (fun x => tabbed (f x) ++ [(10 : byte)]) xs)) = map f xs.
Proof.
  intros H. unfold table_of. replace (map (fun x => tabbed (f x) ++ [(10 : byte)]) xs) with (map (fun l => l ++ [(10 : byte)]) (map (fun x => tabbed (f x)) xs)) by (rewrite map_map; auto).
  rewrite lines_concat.
  - rewrite map_map. apply map_ext_in. intros x Hx. destruct (H x Hx). now apply split_tabbed.
  - apply Forall_forall. intros l Hl. apply in_map_iff in Hl as (x & <- & Hx). destruct (H x Hx). now apply split_tabbed.
Qed.
Lemma concat_filter {A B} (p : A -> bool) (f : A -> list B) l : List.concat (map (fun x => if p x then f x else []) l) = List.concat (map f (filter p l)).
Proof. induction l as [|a l IH]; [reflexivity|]. cbn [map filter List.concat]. destruct (p a); cbn; now rewrite IH. Qed.
Lemma Forall2_map_r {A B} (R : A -> B -> Prop) (f : A -> B) l : (forall x, In x l -> R x (f x)) -> Forall2 R l (map f l).
Proof. induction l as [|a l IH]; intros H; cbn; constructor; [apply H; now left|apply IH; intros; apply H; now right]. Qed.

Lemma sorted_map_filter {A B} (R : B -> B -> Prop) (f : A -> B) p l : StronglySorted R (map f l) -> StronglySorted R (map f (filter p l)).
Proof.
  induction l as [|a l IH]; cbn [map filter]; intros H; [constructor|]. inversion H as [|? ? S F]; subst. destruct (p a); [|auto]. cbn [map]. constructor; [auto|].
  rewrite Forall_forall in *. intros x Hx. apply in_map_iff in Hx as (y & <- & Hy). apply filter_In in Hy as [Hy _]. apply F. now apply in_map.
Qed.
Lemma get_all_aux {A} (pre l : list A) : Forall2 (fun i v => get (pre ++ l) i = Some v) (zrange (zlen pre) (zlen pre + zlen l)) l.
Proof.
  revert pre; induction l as [|a l IH]; intros pre; [rewrite zrange_nil by (rewrite zlen_nil; lia); constructor|].
  rewrite zlen_cons. pose proof (zlen_nonneg l). rewrite zrange_cons by lia. constructor.
  - pose proof (zlen_nonneg pre). rewrite (BaseL.get_nth _ _ a) by (rewrite zlen_app, zlen_cons; lia). f_equal. unfold zlen. rewrite Nat2Z.id. now rewrite nth_middle.
  - specialize (IH (pre ++ [a])). rewrite <- app_assoc in IH. cbn [List.app] in IH. rewrite zlen_app, zlen_cons, zlen_nil in IH.
    replace (zlen pre + (1 + zlen l)) with (zlen pre + (1 + 0) + zlen l) by lia. replace (zlen pre + 1) with (zlen pre + (1 + 0)) by lia. exact IH.
Qed.
Lemma get_all {A} (l : list A) : Forall2 (fun i v => get l i = Some v) (zrange 0 (zlen l)) l.
Proof. exact (get_all_aux [] l). Qed.

Lemma read_node ls (Hs : serial_box ls) {T} (data : list T) (Hdata : zlen data = nodes (lay 0 ls)) i : 0 <= i < nodes (lay 0 ls) -> exists v, get data i = Some v /\ In v data /\ grid_read_int false (lay 0 ls) data i = Some v /\ grid_read false (lay 0 ls) data (position (lay 0 ls) i) = Some v.
Proof.
  intros Hi. destruct (get_ok data i) as [v Hv]; [lia|]. exists v. split; [auto|]. split.
  - clear - Hv. unfold get in Hv. destruct (i <? 0); [discriminate|]. now apply nth_error_In in Hv.
  - destruct (read_int_position false 0 ls data i ltac:(lia) ltac:(auto) (sb_ok ls Hs) Hi) as [E _]. rewrite <- E. split; exact Hv.
Qed.

Section Tables.
Context (ls : list limits) (Hs : serial_box ls) (Hd : ls <> []).
Context {T : Type} (show : Qc -> list byte) (Hw : forall q, word (show q)) (dx : list Qc) (Hdx : List.length dx = List.length ls).
Context (data : list T) (Hdata : zlen data = nodes (lay 0 ls)).
Local Notation axs := (lay 0 ls).
Local Notation lo := (map l_g0 ls).
Local Notation hi := (map l_g1 ls).

Lemma read_at i : 0 <= i < nodes axs -> exists v, get data i = Some v /\ In v data /\ grid_read_int false axs data i = Some v /\ grid_read false axs data (position axs i) = Some v.
Proof. apply (read_node ls Hs data Hdata). Qed.
Lemma coords_nonnil x : List.length x = List.length ls -> map show (coordinates dx x) <> [].
Proof. intros H E. destruct ls; [easy|]. destruct dx; [discriminate|]. destruct x; discriminate. Qed.
Lemma coords_words x : Forall word (map show (coordinates dx x)).
Proof. apply Forall_forall. intros w H. apply in_map_iff in H as (q & <- & _). apply Hw. Qed.

Theorem tsv_ok words : (forall v, In v data -> exists ws, words v = Some ws /\ Forall word ws) ->
  exists bs, tsv show words axs dx data = Some bs /\ exists xs, all_nodes lo hi (fun _ => True) xs /\
    Forall2 (fun x r => exists v ws, grid_read false axs data x = Some v /\ words v = Some ws /\ r = map show (coordinates dx x) ++ ws) xs (table_of bs).
Proof.
  intros Hwords. set (f := fun i => match get data i with Some v => match words v with Some ws => map show (coordinates dx (position axs i)) ++ ws | None => [] end | None => [] end).
  assert (map_opt (tsv_row show words axs dx data) (zrange 0 (nodes axs)) = Some (map (fun i => tabbed (f i) ++ [(10 : byte)]) (zrange 0 (nodes axs)))) as E.
  { apply map_opt_map. intros i Hi. apply in_zrange in Hi. pose proof (position_len ls i Hi) as L. unfold tsv_row, f.
    rewrite (place_ok ls dx _ Hdx L). cbn [bind]. destruct (read_at i Hi) as (v & G & I & R & _). rewrite R, G. cbn [bind].
    destruct (Hwords v I) as (ws & -> & _). cbn [bind]. rewrite tabbed_app by now apply coords_nonnil. now rewrite <- app_assoc. }
  unfold tsv. rewrite E. cbn [bind]. eexists. split; [reflexivity|]. exists (map (position axs) (zrange 0 (nodes axs))). split; [now apply nodes_list|].
  rewrite table_rows.
  - assert (forall l, (forall i, In i l -> 0 <= i < nodes axs) -> Forall2 (fun x r => exists v ws, grid_read false axs data x = Some v /\ words v = Some ws /\ r = map show (coordinates dx x) ++ ws) (map (position axs) l) (map f l)) as X.
    { induction l as [|i l IH]; intros H; cbn [map]; constructor; [|apply IH; intros; apply H; now right].
      destruct (read_at i (H i (or_introl eq_refl))) as (v & G & I & _ & R). destruct (Hwords v I) as (ws & W & _). exists v, ws. split; [exact R|]. split; [auto|]. unfold f. now rewrite G, W. }
    apply X. intros i. apply in_zrange.
  - intros i Hi. apply in_zrange in Hi. pose proof (position_len ls i Hi) as L. unfold f. destruct (read_at i Hi) as (v & -> & I & _). destruct (Hwords v I) as (ws & -> & F). split.
    + intros X. apply app_eq_nil in X as [X _]. now apply coords_nonnil in X.
    + apply Forall_app. split; [apply coords_words|auto].
Qed.

(* every cell whose text contains a newline adds a line *)
Lemma tsv_lines words bs : tsv show words axs dx data = Some bs ->
  (forall v, In v data -> exists ws, words v = Some ws) ->
  zlen (lines bs) = nodes axs + sumZ (map (fun v => match words v with Some ws => Z.of_nat (count_occ Z.eq_dec (List.concat ws) 10) | None => 0 end) data).
Proof.
  intros E Hwords. unfold zlen. rewrite lines_count. unfold tsv in E. destruct (map_opt _ _) as [l|] eqn:M; [|discriminate]. injection E as <-. apply map_opt_some in M.
  set (cnt := fun v => match words v with Some ws => Z.of_nat (count_occ Z.eq_dec (List.concat ws) 10) | None => 0 end).
  assert (forall w, ~ In 10 w -> count_occ Z.eq_dec w 10 = 0%nat) as C0 by (intros w; apply count_occ_not_In).
  assert (forall ws, count_occ Z.eq_dec (flat_map (fun w => (9 : byte) :: w) ws) 10 = count_occ Z.eq_dec (List.concat ws) 10) as CT.
  { induction ws as [|w ws IH]; [reflexivity|]. cbn [flat_map List.concat]. unfold byte in *. rewrite !count_occ_app, IH. reflexivity. }
  pose proof (get_all data) as D. rewrite Hdata in D.
  assert (forall is l d, Forall2 (fun i b => tsv_row show words axs dx data i = Some b) is l -> Forall2 (fun i v => get data i = Some v) is d -> (forall i, In i is -> 0 <= i < nodes axs) ->
    Z.of_nat (count_occ Z.eq_dec (List.concat l) 10) = zlen is + sumZ (map cnt d)) as X.
  { clear l M D. intros is l d H. revert d. induction H as [|i b is l R _ IH]; intros d H Hi; inversion H; subst; [reflexivity|].
    cbn [List.concat map]. unfold byte in *. rewrite count_occ_app, Nat2Z.inj_add, (IH _ H4) by (intros; apply Hi; now right). rewrite zlen_cons. cbn [sumZ fold_right].
    assert (0 <= i < nodes axs) as Hin by (apply Hi; now left). unfold tsv_row in R. rewrite (place_ok ls dx _ Hdx (position_len ls i Hin)) in R. cbn [bind] in R.
    destruct (read_at i Hin) as (v & G & I & RR & _). rewrite RR in R. cbn [bind] in R. rewrite H2 in G. injection G as ->. unfold cnt at 2.
    destruct (words v) as [ws|]; [|discriminate]. cbn [bind] in R. injection R as <-. unfold byte in *. rewrite !count_occ_app, CT.
    rewrite (C0 (tabbed _)); [cbn [count_occ]; destruct (Z.eq_dec 10 10); [|easy]; unfold sumZ; cbn [fold_right]; lia|].
    apply split_tabbed; [apply coords_nonnil; now apply position_len|apply coords_words]. }
  rewrite (X _ _ _ M D) by (intros i; apply in_zrange). rewrite zlen_zrange; [lia|]. rewrite <- Hdata. apply zlen_nonneg.
Qed.

(* ---- points near contours ---- *)
Theorem xyz_ok shown extra (b : T -> bool) (e : list Z -> list (list byte)) : zlen ls <= 3 ->
  (forall v, In v data -> shown v = Some (b v)) -> (forall x, in_box lo hi x -> extra x = Some (e x) /\ Forall word (e x)) ->
  exists bs, xyz_rows show axs dx data shown extra = Some bs /\ exists xs, all_nodes lo hi (fun x => exists v, grid_read false axs data x = Some v /\ b v = true) xs /\
    table_of bs = map (fun x => columns show (coordinates dx x) ++ e x) xs.
Proof.
  intros H3 Hsh Hex. pose proof (nodes_list ls Hs) as [NL NS].
  set (g := fun i => match get data i with Some v => b v | None => false end).
  set (f := fun i => columns show (coordinates dx (position axs i)) ++ e (position axs i)).
  assert (forall i, 0 <= i < nodes axs -> in_box lo hi (position axs i)) as PI.
  { intros i Hi. apply NL. apply in_map. now apply in_zrange. }
  assert (forall x, List.length x = List.length ls -> three show (coordinates dx x) = columns show (coordinates dx x)) as TC.
  { intros x L. unfold three, columns. assert (List.length (coordinates dx x) = List.length ls) as LC by (unfold coordinates; rewrite map_length, combine_length; lia).
    unfold zlen in H3. destruct (coordinates dx x) as [|c0 [|c1 [|c2 [|c3 r]]]]; cbn [List.length] in *; try reflexivity; [destruct ls; [easy|discriminate]|lia]. }
  assert (map_opt (xyz_row show axs dx data shown extra) (zrange 0 (nodes axs)) = Some (map (fun i => if g i then tabbed (f i) ++ [(10 : byte)] else []) (zrange 0 (nodes axs)))) as E.
  { apply map_opt_map. intros i Hi. apply in_zrange in Hi. pose proof (position_len ls i Hi) as L. unfold xyz_row, g, f.
    destruct (read_at i Hi) as (v & G & I & R & _). rewrite R, G. cbn [bind]. rewrite (Hsh v I). cbn [bind]. destruct (b v); [|reflexivity].
    rewrite (place_ok ls dx _ Hdx L). cbn [bind]. destruct (Hex _ (PI i Hi)) as [-> _]. cbn [bind]. now rewrite TC. }
  unfold xyz_rows. rewrite E. cbn [bind]. eexists. split; [reflexivity|]. exists (map (position axs) (filter g (zrange 0 (nodes axs)))). split; [split|].
  - intros x. rewrite in_map_iff. split.
    + intros (i & <- & Hi). apply filter_In in Hi as [Hi Gi]. apply in_zrange in Hi. split; [now apply PI|]. destruct (read_at i Hi) as (v & G & _ & _ & R). exists v. split; [auto|]. unfold g in Gi. now rewrite G in Gi.
    + intros (Hx & v & R & Bv). pose proof (proj2 (NL x) (conj Hx I)) as Hx'. apply in_map_iff in Hx' as (i & <- & Hi). exists i. split; [auto|]. apply filter_In. split; [auto|]. apply in_zrange in Hi.
      destruct (read_at i Hi) as (w & G & _ & _ & R'). unfold g. rewrite G. congruence.
  - apply sorted_map_filter. exact NS.
  - rewrite concat_filter, table_rows.
    + rewrite map_map. reflexivity.
    + intros i Hi. apply filter_In in Hi as [Hi _]. apply in_zrange in Hi. pose proof (position_len ls i Hi) as L. unfold f. rewrite <- TC by auto. split.
      * intros X. apply app_eq_nil in X as [X _]. unfold three in X. apply app_eq_nil in X as [X _]. now apply coords_nonnil in X.
      * apply Forall_app. split; [|now apply Hex, PI]. unfold three. apply Forall_app. split; [apply coords_words|]. apply Forall_forall. intros w Hin. apply repeat_spec in Hin. subst w. split; cbn; intros [X|[]]; discriminate.
Qed.
End Tables.

(* ---- images ---- *)
Lemma raster_in lims x : In x (raster lims) <-> in_box (map fst lims) (map snd lims) x.
Proof.
  revert x; induction lims as [|[a b] t IH]; intros x; cbn [raster map fst snd].
  - split; [intros [<-|[]]; exact I|]. destruct x; [now left|easy].
  - rewrite in_flat_map. split.
    + intros (y & Hy & Hx). apply in_map_iff in Hx as (c & <- & Hc). apply in_zrange in Hc. cbn. split; [auto|]. now apply IH.
    + destruct x as [|c y]; [easy|]. cbn. intros [Hc Hy]. exists y. split; [now apply IH|]. apply in_map_iff. exists c. split; [auto|]. now apply in_zrange.
Qed.
Lemma raster_nodup lims : NoDup (raster lims).
Proof.
  induction lims as [|[a b] t IH]; cbn [raster]; [repeat constructor; easy|].
  induction IH as [|y l Ny _ IHl]; cbn [flat_map]; [constructor|]. 
  assert (forall z, In z (map (fun c => c :: y) (zrange a b)) -> ~ In z (flat_map (fun x => map (fun c => c :: x) (zrange a b)) l)) as D.
  { intros z Hz Hz'. apply in_map_iff in Hz as (c & <- & _). apply in_flat_map in Hz' as (y' & Hy' & Hz'). apply in_map_iff in Hz' as (c' & E & _). injection E as -> ->. now apply Ny. }
  revert D. assert (NoDup (map (fun c => c :: y) (zrange a b))) as M.
  { apply FinFun.Injective_map_NoDup; [intros c c' E; now injection E|apply NoDup_zrange]. }
  induction M as [|z m Nz _ IHm]; intros D; cbn [List.app]; [auto|]. constructor.
  - intros X. apply in_app_or in X as [X|X]; [now apply Nz|]. now apply (D z (or_introl eq_refl)).
  - apply IHm. intros w Hw. apply D. now right.
Qed.
Theorem vtk_ok {T} (pixel : T -> option (list Qc)) comps ls dx (data : list T) : serial_box ls -> zlen data = nodes (lay 0 ls) ->
  (forall v, In v data -> exists p, pixel v = Some p) ->
  exists im, to_vtk pixel comps (lay 0 ls) dx data = Some im /\ im_extent im = map (fun l => (l_g0 l, l_g1 l - 1)) ls /\ im_spacing im = dx /\ im_comps im = comps /\
    NoDup (map fst (im_points im)) /\
    (forall x p, In (x, p) (im_points im) <-> in_box (map l_g0 ls) (map l_g1 ls) x /\ exists v, grid_read false (lay 0 ls) data x = Some v /\ pixel v = Some p).
Proof.
  intros Hs L Hp. unfold to_vtk. set (lims := map (fun a => (a_x0 a, a_x1 a)) (lay 0 ls)).
  assert (lims = map (fun l => (l_g0 l, l_g1 l)) ls) as EL.
  { unfold lims. clear - Hs. induction Hs as [|l t H _ IH]; [reflexivity|]. cbn. rewrite IH. destruct H as (-> & -> & _). reflexivity. }
  assert (map fst lims = map l_g0 ls /\ map snd lims = map l_g1 ls) as [E0 E1] by (rewrite EL, !map_map; auto).
  set (F := fun x => do c <- grid_read false (lay 0 ls) data x; do p <- pixel c; Some (x, p)).
  destruct (map_opt_ok F (raster lims)) as [ps M].
  { intros x Hx. apply raster_in in Hx. rewrite E0, E1 in Hx. pose proof (proj2 (proj1 (nodes_list ls Hs) x) (conj Hx I)) as Hi. apply in_map_iff in Hi as (i & <- & Hi). apply in_zrange in Hi.
    destruct (read_node ls Hs data L i Hi) as (v & _ & Iv & _ & R). destruct (Hp v Iv) as [p P]. exists (position (lay 0 ls) i, p). unfold F. now rewrite R; cbn [bind]; rewrite P. }
  rewrite M. cbn [bind]. eexists. split; [reflexivity|]. cbn [im_extent im_spacing im_comps im_points]. split; [|split; [auto|split; [auto|]]].
  { rewrite EL, map_map. reflexivity. }
  apply map_opt_some in M.
  assert (map fst ps = raster lims) as MF.
  { clear - M. induction M as [|x y l m H _ IH]; [reflexivity|]. cbn [map]. rewrite IH. f_equal. unfold F in H. destruct (grid_read _ _ _ _) as [c|]; [|discriminate]. cbn [bind] in H. destruct (pixel c); [|discriminate]. cbn [bind] in H. now injection H as <-. }
  split; [rewrite MF; apply raster_nodup|]. intros x p. rewrite <- E0, <- E1, <- raster_in, <- MF. split.
  - intros H. split; [now apply (in_map fst) in H|]. clear - M H. induction M as [|x' y l m HF _ IH]; [easy|]. destruct H as [->|H]; [|auto]. unfold F in HF.
    destruct (grid_read _ _ _ _) as [c|] eqn:R; [|discriminate]. cbn [bind] in HF. destruct (pixel c) as [q|] eqn:P; [|discriminate]. cbn [bind] in HF. injection HF as -> ->. exists c. split; auto.
  - intros (H & v & R & P). apply in_map_iff in H as ([x' p'] & <- & H). cbn [fst] in *. replace p with p'; [auto|]. clear - M H R P. induction M as [|x y l m HF _ IH]; [easy|]. destruct H as [->|H]; [|auto]. unfold F in HF.
    destruct (grid_read _ _ _ x) as [c|] eqn:R'; [|discriminate]. cbn [bind] in HF. destruct (pixel c) as [q|] eqn:P'; [|discriminate]. cbn [bind] in HF. injection HF as -> ->. congruence.
Qed.

(* ---- the pixels ---- *)
Lemma arg_max_ok (l : list Qc) value : l <> [] -> (forall i, value i = get l i) -> exists i, arg_max value (zlen l) = Some i /\ first_greatest l i.
Proof.
  intros Hl Hv. unfold arg_max.
  assert (forall n, 1 <= n <= zlen l -> exists i q, fold_opt (fun max h => do a <- value h; do b <- value max; Some (if qgt a b then h else max)) (zrange 1 n) 0 = Some i /\ i < n /\ get l i = Some q /\
    forall j r, j < n -> get l j = Some r -> (r <= q)%Qc /\ (j < i -> (r < q)%Qc)) as X.
  { intros n L2. assert (1 <= n) as L1 by lia. revert L2. pattern n. apply (Zlt_lower_bound_ind _ 1); [|exact L1]. clear n L1. intros n IH L1 [_ L2]. destruct (Z.eq_dec n 1) as [->|N].
    - destruct (get_ok l 0) as [q Hq]; [lia|]. exists 0, q. rewrite zrange_nil by lia. split; [reflexivity|]. split; [lia|]. split; [auto|]. intros j r Hj Hr. apply get_some_iff in Hr as B. assert (j = 0) as -> by lia. split; [|lia]. rewrite Hq in Hr. injection Hr as ->. apply Qcle_refl.
    - destruct (IH (n - 1) ltac:(lia) ltac:(lia)) as (i & q & F & Li & Gi & H). replace n with (n - 1 + 1) by lia. rewrite zrange_snoc by lia. rewrite fold_opt_app, F. cbn [fold_opt bind].
      destruct (get_ok l (n - 1)) as [a Ha]; [lia|]. rewrite !Hv, Ha, Gi. cbn [bind]. destruct (qgt a q) eqn:G.
      + apply qgt_true in G. exists (n - 1), a. split; [reflexivity|]. split; [lia|]. split; [auto|]. intros j r Hj Hr. destruct (Z.eq_dec j (n - 1)) as [->|Nj].
        * rewrite Ha in Hr. injection Hr as ->. split; [apply Qcle_refl|lia].
        * destruct (H j r ltac:(lia) Hr) as [H1 _]. pose proof (Qcle_lt_trans _ _ _ H1 G). split; [now apply Qclt_le_weak|auto].
      + apply qgt_false in G. exists i, q. split; [reflexivity|]. split; [lia|]. split; [auto|]. intros j r Hj Hr. destruct (Z.eq_dec j (n - 1)) as [->|Nj]; [|apply H; [lia|auto]].
        rewrite Ha in Hr. injection Hr as ->. split; [auto|lia]. }
  destruct (X (zlen l)) as (i & q & F & _ & G & H). { pose proof (zlen_nonneg l). assert (zlen l <> 0) by (destruct l; [easy|]; rewrite zlen_cons; pose proof (zlen_nonneg l); lia). lia. }
  exists i. split; [exact F|]. exists q. split; [auto|]. intros j r Hr. apply H; [|auto]. apply get_some_iff in Hr. lia.
Qed.
Lemma first_greatest_unique l i j : first_greatest l i -> first_greatest l j -> i = j.
Proof.
  intros (q & Q & HQ) (r & R & HR). destruct (Z.lt_trichotomy i j) as [H|[H|H]]; [|auto|]; exfalso.
  - destruct (HR i q Q) as [_ A]. destruct (HQ j r R) as [B _]. specialize (A H). now apply Qcle_not_lt in B.
  - destruct (HQ j r R) as [_ A]. destruct (HR i q Q) as [B _]. specialize (A H). now apply Qcle_not_lt in B.
Qed.
Lemma vector_pixel_ok root mode field st v : In mode [0; 1; 2; 3] -> (mode = 2 -> v <> []) -> (mode = 3 -> 0 <= field < zlen v) ->
  exists w, vector_pixels root field v mode w /\ vector_pixel root mode field st (vector_comps mode (zlen v)) v = Some (map st w) /\ zlen w = vector_comps mode (zlen v) /\
    forall w', vector_pixels root field v mode w' -> w' = w.
Proof.
  intros Hm H2 H3. unfold vector_pixel, vector_comps. destruct Hm as [<-|[<-|[<-|[<-|[]]]]]; cbn [Z.eqb orb Pos.eqb].
  - exists v. split; [constructor|]. rewrite Z.eqb_refl. cbn. split; [auto|]. split; [auto|]. now inversion 1.
  - exists [magnitude root v]. split; [constructor|]. split; [reflexivity|]. split; [reflexivity|]. now inversion 1.
  - destruct (arg_max_ok v (get v) (H2 eq_refl) ltac:(auto)) as (i & E & G). rewrite E. cbn [bind]. exists [int2q i]. split; [now constructor|]. split; [reflexivity|]. split; [reflexivity|]. inversion 1; subst. rewrite (first_greatest_unique v i0 i) by auto. reflexivity.
  - destruct (get_ok v field (H3 eq_refl)) as [q Q]. rewrite Q. exists [q]. split; [now constructor|]. split; [reflexivity|]. split; [reflexivity|]. inversion 1; subst. congruence.
Qed.
Lemma svalue_get (v : list (Z * Qc)) i : svalue (map Some v) i = get (map snd v) i.
Proof. unfold svalue, sitem, get. destruct (i <? 0); [reflexivity|]. rewrite !nth_error_map. now destruct (nth_error v _) as [[? ?]|]. Qed.
Lemma sindex_get (v : list (Z * Qc)) i it : get v i = Some it -> sindex (map Some v) i = Some (fst it).
Proof. unfold sindex, sitem, get. destruct (i <? 0); [discriminate|]. rewrite nth_error_map. intros ->. now destruct it. Qed.
Lemma sparse_pixel_ok root float mode field v : In mode [0; 1; 2; 3] -> (mode = 2 -> v <> []) ->
  exists w, sparse_pixels root field v mode w /\ sparse_pixel root float mode field v = Some (map float w) /\ zlen w = 1 /\ forall w', sparse_pixels root field v mode w' -> w' = w.
Proof.
  intros Hm H2. unfold sparse_pixel.
  assert (fold_left (fun s it => s + sq (snd it))%Qc v 0%Qc = fold_left (fun s q => s + q * q)%Qc (map snd v) 0%Qc) as FM.
  { generalize 0%Qc. clear. induction v as [|a v IH]; intros z; cbn; auto. }
  destruct Hm as [<-|[<-|[<-|[<-|[]]]]]; cbn [Z.eqb orb Pos.eqb].
  - exists [magnitude root (map snd v)]. split; [constructor; auto|]. rewrite FM. split; [reflexivity|]. split; [reflexivity|]. now inversion 1.
  - exists [magnitude root (map snd v)]. split; [constructor; auto|]. rewrite FM. split; [reflexivity|]. split; [reflexivity|]. now inversion 1.
  - destruct (arg_max_ok (map snd v) (svalue (map Some v))) as (i & E & G); [destruct v; [now destruct (H2 eq_refl)|discriminate]|intros; apply svalue_get|].
    replace (zlen (map Some v)) with (zlen (map snd v)) by (rewrite !BaseL.zlen_map; auto). rewrite E. cbn [bind].
    destruct G as (q & Q & HQ). assert (exists it, get v i = Some it) as [it Hit]. { apply get_ok. apply get_some_iff in Q. now rewrite BaseL.zlen_map in Q. }
    rewrite (sindex_get v i it Hit). cbn [bind]. exists [int2q (fst it)]. split; [apply (sshows_max root field v i); [exists q; auto|auto]|]. split; [reflexivity|]. split; [reflexivity|].
    inversion 1; subst; [lia|]. assert (i0 = i) as -> by (eapply first_greatest_unique; [eassumption|exists q; auto]). assert (it0 = it) as -> by congruence. reflexivity.
  - rewrite sread_field. cbn [bind]. exists [field_of v field]. split; [constructor|]. split; [reflexivity|]. split; [reflexivity|]. inversion 1; subst; [lia|auto].
Qed.

(* ---- normals ---- *)
Lemma gradient_len mpi axs dx data x g : gradient mpi axs dx data x = Some g -> List.length g = List.length axs.
Proof.
  unfold gradient. destruct (fold_opt _ _ _) as [[s gr]|] eqn:E; [|discriminate]. cbn [bind snd]. intros H. injection H as <-.
  assert (forall is a b, fold_opt (fun '(s, grad) i =>
      do p <- probe mpi axs data s i; let '(s, yh, yl) := p in do h <- get dx i; do weight <- recip (c2 * h)%Qc; do grad <- put grad i (weight * (yh - yl))%Qc; Some (s, grad)) is a = Some b ->
    List.length (snd b) = List.length (snd a)) as X.
  { induction is as [|i is IH]; intros [s0 g0] b H; cbn [fold_opt] in H; [now injection H as <-|].
    destruct (probe mpi axs data s0 i) as [[[s1 yh] yl]|]; [|discriminate]. cbn [bind] in H. destruct (get dx i); [|discriminate]. cbn [bind] in H. destruct (recip _); [|discriminate]. cbn [bind] in H.
    destruct (put g0 i _) as [g1|] eqn:P; [|discriminate]. cbn [bind] in H. apply IH in H. rewrite H. cbn [snd]. apply put_len in P. unfold zlen in P. lia. }
  apply X in E. cbn [snd] in E. now rewrite E, repeat_length.
Qed.
Lemma three_columns show g n : 1 <= Z.of_nat n <= 3 -> List.length g = n -> three show g = columns show g.
Proof. intros H L. unfold three, columns. destruct g as [|a [|b [|c [|d g]]]]; cbn [List.length] in L; subst n; try lia; reflexivity. Qed.
Lemma three_words show g : (forall q, word (show q)) -> Forall word (three show g).
Proof.
  intros Hw. unfold three. apply Forall_app. split; apply Forall_forall; intros w H.
  - apply in_map_iff in H as (q & <- & _). apply Hw.
  - apply repeat_spec in H. subst w. split; cbn; intros [X|[]]; discriminate.
Qed.
Lemma xyz_head_table normal r : table_of (xyz_head normal ++ r) = split 9 (removelast (xyz_head normal)) :: table_of r.
Proof. unfold table_of. assert (exists h, xyz_head normal = h ++ [10] /\ ~ In 10 h) as (h & -> & N).
  { destruct normal; [exists (removelast (xyz_head true))|exists (removelast (xyz_head false))]; (split; [reflexivity|]); vm_compute; intuition discriminate. }
  rewrite removelast_last, <- app_assoc. cbn [List.app]. now rewrite lines_app.
Qed.
(* ---- the tolerance ---- *)
Lemma span_all p s : Forall (fun b => p b = true) s -> span p s = (s, []).
Proof. induction 1 as [|b s H _ IH]; [reflexivity|]. cbn. now rewrite H, IH. Qed.
Lemma token_whole s : s <> [] -> ~ In 44 s -> token s = Some (s, []).
Proof.
  intros Ns H. unfold token. assert (snd (span (fun b => b =? 44) s) = s) as ->.
  { destruct s as [|b s]; [easy|]. cbn. destruct (b =? 44) eqn:E; [|reflexivity]. exfalso. apply H. left. now apply Z.eqb_eq. }
  rewrite span_all.
  - destruct s; [easy|reflexivity].
  - apply Forall_forall. intros b Hb. apply negb_true_iff. apply Z.eqb_neq. intros ->. auto.
Qed.
Lemma show_int_word n : word (show_int n).
Proof.
  assert (forall b, In b (show_int n) -> b = 45 \/ 48 <= b <= 57) as H.
  { intros b Hb. unfold show_int in Hb. destruct (Z.ltb_spec n 0).
    - destruct Hb as [<-|Hb]; [now left|]. right. destruct (show_nat_spec (S (Z.to_nat (Z.log2 (- n)))) (- n)) as (H1 & _); [lia|pose proof (Z.log2_nonneg (- n)); lia|]. rewrite Forall_forall in H1. apply digit_bounds. now apply H1.
    - right. destruct (show_nat_spec (S (Z.to_nat (Z.log2 n))) n) as (H1 & _); [lia|pose proof (Z.log2_nonneg n); lia|]. rewrite Forall_forall in H1. apply digit_bounds. now apply H1. }
  split; intros X; apply H in X; lia.
Qed.
Lemma Forall2_impl {A B} (P Q : A -> B -> Prop) l m : (forall a b, P a b -> Q a b) -> Forall2 P l m -> Forall2 Q l m.
Proof. intros H. induction 1; constructor; auto. Qed.
