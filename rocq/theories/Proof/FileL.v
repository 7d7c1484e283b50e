From Coq Require Import String.
From Verif Require Import Model.Base Model.Text Model.Boundary Model.Layout Model.Setup Model.Codec Model.Region
  Model.MPI Model.Ghostswap Model.File Spec.Box Spec.Access Spec.Bytes Spec.Decomp Spec.File
  Proof.BaseL Proof.LayoutL Proof.CodecL Proof.RegionL Proof.SerialL Proof.TextL.
Local Open Scope list_scope.

Lemma is_space_10 : is_space 10 = true. Proof. reflexivity. Qed.
Lemma ws10 : Forall (fun b => is_space b = true) [10]. Proof. repeat constructor. Qed.
Lemma ws32 : Forall (fun b => is_space b = true) [32]. Proof. repeat constructor. Qed.


Lemma read_gs_ok gs rest : Forall int_box gs ->
  read_gs (length gs) ((10 : byte) :: flat_map (fun g => show_int (gx_0 g) ++ [32 : byte] ++ show_int (gx_1 g) ++ [10 : byte]) gs ++ rest)
  = Some (gs, (10 : byte) :: rest).
Proof.
  induction 1 as [|g gs [H0 H1] F IH]; [reflexivity|]. cbn [length read_gs flat_map].
  rewrite <- !app_assoc. change ((10 : byte) :: ?l) with ([10 : byte] ++ l) at 1.
  rewrite read_show; [|apply ws10|auto|reflexivity]. cbn [bind].
  rewrite read_show; [|apply ws32|auto|reflexivity]. cbn [bind].
  change ([10 : byte] ++ ?l) with ((10 : byte) :: l). rewrite IH. cbn [bind]. destruct g; reflexivity.
Qed.

Section Dx.
Context {D : Type} (dshow : D -> list byte) (dparse : list byte -> option D).

Lemma float_char b : 48 <= b <= 57 \/ b = 43 \/ b = 45 \/ b = 46 \/ b = 69 \/ b = 101 ->
  is_float_char b = true /\ is_space b = false.
Proof.
  intros H. split.
  - unfold is_float_char, is_digit. destruct H as [H|H].
    + destruct (Z.leb_spec 48 b), (Z.leb_spec b 57); simpl; auto; lia.
    + destruct H as [->|[->|[->|[->| ->]]]]; reflexivity.
  - unfold is_space. destruct (Z.eqb_spec b 32); [lia|]. destruct (Z.leb_spec 9 b), (Z.leb_spec b 13); auto; lia.
Qed.

Lemma read_dx_ok dx rest : Forall (exact_text dshow dparse) dx ->
  read_dx dparse (length dx) ((10 : byte) :: flat_map (fun d => dshow d ++ [10 : byte]) dx ++ rest) = Some (dx, (10 : byte) :: rest).
Proof.
  induction 1 as [|d dx (P & N & C) F IH]; [reflexivity|]. cbn [length read_dx flat_map].
  change ((10 : byte) :: ?l) with ([10 : byte] ++ l) at 1. rewrite skip_space_app by apply ws10.
  rewrite <- !app_assoc. cbn [app].
  assert (forall l, skip_space (dshow d ++ l) = dshow d ++ l) as E.
  { intros l. destruct (dshow d) as [|b k]; [congruence|]. cbn [app]. apply skip_space_stop.
    apply (float_char b). exact (Forall_inv C). }
  rewrite E, span_app; [|eapply Forall_impl; [|exact C]; intros; now apply float_char|reflexivity].
  rewrite P. cbn [bind]. rewrite IH. reflexivity.
Qed.


Lemma last_colon_some s i p : exists q, last_colon s i (Some p) = Some q.
Proof. revert i p; induction s as [|b s IH]; intros i p; simpl; [eauto|]. destruct (b =? 58); apply IH. Qed.

Lemma alias_good name : good_name name -> exists a, scalar_alias name = Some a.
Proof.
  intros [[t ->] _]. unfold scalar_alias.
  destruct (last_colon_some (firstn 4 t) 5 4) as [q Hq].
  exists (bytes "grid:scalar" ++ skipn (Z.to_nat q) (bytes "grid:" ++ t)).
  change (firstn 9 (bytes "grid:" ++ t)) with (bytes "grid:" ++ firstn 4 t).
  change (last_colon (bytes "grid:" ++ firstn 4 t) 0 None) with (last_colon (firstn 4 t) 5 (Some 4)).
  rewrite Hq. reflexivity.
Qed.

Lemma read_header_ok name fields gs dx rest : good_name name -> int_range fields -> int_range (zlen gs) ->
  Forall int_box gs -> Forall (exact_text dshow dparse) dx -> length dx = length gs ->
  read_header dparse name (length gs) (header dshow name fields gs dx ++ rest) = Done (fields, gs, dx, rest).
Proof.
  intros Gn Hf Hd Hg Hx Ld. unfold read_header, header. rewrite <- !app_assoc.
  change ([10 : byte] ++ ?l) with ((10 : byte) :: l) at 1. rewrite getline_app by apply Gn.
  destruct (alias_good name Gn) as [a ->].
  destruct (list_eq_dec Z.eq_dec name name) as [_|]; [|congruence]. cbn [negb andb].
  unfold read_dim. change (show_int (zlen gs) ++ ?l) with ([] ++ show_int (zlen gs) ++ l). rewrite read_show; [|constructor|auto|reflexivity].
  cbn [obind]. unfold zlen at 1. rewrite Z.eqb_refl. cbn [negb].
  rewrite read_show; [|apply ws10|auto|reflexivity]. cbn [req obind].
  change ([10 : byte] ++ ?l) with ((10 : byte) :: l) at 1. rewrite read_gs_ok by auto. cbn [req obind].
  rewrite <- Ld, read_dx_ok by auto. cbn [req obind]. reflexivity.
Qed.
End Dx.

(* ---- one block ---- *)
Definition int_axis (a : axis) := int_range (a_x0 a) /\ int_range (a_x1 a) /\ int_range (a_b0 a) /\ int_range (a_b1 a).

Lemma read_bin_int_ok v rest : int_range v -> read_bin_int (pd_enc pod_int v ++ rest) = Done (v, rest).
Proof.
  intros H. unfold read_bin_int. rewrite read_n_app by apply zlen_int_enc. cbn [req obind].
  destruct pod_int_ok as [_ P]. destruct (P v H) as [_ ->]. reflexivity.
Qed.

Lemma read_bin_ulong_ok v rest : 0 <= v < 2 ^ 64 -> read_bin_ulong (pd_enc pod_ulong v ++ rest) = Done (v, rest).
Proof.
  intros H. unfold read_bin_ulong. destruct (pod_uint_ok 8) as [_ P]. destruct (P v H) as [L E].
  rewrite read_n_app by exact L. cbn [req obind]. unfold pod_ulong. now rewrite E.
Qed.

Lemma read_pairs_ok (f g : axis -> Z) axs rest : Forall (fun a => int_range (f a) /\ int_range (g a)) axs ->
  read_pairs (length axs) (flat_map (fun a => pd_enc pod_int (f a) ++ pd_enc pod_int (g a)) axs ++ rest)
  = Done (map (fun a => (f a, g a)) axs, rest).
Proof.
  induction 1 as [|a axs [H0 H1] F IH]; [reflexivity|]. cbn [length read_pairs flat_map]. rewrite <- !app_assoc.
  rewrite read_bin_int_ok by auto. cbn [obind]. rewrite read_bin_int_ok by auto. cbn [obind].
  rewrite IH. reflexivity.
Qed.

Lemma translate_id a x : length x = length a -> translate a a x = x.
Proof.
  revert x; induction a as [|c a IH]; intros [|d x]; simpl; try discriminate; [auto|].
  intros E. rewrite IH by lia. f_equal. lia.
Qed.

Lemma wf_single lims : Forall (fun l => fst l <= snd l) lims ->
  wf_axes 0 (ge_axes (setup_single (map (fun l => mkG (fst l) (snd l)) lims) 0)) /\
  map a_x0 (ge_axes (setup_single (map (fun l => mkG (fst l) (snd l)) lims) 0)) = map fst lims /\
  map a_x1 (ge_axes (setup_single (map (fun l => mkG (fst l) (snd l)) lims) 0)) = map snd lims /\
  map a_s0 (ge_axes (setup_single (map (fun l => mkG (fst l) (snd l)) lims) 0)) = map fst lims /\
  map a_s1 (ge_axes (setup_single (map (fun l => mkG (fst l) (snd l)) lims) 0)) = map snd lims.
Proof.
  intros F. simpl. split.
  - apply wf_lay. rewrite !Forall_map. simpl. exact F.
  - clear F. induction lims as [|l lims IH]; simpl; [auto|]. destruct IH as (E1 & E2 & E3 & E4).
    rewrite E1, E2, E3, E4. repeat split; f_equal; lia.
Qed.

Lemma len_single lims : length (ge_axes (setup_single (map (fun l => mkG (fst l) (snd l)) lims) 0)) = length lims.
Proof. simpl. induction lims; simpl; auto. Qed.

Lemma box_fst_snd axs (lims : list (Z * Z)) : length lims = length axs ->
  length (overlap_box axs lims) = length axs.
Proof. revert lims; induction axs as [|a axs IH]; intros [|[lo hi] lims]; simpl; intros E; auto; try discriminate. Qed.

Lemma overlap_inside axs lims : length lims = length axs ->
  Forall (fun r => fst r < snd r) (overlap_box axs lims) ->
  Box.inside (map fst (overlap_box axs lims)) (map snd (overlap_box axs lims)) (map a_x0 axs) (map a_x1 axs) /\
  Box.inside (map fst (overlap_box axs lims)) (map snd (overlap_box axs lims)) (map fst lims) (map snd lims) /\
  Forall (fun l => fst l <= snd l) lims.
Proof.
  revert lims; induction axs as [|a axs IH]; intros [|[lo hi] lims]; simpl; try discriminate; [intros; repeat split; constructor|].
  intros E F. inversion F as [|? ? H F']; subst. simpl in H. destruct (IH lims) as (I1 & I2 & I3); [lia|auto|].
  revert H. destruct (Z.ltb_spec lo (a_x0 a)), (Z.ltb_spec (a_x1 a) hi); intros; repeat split; auto; try lia;
    constructor; auto; simpl; lia.
Qed.

Lemma in_overlap axs lims x : length lims = length axs ->
  (in_box (map fst (overlap_box axs lims)) (map snd (overlap_box axs lims)) x <->
   in_box (map a_x0 axs) (map a_x1 axs) x /\ in_box (map fst lims) (map snd lims) x).
Proof.
  revert lims x; induction axs as [|a axs IH]; intros [|[lo hi] lims] [|c x]; simpl; try discriminate; try tauto.
  intros E. rewrite (IH lims x) by lia.
  destruct (Z.ltb_spec lo (a_x0 a)), (Z.ltb_spec (a_x1 a) hi); split; intros; intuition lia.
Qed.

Lemma inside_storage g axs mn mx : 0 <= g -> wf_axes g axs -> Box.inside mn mx (map a_x0 axs) (map a_x1 axs) ->
  Box.inside mn mx (map a_s0 axs) (map a_s1 axs).
Proof.
  intros G. revert mn mx; induction axs as [|a axs IH]; intros [|m mn] [|n mx]; simpl; try tauto.
  intros (W1 & W2 & W3 & W4 & W5 & W6) (I1 & I2 & I3). repeat split; try lia. auto.
Qed.

Lemma forallb_overlap l : forallb (fun r : Z * Z => fst r <? snd r) l = true <-> Forall (fun r => fst r < snd r) l.
Proof. rewrite forallb_forall, Forall_forall. split; intros H x Hx; apply Z.ltb_lt; now apply H. Qed.

Lemma set_bcs_layout axs lims bcs :
  map a_x0 (set_bcs axs lims bcs) = map a_x0 axs /\ map a_x1 (set_bcs axs lims bcs) = map a_x1 axs /\
  map a_s0 (set_bcs axs lims bcs) = map a_s0 axs /\ map a_s1 (set_bcs axs lims bcs) = map a_s1 axs /\
  map a_sx (set_bcs axs lims bcs) = map a_sx axs /\ map a_xx (set_bcs axs lims bcs) = map a_xx axs /\
  map a_g0 (set_bcs axs lims bcs) = map a_g0 axs /\ map a_g1 (set_bcs axs lims bcs) = map a_g1 axs.
Proof.
  revert lims bcs; induction axs as [|a axs IH]; intros [|[lo hi] lims] [|[bl bh] bcs]; simpl; repeat split; auto;
    f_equal; apply IH.
Qed.

(* two axis lists that differ in the boundary conditions only *)
Definition same_layout (a b : list axis) :=
  map a_x0 a = map a_x0 b /\ map a_x1 a = map a_x1 b /\ map a_s0 a = map a_s0 b /\ map a_s1 a = map a_s1 b /\
  map a_sx a = map a_sx b /\ map a_xx a = map a_xx b /\ map a_g0 a = map a_g0 b /\ map a_g1 a = map a_g1 b.

Lemma same_cons a b la lb : same_layout (a :: la) (b :: lb) ->
  a_x0 a = a_x0 b /\ a_x1 a = a_x1 b /\ a_s0 a = a_s0 b /\ a_s1 a = a_s1 b /\ a_sx a = a_sx b /\ a_xx a = a_xx b /\
  a_g0 a = a_g0 b /\ a_g1 a = a_g1 b /\ same_layout la lb.
Proof.
  unfold same_layout. simpl. intros (H1 & H2 & H3 & H4 & H5 & H6 & H7 & H8).
  inversion H1; inversion H2; inversion H3; inversion H4; inversion H5; inversion H6; inversion H7; inversion H8.
  repeat split; auto.
Qed.

Lemma same_sym a b : same_layout a b -> same_layout b a.
Proof. unfold same_layout. intuition. Qed.
Lemma same_trans a b c : same_layout a b -> same_layout b c -> same_layout a c.
Proof. unfold same_layout. intuition congruence. Qed.
Lemma same_refl a : same_layout a a.
Proof. unfold same_layout. intuition. Qed.
Lemma same_len a b : same_layout a b -> length a = length b.
Proof. intros (H & _). rewrite <- (map_length a_x0 a), H, map_length. reflexivity. Qed.

Lemma same_cells a b : same_layout a b -> cells a = cells b /\ nodes a = nodes b.
Proof.
  intros S. pose proof (same_len _ _ S) as L. destruct a as [|x a], b as [|y b]; try discriminate; [auto|].
  apply same_cons in S as (? & ? & ? & ? & ? & ? & _). simpl. split; congruence.
Qed.

Lemma same_encode a b x : same_layout a b -> encode a x = encode b x.
Proof.
  revert b x; induction a as [|y a IH]; intros [|z b] [|c x] S; try (apply same_len in S; discriminate); auto.
  apply same_cons in S as (? & ? & ? & ? & ? & ? & ? & ? & S). simpl. rewrite (IH b x S). congruence.
Qed.

Lemma same_wf g a b : same_layout a b -> wf_axes g a -> wf_axes g b.
Proof.
  revert b; induction a as [|y a IH]; intros [|z b] S; try (apply same_len in S; discriminate); auto.
  apply same_cons in S as (E1 & E2 & E3 & E4 & E5 & E6 & E7 & E8 & S). simpl. intros (H1 & H2 & H3 & H4 & H5 & H6).
  destruct (same_cells _ _ S) as [<- <-]. rewrite <- E1, <- E2, <- E3, <- E4, <- E5, <- E6. repeat split; auto.
Qed.

(* ---- all blocks ---- *)
Definition lims_of (axs : list axis) := map (fun a => (a_x0 a, a_x1 a)) axs.
Definition bcs_of (axs : list axis) := map (fun a => (a_b0 a, a_b1 a)) axs.
Definition touches (axs baxs : list axis) : bool := forallb (fun r => fst r <? snd r) (overlap_box axs (lims_of baxs)).
Definition upd (axs baxs : list axis) : list axis :=
  if touches axs baxs then set_bcs axs (lims_of baxs) (bcs_of baxs) else axs.

Lemma upd_same axs baxs : same_layout (upd axs baxs) axs.
Proof. unfold upd. destruct (touches axs baxs); [apply set_bcs_layout|apply same_refl]. Qed.

Lemma overlap_same axs axs' lims : same_layout axs axs' -> overlap_box axs lims = overlap_box axs' lims.
Proof.
  revert axs' lims; induction axs as [|a axs IH]; intros [|b axs'] [|[lo hi] lims] H; try (apply same_len in H; discriminate); auto.
  apply same_cons in H as (E1 & E2 & _ & _ & _ & _ & _ & _ & H). simpl. rewrite E1, E2, (IH _ lims H). reflexivity.
Qed.
Lemma touches_same axs axs' baxs : same_layout axs axs' -> touches axs baxs = touches axs' baxs.
Proof. intros H. unfold touches. now rewrite (overlap_same axs axs'). Qed.

Lemma fold_upd_same bl axs : same_layout (fold_left upd bl axs) axs.
Proof.
  revert axs; induction bl as [|b bl IH]; intros axs; simpl; [apply same_refl|].
  eapply same_trans; [apply IH|apply upd_same].
Qed.

Lemma in_box_dec lo hi x : in_box lo hi x \/ ~ in_box lo hi x.
Proof.
  revert hi x; induction lo as [|l lo IH]; intros [|h hi] [|e x]; simpl; try tauto.
  destruct (IH hi x); [|tauto]. destruct (Z.le_gt_cases l e), (Z.lt_ge_cases e h); intuition lia.
Qed.

Section Block.
Context {T : Type} (c : codec T) (valid : T -> Prop) (fresh : Z -> T) (raw : bool).
Context (compress : list byte -> list byte) (uncompress : list byte -> Z -> option (list byte)).
Context (S : serialises c valid) (Z1 : lossless compress uncompress).

(* data of a block that can be written and read back *)
Definition writable (gb : Z) (baxs : list axis) (bdata : list T) :=
  wf_axes gb baxs /\ 0 <= gb /\ baxs <> [] /\ Forall int_axis baxs /\ zlen bdata = cells baxs /\
  (forall y v, in_box (map a_x0 baxs) (map a_x1 baxs) y -> get bdata (encode baxs y) = Some v -> valid v).

(* the bytes of the header of a block *)
Definition block_head (baxs : list axis) (n m : Z) : list byte :=
  flat_map (fun a => pd_enc pod_int (a_x0 a) ++ pd_enc pod_int (a_x1 a)) baxs ++
  flat_map (fun a => pd_enc pod_int (a_b0 a) ++ pd_enc pod_int (a_b1 a)) baxs ++
  pd_enc pod_ulong n ++ pd_enc pod_ulong m.

Lemma inside_self axs : Forall (fun a => a_x0 a <= a_x1 a) axs ->
  Box.inside (map a_x0 axs) (map a_x1 axs) (map a_x0 axs) (map a_x1 axs).
Proof. induction 1; simpl; repeat split; auto; lia. Qed.

Lemma wf_le g axs : wf_axes g axs -> Forall (fun a => a_x0 a <= a_x1 a) axs.
Proof. induction axs; simpl; intros H; constructor; [lia|]. apply IHaxs; tauto. Qed.

Lemma block_bytes gb baxs bdata : writable gb baxs bdata ->
  exists n bs, zlen bs = n /\ 
    buffer_size c zrange bdata baxs (map a_x0 baxs) (map a_x1 baxs) 0 = Some n /\
    to_buffer c zrange bdata baxs (map a_x0 baxs) (map a_x1 baxs) 0 (repeat 0 (Z.to_nat n)) 0 = Some (bs, n) /\
    write_buffer c raw compress baxs bdata =
      Some (block_head baxs n (zlen (if raw then bs else compress bs)) ++ (if raw then bs else compress bs)) /\
    forall gaxs gdata, wf_axes 0 gaxs -> length gaxs = length baxs -> map a_x0 gaxs = map a_x0 baxs -> map a_x1 gaxs = map a_x1 baxs ->
      zlen gdata = cells gaxs ->
      exists gd, from_buffer c zrange gdata gaxs (map a_x0 gaxs) (map a_x1 gaxs) 0 bs 0 = Some (gd, n) /\
        zlen gd = zlen gdata /\
        forall y, in_box (map a_x0 baxs) (map a_x1 baxs) y -> get gd (encode gaxs y) = get bdata (encode baxs y).
Proof.
  intros (W & G & Ne & In & L & V).
  set (x0 := map a_x0 baxs). set (x1 := map a_x1 baxs).
  set (gax0 := ge_axes (setup_single (map (fun l => mkG (fst l) (snd l)) (map (fun a => (a_x0 a, a_x1 a)) baxs)) 0)).
  assert (forall gaxs gdata, wf_axes 0 gaxs -> length gaxs = length baxs -> map a_x0 gaxs = x0 -> map a_x1 gaxs = x1 ->
    zlen gdata = cells gaxs ->
    exists n bs, 0 <= n /\ zlen bs = n /\ buffer_size c zrange bdata baxs x0 x1 0 = Some n /\
    to_buffer c zrange bdata baxs x0 x1 0 (repeat 0 (Z.to_nat n)) 0 = Some (bs, n) /\
    exists gd, from_buffer c zrange gdata gaxs (map a_x0 gaxs) (map a_x1 gaxs) 0 bs 0 = Some (gd, n) /\
        zlen gd = zlen gdata /\
        forall y, in_box x0 x1 y -> get gd (encode gaxs y) = get bdata (encode baxs y)) as X.
  { intros gaxs gdata Wg Lg Eg0 Eg1 Ld.
    destruct (region_copy c valid zrange gb 0 baxs gaxs x0 x1 (map a_x0 gaxs) (map a_x1 gaxs) bdata S rng_ok1 W Wg Ne Lg)
      as (n & bs & Hn & Lb & Sz & To & From); unfold x0, x1; rewrite ?Eg0, ?Eg1, ?map_length; unfold x0, x1; rewrite ?map_length; auto.
    - fold x0 x1. generalize (combine x1 x0). intros l. induction l; constructor; auto.
    - intros y Hy. apply in_rng1 in Hy. eapply local_in_storage; eauto.
    - intros y Hy. apply in_rng1 in Hy. fold x0 in Hy. fold x1 in Hy. rewrite <- Eg0, <- Eg1 in Hy. apply (local_in_storage 0); auto. lia.
    - intros y v Hy. apply in_rng1 in Hy. apply V; auto.
    - exists n, bs. split; [auto|]. split; [auto|]. split; [auto|]. split.
      + specialize (To [] (repeat 0 (Z.to_nat n)) []). rewrite !app_nil_r in To. cbn [app] in To.
        apply To. unfold zlen. rewrite repeat_length. lia.
      + destruct (From [] [] gdata Ld) as (gd & F1 & F2 & F3 & _). rewrite !app_nil_r in F1. cbn [app] in F1.
        change (zlen (@nil byte)) with 0 in F1. exists gd. rewrite ?Eg0, ?Eg1 in F1. split; [exact F1|]. split; [auto|].
        rewrite Eg0, Eg1 in F3. intros y Hy. rewrite F3 by (apply in_rng1; exact Hy). f_equal. f_equal. apply translate_id.
        apply in_box_length in Hy. tauto. }
  assert (Forall (fun l => fst l <= snd l) (map (fun a => (a_x0 a, a_x1 a)) baxs)) as Fl.
  { rewrite Forall_map. simpl. eapply wf_le; eauto. }
  destruct (wf_single _ Fl) as (Ws & E0 & E1 & _). fold gax0 in Ws, E0, E1.
  rewrite map_map in E0, E1. simpl in E0, E1.
  assert (length gax0 = length baxs) as Lg by (unfold gax0; rewrite len_single, map_length; auto).
  destruct (X gax0 (repeat (fresh 0) (Z.to_nat (cells gax0)))) as (n & bs & Hn & Lb & Sz & To & _); auto.
  { unfold zlen. rewrite repeat_length. pose proof (cells_nonneg 0 gax0 ltac:(lia) Ws). lia. }
  exists n, bs. split; [auto|]. split; [auto|]. split; [auto|]. split.
  - unfold write_buffer. fold x0 x1. rewrite Sz. cbn [bind]. rewrite To. cbn [bind fst snd].
    replace (firstn (Z.to_nat n) bs) with bs by (rewrite firstn_all2; auto; unfold zlen in Lb; lia).
    replace (raw || (zlen (if raw then bs else compress bs) <=? 9 * n / 8 + 12)) with true.
    2:{ symmetry. destruct raw; [reflexivity|]. apply Z.leb_le. destruct (Z1 bs) as [_ H]. rewrite <- Lb. exact H. }
    cbn [guard bind]. unfold block_head. rewrite <- !app_assoc. reflexivity.
  - intros gaxs gdata Wg Lg' Eg0 Eg1 Ld. destruct (X gaxs gdata Wg Lg' Eg0 Eg1 Ld) as (n' & bs' & _ & _ & Sz' & To' & R).
    rewrite Sz in Sz'. inversion Sz'; subst n'. rewrite To in To'. inversion To'; subst bs'. exact R.
Qed.

Lemma zlen_ulong v : zlen (pd_enc pod_ulong v) = 8.
Proof. unfold zlen. simpl. reflexivity. Qed.

(* reading one written block *)
Lemma read_block_ok g gb fields axs data baxs bdata rest blk :
  wf_axes g axs -> 0 <= g -> zlen data = cells axs -> length baxs = length axs ->
  writable gb baxs bdata -> recognisable c raw compress baxs bdata -> write_buffer c raw compress baxs bdata = Some blk ->
  let lims := map (fun a => (a_x0 a, a_x1 a)) baxs in
  let bcs := map (fun a => (a_b0 a, a_b1 a)) baxs in
  let ov := forallb (fun r => fst r <? snd r) (overlap_box axs lims) in
  exists data', 
    read_block c fresh raw uncompress fields (mkLocal axs data) (blk ++ rest) =
      Done (mkLocal (if ov then set_bcs axs lims bcs else axs) data', ov, rest) /\
    zlen data' = cells axs /\
    (forall x, in_box (map a_x0 axs) (map a_x1 axs) x -> in_box (map a_x0 baxs) (map a_x1 baxs) x ->
       get data' (encode axs x) = get bdata (encode baxs x)) /\
    (forall x, in_box (map a_s0 axs) (map a_s1 axs) x ->
       ~ (in_box (map a_x0 axs) (map a_x1 axs) x /\ in_box (map a_x0 baxs) (map a_x1 baxs) x) ->
       get data' (encode axs x) = get data (encode axs x)).
Proof.
  intros W G Ld Lb Wr Rec Wb lims bcs ov.
  pose proof Wr as (Wbx & Gb & Ne & In & Lbd & V).
  destruct (block_bytes gb baxs bdata Wr) as (n & bs & Lbs & Sz & To & Wb' & From).
  rewrite Wb in Wb'. inversion Wb'; subst blk; clear Wb'.
  destruct (Rec n bs Sz To) as [Bn Nc].
  set (body := if raw then bs else compress bs) in *.
  assert (0 <= n) by (rewrite <- Lbs; apply zlen_nonneg).
  assert (n <= 9 * n / 8) by (apply Z.div_le_lower_bound; lia).
  assert (0 <= zlen body < 2 ^ 64) as Bb.
  { split; [apply zlen_nonneg|]. unfold body. destruct raw; [lia|]. destruct (Z1 bs) as [_ H']. rewrite Lbs in H'. lia. }
  assert (Forall (fun a => int_range (a_x0 a) /\ int_range (a_x1 a)) baxs) as I1.
  { eapply Forall_impl; [|exact In]. unfold int_axis. intuition. }
  assert (Forall (fun a => int_range (a_b0 a) /\ int_range (a_b1 a)) baxs) as I2.
  { eapply Forall_impl; [|exact In]. unfold int_axis. intuition. }
  unfold read_block. cbn [lo_axes]. rewrite <- Lb. unfold block_head. rewrite <- !app_assoc.
  rewrite (read_pairs_ok a_x0 a_x1) by auto. cbn [obind].
  rewrite (read_pairs_ok a_b0 a_b1) by auto. cbn [obind].
  rewrite read_bin_ulong_ok by lia. cbn [obind]. rewrite read_bin_ulong_ok by auto. cbn [obind].
  fold lims bcs.
  assert (length lims = length axs) as Ll by (unfold lims; rewrite map_length; congruence).
  assert (map fst lims = map a_x0 baxs /\ map snd lims = map a_x1 baxs) as [F0 F1].
  { unfold lims. rewrite !map_map. auto. }
  destruct ov eqn:Eov; unfold ov in Eov; rewrite Eov; cbv iota.
  2:{ exists data. split; [|split; [auto|split]].
      - repeat f_equal. unfold zlen. rewrite Nat2Z.id, skipn_app, Nat.sub_diag, skipn_all, skipn_O. reflexivity.
      - intros x Hx Hb. exfalso.
        assert (in_box (map fst (overlap_box axs lims)) (map snd (overlap_box axs lims)) x) as Hi.
        { apply in_overlap; [auto|]. rewrite F0, F1. auto. }
        assert (forallb (fun r => fst r <? snd r) (overlap_box axs lims) = true); [|congruence].
        apply forallb_overlap. clear -Hi. revert x Hi. induction (overlap_box axs lims) as [|r l IH]; intros [|c x]; simpl; try tauto; [constructor|].
        intros [H1 H2]. constructor; [lia|eauto].
      - auto. }
  apply forallb_overlap in Eov. destruct (overlap_inside axs lims Ll Eov) as (In1 & In2 & Le).
  set (box := overlap_box axs lims) in *.
  rewrite read_n_app by reflexivity. cbn [req obind].
  set (gaxs := ge_axes (setup_single (map (fun l => mkG (fst l) (snd l)) lims) 0)).
  destruct (wf_single lims Le) as (Wg & E0 & E1 & E2 & E3). fold gaxs in Wg, E0, E1, E2, E3.
  set (gdata := repeat (fresh fields) (Z.to_nat (cells gaxs))).
  assert (zlen gdata = cells gaxs) as Lgd.
  { unfold gdata, zlen. rewrite repeat_length. pose proof (cells_nonneg 0 gaxs ltac:(lia) Wg). lia. }
  assert (length gaxs = length baxs) as Lg by (unfold gaxs, lims; rewrite len_single, map_length; auto).
  destruct (From gaxs gdata Wg Lg) as (gd & Fr & Lgd' & Gv); try congruence.
  assert (gaxs <> []) as Gne by (destruct gaxs, baxs; try discriminate; congruence).
  destruct (region_copy c valid zrange 0 g gaxs axs (map fst box) (map snd box) (map fst box) (map snd box) gd S rng_ok1 Wg W Gne)
    as (m & b2 & Hm & Lb2 & Sz2 & To2 & From2).
  { congruence. }
  1-4: rewrite map_length; unfold box; rewrite box_fst_snd by auto; congruence.
  { generalize (combine (map snd box) (map fst box)). intros l. induction l; constructor; auto. }
  { congruence. }
  { intros y Hy. apply in_rng1 in Hy. rewrite E2, E3. eapply inside_box; [exact In2|exact Hy]. }
  { intros y Hy. apply in_rng1 in Hy. eapply inside_box; [|exact Hy]. apply (inside_storage g); auto. }
  { intros y v Hy Hv. apply in_rng1 in Hy. assert (in_box (map a_x0 baxs) (map a_x1 baxs) y) as Hb.
    { rewrite <- F0, <- F1. eapply inside_box; eauto. }
    rewrite Gv in Hv by auto. eapply V; eauto. }
  destruct (From2 [] [] data Ld) as (data' & Fd & Ldd & V1 & V2).
  rewrite !app_nil_r in Fd. cbn [app] in Fd. change (zlen (@nil byte)) with 0 in Fd.
  exists data'. split; [|split; [congruence|split]].
  - unfold read_overlap. cbn [lo_axes lo_data]. fold gaxs. fold gdata.
    assert ((if n =? zlen body then Done body else if raw then Exit 1 else req (uncompress body n)) = Done bs) as ->.
    { unfold body. destruct raw eqn:Er.
      - rewrite Lbs, Z.eqb_refl. reflexivity.
      - destruct (Z.eqb_spec n (zlen (compress bs))) as [e|_]; [exfalso; apply Nc; congruence|].
        destruct (Z1 bs) as [U _]. rewrite Lbs in U. rewrite U. reflexivity. }
    cbn [obind]. rewrite Fr. cbn [req obind]. rewrite Sz2. cbn [req obind].
    specialize (To2 [] (repeat 0 (Z.to_nat m)) []). rewrite !app_nil_r in To2. cbn [app] in To2.
    change (zlen (@nil byte)) with 0 in To2. rewrite To2 by (unfold zlen; rewrite repeat_length; lia).
    cbn [req obind]. rewrite Fd. reflexivity.
  - intros x Hx Hb. rewrite V1.
    2:{ apply in_rng1. unfold box. apply in_overlap; [auto|]. rewrite F0, F1. auto. }
    rewrite translate_id. 2:{ rewrite map_length. unfold box. rewrite box_fst_snd by auto. apply in_box_length in Hx. rewrite map_length in Hx. tauto. }
    apply Gv. auto.
  - intros x Hs Hn. apply V2; [auto|]. intros Hc. apply Hn. apply in_rng1 in Hc. unfold box in Hc.
    apply in_overlap in Hc; [|auto]. rewrite F0, F1 in Hc. exact Hc.
Qed.

Lemma read_blocks_ok (V : list Z -> T) g gb fields bl blks axs data rest :
  wf_axes g axs -> 0 <= g -> zlen data = cells axs ->
  Forall (fun b => length (fst b) = length axs /\ writable gb (fst b) (snd b) /\ recognisable c raw compress (fst b) (snd b) /\
            forall x, in_box (map a_x0 (fst b)) (map a_x1 (fst b)) x -> get (snd b) (encode (fst b) x) = Some (V x)) bl ->
  Forall2 (fun b blk => write_buffer c raw compress (fst b) (snd b) = Some blk) bl blks ->
  exists data',
    read_blocks c fresh raw uncompress (length bl) fields (mkLocal axs data) (concat blks ++ rest) =
      Done (mkLocal (fold_left upd (map fst bl) axs) data', map (touches axs) (map fst bl)) /\
    zlen data' = cells axs /\
    (forall x b, in_box (map a_x0 axs) (map a_x1 axs) x -> In b bl -> in_box (map a_x0 (fst b)) (map a_x1 (fst b)) x ->
       get data' (encode axs x) = Some (V x)) /\
    (forall x, in_box (map a_s0 axs) (map a_s1 axs) x ->
       (forall b, In b bl -> ~ (in_box (map a_x0 axs) (map a_x1 axs) x /\ in_box (map a_x0 (fst b)) (map a_x1 (fst b)) x)) ->
       get data' (encode axs x) = get data (encode axs x)).
Proof using S Z1.
  intros W G Ld F F2. revert axs data W Ld F. induction F2 as [|b blk bl blks Hb F2 IH]; intros axs data W Ld F.
  { exists data. split; [reflexivity|]. split; [auto|]. split; [simpl; tauto|auto]. }
  inversion F as [|? ? (Lb & Wr & Rec & Vb) F']; subst. cbn [length read_blocks concat]. rewrite <- app_assoc.
  destruct (read_block_ok g gb fields axs data (fst b) (snd b) (concat blks ++ rest) blk W G Ld Lb Wr Rec Hb) as (d1 & E & L1 & V1 & U1).
  rewrite E. cbn [obind]. fold (lims_of (fst b)) (bcs_of (fst b)). fold (touches axs (fst b)).
  fold (upd axs (fst b)). set (axs1 := upd axs (fst b)).
  assert (same_layout axs1 axs) as Sm by apply upd_same.
  assert (same_layout axs axs1) as Sm' by (apply same_sym; auto).
  destruct (IH axs1 d1) as (d2 & E2 & L2 & V2 & U2).
  { eapply same_wf; eauto. } { rewrite L1. symmetry. apply same_cells; auto. }
  { rewrite (same_len _ _ Sm). exact F'. }
  rewrite E2. cbn [obind].
  pose proof Sm as (M1 & M2 & M3 & M4 & _). rewrite M1, M2 in V2. rewrite M1, M2, M3, M4 in U2.
  assert (forall x, encode axs1 x = encode axs x) as En by (intros; apply same_encode; auto).
  exists d2. split; [|split; [|split]].
  - cbn [map fold_left]. rewrite (map_ext (touches axs1) (touches axs)); [reflexivity|].
    intros a. apply touches_same; auto.
  - rewrite L2. apply same_cells; auto.
  - intros x b' Hx [->|Hin] Hb'.
    + assert ((exists b2, In b2 bl /\ in_box (map a_x0 (fst b2)) (map a_x1 (fst b2)) x) \/
              (forall b2, In b2 bl -> ~ in_box (map a_x0 (fst b2)) (map a_x1 (fst b2)) x)) as [(b2 & I2 & B2)|No].
      { clear. induction bl as [|b2 bl [(b3 & I & B)|IH]]; [right; simpl; tauto|left; exists b3; simpl; auto|].
        destruct (in_box_dec (map a_x0 (fst b2)) (map a_x1 (fst b2)) x); [left; exists b2; simpl; auto|].
        right. intros b3 [<-|I]; auto. }
      * rewrite <- En. eapply V2; eauto.
      * rewrite <- En, U2; [rewrite En, V1 by auto; apply Vb; auto| |].
        { eapply local_in_storage; eauto. }
        { intros b2 I2 [_ B2]. eapply No; eauto. }
    + rewrite <- En. eapply V2; eauto.
  - intros x Hx No. rewrite <- En, U2; [rewrite En; apply U1; auto; apply No; simpl; auto|auto|].
    intros b2 I2. apply No. simpl. auto.
Qed.

Lemma read_ok (V : list Z -> T) g gb fields bl blks axs data rest :
  wf_axes g axs -> 0 <= g -> zlen data = cells axs -> int_range (zlen bl) ->
  Forall (fun b => length (fst b) = length axs /\ writable gb (fst b) (snd b) /\ recognisable c raw compress (fst b) (snd b) /\
            forall x, in_box (map a_x0 (fst b)) (map a_x1 (fst b)) x -> get (snd b) (encode (fst b) x) = Some (V x)) bl ->
  Forall2 (fun b blk => write_buffer c raw compress (fst b) (snd b) = Some blk) bl blks ->
  exists data',
    read c fresh raw uncompress fields (mkLocal axs data) (pd_enc pod_int (zlen bl) ++ concat blks ++ rest) =
      Done (mkLocal (fold_left upd (map fst bl) axs) data', map (touches axs) (map fst bl)) /\
    zlen data' = cells axs /\
    (forall x b, in_box (map a_x0 axs) (map a_x1 axs) x -> In b bl -> in_box (map a_x0 (fst b)) (map a_x1 (fst b)) x ->
       get data' (encode axs x) = Some (V x)) /\
    (forall x, in_box (map a_s0 axs) (map a_s1 axs) x ->
       (forall b, In b bl -> ~ (in_box (map a_x0 axs) (map a_x1 axs) x /\ in_box (map a_x0 (fst b)) (map a_x1 (fst b)) x)) ->
       get data' (encode axs x) = get data (encode axs x)).
Proof using S Z1.
  intros W G Ld R F F2. unfold read. rewrite read_bin_int_ok by auto. cbn [obind].
  unfold zlen at 1. rewrite Nat2Z.id. eapply read_blocks_ok; eauto.
Qed.
End Block.
