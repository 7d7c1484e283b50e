(* Reading files that end too early. *)
From Coq Require Import Permutation.
From Verif Require Import Model.Base Model.Text Model.Boundary Model.Layout Model.Setup Model.Codec Model.Region Model.File Spec.Box Spec.Bytes Spec.Decomp Spec.File
  Spec.Access Proof.BaseL Proof.TextL Proof.LayoutL Proof.AccessL Proof.CodecL Proof.RegionL Proof.FileL Proof.SetupL Proof.CheckpointL.
Local Open Scope list_scope.
Local Open Scope Z_scope.

(* what a reader makes of the beginning p of p ++ q: the same as of the whole, or nothing *)
Definition strict {A} (P : list byte -> outcome (A * list byte)) : Prop :=
  forall p q a r, P (p ++ q) = Done (a, r) -> (exists r', P p = Done (a, r') /\ r = r' ++ q) \/ P p = Undef.
(* or anything, if it uses up all of p *)
Definition soft {A} (P : list byte -> outcome (A * list byte)) : Prop :=
  (forall p q a r, P (p ++ q) = Done (a, r) -> (exists r', P p = Done (a, r') /\ r = r' ++ q) \/ P p = Undef \/ exists a', P p = Done (a', [])) /\
  (P [] = Undef \/ exists a', P [] = Done (a', [])).

Lemma strict_bind {A B} (P : list byte -> outcome (A * list byte)) (Q : A -> list byte -> outcome (B * list byte)) :
  strict P -> (forall a, strict (Q a)) -> strict (fun s => got (a, s) <- P s; Q a s).
Proof.
  intros HP HQ p q b r E. destruct (P (p ++ q)) as [[a s]| |] eqn:E1; cbn [obind] in E; try discriminate.
  destruct (HP p q a s E1) as [(s' & -> & ->)| -> ]; [|now right]. cbn [obind]. exact (HQ a s' q b r E).
Qed.
Lemma soft_bind {A B} (P : list byte -> outcome (A * list byte)) (Q : A -> list byte -> outcome (B * list byte)) :
  soft P -> (forall a, soft (Q a)) -> soft (fun s => got (a, s) <- P s; Q a s).
Proof.
  intros [HP DP] HQ. split.
  - intros p q b r E. destruct (P (p ++ q)) as [[a s]| |] eqn:E1; cbn [obind] in E; try discriminate.
    destruct (HP p q a s E1) as [(s' & -> & ->)| [-> | (a' & ->)]]; [| |right]; cbn [obind]; [exact (proj1 (HQ a) s' q b r E)|now right; left|exact (proj2 (HQ a'))].
  - destruct DP as [-> | (a & ->)]; cbn [obind]; [now left|exact (proj2 (HQ a))].
Qed.
Lemma strict_soft {A} (P : list byte -> outcome (A * list byte)) : strict P -> P [] = Undef -> soft P.
Proof. intros H D. split; [|now left]. intros p q a r E. destruct (H p q a r E); auto. Qed.

Lemma read_n_strict n : strict (fun s => req (read_n n s)).
Proof.
  intros p q a r E. unfold read_n in *. destruct ((0 <=? n) && (n <=? zlen (p ++ q))) eqn:G; cbn [req] in *; [|discriminate].
  injection E as <- <-. destruct (n <=? zlen p) eqn:L.
  - left. replace ((0 <=? n) && true) with true by lia. eexists. cbn [req].
    rewrite firstn_app, skipn_app. replace (Z.to_nat n - length p)%nat with O by (unfold zlen in L; lia). rewrite firstn_O, skipn_O, app_nil_r. split; reflexivity.
  - right. now rewrite andb_false_r.
Qed.
Lemma ret_strict {A} (a : A) : strict (fun s => Done (a, s)).
Proof. intros p q b r E. injection E as <- <-. left. eauto. Qed.
Lemma read_bin_int_strict : strict read_bin_int.
Proof. apply (strict_bind (fun s => req (read_n 4 s)) (fun b s => Done (pd_dec pod_int b, s))); [apply read_n_strict|intros; apply ret_strict]. Qed.
Lemma read_bin_ulong_strict : strict read_bin_ulong.
Proof. apply (strict_bind (fun s => req (read_n 8 s)) (fun b s => Done (pd_dec pod_ulong b, s))); [apply read_n_strict|intros; apply ret_strict]. Qed.
Lemma read_pairs_strict d : strict (read_pairs d).
Proof.
  induction d as [|d IH]; [apply ret_strict|]. cbn [read_pairs].
  apply (strict_bind read_bin_int (fun lo s => got (hi, s) <- read_bin_int s; got (l, s) <- read_pairs d s; Done ((lo, hi) :: l, s))); [apply read_bin_int_strict|intros lo].
  apply (strict_bind read_bin_int (fun hi s => got (l, s) <- read_pairs d s; Done ((lo, hi) :: l, s))); [apply read_bin_int_strict|intros hi].
  apply (strict_bind (read_pairs d) (fun l s => Done ((lo, hi) :: l, s))); [exact IH|intros; apply ret_strict].
Qed.

(* ---- text ---- *)
Lemma ret_soft {A} (a : A) : soft (fun s => Done (a, s)).
Proof. split; [|right; eauto]. intros p q b r E. injection E as <- <-. left. eauto. Qed.
Lemma span_cut pr q : forall p, snd (span pr p) = [] \/ span pr (p ++ q) = (fst (span pr p), snd (span pr p) ++ q).
Proof.
  induction p as [|b p IH]; [now left|]. cbn [app span]. destruct (pr b); [|now right].
  destruct (span pr p) as [u v]. cbn [fst snd] in IH. destruct IH as [-> | E]; [now left|]. right. now rewrite E.
Qed.
Lemma skip_cut q : forall p, skip_space p = [] \/ skip_space (p ++ q) = skip_space p ++ q.
Proof. induction p as [|b p IH]; [now left|]. cbn [app skip_space]. destruct (is_space b); [exact IH|now right]. Qed.
Definition unsigned (neg : bool) (s : list byte) : option (Z * list byte) :=
  let (ds, rest) := span is_digit s in
  match ds with
  | [] => None
  | _ => let v := if neg then - digits_val ds else digits_val ds in
         if (- 2147483648 <=? v) && (v <? 2147483648) then Some (v, rest) else None
  end.
Lemma read_int_eq s : read_int s = match skip_space s with b :: t => if b =? 45 then unsigned true t else if b =? 43 then unsigned false t else unsigned false (b :: t) | [] => None end.
Proof. unfold read_int. destruct (skip_space s) as [|b t]; [reflexivity|]. destruct (b =? 45); [reflexivity|]. destruct (b =? 43); reflexivity. Qed.
Lemma unsigned_cut neg p q v r : unsigned neg (p ++ q) = Some (v, r) ->
  (exists r', unsigned neg p = Some (v, r') /\ r = r' ++ q) \/ unsigned neg p = None \/ exists v', unsigned neg p = Some (v', []).
Proof.
  unfold unsigned. destruct (span_cut is_digit q p) as [E|E].
  - intros _. right. destruct (span is_digit p) as [u w]. cbn [snd] in E. subst w. destruct u; [now left|]. cbv zeta. destruct (_ && _); [right; eauto|now left].
  - rewrite E. destruct (span is_digit p) as [u w]. cbn [fst snd]. destruct u; [discriminate|]. cbv zeta. destruct (_ && _); [|discriminate]. intros X. injection X as <- <-. left. eauto.
Qed.
Lemma read_int_cut p q v r : read_int (p ++ q) = Some (v, r) ->
  (exists r', read_int p = Some (v, r') /\ r = r' ++ q) \/ read_int p = None \/ exists v', read_int p = Some (v', []).
Proof.
  rewrite !read_int_eq. destruct (skip_cut q p) as [E|E]; rewrite E; [auto|]. destruct (skip_space p) as [|b t]; [auto|]. cbn [app].
  destruct (b =? 45); [apply unsigned_cut|]. destruct (b =? 43); [apply unsigned_cut|]. exact (unsigned_cut false (b :: t) q v r).
Qed.
Lemma read_int_soft : soft (fun s => req (read_int s)).
Proof.
  split; [|now left]. intros p q v r E. destruct (read_int (p ++ q)) as [[v0 r0]|] eqn:E1; [|discriminate]. cbn [req] in E. injection E as -> ->.
  destruct (read_int_cut p q v r E1) as [(r' & -> & ->)| [-> | (v' & ->)]]; cbn [req]; eauto.
Qed.
Lemma read_gs_soft d : soft (fun s => req (read_gs d s)).
Proof.
  induction d as [|d IH]; [apply (ret_soft (@nil gaxis))|].
  pose proof (soft_bind (fun s => req (read_int s)) (fun lo s => got (hi, s) <- req (read_int s); got (gs, s) <- req (read_gs d s); Done (mkG lo hi :: gs, s)) read_int_soft
    (fun lo => soft_bind (fun s => req (read_int s)) (fun hi s => got (gs, s) <- req (read_gs d s); Done (mkG lo hi :: gs, s)) read_int_soft
      (fun hi => soft_bind (fun s => req (read_gs d s)) (fun gs s => Done (mkG lo hi :: gs, s)) IH (fun gs => ret_soft _)))) as H.
  assert (forall s, req (read_gs (S d) s) = got (lo, s) <- req (read_int s); got (hi, s) <- req (read_int s); got (gs, s) <- req (read_gs d s); Done (mkG lo hi :: gs, s)) as E.
  { intros s. cbn [read_gs]. destruct (read_int s) as [[lo s1]|]; cbn [bind req obind]; [|reflexivity]. destruct (read_int s1) as [[hi s2]|]; cbn [bind req obind]; [|reflexivity].
    destruct (read_gs d s2) as [[l s3]|]; reflexivity. }
  destruct H as [H1 H2]. split; [|now rewrite E]. intros p q a r. rewrite !E. apply H1.
Qed.

Section Dx.
Context {D : Type} (dparse : list byte -> option D).
Lemma token_soft : soft (fun s => let (tok, s) := span is_float_char (skip_space s) in req (do x <- dparse tok; Some (x, s))).
Proof.
  split.
  - intros p q a r. destruct (skip_cut q p) as [E|E]; rewrite E.
    + intros _. right. cbn [span]. destruct (dparse []); cbn [bind req]; [right; eauto|now left].
    + destruct (span_cut is_float_char q (skip_space p)) as [E2|E2].
      * intros _. right. destruct (span is_float_char (skip_space p)) as [u w]. cbn [snd] in E2. subst w. destruct (dparse u); cbn [bind req]; [right; eauto|now left].
      * rewrite E2. destruct (span is_float_char (skip_space p)) as [u w]. cbn [fst snd]. destruct (dparse u); cbn [bind req]; [|discriminate]. intros X. injection X as <- <-. left. eauto.
  - cbn [skip_space span]. destruct (dparse []); cbn [bind req]; [right; eauto|now left].
Qed.
Lemma read_dx_soft d : soft (fun s => req (read_dx dparse d s)).
Proof.
  induction d as [|d IH]; [apply (ret_soft (@nil D))|].
  pose proof (soft_bind _ (fun x s => got (l, s) <- req (read_dx dparse d s); Done (x :: l, s)) token_soft
    (fun x => soft_bind (fun s => req (read_dx dparse d s)) (fun l s => Done (x :: l, s)) IH (fun l => ret_soft _))) as H.
  assert (forall s, req (read_dx dparse (S d) s) = got (x, s) <- (let (tok, s) := span is_float_char (skip_space s) in req (do x <- dparse tok; Some (x, s))); got (l, s) <- req (read_dx dparse d s); Done (x :: l, s)) as E.
  { intros s. cbn [read_dx]. destruct (span is_float_char (skip_space s)) as [tok s1]. destruct (dparse tok) as [x|]; cbn [bind req obind]; [|reflexivity].
    destruct (read_dx dparse d s1) as [[l s2]|]; reflexivity. }
  destruct H as [H1 H2]. split; [|now rewrite E]. intros p q a r. rewrite !E. apply H1.
Qed.
Lemma ignore_cut q : forall n p, ignore n p = [] \/ ignore n (p ++ q) = ignore n p ++ q.
Proof. induction n as [|n IH]; intros p; [now right|]. destruct p as [|b p]; [now left|]. cbn [app ignore]. destruct (b =? 10); [now right|apply IH]. Qed.
Lemma ignore_soft {A} n (a : A) : soft (fun s => Done (a, ignore n s)).
Proof.
  split.
  - intros p q b r E. injection E as <- <-. destruct (ignore_cut q n p) as [E|E]; [right; right; rewrite E; eauto|left; eauto].
  - right. exists a. now destruct n.
Qed.

(* after the dimension *)
Definition rest_of_header (d : nat) (s : list byte) : outcome ((Z * list gaxis * list D) * list byte) :=
  got (fields, s) <- req (read_int s); got (gs, s) <- req (read_gs d s); got (dx, s) <- req (read_dx dparse d s); Done ((fields, gs, dx), ignore 10 s).
Lemma rest_soft d : soft (rest_of_header d).
Proof.
  apply (soft_bind (fun s => req (read_int s)) (fun fields s => got (gs, s) <- req (read_gs d s); got (dx, s) <- req (read_dx dparse d s); Done ((fields, gs, dx), ignore 10 s))); [apply read_int_soft|intros fields].
  apply (soft_bind (fun s => req (read_gs d s)) (fun gs s => got (dx, s) <- req (read_dx dparse d s); Done ((fields, gs, dx), ignore 10 s))); [apply read_gs_soft|intros gs].
  apply (soft_bind (fun s => req (read_dx dparse d s)) (fun dx s => Done ((fields, gs, dx), ignore 10 s))); [apply read_dx_soft|intros dx; apply ignore_soft].
Qed.
End Dx.

(* the dimension of a file *)
Lemma dim_cut d p q rest : 1 <= d <= 3 -> p ++ q = show_int d ++ 10 :: rest -> read_dim p = Undef \/ exists r', read_dim p = Done (d, r') /\ 10 :: rest = r' ++ q.
Proof.
  intros Hd E. assert (exists b, show_int d = [b] /\ b = 48 + d) as (b & Eb & Hb) by (assert (d = 1 \/ d = 2 \/ d = 3) as [-> | [-> | ->]] by lia; eexists; split; reflexivity).
  rewrite Eb in E. destruct p as [|x p]; [now left|]. cbn [app] in E. injection E as -> E. right. exists p. split; [|now symmetry].
  unfold read_dim. assert (read_int ([] ++ show_int d ++ p) = Some (d, p)) as R.
  { apply read_show; [constructor|unfold int_range; lia|]. destruct p as [|y p]; [exact I|]. cbn [app] in E. injection E as -> _. reflexivity. }
  rewrite Eb in R. cbn [app] in R. now rewrite R.
Qed.

Section File.
Context {T : Type} (c : codec T) (valid : T -> Prop) (fresh : Z -> T) (raw : bool).
Context (compress : list byte -> list byte) (uncompress : list byte -> Z -> option (list byte)).
Context {D : Type} (dshow : D -> list byte) (dparse : list byte -> option D).
Context (S : serialises c valid) (Z1 : lossless compress uncompress).

Lemma header_cut name fields gs dx p q body : good_name name -> int_range fields -> 1 <= zlen gs <= 3 -> Forall int_box gs -> Forall (exact_text dshow dparse) dx -> length dx = length gs ->
  p ++ q = header dshow name fields gs dx ++ body ->
  (exists r', read_header dparse name (length gs) p = Done (fields, gs, dx, r') /\ body = r' ++ q) \/
  (exists f' gs' dx', read_header dparse name (length gs) p = Done (f', gs', dx', [])) \/
  read_header dparse name (length gs) p = Undef \/
  (length p < length name)%nat /\ exists code, read_header dparse name (length gs) p = Exit code.
Proof.
  intros Gn Hf Hd Hg Hx Ld E. assert (int_range (zlen gs)) as Hz by (unfold int_range; lia).
  pose proof (read_header_ok dshow dparse name fields gs dx body Gn Hf Hz Hg Hx Ld) as Full. rewrite <- E in Full.
  unfold header in E. rewrite <- !app_assoc in E. apply app_eq_app in E as (l & [[E1 E2]|[E1 E2]]).
  - destruct l as [|b l].
    + rewrite app_nil_r in E1. right. right. left. subst p. unfold read_header. assert (getline name = (name, [])) as ->.
      { unfold getline. destruct Gn as [_ N]. assert (span (fun b => negb (b =? 10)) name = (name, [])) as ->; [|reflexivity].
        clear -N. induction N as [|b l Hb N IH]; [reflexivity|]. cbn [span]. destruct (Z.eqb_spec b 10); [contradiction|]. cbn [negb]. now rewrite IH. }
      destruct (alias_good name Gn) as [a ->]. destruct (list_eq_dec Z.eq_dec name name); [reflexivity|congruence].
    + cbn [app] in E2. injection E2 as <- E2. subst p. rewrite <- app_assoc in Full. cbn [app] in Full. unfold read_header in Full |- *. rewrite getline_app in Full |- * by apply Gn.
      destruct (alias_good name Gn) as [a Ea]. rewrite Ea in Full |- *. destruct (list_eq_dec Z.eq_dec name name); [|congruence]. cbn [negb andb] in *.
      destruct (dim_cut (zlen gs) l q _ Hd (eq_sym E2)) as [-> | (r' & R & Er)]; [right; right; now left|]. rewrite R. rewrite <- E2 in Full.
      unfold read_dim in Full. change (show_int (zlen gs) ++ ?l) with ([] ++ show_int (zlen gs) ++ l) in Full. cbn [app] in Full.
      match type of Full with context [read_int (show_int (zlen gs) ++ ?l)] => pose proof (read_show [] (zlen gs) l (Forall_nil _) Hz eq_refl) as Rs; cbn [app] in Rs; rewrite Rs in Full; clear Rs end.
      cbn [obind] in Full |- *. assert ((zlen gs =? Z.of_nat (length gs)) = true) as Ez by (unfold zlen; apply Z.eqb_refl). rewrite Ez in Full |- *. cbn [negb] in Full |- *. cbn [app] in Er. rewrite Er in Full.
      assert (forall s, (got (fields, s) <- req (read_int s); got (gs0, s) <- req (read_gs (length gs) s); got (dx, s) <- req (read_dx dparse (length gs) s); Done (fields, gs0, dx, ignore 10 s)) = rest_of_header dparse (length gs) s) as EH by reflexivity.
      rewrite EH in Full |- *. destruct (rest_soft dparse (length gs)) as [So _]. destruct (So r' q _ _ Full) as [(x & -> & ->) | [-> | (((f' & gs') & dx') & ->)]]; [left; eauto|right; right; now left|right; left; eauto].
  - destruct l as [|b l].
    + (* p = name *) rewrite app_nil_r in E1. subst p. right. right. left. unfold read_header. assert (getline name = (name, [])) as ->.
      { unfold getline. destruct Gn as [_ N]. assert (span (fun b => negb (b =? 10)) name = (name, [])) as ->; [|reflexivity].
        clear -N. induction N as [|b l Hb N IH]; [reflexivity|]. cbn [span]. destruct (Z.eqb_spec b 10); [contradiction|]. cbn [negb]. now rewrite IH. }
      destruct (alias_good name Gn) as [a ->]. destruct (list_eq_dec Z.eq_dec name name); [reflexivity|congruence].
    + right. right. assert (length p < length name)%nat as Lp by (rewrite E1, app_length; cbn; lia).
      unfold read_header. assert (snd (getline p) = []) as Eg.
      { unfold getline. destruct Gn as [_ N]. rewrite E1 in N. apply Forall_app in N as [N _]. assert (span (fun b => negb (b =? 10)) p = (p, [])) as ->; [|reflexivity].
        clear -N. induction N as [|x t Hb N IH]; [reflexivity|]. cbn [span]. destruct (Z.eqb_spec x 10); [contradiction|]. cbn [negb]. now rewrite IH. }
      destruct (getline p) as [type s0]. cbn [snd] in Eg. subst s0. destruct (scalar_alias type); [|right; eauto]. destruct (negb _ && negb _); [right; eauto|]. now left.
Qed.

(* ---- blocks ---- *)
Lemma block_cut fields st p q st' r : read_block c fresh raw uncompress fields st (p ++ q) = Done (st', true, r) ->
  (exists r', read_block c fresh raw uncompress fields st p = Done (st', true, r') /\ r = r' ++ q) \/ read_block c fresh raw uncompress fields st p = Undef.
Proof.
  unfold read_block. intros E.
  destruct (read_pairs _ (p ++ q)) as [[lims s1]| |] eqn:E1; cbn [obind] in E; try discriminate. apply read_pairs_strict in E1 as [(s1' & -> & ->) | ->]; [|now right]. cbn [obind].
  destruct (read_pairs _ (s1' ++ q)) as [[bcs s2]| |] eqn:E2; cbn [obind] in E; try discriminate. apply read_pairs_strict in E2 as [(s2' & -> & ->) | ->]; [|now right]. cbn [obind].
  destruct (read_bin_ulong (s2' ++ q)) as [[m s3]| |] eqn:E3; cbn [obind] in E; try discriminate. apply read_bin_ulong_strict in E3 as [(s3' & -> & ->) | ->]; [|now right]. cbn [obind].
  destruct (read_bin_ulong (s3' ++ q)) as [[n s4]| |] eqn:E4; cbn [obind] in E; try discriminate. apply read_bin_ulong_strict in E4 as [(s4' & -> & ->) | ->]; [|now right]. cbn [obind].
  destruct (forallb _ _); [|discriminate].
  destruct (req (read_n n (s4' ++ q))) as [[b s5]| |] eqn:E5; cbn [obind] in E; try discriminate. apply (read_n_strict n) in E5 as [(s5' & E5 & ->) | E5]; rewrite E5; [|now right]. cbn [obind].
  destruct (read_overlap _ _ _ _ _ _ _ _ _ _ _) as [x| |]; cbn [obind] in *; try discriminate. injection E as <- <-. left. eauto.
Qed.

Definition block_ok (gb : Z) (d : nat) (b : list axis * list T) : Prop := length (fst b) = d /\ writable valid gb (fst b) (snd b) /\ recognisable c raw compress (fst b) (snd b).

Lemma blocks_cut gb d bl blks : Forall (block_ok gb d) bl -> Forall2 (fun b blk => write_buffer c raw compress (fst b) (snd b) = Some blk) bl blks ->
  forall p q, q <> [] -> p ++ q = concat blks ->
  exists b, In b bl /\ forall g fields axs data, wf_axes g axs -> 0 <= g -> zlen data = cells axs -> length axs = d -> touches axs (fst b) = true ->
    read_blocks c fresh raw uncompress (length bl) fields (mkLocal axs data) p = Undef.
Proof using S Z1.
  intros F F2. induction F2 as [|b blk bl blks Hb F2 IH]; intros p q Nq E.
  { cbn [concat] in E. apply app_eq_nil in E as [_ E]. congruence. }
  inversion F as [|? ? (Lb & Wr & Rec) F']; subst. cbn [concat] in E.
  assert ((exists p', p = blk ++ p' /\ p' ++ q = concat blks) \/ exists q1, blk = p ++ q1 /\ q1 <> []) as [(p' & -> & E')|(q1 & -> & N1)].
  { apply app_eq_app in E as (l & [[-> E]|[-> E]]); [left; eauto|]. destruct l as [|x l]; [|right; exists (x :: l); split; [reflexivity|discriminate]].
    rewrite app_nil_r in *. left. exists []. rewrite app_nil_r. split; [reflexivity|exact E]. }
  - destruct (IH F' p' q Nq E') as (b' & I' & H). exists b'. split; [now right|]. intros g fields axs data W G Ld La Tb. cbn [length read_blocks].
    destruct (read_block_ok c valid fresh raw compress uncompress S Z1 g gb fields axs data (fst b) (snd b) p' blk W G Ld ltac:(congruence) Wr Rec Hb) as (d1 & E1 & L1 & _ & _).
    rewrite E1. cbn [obind]. fold (lims_of (fst b)) (bcs_of (fst b)). fold (touches axs (fst b)). fold (upd axs (fst b)).
    pose proof (upd_same axs (fst b)) as Sm. assert (same_layout axs (upd axs (fst b))) as Sm' by (apply same_sym; auto).
    rewrite (H g fields (upd axs (fst b)) d1); [reflexivity|eapply same_wf; eauto|exact G|rewrite L1; symmetry; now apply same_cells|rewrite (same_len _ _ Sm); exact La|].
    rewrite (touches_same _ _ (fst b') Sm). exact Tb.
  - exists b. split; [now left|]. intros g fields axs data W G Ld La Tb. cbn [length read_blocks].
    destruct (read_block_ok c valid fresh raw compress uncompress S Z1 g gb fields axs data (fst b) (snd b) [] (p ++ q1) W G Ld ltac:(congruence) Wr Rec Hb) as (d1 & E1 & _).
    fold (lims_of (fst b)) (bcs_of (fst b)) in E1. fold (touches axs (fst b)) in E1. rewrite Tb, app_nil_r in E1.
    apply block_cut in E1 as [(r' & _ & Er) | ->]; [|reflexivity]. symmetry in Er. apply app_eq_nil in Er as [_ Er]. congruence.
Qed.

Lemma input_cut name fields gs dx gb bl blks p q : good_name name -> int_range fields -> 1 <= zlen gs <= 3 -> Forall int_box gs -> Forall (exact_text dshow dparse) dx -> length dx = length gs ->
  0 < zlen bl -> int_range (zlen bl) -> Forall (block_ok gb (length gs)) bl -> Forall2 (fun b blk => write_buffer c raw compress (fst b) (snd b) = Some blk) bl blks ->
  p ++ q = header dshow name fields gs dx ++ pd_enc pod_int (zlen bl) ++ concat blks -> q <> [] ->
  exists b, In b bl /\ forall setup ge g, setup gs = Some ge -> wf_axes g (ge_axes ge) -> 0 <= g -> length (ge_axes ge) = length gs -> touches (ge_axes ge) (fst b) = true ->
    input c fresh dparse raw uncompress setup name (length gs) p = Undef \/
    (length p < length name)%nat /\ exists code, input c fresh dparse raw uncompress setup name (length gs) p = Exit code.
Proof using S Z1.
  intros Gn Hf Hd Hg Hx Ld Nb Hn F F2 E Nq.
  assert (exists b, In b bl) as (b0 & I0) by (destruct bl as [|b bl]; [change (zlen (@nil (list axis * list T))) with 0 in Nb; lia|exists b; now left]).
  destruct (header_cut name fields gs dx p q _ Gn Hf Hd Hg Hx Ld E) as [(r & H & Er)|[(f' & gs' & dx' & H)|[H|[L (code & H)]]]].
  - pose proof (read_bin_int_ok (zlen bl) (concat blks) Hn) as Ri. rewrite Er in Ri. apply read_bin_int_strict in Ri as [(r1 & Ri & Er1)|Ri].
    + destruct (blocks_cut gb (length gs) bl blks F F2 r1 q Nq (eq_sym Er1)) as (b & Ib & Hb). exists b. split; [exact Ib|]. intros setup ge g Sg W G Lg Tb. left.
      unfold input. rewrite H. cbn [obind]. rewrite Sg. cbn [req obind]. unfold read. rewrite Ri. cbn [obind]. replace (Z.to_nat (zlen bl)) with (length bl) by (unfold zlen; lia).
      rewrite (Hb g); [reflexivity|exact W|exact G| |exact Lg|exact Tb]. unfold zlen. rewrite repeat_length. pose proof (cells_nonneg g _ G W). lia.
    + exists b0. split; [exact I0|]. intros setup ge g Sg _ _ _ _. left. unfold input. rewrite H. cbn [obind]. rewrite Sg. cbn [req obind]. unfold read. now rewrite Ri.
  - exists b0. split; [exact I0|]. intros setup ge g _ _ _ _ _. left. unfold input. rewrite H. cbn [obind]. destruct (setup gs'); reflexivity.
  - exists b0. split; [exact I0|]. intros setup ge g _ _ _ _ _. left. unfold input. now rewrite H.
  - exists b0. split; [exact I0|]. intros setup ge g _ _ _ _ _. right. split; [exact L|]. exists code. unfold input. now rewrite H.
Qed.
End File.
