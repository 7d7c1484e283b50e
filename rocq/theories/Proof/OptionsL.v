From Coq Require Import String QArith.QArith QArith.Qcanon ZifyBool.
From Verif Require Import Model.Base Model.Text Model.Num Model.Ghostswap Model.File Model.Driver Model.Types Model.Stencil Model.Evolve Model.Image Model.Table Model.Options
  Spec.Driver Spec.Options Proof.BaseL Proof.TextL Proof.DriverL Proof.PvdL Proof.TableF.
Local Open Scope list_scope.
Local Open Scope Z_scope.

(* ---- tokens ---- *)
Lemma pieces_word w : ~ In 44 w -> pieces w = [w].
Proof.
  induction w as [|b w IH]; intros N; [reflexivity|]. cbn [pieces]. destruct (Z.eqb_spec b 44) as [->|_]; [exfalso; apply N; now left|].
  rewrite IH by (intros X; apply N; now right). reflexivity.
Qed.
Lemma pieces_comma w r : ~ In 44 w -> pieces ((w : list byte) ++ 44 :: r) = w :: pieces r.
Proof.
  induction w as [|b w IH]; intros N; [reflexivity|]. cbn [pieces app]. destruct (Z.eqb_spec b 44) as [->|_]; [exfalso; apply N; now left|].
  rewrite IH by (intros X; apply N; now right). reflexivity.
Qed.
Lemma parts_word w : w <> [] -> ~ In 44 w -> parts w = [w].
Proof. intros Ne N. unfold parts. rewrite pieces_word by auto. destruct w; [easy|reflexivity]. Qed.
Lemma parts_comma w r : w <> [] -> ~ In 44 w -> parts ((w : list byte) ++ 44 :: r) = w :: parts r.
Proof. intros Ne N. unfold parts. rewrite pieces_comma by auto. destruct w; [easy|reflexivity]. Qed.
(* a text that does not begin with a comma: its first word, and what follows the comma *)
Lemma first_word (b : byte) (t : list byte) : b <> 44 -> exists w r, ~ In 44 w /\ w <> [] /\ token (b :: t) = Some (w, r) /\ ((b :: t = w /\ r = []) \/ b :: t = w ++ 44 :: r).
Proof.
  intros Hb. unfold token. assert (snd (span (fun b => b =? 44) (b :: t)) = b :: t) as -> by (cbn; destruct (Z.eqb_spec b 44); [easy|reflexivity]).
  assert (forall s, exists w r, span (fun b => negb (b =? 44)) s = (w, r) /\ s = w ++ r /\ ~ In 44 w /\ match r with [] => True | c :: _ => c = 44 end) as X.
  { induction s as [|c s (w & r & E & -> & N & H)]; [exists [], []; cbn; auto|]. cbn [span]. destruct (Z.eqb_spec c 44) as [->|Nc]; cbn [negb].
    - exists [], (44 :: w ++ r). cbn. auto.
    - rewrite E. exists (c :: w), r. split; [reflexivity|]. split; [reflexivity|]. split; [intros [X|X]; [congruence|auto]|auto]. }
  destruct (X (b :: t)) as (w & r & E & Eq & N & H). rewrite E. exists w, (tl r). split; [auto|]. split.
  - intros ->. cbn in Eq. subst r. congruence.
  - split; [reflexivity|]. destruct r as [|c r]; [left; rewrite app_nil_r in Eq; auto|]. subst c. right. exact Eq.
Qed.
Lemma token_comma (t : list byte) : token (44 :: t) = token t.
Proof. unfold token. cbn [span]. change (44 =? 44) with true. cbv iota. destruct (span (fun b => b =? 44) t) as [a c] eqn:E. cbn [snd]. reflexivity. Qed.
Lemma tokens_upto_parts fuel : forall s, (length s < fuel)%nat -> tokens_upto fuel s = parts s.
Proof.
  induction fuel as [|f IH]; intros s L; [lia|]. cbn [tokens_upto]. induction s as [|b t IHs]; [reflexivity|].
  destruct (Z.eq_dec b 44) as [->|Hb].
  - rewrite token_comma. cbn [length] in L. rewrite IHs by lia. reflexivity.
  - destruct (first_word b t Hb) as (w & r & N & Ne & -> & H). destruct H as [[E ->]|E].
    + rewrite E, parts_word by auto. f_equal. destruct f; reflexivity.
    + rewrite E, parts_comma by auto. f_equal. apply IH. apply (f_equal (@length byte)) in E. rewrite app_length in E. unfold byte in *. cbn [length] in L, E. lia.
Qed.
Lemma tokens_parts s : tokens s = parts s.
Proof. apply tokens_upto_parts. lia. Qed.
Lemma parts_commas l : Forall number l -> parts (commas l) = l.
Proof.
  induction l as [|t l IH]; intros F; [reflexivity|]. inversion F as [|? ? [H1 H2] F']; subst. destruct l as [|u l]; [cbn [commas]; now apply parts_word|].
  change (commas (t :: u :: l)) with (t ++ 44 :: commas (u :: l)). rewrite parts_comma by auto. now rewrite IH.
Qed.

(* ---- numbers ---- *)
Lemma show_number n : number (show_int n).
Proof.
  split.
  - unfold show_int. destruct (n <? 0) eqn:E; [discriminate|]. intros X. destruct (show_int_nonneg n ltac:(lia)) as (_ & _ & Ne). apply Ne. unfold show_int. now rewrite E.
  - intros X. unfold show_int in X. destruct (Z.ltb_spec n 0) as [H|H].
    + destruct X as [X|X]; [discriminate|]. destruct (show_nat_spec (S (Z.to_nat (Z.log2 (- n)))) (- n)) as (H1 & _); [lia|pose proof (Z.log2_nonneg (- n)); lia|].
      rewrite Forall_forall in H1. specialize (H1 _ X). discriminate.
    + destruct (show_nat_spec (S (Z.to_nat (Z.log2 n))) n) as (H1 & _); [lia|pose proof (Z.log2_nonneg n); lia|]. rewrite Forall_forall in H1. specialize (H1 _ X). discriminate.
Qed.
Lemma atoi_int n : natural n -> atoi (show_int n) = Some n.
Proof.
  intros [H0 H1]. destruct (show_int_nonneg n H0) as (F & V & Ne). rewrite <- (app_nil_r (show_int n)), atoi_digits; auto.
  - now rewrite V.
  - unfold Driver.numeral. eapply Forall_impl; [|exact F]. intros b. apply digit_bounds.
  - exact I.
  - now rewrite V.
Qed.
Lemma insert_fields_ok ns : Forall natural ns -> forall l, insert_fields (map show_int ns) l = Some (fold_left (fun l k => insert_int k l) ns l).
Proof.
  unfold insert_fields. induction 1 as [|n ns H _ IH]; intros l; [reflexivity|]. cbn [map fold_opt fold_left]. rewrite atoi_int by auto. cbn [bind]. apply IH.
Qed.
Lemma in_insert_int k j l : In j (insert_int k l) <-> j = k \/ In j l.
Proof.
  induction l as [|x l IH]; [cbn; intuition|]. cbn [insert_int]. destruct (Z.ltb_spec k x); [cbn; intuition|]. destruct (Z.ltb_spec x k); [cbn; rewrite IH; intuition|].
  assert (x = k) as -> by lia. cbn. intuition.
Qed.
Lemma in_inserts ns : forall l j, In j (fold_left (fun l k => insert_int k l) ns l) <-> In j ns \/ In j l.
Proof. induction ns as [|n ns IH]; intros l j; [cbn; intuition|]. cbn [fold_left]. rewrite IH, in_insert_int. cbn. intuition. Qed.
Lemma in_insert_num k j l : In j (insert_num k l) <-> j = k \/ In j l.
Proof.
  induction l as [|x l IH]; [cbn; intuition|]. cbn [insert_num]. destruct (qgt x k) eqn:E1; [cbn; intuition|]. destruct (qgt k x) eqn:E2; [cbn; rewrite IH; intuition|].
  assert (x = k) as ->; [|cbn; intuition]. unfold qgt in *. destruct (Qclt_le_dec k x); [discriminate|]. destruct (Qclt_le_dec x k); [discriminate|]. now apply Qcle_antisym.
Qed.
Lemma in_insert_nums (atof : list byte -> Qc) ts : forall l v, In v (fold_left (fun l t => insert_num (atof t) l) ts l) <-> (exists t, In t ts /\ atof t = v) \/ In v l.
Proof.
  induction ts as [|t ts IH]; intros l v; [cbn; split; [auto|intros [(t & [] & _)|H]; auto]|]. cbn [fold_left]. rewrite IH, in_insert_num. split.
  - intros [(u & H1 & H2)|[->|H]]; [left; exists u; cbn; auto|left; exists t; cbn; auto|auto].
  - intros [(u & [->|H1] & H2)|H]; [right; left; auto|left; exists u; auto|auto].
Qed.

(* ---- texts ---- *)
Lemma name_starts p t : a_name t -> Types.starts (45 :: p) t = false.
Proof. destruct t as [|b t]; intros H; [reflexivity|]. cbn [Types.starts]. destruct (Z.eqb_spec 45 b) as [<-|_]; [easy|reflexivity]. Qed.
Lemma finds_mentions e t : finds e t = true <-> mentions e t.
Proof.
  split.
  - induction t as [|b t IH]; cbn [finds]; intros H.
    + rewrite orb_false_r in H. apply PvdL.starts_true in H as (v & H). exists [], v. exact H.
    + apply orb_prop in H as [H|H]; [apply PvdL.starts_true in H as (v & H); exists [], v; exact H|]. destruct (IH H) as (u & v & ->). exists (b :: u), v. reflexivity.
  - intros (u & v & ->). induction u as [|b u IH].
    + cbn [app]. pose proof (PvdL.starts_app e v) as H. destruct (e ++ v) as [|c s]; cbn [finds]; rewrite H; reflexivity.
    + cbn [app finds]. rewrite IH. apply orb_true_r.
Qed.
Lemma finds_false e t : ~ mentions e t -> finds e t = false.
Proof. intros H. destruct (finds e t) eqn:E; [|auto]. exfalso. apply H. now apply finds_mentions. Qed.
Lemma part_app (a b : list byte) n : zlen b <= Z.of_nat n -> part (a ++ b) (length a) n = b.
Proof. intros H. unfold part. rewrite skipn_app, skipn_all, Nat.sub_diag. cbn [app skipn]. apply firstn_all2. unfold zlen in H. lia. Qed.
Lemma contol_ok a : number a -> 2 <= zlen a <= 255 -> contol_text (bytes "--contol=" ++ a) = Done (tl a).
Proof.
  intros [Ne N] [L1 L2]. destruct a as [|c t]; [easy|]. cbn [tl]. unfold zlen in *. cbn [length] in *. unfold contol_text.
  replace (zlen (bytes "--contol=" ++ c :: t)) with (10 + zlen t) by (unfold zlen; rewrite app_length; change (List.length (bytes "--contol=")) with 9%nat; cbn [List.length]; unfold byte; lia).
  pose proof (zlen_nonneg t). replace (10 + zlen t =? 8) with false by lia. replace (10 + zlen t <? 10) with false by lia. change (nth 8 (bytes "--contol=" ++ c :: t) 0) with 61. cbn [orb negb Z.eqb Pos.eqb].
  change (skipn 10 (bytes "--contol=" ++ c :: t)) with t. rewrite firstn_all2 by lia. assert (t <> []) as Nt by (intros ->; cbn in L1; lia).
  rewrite token_whole; [reflexivity|auto|]. intros X. apply N. now right.
Qed.

(* ---- what one argument does ---- *)
Section Effect.
Context (atof : list byte -> Qc).
Definition effect (i : Z) (o : opt) (s : settings) : settings :=
  match o with
  | Mag => with_mode s (Z.max 1 (o_mode s))
  | Invert => with_invert s true
  | White_contours => with_coninv s true
  | Normals => with_normal s true
  | Zoom => with_zoom s (zoom_limit, (- zoom_limit)%Qc)
  | Zoom_between a b => with_zoom s (atof a, atof b)
  | Slice d => with_axis s d
  | Slice_at d n => with_level (with_axis s d) n
  | Tolerance a => with_contol s (atof (tl a))
  | Contours n ls => with_lvlfield (with_levels s (fold_left (fun l t => insert_num (atof t) l) ls (o_levels s))) n
  | Fields ns => with_fields (with_mode s (Z.max 2 (o_mode s))) (fold_left (fun l k => insert_int k l) ns (o_fields s))
  | Without ns => with_fields (with_mode s (Z.max 3 (o_mode s))) (fold_left (fun l k => insert_int k l) ns (o_fields s))
  | Input _ => with_dat s i
  | Output _ => with_out s i
  end.
Definition flag_of (p : program) := match p with Png => png_flag atof | Xyz => xyz_flag atof end.

Lemma common_name p i t s : a_name t -> common_flag atof (extension p) i t s = Done (if finds (extension p) t then with_out s i else with_dat s i).
Proof. intros H. unfold common_flag. cbn [bytes]. rewrite !name_starts by auto. destruct (finds _ _); reflexivity. Qed.
Lemma name_ne (u t : list byte) : a_name t -> t <> 45 :: u.
Proof. intros H ->. exact H. Qed.
Lemma flag_name p i t s : a_name t -> flag_of p i t s = Done (if finds (extension p) t then with_out s i else with_dat s i).
Proof.
  intros H. destruct p; cbn [flag_of]; [unfold png_flag|unfold xyz_flag]; repeat (destruct (list_eq_dec _ _ _) as [->|_]; [exfalso; exact H|]).
  - cbn [bytes]. rewrite !name_starts by auto. now apply (common_name Png).
  - now apply (common_name Xyz).
Qed.
Ltac known := repeat match goal with
  | |- context [Types.starts ?p ?f] => let b := eval lazy in (Types.starts p f) in change (Types.starts p f) with b; cbv iota
  | |- context [at_ ?f ?k] => let b := eval lazy in (at_ f k) in change (at_ f k) with b
  | |- context [list_eq_dec Z.eq_dec ?a ?b] => destruct (list_eq_dec Z.eq_dec a b) as [E|_]; [discriminate E|]
  end.
Lemma longer (f : list byte) x n : Z.of_nat (length f) <> n -> Z.of_nat (length f) >= n -> zlen (f ++ x) =? n = false.
Proof. intros. unfold zlen. rewrite app_length. apply Z.eqb_neq. lia. Qed.
Lemma after_app (f x : list byte) k : length f = k -> zlen x <= 255 -> part (f ++ x) k 255 = x.
Proof. intros <- H. apply part_app. exact H. Qed.

Lemma common_text p i o s : well_formed p o -> match o with Tolerance _ | Contours _ _ | Fields _ | Without _ => True | _ => False end ->
  common_flag atof (extension p) i (text o) s = Done (effect i o s).
Proof.
  intros W K. destruct o; try easy; cbn [text effect well_formed] in *; unfold common_flag; known.
  - destruct W as [W1 W2]. rewrite contol_ok by auto. reflexivity.
  - destruct W as (W1 & W2 & W3). rewrite longer by (cbn; lia). cbn [orb negb]. change (negb (61 =? eq_sign)) with false. cbv iota.
    rewrite after_app by (reflexivity || exact W3). rewrite tokens_parts, parts_commas by (constructor; [apply show_number|auto]).
    rewrite atoi_int by auto. cbn [req obind]. destruct (Z.eqb_spec field (-1)) as [->|_]; [destruct W1; lia|reflexivity].
  - destruct W as (W1 & W2). change (negb (61 =? eq_sign)) with false. cbv iota.
    rewrite after_app by (reflexivity || exact W2). rewrite tokens_parts, parts_commas by (apply Forall_map, Forall_forall; intros; apply show_number).
    rewrite insert_fields_ok by auto. reflexivity.
  - destruct W as (W1 & W2). rewrite longer by (cbn; lia). change (negb (61 =? eq_sign)) with false. cbn [orb].
    rewrite after_app by (reflexivity || exact W2). rewrite tokens_parts, parts_commas by (apply Forall_map, Forall_forall; intros; apply show_number).
    rewrite insert_fields_ok by auto. reflexivity.
Qed.
Lemma slice_letter d old : 0 <= d <= 2 -> slice_axis (letter d) old = d.
Proof. intros H. assert (d = 0 \/ d = 1 \/ d = 2) as [->|[->| ->]] by lia; reflexivity. Qed.
Lemma show_nat_length f : forall n k, 0 <= n < 10 ^ Z.of_nat (S k) -> (length (show_nat f n) <= S k)%nat.
Proof.
  induction f as [|f IH]; intros n k H; [cbn; lia|]. cbn [show_nat]. destruct (Z.ltb_spec n 10); [cbn; lia|]. rewrite app_length. cbn [length].
  destruct k as [|k]; [change (10 ^ Z.of_nat 1) with 10 in H; lia|]. assert (length (show_nat f (n / 10)) <= S k)%nat; [|lia]. apply IH.
  rewrite Nat2Z.inj_succ, Z.pow_succ_r in H by lia. split; [apply Z.div_pos; lia|]. apply Z.div_lt_upper_bound; lia.
Qed.
Lemma show_short n : natural n -> zlen (show_int n) <= 20.
Proof.
  intros [H0 H1]. unfold show_int. destruct (Z.ltb_spec n 0); [lia|]. unfold zlen.
  assert (length (show_nat (S (Z.to_nat (Z.log2 n))) n) <= 10)%nat as X; [|unfold byte in *; lia].
  apply show_nat_length. split; [auto|]. eapply Z.le_lt_trans; [exact H1|reflexivity].
Qed.
Lemma flag_text p i o s : well_formed p o -> flag_of p i (text o) s = Done (effect i o s).
Proof.
  intros W. destruct o; cbn [well_formed] in W.
  14: { cbn [text effect]. rewrite flag_name by apply W. rewrite (proj2 (finds_mentions _ _)) by apply W. reflexivity. }
  13: { cbn [text effect]. rewrite flag_name by apply W. rewrite finds_false by apply W. reflexivity. }
  - destruct p; reflexivity.
  - subst p. reflexivity.
  - subst p. reflexivity.
  - subst p. reflexivity.
  - subst p. reflexivity.
  - destruct W as (-> & W1 & W2 & W3). cbn [flag_of text effect]. unfold png_flag. known. rewrite longer by (cbn; lia). change (negb (61 =? eq_sign)) with false. cbn [orb].
    rewrite after_app by (reflexivity || exact W3). rewrite tokens_parts, parts_commas by (constructor; [auto|constructor; [auto|constructor]]). reflexivity.
  - destruct W as (-> & W). cbn [flag_of text effect]. unfold png_flag. known. rewrite longer by (cbn; lia). change (negb (61 =? eq_sign)) with false. cbn [orb].
    match goal with |- context [slice_axis ?c ?o] => replace (slice_axis c o) with axis by (symmetry; exact (slice_letter axis o W)) end. cbn [o_axis with_axis]. replace (axis =? -1) with false by lia. reflexivity.
  - destruct W as (-> & W & N). cbn [flag_of text effect]. unfold png_flag. known. rewrite longer by (cbn; lia). change (negb (61 =? eq_sign)) with false. cbn [orb].
    match goal with |- context [slice_axis ?c ?o] => replace (slice_axis c o) with axis by (symmetry; exact (slice_letter axis o W)) end. cbn [o_axis with_axis]. replace (axis =? -1) with false by lia.
    change (bytes "--slice=" ++ commas [[letter axis]; show_int n]) with ((bytes "--slice=" ++ [letter axis; 44]) ++ show_int n).
    destruct (show_number n) as [Ne _]. pose proof (show_short n N) as S.
    replace (10 <? zlen _) with true.
    2: { symmetry. apply Z.ltb_lt. rewrite zlen_app. change (zlen (bytes "--slice=" ++ [letter axis; 44])) with 10. destruct (show_int n); [easy|]. unfold zlen. cbn [length]. lia. }
    change 10%nat with (length (bytes "--slice=" ++ [letter axis; 44])) at 1. rewrite part_app by exact S. rewrite atoi_int by auto. reflexivity.
  - destruct p; cbn [flag_of]; [unfold png_flag|unfold xyz_flag]; cbn [text]; known; [now apply (common_text Png _ (Tolerance _))|now apply (common_text Xyz _ (Tolerance _))].
  - destruct p; cbn [flag_of]; [unfold png_flag|unfold xyz_flag]; cbn [text]; known; [now apply (common_text Png _ (Contours _ _))|now apply (common_text Xyz _ (Contours _ _))].
  - destruct p; cbn [flag_of]; [unfold png_flag|unfold xyz_flag]; cbn [text]; known; [now apply (common_text Png _ (Fields _))|now apply (common_text Xyz _ (Fields _))].
  - destruct p; cbn [flag_of]; [unfold png_flag|unfold xyz_flag]; cbn [text]; known; [now apply (common_text Png _ (Without _))|now apply (common_text Xyz _ (Without _))].
Qed.

(* ---- all arguments ---- *)
Fixpoint effects (i : Z) (opts : list opt) (s : settings) : settings :=
  match opts with [] => s | o :: t => effects (i + 1) t (effect i o s) end.
Lemma each_text p opts : Forall (well_formed p) opts -> forall i s, each_flag (flag_of p) i (map text opts) s = Done (effects i opts s).
Proof. induction 1 as [|o opts W _ IH]; intros i s; [reflexivity|]. cbn [map each_flag effects]. rewrite flag_text by auto. cbn [obind]. apply IH. Qed.
Lemma effects_app a b : forall i s, effects i (a ++ b) s = effects (i + zlen a) b (effects i a s).
Proof.
  induction a as [|o a IH]; intros i s; [cbn [app effects]; f_equal; unfold zlen; cbn; lia|]. cbn [app effects]. rewrite IH. f_equal. unfold zlen. cbn [length]. lia.
Qed.

Lemma given_snoc is a o : given is (a ++ [o]) <-> given is a \/ is o.
Proof.
  unfold given. split.
  - intros (x & Hx & P). apply in_app_iff in Hx as [Hx|[->|[]]]; eauto.
  - intros [(x & Hx & P)|P]; [exists x|exists o]; rewrite in_app_iff; cbn; auto.
Qed.
Lemma last_word_snoc {X} (says : opt -> option X) a o d : last_word says (a ++ [o]) d = match says o with Some x => x | None => last_word says a d end.
Proof. unfold last_word. rewrite fold_left_app. reflexivity. Qed.
Lemma in_snoc (x : opt) a o : In x (a ++ [o]) <-> In x a \/ o = x.
Proof. rewrite in_app_iff. cbn. intuition. Qed.
Lemma kind_yes (is : opt -> Prop) a o : is o -> last_of_kind is (a ++ [o]) (1 + zlen a).
Proof.
  intros H. right. split; [pose proof (zlen_nonneg a); lia|]. exists a, o, []. split; [reflexivity|]. split; [lia|]. split; [auto|]. intros (x & [] & _).
Qed.
Lemma kind_no (is : opt -> Prop) a o i : ~ is o -> last_of_kind is a i -> last_of_kind is (a ++ [o]) i.
Proof.
  intros N [(-> & H)|(Hi & b & x & c & -> & L & P & Q)]; [left; split; [auto|rewrite given_snoc; tauto]|]. right. split; [auto|].
  exists b, x, (c ++ [o]). rewrite <- app_assoc. cbn [app]. rewrite given_snoc. tauto.
Qed.
Lemma effects_mean opts : means atof (fun a => atof (tl a)) opts (effects 1 opts defaults).
Proof.
  induction opts as [|o opts IH] using rev_ind.
  - constructor; cbn; try (unfold given; intuition; fail); try reflexivity.
    + left. split; [reflexivity|]. intros (x & [] & _).
    + left. split; [reflexivity|]. intros (x & [] & _).
    + do 3 right. unfold given. repeat split; try (intros (x & [] & _)); auto.
    + intros k. split; [intros []|intros (x & [] & _)].
    + intros k. split; [intros []|intros (x & [] & _)].
  - rewrite effects_app. cbn [effects]. set (s := effects 1 opts defaults) in *. destruct IH. constructor.
    + destruct o; cbn [effect o_dat with_dat with_out with_mode with_invert with_coninv with_normal with_contol with_axis with_level with_zoom with_lvlfield with_fields with_levels];
        solve [apply kind_no; [intros []|auto] | apply kind_yes; exact I].
    + destruct o; cbn [effect o_out with_dat with_out with_mode with_invert with_coninv with_normal with_contol with_axis with_level with_zoom with_lvlfield with_fields with_levels];
        solve [apply kind_no; [intros []|auto] | apply kind_yes; exact I].
    + rewrite !given_snoc, in_snoc. clear - e_mode. destruct o; cbn [effect o_mode with_dat with_out with_mode with_invert with_coninv with_normal with_contol with_axis with_level with_zoom with_lvlfield with_fields with_levels is_without is_fields];
        destruct e_mode as [(A & E)|[(A & B & E)|[(A & B & C & E)|(A & B & C & E)]]]; rewrite E; cbn; intuition (try discriminate).
    + rewrite in_snoc. destruct o; cbn; rewrite <- ?e_invert; intuition discriminate.
    + rewrite in_snoc. destruct o; cbn; rewrite <- ?e_white; intuition discriminate.
    + rewrite in_snoc. destruct o; cbn; rewrite <- ?e_normal; intuition discriminate.
    + intros k. rewrite given_snoc, <- e_fields. destruct o; cbn [effect o_fields with_dat with_out with_mode with_invert with_coninv with_normal with_contol with_axis with_level with_zoom with_lvlfield with_fields with_levels names_field]; rewrite ?in_inserts; tauto.
    + intros v. rewrite given_snoc, <- e_levels. destruct o; cbn [effect o_levels with_dat with_out with_mode with_invert with_coninv with_normal with_contol with_axis with_level with_zoom with_lvlfield with_fields with_levels names_level]; rewrite ?in_insert_nums; tauto.
    + rewrite last_word_snoc, <- e_lvlfield. destruct o; reflexivity.
    + rewrite last_word_snoc, <- e_axis. destruct o; reflexivity.
    + rewrite last_word_snoc, <- e_level. destruct o; reflexivity.
    + rewrite last_word_snoc, <- e_zoom. destruct o; reflexivity.
    + rewrite last_word_snoc, <- e_tolerance. destruct o; reflexivity.
Qed.
Lemma text_not_help p o : well_formed p o -> text o <> bytes "--help".
Proof. intros W E. destruct o; cbn [text] in E; try discriminate; cbn [well_formed] in W; rewrite E in W; destruct W as [[] _]. Qed.
Lemma options_mean p opts : Forall (well_formed p) opts -> given is_input opts ->
  exists s, options (flag_of p) (map text opts) = Done s /\ means atof (fun a => atof (tl a)) opts s.
Proof.
  intros W (o & Ho & I). exists (effects 1 opts defaults). pose proof (effects_mean opts) as M. split; [|exact M].
  destruct opts as [|o1 opts]; [destruct Ho|]. cbn [map options]. destruct (list_eq_dec _ _ _) as [E|_]; [inversion W; subst; edestruct text_not_help; eauto|].
  change (text o1 :: map text opts) with (map text (o1 :: opts)). rewrite each_text by auto. cbn [obind].
  destruct (Z.eqb_spec (o_dat (effects 1 (o1 :: opts) defaults)) 0) as [E|_]; [|reflexivity].
  destruct M as [[(_ & N)|(Z & _)]]; [|lia]. exfalso. apply N. exists o. auto.
Qed.

(* ---- undefined behaviour ---- *)
Lemma insert_fields_none ts : forall l, insert_fields ts l = None -> Exists not_int ts.
Proof.
  unfold insert_fields. induction ts as [|t ts IH]; intros l H; [discriminate|]. cbn [fold_opt] in H. destruct (atoi t) as [k|] eqn:E; cbn [bind] in H; [right; eauto|left; exact E].
Qed.
Lemma starts_eq e f k (x : byte) : Types.starts e f = true -> at_ f k = x -> length e = k -> x <> 0 -> exists t, f = e ++ x :: t.
Proof.
  intros H A L N. apply PvdL.starts_true in H as (t & ->). unfold at_ in A. rewrite app_nth2, L, Nat.sub_diag in A by lia. destruct t as [|y t]; [cbn in A; congruence|]. cbn in A. subst. eauto.
Qed.
Lemma contol_undef f : Types.starts (bytes "--contol") f = true -> contol_text f = Undef -> exists t, f = bytes "--contol=" ++ t /\ parts (after 10 f) = [].
Proof.
  intros S H. unfold contol_text in H. destruct (zlen f =? 8); [discriminate|]. cbn [orb] in H. destruct (Z.eqb_spec (nth 8 f 0) 61) as [E|]; [|discriminate]. cbn [negb] in H.
  destruct (starts_eq _ f 8 61 S E eq_refl) as (t & Et); [discriminate|]. exists t. split; [exact Et|]. destruct (zlen f <? 10); [discriminate|].
  change (firstn 255 (skipn 10 f)) with (after 10 f) in H. rewrite <- tokens_parts. unfold tokens. cbn [tokens_upto]. destruct (token (after 10 f)) as [[a r]|]; [|reflexivity].
  destruct (token r); discriminate.
Qed.
Lemma common_undef e i f s : common_flag atof e i f s = Undef -> dangerous f.
Proof.
  unfold common_flag, dangerous. intros H.
  destruct (Types.starts (bytes "--contol") f) eqn:S1.
  { destruct (contol_text f) eqn:E; try discriminate. right. left. now apply contol_undef. }
  destruct (Types.starts (bytes "--contour") f) eqn:S2.
  { destruct (zlen f =? 9); [discriminate|]. cbn [orb] in H. destruct (Z.eqb_spec (at_ f 9) eq_sign) as [E|]; [|discriminate]. cbn [negb] in H.
    destruct (starts_eq _ f 9 61 S2 E eq_refl) as (t & Et); [discriminate|]. do 2 right. left. exists t. split; [exact Et|].
    rewrite tokens_parts in H. change (part f 10 255) with (after 10 f) in H. destruct (parts (after 10 f)) as [|n r]; [auto|]. right. exists n, r. split; [reflexivity|].
    destruct (atoi n) eqn:En; [|exact En]. cbn [req obind] in H. destruct (_ =? -1); discriminate. }
  destruct (Types.starts (bytes "--field") f) eqn:S3.
  { destruct (Z.eqb_spec (at_ f 7) eq_sign) as [E|]; [|discriminate]. cbn [negb] in H.
    destruct (starts_eq _ f 7 61 S3 E eq_refl) as (t & Et); [discriminate|]. do 3 right. left. exists t. split; [exact Et|].
    rewrite tokens_parts in H. change (part f 8 255) with (after 8 f) in H. destruct (insert_fields _ _) eqn:En; [discriminate|]. eapply insert_fields_none; eauto. }
  destruct (Types.starts (bytes "--exclude") f) eqn:S4.
  { destruct (zlen f =? 9); [discriminate|]. cbn [orb] in H. destruct (Z.eqb_spec (at_ f 9) eq_sign) as [E|]; [|discriminate]. cbn [negb] in H.
    destruct (starts_eq _ f 9 61 S4 E eq_refl) as (t & Et); [discriminate|]. do 4 right. left. exists t. split; [exact Et|].
    rewrite tokens_parts in H. change (part f 10 255) with (after 10 f) in H. destruct (insert_fields _ _) eqn:En; [discriminate|]. eapply insert_fields_none; eauto. }
  destruct (finds e f); discriminate.
Qed.
Lemma flag_undef p i f s : flag_of p i f s = Undef -> dangerous f.
Proof.
  destruct p; cbn [flag_of]; intros H.
  - unfold png_flag in H. repeat (destruct (list_eq_dec _ _ _); [discriminate|]).
    destruct (Types.starts (bytes "--zoom") f) eqn:S1.
    { destruct (zlen f =? 6); [discriminate|]. cbn [orb] in H. destruct (Z.eqb_spec (at_ f 6) eq_sign) as [E|]; [|discriminate]. cbn [negb] in H.
      destruct (starts_eq _ f 6 61 S1 E eq_refl) as (t & Et); [discriminate|]. left. exists t. split; [exact Et|].
      rewrite tokens_parts in H. change (part f 7 255) with (after 7 f) in H. destruct (parts (after 7 f)) as [|a [|b [|c r]]]; cbn [length]; try discriminate; lia. }
    destruct (Types.starts (bytes "--slice") f) eqn:S2.
    { destruct (zlen f =? 7); [discriminate|]. cbn [orb] in H. destruct (Z.eqb_spec (at_ f 7) eq_sign) as [E|]; [|discriminate]. cbn [negb] in H.
      destruct (starts_eq _ f 7 61 S2 E eq_refl) as (t & Et); [discriminate|]. do 5 right. exists t. split; [exact Et|].
      destruct (_ =? -1) in H; [discriminate|]. destruct (10 <? zlen f); [|discriminate]. unfold part in H. unfold not_int. destruct (atoi _); [discriminate|reflexivity]. }
    destruct (Types.starts (bytes "--coninv") f); [discriminate|]. eapply common_undef; eauto.
  - unfold xyz_flag in H. repeat (destruct (list_eq_dec _ _ _); [discriminate|]). eapply common_undef; eauto.
Qed.
Lemma each_undef p args : forall i s, each_flag (flag_of p) i args s = Undef -> Exists dangerous args.
Proof.
  induction args as [|a t IH]; intros i s H; [discriminate|]. cbn [each_flag] in H. destruct (flag_of p i a s) eqn:E; cbn [obind] in H; try discriminate; [right; eauto|left; eapply flag_undef; eauto].
Qed.
Lemma options_undef p args : options (flag_of p) args = Undef -> Exists dangerous args.
Proof.
  unfold options. destruct args as [|a t]; [discriminate|]. destruct (list_eq_dec _ _ _); [discriminate|]. intros H.
  destruct (each_flag (flag_of p) 1 (a :: t) defaults) eqn:E; cbn [obind] in H; try discriminate; [destruct (_ =? 0); discriminate|eapply each_undef; eauto].
Qed.
End Effect.

(* ---- names ---- *)
Lemma last_dot_split s : match last_dot s with None => dotless s | Some k => exists u e, s = u ++ 46 :: e /\ dotless e /\ k = zlen u end.
Proof.
  induction s as [|b s IH]; [constructor|]. cbn [last_dot]. destruct (last_dot s) as [k|].
  - destruct IH as (u & e & -> & H & ->). exists (b :: u), e. split; [reflexivity|]. split; [auto|]. unfold zlen. cbn [length]. lia.
  - destruct (Z.eqb_spec b 46) as [->|N]; [exists [], s; auto|constructor; auto].
Qed.
Lemma digit_iff b : is_digit b = true <-> 48 <= b <= 57.
Proof. unfold is_digit. lia. Qed.
Definition named (ext dat : list byte) : list byte :=
  match last_dot dat with
  | None => dat ++ ext
  | Some p => if existsb is_digit (skipn (Z.to_nat p) dat) then dat ++ ext else firstn (Z.to_nat p) dat ++ ext
  end.
Lemma named_derived ext dat : derived ext dat (named ext dat).
Proof.
  unfold named. pose proof (last_dot_split dat) as H. destruct (last_dot dat) as [k|]; [|left; auto]. destruct H as (u & e & -> & H & ->). right. exists u, e.
  split; [reflexivity|]. split; [auto|]. unfold zlen. rewrite Nat2Z.id, skipn_app, skipn_all, Nat.sub_diag, firstn_app, firstn_all, Nat.sub_diag. cbn [app skipn firstn existsb].
  rewrite app_nil_r. change (is_digit 46) with false. cbn [orb]. destruct (existsb is_digit e) eqn:E.
  - right. split; [|reflexivity]. apply existsb_exists in E as (b & Hb & E). apply Exists_exists. exists b. rewrite <- digit_iff. auto.
  - left. split; [|reflexivity]. apply Forall_forall. intros b Hb X. apply digit_iff in X. assert (existsb is_digit e = true); [apply existsb_exists; eauto|congruence].
Qed.
Lemma get_text before o after i : zlen before = i - 1 -> get (map text (before ++ o :: after)) (i - 1) = Some (text o).
Proof.
  intros <-. unfold get. destruct (Z.ltb_spec (zlen before) 0) as [H|_]; [pose proof (zlen_nonneg before); lia|]. unfold zlen. rewrite Nat2Z.id, map_app, nth_error_app2, map_length, Nat.sub_diag by (rewrite map_length; auto). reflexivity.
Qed.
Lemma last_word_after {X} (says : opt -> option X) after d : ~ given (fun o => says o <> None) after -> last_word says after d = d.
Proof.
  revert d. induction after as [|o t IH]; intros d N; [reflexivity|]. unfold last_word in *. cbn [fold_left]. destruct (says o) eqn:E; [exfalso; apply N; exists o; split; [now left|congruence]|].
  apply IH. intros (x & H & Hx). apply N. exists x. cbn. auto.
Qed.
Lemma last_word_kind {X} (says : opt -> option X) is opts i d : (forall o, is o <-> says o <> None) -> last_of_kind is opts i ->
  (i = 0 /\ last_word says opts d = d) \/ (1 <= i /\ exists o, get (map text opts) (i - 1) = Some (text o) /\ says o = Some (last_word says opts d)).
Proof.
  intros K [(-> & N)|(Hi & b & o & a & -> & L & P & N)].
  - left. split; [reflexivity|]. apply last_word_after. intros (x & H & Hx). apply N. exists x. rewrite K. auto.
  - right. split; [auto|]. exists o. split; [now apply get_text|]. unfold last_word. rewrite fold_left_app. cbn [fold_left].
    apply K in P. destruct (says o) as [x|]; [|easy]. f_equal. symmetry. apply (last_word_after says). intros (y & H & Hy). apply N. exists y. rewrite K. auto.
Qed.
Lemma name_ok ext atof tol opts s : means atof tol opts s -> given is_input opts ->
  exists n, output_name ext (map text opts) s = Some n /\
    match last_word says_output opts None with
    | Some out => n = out
    | None => exists dat, last_word says_input opts None = Some dat /\ derived ext dat n
    end.
Proof.
  intros M (o & Ho & I). destruct M as [Hin Hout _ _ _ _ _ _ _ _ _ _ _]. unfold output_name.
  assert (forall o, is_output o <-> says_output o <> None) as K1 by (intros []; cbn; split; intros; try easy; congruence).
  assert (forall o, is_input o <-> says_input o <> None) as K2 by (intros []; cbn; split; intros; try easy; congruence).
  destruct (last_word_kind says_output is_output opts _ None K1 Hout) as [(-> & ->)|(Hi & x & G & E)].
  - cbn [Z.eqb]. destruct (last_word_kind says_input is_input opts _ None K2 Hin) as [(Z0 & _)|(Hi & x & G & E)].
    + destruct Hin as [(_ & N)|(Z1 & _)]; [exfalso; apply N; exists o; auto|lia].
    + rewrite G. cbn [bind]. destruct x; try discriminate. cbn [says_input] in E. injection E as <-. eexists. split; [reflexivity|]. exists name. split; [reflexivity|]. apply named_derived.
  - replace (o_out s =? 0) with false by lia. rewrite G. destruct x; try discriminate. cbn [says_output] in E. injection E as <-. cbn [text]. eauto.
Qed.

(* ---- the input is not overwritten ---- *)
Section Kept.
Context (atof : list byte -> Qc).
Definition moved (p : program) (i : Z) (a : list byte) (s s' : settings) : Prop :=
  (o_dat s' = o_dat s \/ (o_dat s' = i /\ finds (extension p) a = false)) /\ (o_out s' = o_out s \/ (o_out s' = i /\ finds (extension p) a = true)).
Ltac stay := match goal with H : Done ?a = Done _ |- _ => injection H as <-; split; left; reflexivity end.
Lemma common_moved p i a s s' : common_flag atof (extension p) i a s = Done s' -> moved p i a s s'.
Proof.
  unfold common_flag. intros H.
  destruct (Types.starts _ a); [destruct (contol_text a); cbn [obind] in H; try discriminate; stay|].
  destruct (Types.starts _ a).
  { destruct (_ || _); [discriminate|]. destruct (tokens _); [discriminate|]. destruct (atoi _); cbn [req obind] in H; [|discriminate]. destruct (_ =? -1) in H; [discriminate|stay]. }
  destruct (Types.starts _ a).
  { destruct (negb _); [discriminate|]. destruct (insert_fields _ _); cbn [req obind] in H; [stay|discriminate]. }
  destruct (Types.starts _ a).
  { destruct (_ || _); [discriminate|]. destruct (insert_fields _ _); cbn [req obind] in H; [stay|discriminate]. }
  destruct (finds (extension p) a) eqn:E; injection H as <-; split; cbn; auto.
Qed.
Lemma flag_moved p i a s s' : flag_of atof p i a s = Done s' -> moved p i a s s'.
Proof.
  destruct p; cbn [flag_of]; [unfold png_flag|unfold xyz_flag]; intros H; repeat (destruct (list_eq_dec _ _ _); [stay|]).
  - destruct (Types.starts _ a).
    { destruct (_ || _); [stay|]. destruct (tokens _) as [|? [|? []]]; try discriminate. stay. }
    destruct (Types.starts _ a).
    { destruct (_ || _); [discriminate|]. destruct (_ =? -1) in H; [discriminate|]. destruct (10 <? _); [|stay]. destruct (atoi _); cbn [req obind] in H; [stay|discriminate]. }
    destruct (Types.starts _ a); [stay|]. now apply (common_moved Png).
  - now apply (common_moved Xyz).
Qed.
Definition placed (p : program) (args : list (list byte)) (s : settings) : Prop :=
  (o_dat s = 0 \/ exists a, get args (o_dat s - 1) = Some a /\ finds (extension p) a = false) /\
  (o_out s = 0 \/ exists a, get args (o_out s - 1) = Some a /\ finds (extension p) a = true).
Lemma each_placed p : forall args pre s s', placed p (pre ++ args) s -> each_flag (flag_of atof p) (1 + zlen pre) args s = Done s' -> placed p (pre ++ args) s'.
Proof.
  induction args as [|a t IH]; intros pre s s' P H; [now injection H as <-|]. cbn [each_flag] in H. destruct (flag_of atof p (1 + zlen pre) a s) as [s1| |] eqn:E; try discriminate. cbn [obind] in H.
  apply flag_moved in E as [M1 M2]. specialize (IH (pre ++ [a]) s1 s'). rewrite <- app_assoc in IH. cbn [app] in IH.
  assert (get (pre ++ a :: t) (1 + zlen pre - 1) = Some a) as G.
  { unfold get. destruct (Z.ltb_spec (1 + zlen pre - 1) 0); [pose proof (zlen_nonneg pre); lia|]. replace (1 + zlen pre - 1) with (zlen pre) by lia. unfold zlen. now rewrite Nat2Z.id, nth_error_app2, Nat.sub_diag by auto. }
  apply IH.
  - destruct P as [P1 P2]. split.
    + destruct M1 as [->|[-> F]]; [auto|right; eauto].
    + destruct M2 as [->|[-> F]]; [auto|right; eauto].
  - rewrite zlen_app. change (zlen [a]) with 1. replace (1 + (zlen pre + 1)) with (1 + zlen pre + 1) by lia. exact H.
Qed.
Lemma finds_end e t : finds e (t ++ e) = true.
Proof. apply finds_mentions. exists t, []. now rewrite app_nil_r. Qed.
Lemma input_kept p args s n dat : options (flag_of atof p) args = Done s -> output_name (extension p) args s = Some n -> get args (o_dat s - 1) = Some dat -> n <> dat.
Proof.
  intros H O G. unfold options in H. destruct args as [|a t]; [discriminate|]. destruct (list_eq_dec _ _ _); [discriminate|].
  destruct (each_flag (flag_of atof p) 1 (a :: t) defaults) as [s1| |] eqn:E; try discriminate. cbn [obind] in H. destruct (Z.eqb_spec (o_dat s1) 0) as [|N]; [discriminate|]. injection H as ->.
  destruct (each_placed p (a :: t) [] defaults s) as [P1 P2]; [split; left; reflexivity|exact E|]. cbn [app] in P1, P2.
  destruct P1 as [|(x & Gx & Fx)]; [contradiction|]. rewrite G in Gx. injection Gx as <-. unfold output_name in O. destruct (Z.eqb_spec (o_out s) 0) as [Z0|Nz].
  - rewrite G in O. cbn [bind] in O. injection O as <-. intros X. assert (finds (extension p) dat = true); [|congruence]. rewrite <- X. destruct (last_dot dat); [destruct (existsb _ _)|]; apply finds_end.
  - destruct P2 as [|(y & Gy & Fy)]; [contradiction|]. rewrite O in Gy. injection Gy as <-. congruence.
Qed.
End Kept.
