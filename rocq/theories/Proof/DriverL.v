From Coq Require Import String.
From Verif Require Import Model.Base Model.Text Model.Ghostswap Model.Driver Spec.Driver Spec.Bytes Proof.BaseL Proof.TextL.
Local Open Scope list_scope.

(* ---- number of digits ---- *)
Lemma digits_bound l : Forall (fun b => is_digit b = true) l -> 0 <= digits_val l < 10 ^ zlen l.
Proof.
  induction l as [|d l IH] using rev_ind; intros F; [change (0 <= 0 < 1); lia|].
  apply Forall_app in F as [F1 F2]. apply Forall_inv in F2. apply digit_bounds in F2. specialize (IH F1).
  rewrite digits_val_app. cbn [fold_left]. rewrite zlen_app. change (zlen [d]) with 1.
  rewrite Z.pow_add_r by (try apply zlen_nonneg; lia). change (10 ^ 1) with 10. lia.
Qed.

Lemma show_nat_low fuel n : 0 < n -> Z.of_nat fuel > Z.log2 n -> 10 ^ (zlen (show_nat fuel n) - 1) <= n.
Proof.
  revert n; induction fuel as [|f IH]; intros n Hn Hf; [pose proof (Z.log2_nonneg n); lia|].
  cbn [show_nat]. destruct (Z.ltb_spec n 10) as [L|L]; [change (zlen [48 + n]) with 1; cbn; lia|].
  assert (1 <= n / 10) by (apply Z.div_le_lower_bound; lia).
  assert (Z.log2 (n / 10) < Z.log2 n) as Hl.
  { apply Z.log2_lt_pow2; [lia|]. pose proof (Z.log2_spec n ltac:(lia)) as [_ U].
    rewrite Z.pow_succ_r in U by apply Z.log2_nonneg. apply Z.div_lt_upper_bound; [lia|].
    pose proof (Z.pow_pos_nonneg 2 (Z.log2 n)). pose proof (Z.log2_nonneg n). lia. }
  specialize (IH (n / 10) ltac:(lia) ltac:(lia)).
  rewrite zlen_app. change (zlen [48 + n mod 10]) with 1.
  assert (0 < zlen (show_nat f (n / 10))) as Hz.
  { destruct (show_nat_spec f (n / 10)) as (_ & _ & N); [lia|lia|]. destruct (show_nat f (n / 10)); [congruence|]. rewrite zlen_cons. pose proof (zlen_nonneg l). lia. }
  replace (zlen (show_nat f (n / 10)) + 1 - 1) with (zlen (show_nat f (n / 10)) - 1 + 1) by lia.
  rewrite Z.pow_add_r by lia. change (10 ^ 1) with 10. pose proof (Z.mul_div_le n 10). lia.
Qed.

Lemma show_len_mono a b : 0 <= a <= b -> zlen (show_int a) <= zlen (show_int b).
Proof.
  intros H. destruct (Z_le_gt_dec (zlen (show_int a)) (zlen (show_int b))) as [|G]; [auto|exfalso].
  destruct (show_int_nonneg b ltac:(lia)) as (Fb & Vb & Nb). pose proof (digits_bound _ Fb) as B. rewrite Vb in B.
  assert (0 < zlen (show_int b)) by (destruct (show_int b); [congruence|]; rewrite zlen_cons; pose proof (zlen_nonneg l); lia).
  destruct (Z.eq_dec a 0) as [->|].
  - change (zlen (show_int 0)) with 1 in G. lia.
  - assert (10 ^ (zlen (show_int a) - 1) <= a) as L.
    { unfold show_int. destruct (Z.ltb_spec a 0); [lia|]. apply show_nat_low; [lia|]. pose proof (Z.log2_nonneg a). lia. }
    assert (10 ^ zlen (show_int b) <= 10 ^ (zlen (show_int a) - 1)) by (apply Z.pow_le_mono_r; lia). lia.
Qed.

(* ---- order of equally long numerals ---- *)
Lemma digits_cons d l : digits_val (d :: l) = (d - 48) * 10 ^ zlen l + digits_val l.
Proof.
  change (d :: l) with ([d] ++ l). induction l as [|e l IH] using rev_ind.
  - cbn. unfold zlen; simpl. lia.
  - rewrite app_assoc, digits_val_app, IH. rewrite (digits_val_app l). cbn [fold_left]. rewrite zlen_app. change (zlen [e]) with 1.
    rewrite Z.pow_add_r by (try apply zlen_nonneg; lia). lia.
Qed.
Lemma lex_digits l m : zlen l = zlen m -> Forall (fun b => is_digit b = true) l -> Forall (fun b => is_digit b = true) m ->
  digits_val l < digits_val m -> forall u v, lex_lt (l ++ u) (m ++ v).
Proof.
  revert m; induction l as [|x l IH]; intros [|y m] L Fl Fm V u v.
  - lia.
  - rewrite zlen_nil, zlen_cons in L. pose proof (zlen_nonneg m). lia.
  - rewrite zlen_nil, zlen_cons in L. pose proof (zlen_nonneg l). lia.
  - rewrite !zlen_cons in L. assert (zlen l = zlen m) as L' by lia. inversion Fl; inversion Fm; subst.
    rewrite !digits_cons, L' in V. pose proof (digits_bound l ltac:(auto)) as Bl. pose proof (digits_bound m ltac:(auto)) as Bm. rewrite L' in Bl.
    simpl. destruct (Z.lt_trichotomy x y) as [E|[->|E]].
    + now constructor.
    + apply lex_tail. apply IH; auto. lia.
    + nia.
Qed.
Lemma lex_prefix p s t : lex_lt s t -> lex_lt (p ++ s) (p ++ t).
Proof. induction p; simpl; auto. intros. apply lex_tail. auto. Qed.

Lemma digits_zeros k l : digits_val (repeat 48 k ++ l) = digits_val l.
Proof. unfold digits_val. induction k as [|k IH]; simpl; auto. Qed.
Lemma zeros_digits k : Forall (fun b => is_digit b = true) (repeat (48 : byte) k).
Proof. induction k; constructor; auto. Qed.

(* ---- the file name ---- *)
Lemma pad_loop_eq base suffix len step : forall fuel j cur,
  let k := Z.to_nat (len - zlen (base ++ show_int step ++ suffix)) in
  zlen cur < len -> (j <= k)%nat -> (k - j < fuel)%nat ->
  pad_loop fuel base suffix len step j cur = Some (base ++ repeat 48 k ++ show_int step ++ suffix).
Proof.
  induction fuel as [|f IH]; intros j cur k Hc Hj Hf; [lia|].
  cbn [pad_loop]. destruct (Z.ltb_spec (zlen cur) len); [|lia]. clear cur Hc H.
  set (cur := base ++ repeat 48 j ++ show_int step ++ suffix).
  assert (zlen cur = zlen (base ++ show_int step ++ suffix) + Z.of_nat j) as Lc.
  { unfold cur. rewrite !zlen_app. unfold zlen. rewrite repeat_length. lia. }
  destruct (Nat.eq_dec j k) as [->|N].
  - destruct f; cbn [pad_loop]; (destruct (Z.ltb_spec (zlen cur) len); [lia|reflexivity]).
  - apply IH; lia.
Qed.

Definition padded (base suffix : list byte) (steps step : Z) : list byte :=
  base ++ repeat 48 (Z.to_nat (zlen (show_int steps) - zlen (show_int step))) ++ show_int step ++ suffix.

Lemma file_name_eq base suffix steps step : 0 <= steps -> zlen (padded base suffix steps step) < 4096 ->
  file_name base suffix (zlen base + zlen suffix + zlen (show_int steps)) step = Some (padded base suffix steps step).
Proof.
  intros Hs Hl. unfold file_name.
  assert (0 < zlen (show_int steps)) as P.
  { destruct (show_int_nonneg steps Hs) as (_ & _ & N). destruct (show_int steps); [congruence|]. rewrite zlen_cons. pose proof (zlen_nonneg l). lia. }
  pose proof (zlen_nonneg base). pose proof (zlen_nonneg suffix).
  rewrite pad_loop_eq; [|change (zlen []) with 0; lia|lia|].
  - cbn [bind].
    replace (Z.to_nat (zlen base + zlen suffix + zlen (show_int steps) - zlen (base ++ show_int step ++ suffix)))
      with (Z.to_nat (zlen (show_int steps) - zlen (show_int step))) by (rewrite !zlen_app; lia).
    fold (padded base suffix steps step). destruct (Z.leb_spec 4096 (zlen (padded base suffix steps step))); [lia|reflexivity].
  - pose proof (zlen_nonneg (base ++ show_int step ++ suffix)). lia.
Qed.

(* ---- the loop ---- *)
Lemma chunks_step start steps inc : 0 < inc -> start < steps -> chunks start steps inc = 1 + chunks (start + inc) steps inc.
Proof.
  intros Hi H. unfold chunks. destruct (Z.leb_spec steps start); [lia|]. destruct (Z.leb_spec steps (start + inc)).
  - symmetry. apply Z.div_unique with (r := steps - start - 1); lia.
  - replace (steps - start + inc - 1) with (steps - (start + inc) + inc - 1 + 1 * inc) by lia. rewrite Z.div_add by lia. lia.
Qed.
Lemma chunks_nonneg start steps inc : 0 < inc -> 0 <= chunks start steps inc.
Proof. intros. unfold chunks. destruct (Z.leb_spec steps start); [lia|]. apply Z.div_pos; lia. Qed.

Lemma app_len_inj {X} (a b c d : list X) : a ++ c = b ++ d -> length a = length b -> a = b /\ c = d.
Proof.
  revert b; induction a as [|x a IH]; intros [|y b] E L; simpl in *; try discriminate; auto. injection E as -> E. destruct (IH b E) as [-> ->]; auto.
Qed.
Lemma iter_r {X} (f : X -> X) n x : Nat.iter (S n) f x = Nat.iter n f (f x).
Proof. induction n; simpl in *; congruence. Qed.
Lemma iter_add {X} (f : X -> X) n m x : Nat.iter (n + m) f x = Nat.iter n f (Nat.iter m f x).
Proof. induction n; simpl in *; congruence. Qed.

Section Loop.
Context {G : Type} (update : G -> Z -> G).
Lemma run_loop_eq steps inc base suffix (Hs : 0 <= steps) (Hi : 0 < inc) :
  forall fuel i g files, 0 <= i -> (Z.to_nat (chunks i steps inc) <= fuel)%nat ->
  steps + inc - 1 <= int_max ->
  (forall k, 0 < k <= chunks i steps inc -> zlen (padded base suffix steps (i + k * inc)) < 4096) ->
  run_loop update fuel steps inc base suffix (zlen base + zlen suffix + zlen (show_int steps)) i g files =
  Ended (files ++ map (fun k => (padded base suffix steps (i + k * inc), Nat.iter (Z.to_nat k) (fun g => update g inc) g)) (zrange 1 (chunks i steps inc + 1))).
Proof.
  induction fuel as [|f IH]; intros i g files H0 Hf Hm Hn.
  - assert (~ i < steps) as N.
    { intros L. rewrite (chunks_step i steps inc) in Hf by auto. pose proof (chunks_nonneg (i + inc) steps inc Hi). lia. }
    cbn [run_loop]. destruct (Z.ltb_spec i steps); [lia|]. assert (chunks i steps inc = 0) as -> by (unfold chunks; destruct (Z.leb_spec steps i); lia).
    rewrite zrange_nil by lia. cbn. now rewrite app_nil_r.
  - cbn [run_loop]. destruct (Z.ltb_spec i steps) as [L|L].
    + pose proof (chunks_step i steps inc Hi L) as E. pose proof (chunks_nonneg (i + inc) steps inc Hi).
      destruct (Z.ltb_spec int_max (i + inc)); [lia|].
      pose proof (Hn 1 ltac:(lia)) as Hn1. replace (i + 1 * inc) with (i + inc) in Hn1 by lia. rewrite file_name_eq by auto.
      rewrite IH; [|lia|lia|auto|].
      2:{ intros k Hk. specialize (Hn (k + 1) ltac:(lia)). replace (i + (k + 1) * inc) with (i + inc + k * inc) in Hn by lia. auto. }
      f_equal. rewrite E. replace (1 + chunks (i + inc) steps inc + 1) with (chunks (i + inc) steps inc + 1 + 1) by lia.
      rewrite (zrange_cons 1 (chunks (i + inc) steps inc + 1 + 1)) by lia. rewrite (zrange_shift 1 (chunks (i + inc) steps inc + 1) 1).
      cbn [map]. rewrite map_map, <- app_assoc. cbn [app]. f_equal. f_equal.
      * replace (i + 1 * inc) with (i + inc) by lia. reflexivity.
      * apply map_ext_in. intros k Hk. apply in_zrange in Hk. f_equal.
        -- f_equal. lia.
        -- replace (Z.to_nat (k + 1)) with (S (Z.to_nat k)) by lia. now rewrite iter_r.
    + assert (chunks i steps inc = 0) as -> by (unfold chunks; destruct (Z.leb_spec steps i); lia).
      rewrite zrange_nil by lia. cbn. now rewrite app_nil_r.
Qed.
End Loop.

(* ---- dots ---- *)
Lemma first_dot_app s t : dotless s -> first_dot (s ++ (46 : byte) :: t) = Some (zlen s).
Proof.
  induction 1 as [|b s Hb F IH]; [reflexivity|]. cbn [first_dot app]. destruct (Z.eqb_spec b 46); [contradiction|].
  rewrite IH. cbn [bind]. rewrite zlen_cons. f_equal. lia.
Qed.
Lemma last_dot_none s : dotless s -> last_dot s = None.
Proof. induction 1 as [|b s Hb F IH]; [reflexivity|]. cbn [last_dot]. rewrite IH. destruct (Z.eqb_spec b 46); [contradiction|auto]. Qed.
Lemma first_dot_none s : dotless s -> first_dot s = None.
Proof. induction 1 as [|b s Hb F IH]; [reflexivity|]. cbn [first_dot]. rewrite IH. destruct (Z.eqb_spec b 46); [contradiction|auto]. Qed.
Lemma last_dot_app s t : dotless t -> last_dot (s ++ (46 : byte) :: t) = Some (zlen s).
Proof.
  intros F. induction s as [|b s IH].
  - cbn [last_dot app]. now rewrite last_dot_none.
  - cbn [last_dot app]. rewrite IH. rewrite zlen_cons. f_equal. lia.
Qed.
Lemma skipn_zlen {X} (l m : list X) : skipn (Z.to_nat (zlen l)) (l ++ m) = m.
Proof. unfold zlen. rewrite Nat2Z.id. rewrite skipn_app, skipn_all, Nat.sub_diag. reflexivity. Qed.
Lemma firstn_zlen {X} (l m : list X) : firstn (Z.to_nat (zlen l)) (l ++ m) = l.
Proof. unfold zlen. rewrite Nat2Z.id. rewrite firstn_app, firstn_all, Nat.sub_diag, firstn_O, app_nil_r. reflexivity. Qed.

(* ---- the parts of an output name ---- *)
Lemma out_parts s : zlen (out_base s) <= zlen s + 1 /\ zlen (out_suffix s) <= zlen s.
Proof.
  assert (forall n (l : list byte), zlen (firstn n l) <= zlen l) as Fn by (intros; unfold zlen; rewrite firstn_length; lia).
  assert (forall n (l : list byte), zlen (skipn n l) <= zlen l) as Sn by (intros; unfold zlen; rewrite skipn_length; lia).
  split.
  - assert (forall n, zlen (firstn n s ++ [(46 : byte)]) <= zlen s + 1) as A by (intros; rewrite zlen_app, zlen_cons, zlen_nil; specialize (Fn n s); lia).
    assert (zlen (s ++ [(46 : byte)]) <= zlen s + 1) by (rewrite zlen_app, zlen_cons, zlen_nil; lia).
    unfold out_base, substr. change (Z.to_nat 0) with 0%nat. cbn [skipn].
    destruct (first_dot s) as [f|]; [|auto]. destruct (last_dot s) as [l|]; [|auto]. destruct (first_dot _); [|apply A].
    destruct (last_dot _); [|lia]. cbv zeta. destruct (forallb _ _); apply A.
  - unfold out_suffix. destruct (last_dot s); [apply Sn|]. change (zlen []) with 0. apply zlen_nonneg.
Qed.

Lemma show_len_int n : 0 <= n <= int_max -> 0 < zlen (show_int n) <= 10.
Proof.
  intros H. split.
  - destruct (show_int_nonneg n ltac:(lia)) as (_ & _ & N). destruct (show_int n); [congruence|]. rewrite zlen_cons. pose proof (zlen_nonneg l). lia.
  - change 10 with (zlen (show_int int_max)). apply show_len_mono. lia.
Qed.

Lemma padded_len base suffix steps step : 0 <= steps <= int_max -> 0 <= step <= int_max ->
  zlen (padded base suffix steps step) = zlen base + Z.max (zlen (show_int steps)) (zlen (show_int step)) + zlen suffix.
Proof.
  intros. unfold padded. rewrite !zlen_app. unfold zlen at 2. rewrite repeat_length. lia.
Qed.

Lemma span_digits num r : numeral num -> no_digit r -> span is_digit (num ++ r) = (num, r).
Proof.
  intros F N. apply span_app; [|destruct r; auto]. eapply Forall_impl; [|exact F]. intros b Hb. cbv beta in Hb. unfold is_digit. destruct (Z.leb_spec 48 b), (Z.leb_spec b 57); auto; lia.
Qed.
Lemma atoi_digits num r : numeral num -> num <> [] -> no_digit r -> digits_val num <= int_max -> atoi (num ++ r) = Some (digits_val num).
Proof.
  intros F N D L. assert (Forall (fun b => is_digit b = true) num) as Fd.
  { eapply Forall_impl; [|exact F]. intros b Hb. cbv beta in Hb. unfold is_digit. destruct (Z.leb_spec 48 b), (Z.leb_spec b 57); auto; lia. }
  pose proof (digits_bound _ Fd). destruct num as [|b num]; [congruence|]. inversion F; subst.
  unfold atoi. cbn [app]. rewrite skip_space_stop.
  2:{ unfold is_space. repeat match goal with |- context [Z.eqb b ?x] => destruct (Z.eqb_spec b x) | |- context [Z.leb b ?x] => destruct (Z.leb_spec b x) | |- context [Z.leb ?x b] => destruct (Z.leb_spec x b) end; auto; lia. }
  destruct (Z.eqb_spec b 45); [lia|]. destruct (Z.eqb_spec b 43); [lia|]. cbv zeta. change (b :: num ++ r) with ((b :: num) ++ r). rewrite span_digits by auto. cbn [fst].
  destruct (Z.leb_spec (-2147483648) (digits_val (b :: num))); [|lia]. destruct (Z.leb_spec (digits_val (b :: num)) int_max); [reflexivity|lia].
Qed.

Lemma numeral_dotless num : numeral num -> dotless num.
Proof. intros F. eapply Forall_impl; [|exact F]. intros b Hb. simpl in Hb. lia. Qed.

Lemma numbered stem num ext : dotless stem -> numeral num -> num <> [] -> dotless ext -> digits_val num <= int_max ->
  let s := stem ++ (46 : byte) :: num ++ (46 : byte) :: ext in
  iterations_start s = Some (digits_val num) /\ out_base s = stem ++ [(46 : byte)] /\ out_suffix s = (46 : byte) :: ext.
Proof.
  intros Fs Fn Nn Fe L s.
  assert (first_dot s = Some (zlen stem)) as F1 by now apply first_dot_app.
  assert (s = (stem ++ (46 : byte) :: num) ++ (46 : byte) :: ext) as E by (unfold s; now rewrite <- app_assoc).
  assert (last_dot s = Some (zlen stem + 1 + zlen num)) as F2.
  { rewrite E, last_dot_app by auto. rewrite zlen_app, zlen_cons. f_equal. lia. }
  assert (skipn (Z.to_nat (zlen stem + 1)) s = num ++ (46 : byte) :: ext) as Sk.
  { unfold s. change ((46 : byte) :: num ++ (46 : byte) :: ext) with ([(46 : byte)] ++ num ++ (46 : byte) :: ext). rewrite app_assoc.
    replace (zlen stem + 1) with (zlen (stem ++ [(46 : byte)])) by (rewrite zlen_app; reflexivity). apply skipn_zlen. }
  pose proof (zlen_nonneg stem). pose proof (zlen_nonneg num).
  assert (0 < zlen num) by (destruct num; [congruence|]; rewrite zlen_cons; pose proof (zlen_nonneg num); lia).
  split; [|split].
  - unfold iterations_start. rewrite F1, F2. destruct (Z.eqb_spec (zlen stem) (zlen stem + 1 + zlen num)); [lia|].
    unfold substr. rewrite Sk. replace (Z.to_nat (zlen stem + 1 + zlen num - 1)) with (length num + Z.to_nat (zlen stem))%nat by (unfold zlen; lia).
    rewrite firstn_app_2. apply atoi_digits; auto. destruct (Z.to_nat (zlen stem)); [exact I|reflexivity].
  - unfold out_base. rewrite F1, F2, Sk. rewrite first_dot_app by now apply numeral_dotless.
    assert (firstn (Z.to_nat (zlen stem + 1 + zlen num)) s = stem ++ (46 : byte) :: num) as ->.
    { rewrite E. replace (zlen stem + 1 + zlen num) with (zlen (stem ++ (46 : byte) :: num)) by (rewrite zlen_app, zlen_cons; lia). apply firstn_zlen. }
    rewrite last_dot_app by now apply numeral_dotless. cbv zeta. unfold substr. rewrite Sk.
    replace (zlen stem + 1 + zlen num - zlen stem - 1) with (zlen num) by lia. rewrite firstn_zlen.
    assert (forallb is_digit num = true) as ->.
    { apply forallb_forall. intros b Hb. unfold numeral in Fn; rewrite Forall_forall in Fn. specialize (Fn b Hb). simpl in Fn. unfold is_digit. destruct (Z.leb_spec 48 b), (Z.leb_spec b 57); auto; lia. }
    change (Z.to_nat 0) with 0%nat. cbn [skipn]. unfold s. rewrite skipn_O. now rewrite firstn_zlen.
  - unfold out_suffix. rewrite F2. rewrite E. replace (zlen stem + 1 + zlen num) with (zlen (stem ++ (46 : byte) :: num)) by (rewrite zlen_app, zlen_cons; lia). apply skipn_zlen.
Qed.

Lemma plain stem ext : dotless stem -> dotless ext -> let s := stem ++ (46 : byte) :: ext in
  iterations_start s = Some 0 /\ out_base s = stem ++ [46 : byte] /\ out_suffix s = (46 : byte) :: ext.
Proof.
  intros Fs Fe s. assert (first_dot s = Some (zlen stem)) as F1 by now apply first_dot_app.
  assert (last_dot s = Some (zlen stem)) as F2 by now apply last_dot_app.
  split; [|split].
  - unfold iterations_start. rewrite F1, F2, Z.eqb_refl. reflexivity.
  - unfold out_base. rewrite F1, F2.
    assert (skipn (Z.to_nat (zlen stem + 1)) s = ext) as ->.
    { unfold s. change ((46 : byte) :: ext) with ([46 : byte] ++ ext). rewrite app_assoc.
      replace (zlen stem + 1) with (zlen (stem ++ [46 : byte])) by (rewrite zlen_app; reflexivity). apply skipn_zlen. }
    rewrite first_dot_none by auto. unfold substr. change (Z.to_nat 0) with 0%nat. rewrite skipn_O. unfold s. now rewrite firstn_zlen.
  - unfold out_suffix. rewrite F2. apply skipn_zlen.
Qed.

Section Files.
Context {G : Type} (update : G -> Z -> G).
Lemma chunks_spec start steps inc : 0 < inc ->
  (0 < chunks start steps inc -> start + (chunks start steps inc - 1) * inc < steps) /\ steps <= start + chunks start steps inc * inc.
Proof.
  intros Hi. unfold chunks. destruct (Z.leb_spec steps start); [lia|]. pose proof (Z.div_mod (steps - start + inc - 1) inc ltac:(lia)). pose proof (Z.mod_pos_bound (steps - start + inc - 1) inc Hi). nia.
Qed.
Definition all_files outfile start steps inc (g : G) : list (list byte * G) :=
  map (fun k => (padded (out_base outfile) (out_suffix outfile) steps (start + k * inc), Nat.iter (Z.to_nat k) (fun g => update g inc) g)) (zrange 1 (chunks start steps inc + 1)).

Lemma simulate_all outfile start steps inc g fuel : 0 < inc -> 0 <= steps -> steps + inc - 1 <= int_max ->
  zlen (out_base outfile) + zlen (out_suffix outfile) + 10 < 4096 ->
  iterations_start outfile = Some start -> 0 <= start -> chunks start steps inc <= Z.of_nat fuel ->
  simulate update fuel outfile steps inc g = Ended (all_files outfile start steps inc g).
Proof.
  intros Hi Hs Hm Hl Es H0 Hf. pose proof (chunks_nonneg start steps inc Hi). destruct (chunks_spec start steps inc Hi) as [C1 C2].
  unfold simulate. rewrite Es. unfold out_length. rewrite run_loop_eq; auto; [lia|].
  intros k Hk. assert (start + k * inc <= int_max) by nia. rewrite padded_len by nia.
    pose proof (show_len_int steps ltac:(lia)). pose proof (show_len_int (start + k * inc) ltac:(nia)). lia.
Qed.
Lemma simulate_files outfile start steps inc g fuel files : 0 < inc -> 0 <= steps -> steps + inc - 1 <= int_max ->
  zlen (out_base outfile) + zlen (out_suffix outfile) + 10 < 4096 ->
  iterations_start outfile = Some start -> 0 <= start ->
  simulate update fuel outfile steps inc g = Ended files -> files = all_files outfile start steps inc g.
Proof.
  intros Hi Hs Hm Hl Es H0 E. pose proof (chunks_nonneg start steps inc Hi) as C0.
  destruct (Z_le_gt_dec (chunks start steps inc) (Z.of_nat fuel)) as [Lf|Lf].
  - rewrite simulate_all with (start := start) in E by auto. congruence.
  - exfalso. unfold simulate in E. rewrite Es in E.
    assert (forall fuel i g files r, (Z.of_nat fuel < chunks i steps inc) -> run_loop update fuel steps inc (out_base outfile) (out_suffix outfile) (out_length outfile steps) i g files = Ended r -> False) as N.
    { clear -Hi. induction fuel as [|f IH]; intros i g files r L R; cbn [run_loop] in R.
      - destruct (Z.ltb_spec i steps); [discriminate|]. unfold chunks in L. destruct (Z.leb_spec steps i); lia.
      - destruct (Z.ltb_spec i steps) as [Lt|]; [|unfold chunks in L; destruct (Z.leb_spec steps i); lia].
        destruct (_ <? _); [discriminate|]. destruct (file_name _ _ _ _); [|discriminate]. apply IH in R; auto.
        pose proof (chunks_step i steps inc Hi Lt). lia. }
    apply N in E; [auto|]. lia.
Qed.

Lemma restart_files stem ext outfile start steps inc g done name g' rest : dotless stem -> dotless ext ->
  out_base outfile = stem ++ [46 : byte] -> out_suffix outfile = (46 : byte) :: ext ->
  0 < inc -> 0 <= steps -> steps + inc - 1 <= int_max -> zlen (out_base outfile) + zlen (out_suffix outfile) + 10 < 4096 -> 0 <= start ->
  all_files outfile start steps inc g = done ++ (name, g') :: rest ->
  exists fuel, simulate update fuel name steps inc g' = Ended rest.
Proof.
  intros Fs Fe Eb Ex Hi Hs Hm Hl H0 E. destruct (chunks_spec start steps inc Hi) as [C1 C2]. pose proof (chunks_nonneg start steps inc Hi) as C0.
  unfold all_files in E. rewrite Eb, Ex in *. set (n := chunks start steps inc) in *.
  assert (zlen done + 1 + zlen rest = n) as Ln.
  { apply (f_equal zlen) in E. rewrite zlen_map, zlen_zrange, zlen_app, zlen_cons in E by lia. lia. }
  pose proof (zlen_nonneg done). pose proof (zlen_nonneg rest). set (d := zlen done) in *.
  rewrite (zrange_app 1 (d + 1) (n + 1)), (zrange_cons (d + 1) (n + 1)), map_app in E by lia. cbn [map] in E.
  apply app_len_inj in E as [_ E]; [|rewrite map_length, length_zrange; unfold d, zlen; lia].
  injection E as E1 E2 E3.
  set (step := start + (d + 1) * inc) in *. assert (0 <= step <= int_max) as Bs by (unfold step; assert (start + (n - 1) * inc < steps) by lia; nia).
  destruct (show_int_nonneg step ltac:(lia)) as (Fd & Vd & Nd).
  set (num := repeat (48 : byte) (Z.to_nat (zlen (show_int steps) - zlen (show_int step))) ++ show_int step) in *.
  assert (name = stem ++ (46 : byte) :: num ++ (46 : byte) :: ext) as En.
  { rewrite <- E1. unfold padded, num. rewrite <- !app_assoc. reflexivity. }
  assert (digits_val num = step) as Vn by (unfold num; now rewrite digits_zeros).
  destruct (numbered stem num ext) as (S1 & S2 & S3); auto.
  { apply Forall_app; split; [apply Forall_forall; intros x Hx; apply repeat_spec in Hx; lia|]. eapply Forall_impl; [|exact Fd]. intros b Hb. now apply digit_bounds. }
  { unfold num. intros X. apply app_eq_nil in X as [_ X]. auto. }
  { lia. }
  rewrite <- En in S1, S2, S3. rewrite Vn in S1.
  exists (Z.to_nat (chunks step steps inc)). rewrite simulate_all with (start := step); auto; try lia.
  2:{ rewrite S2, S3. lia. }
  f_equal. rewrite <- E3. unfold all_files. rewrite S2, S3.
  assert (chunks step steps inc = n - (d + 1)) as ->.
  { destruct (chunks_spec step steps inc Hi) as [D1 D2]. pose proof (chunks_nonneg step steps inc Hi). unfold step in *. assert (0 < n) by lia. specialize (C1 ltac:(lia)).
    destruct (Z.lt_trichotomy (chunks (start + (d + 1) * inc) steps inc) (n - (d + 1))) as [L|[L|L]]; auto; exfalso; nia. }
  replace (d + 1 + 1) with (1 + (d + 1)) by lia. replace (n + 1) with (n - (d + 1) + 1 + (d + 1)) by lia.
  rewrite (zrange_shift 1 (n - (d + 1) + 1) (d + 1)), map_map. apply map_ext_in. intros k Hk. apply in_zrange in Hk. f_equal.
  - f_equal. unfold step. lia.
  - rewrite <- E2. replace (Z.to_nat (k + (d + 1))) with (Z.to_nat k + Z.to_nat (d + 1))%nat by lia. now rewrite iter_add.
Qed.
End Files.
