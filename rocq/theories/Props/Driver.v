(* C33, C34 and C58: the main program shared by the examples. *)
From Coq Require Import String.
From Verif Require Import Model.Base Model.Text Model.Ghostswap Model.Driver Spec.Driver Proof.BaseL Proof.TextL Proof.DriverL Proof.NamesL.
Local Open Scope list_scope.

(* what an accepted command line guarantees *)
Theorem C33_accepted : forall args infile outfile steps increment,
  parse_command args = Simulate infile outfile steps increment ->
  0 <= increment <= steps /\ steps <= int_max /\ (exists rest, args = infile :: rest) /\ (outfile = infile \/ exists rest, args = infile :: outfile :: rest).
Proof.
  assert (forall i o i' o' s inc a rest, parse_steps i o a rest = Simulate i' o' s inc -> i' = i /\ o' = o /\ 0 <= inc <= s /\ s <= int_max) as P.
  { intros i o i' o' s inc a rest. unfold parse_steps. destruct (only_digits a) eqn:Da; [|discriminate]. cbn [negb].
    assert (forall a v, only_digits a = true -> atoi a = Some v -> 0 <= v <= int_max) as R.
    { clear. intros a v D A. destruct a as [|b a].
      - cbv in A. injection A as <-. cbv; split; discriminate.
      - assert (Forall (fun b => 48 <= b <= 57) (b :: a)) as F.
        { apply Forall_forall. unfold only_digits in D. rewrite forallb_forall in D. intros x Hx. apply digit_bounds. auto. }
        assert (digits_val (b :: a) <= int_max \/ int_max < digits_val (b :: a)) as [L|L] by lia.
        + replace (b :: a) with ((b :: a) ++ []) in A by apply app_nil_r. rewrite atoi_digits in A; [|auto|congruence|exact I|auto]. injection A as <-.
          destruct (digits_bound (b :: a)); [|lia]. eapply Forall_impl; [|exact F]. intros x Hx. cbv beta in Hx. unfold is_digit. destruct (Z.leb_spec 48 x), (Z.leb_spec x 57); auto; lia.
        + exfalso. unfold atoi in A. inversion F; subst. rewrite skip_space_stop in A.
          2:{ unfold is_space. repeat match goal with |- context [Z.eqb b ?x] => destruct (Z.eqb_spec b x) | |- context [Z.leb b ?x] => destruct (Z.leb_spec b x) | |- context [Z.leb ?x b] => destruct (Z.leb_spec x b) end; auto; lia. }
          destruct (Z.eqb_spec b 45); [lia|]. destruct (Z.eqb_spec b 43); [lia|]. replace (b :: a) with ((b :: a) ++ []) in A by apply app_nil_r.
          rewrite span_digits in A by (auto; exact I). cbn [fst] in A. cbv zeta in A. destruct (Z.leb_spec (digits_val (b :: a)) int_max); [lia|]. rewrite andb_false_r in A. discriminate. }
    destruct (atoi a) as [v|] eqn:Aa; [|discriminate]. pose proof (R a v Da Aa). destruct rest as [|b rest].
    - intros E. injection E as <- <- <- <-. repeat split; auto; lia.
    - destruct (only_digits b) eqn:Db; [|discriminate]. cbn [negb]. destruct (atoi b) as [w|] eqn:Ab; [|discriminate]. pose proof (R b w Db Ab).
      destruct (Z.ltb_spec v w); [discriminate|]. intros E. injection E as <- <- <- <-. repeat split; auto; lia. }
  intros [|a1 rest] infile outfile steps increment; cbn [parse_command]; [discriminate|].
  destruct (list_eq_dec _ _ _); [discriminate|]. destruct (list_eq_dec _ _ _).
  { destruct rest as [|a2 [|a3 [|]]]; try discriminate; destruct (negb _); try discriminate; destruct (atoi a2); discriminate. }
  destruct rest as [|a2 rest']; [discriminate|]. destruct (Z.ltb 4 _); [discriminate|]. destruct (only_digits a2).
  - intros E. apply P in E as (-> & -> & ? & ?). eauto 10.
  - destruct rest' as [|a3 rest'']; [discriminate|]. intros E. apply P in E as (-> & -> & ? & ?). eauto 10.
Qed.
Print Assumptions C33_accepted.

(* n is the number of updates: the least for which the step reached is not before [steps].  Update k (from 1) is
   followed by a file that contains its result and is named by the step reached. *)
Theorem C33_schedule : forall G (update : G -> Z -> G) outfile steps increment start g,
  0 < increment -> 0 <= steps -> steps + increment - 1 <= int_max -> 2 * zlen outfile + 11 < 4096 ->
  iterations_start outfile = Some start -> 0 <= start ->
  exists n files, 0 <= n /\ (0 < n -> start + (n - 1) * increment < steps) /\ steps <= start + n * increment /\
    (forall fuel, n <= Z.of_nat fuel -> simulate update fuel outfile steps increment g = Ended files) /\
    zlen files = n /\
    forall k, 1 <= k <= n -> exists zeros,
      get files (k - 1) = Some (out_base outfile ++ repeat 48 zeros ++ show_int (start + k * increment) ++ out_suffix outfile,
                                Nat.iter (Z.to_nat k) (fun g => update g increment) g).
Proof.
  intros G update outfile steps inc start g Hi Hs Hm Hl Es H0. pose proof (chunks_nonneg start steps inc Hi) as C0.
  assert ((0 < chunks start steps inc -> start + (chunks start steps inc - 1) * inc < steps) /\ steps <= start + chunks start steps inc * inc) as [C1 C2].
  { unfold chunks. destruct (Z.leb_spec steps start); [lia|]. pose proof (Z.div_mod (steps - start + inc - 1) inc ltac:(lia)). pose proof (Z.mod_pos_bound (steps - start + inc - 1) inc Hi). nia. }
  destruct (out_parts outfile) as [Lb Ls].
  exists (chunks start steps inc), (all_files update outfile start steps inc g). split; [auto|]. split; [auto|]. split; [auto|]. split; [|split].
  - intros fuel Hf. apply simulate_all with (start := start); auto; lia.
  - unfold all_files. rewrite zlen_map, zlen_zrange by lia. lia.
  - intros k Hk. exists (Z.to_nat (zlen (show_int steps) - zlen (show_int (start + k * inc)))).
    unfold all_files, get. destruct (Z.ltb_spec (k - 1) 0); [lia|]. rewrite nth_error_map, nth_error_zrange by lia. cbn [option_map].
    replace (1 + Z.of_nat (Z.to_nat (k - 1))) with k by lia. reflexivity.
Qed.
Print Assumptions C33_schedule.

(* "prog start.0100.dat 1000 250": the files of steps 350, 600, 850 and 1100 *)
Example C33_case : parse_command [bytes "start.0100.dat"; bytes "1000"; bytes "250"] = Simulate (bytes "start.0100.dat") (bytes "start.0100.dat") 1000 250
  /\ simulate (fun g s => g + s) 9 (bytes "start.0100.dat") 1000 250 100 =
     Ended [(bytes "start.0350.dat", 350); (bytes "start.0600.dat", 600); (bytes "start.0850.dat", 850); (bytes "start.1100.dat", 1100)].
Proof. split; vm_compute; reflexivity. Qed.

(* "prog start 1000 0" is accepted and never ends *)
Theorem C33_zero_increment_refuted : forall G (update : G -> Z -> G) g,
  parse_command [bytes "start"; bytes "1000"; bytes "0"] = Simulate (bytes "start") (bytes "start") 1000 0 /\
  forall fuel, simulate update fuel (bytes "start") 1000 0 g = Running.
Proof.
  intros G update g. split; [vm_compute; reflexivity|]. intros fuel. unfold simulate.
  change (iterations_start (bytes "start")) with (Some 0). generalize (@nil (list byte * G)) as files. revert g.
  induction fuel as [|f IH]; intros g files; [reflexivity|]. cbn [run_loop].
  change (0 <? 1000) with true. change (int_max <? 0 + 0) with false. cbn iota.
  replace (file_name (out_base (bytes "start")) (out_suffix (bytes "start")) (out_length (bytes "start") 1000) (0 + 0)) with (Some (bytes "start.0000")) by (vm_compute; reflexivity).
  apply IH.
Qed.
Print Assumptions C33_zero_increment_refuted.

(* "prog in.0100.dat out.dat 1000 100": the step encoded in the input name is not used; the run starts at step 0 *)
Theorem C33_input_step_refuted : forall G (update : G -> Z -> G) g,
  parse_command [bytes "in.0100.dat"; bytes "out.dat"; bytes "1000"; bytes "500"] = Simulate (bytes "in.0100.dat") (bytes "out.dat") 1000 500 /\
  simulate update 2 (bytes "out.dat") 1000 500 g = Ended [(bytes "out.0500.dat", update g 500); (bytes "out.1000.dat", update (update g 500) 500)].
Proof. intros. split; vm_compute; reflexivity. Qed.
Print Assumptions C33_input_step_refuted.

(* If no step reached has more digits than [steps], the names are equally long and sorted in the order of the steps. *)
Theorem C34_order : forall G (update : G -> Z -> G) outfile steps increment start g fuel files,
  0 < increment -> 0 <= steps -> steps + increment - 1 <= int_max -> 2 * zlen outfile + 11 < 4096 ->
  iterations_start outfile = Some start -> 0 <= start ->
  (forall i, start <= i < steps -> zlen (show_int (i + increment)) <= zlen (show_int steps)) ->
  simulate update fuel outfile steps increment g = Ended files ->
  forall i j a b, i < j -> get files i = Some a -> get files j = Some b -> zlen (fst a) = zlen (fst b) /\ lex_lt (fst a) (fst b).
Proof.
  intros G update outfile steps inc start g fuel files Hi Hs Hm Hl Es H0 Hd E i j a b Hij Ga Gb.
  pose proof (chunks_nonneg start steps inc Hi) as C0. set (n := chunks start steps inc) in *.
  assert (0 < n -> start + (n - 1) * inc < steps) as C1.
  { subst n. unfold chunks. destruct (Z.leb_spec steps start); [lia|]. pose proof (Z.div_mod (steps - start + inc - 1) inc ltac:(lia)). pose proof (Z.mod_pos_bound (steps - start + inc - 1) inc Hi). nia. }
  destruct (out_parts outfile) as [Lb Ls]. rewrite (simulate_files update outfile start steps inc g fuel files) in Ga, Gb; auto; try lia.
  unfold all_files in Ga, Gb. fold n in Ga, Gb.
  unfold get in Ga, Gb. destruct (Z.ltb_spec i 0); [discriminate|]. destruct (Z.ltb_spec j 0); [discriminate|].
  assert (forall (X : Type) (l : list X) i x, nth_error l i = Some x -> (i < length l)%nat) as Lt by (intros X l0 i0 x0 Hx; apply nth_error_Some; congruence).
  pose proof (Lt _ _ _ _ Ga) as La. pose proof (Lt _ _ _ _ Gb) as Lj. rewrite map_length, length_zrange in La, Lj.
  rewrite nth_error_map, nth_error_zrange in Ga, Gb by lia.
  cbn [option_map] in Ga, Gb. injection Ga as <-. injection Gb as <-. cbn [fst]. rewrite !Z2Nat.id by lia.
  assert (forall k, 1 <= k <= n -> 0 <= start + k * inc <= int_max /\ zlen (show_int (start + k * inc)) <= zlen (show_int steps)) as B.
  { intros k Hk. assert (start + (k - 1) * inc < steps) by nia. split; [nia|]. specialize (Hd (start + (k - 1) * inc) ltac:(nia)). now replace (start + k * inc) with (start + (k - 1) * inc + inc) by lia. }
  destruct (B (1 + i) ltac:(lia)) as [Bi Di], (B (1 + j) ltac:(lia)) as [Bj Dj].
  assert (start + (1 + i) * inc < start + (1 + j) * inc) as L by nia.
  set (p := start + (1 + i) * inc) in *. set (q := start + (1 + j) * inc) in *. split.
  - rewrite !padded_len by lia. lia.
  - unfold padded. apply lex_prefix. rewrite !app_assoc.
    destruct (show_int_nonneg p ltac:(lia)) as (Fp & Vp & _), (show_int_nonneg q ltac:(lia)) as (Fq & Vq & _).
    apply lex_digits.
    + assert (forall k, zlen (repeat (48 : byte) k) = Z.of_nat k) as Zr by (intros; unfold zlen; now rewrite repeat_length). rewrite !zlen_app, !Zr. lia.
    + apply Forall_app; split; [apply zeros_digits|auto].
    + apply Forall_app; split; [apply zeros_digits|auto].
    + rewrite !digits_zeros. lia.
Qed.
Print Assumptions C34_order.
Example C34_order_case : iterations_start (bytes "run.dat") = Some 0 /\
  (forall i, 0 <= i < 1000 -> zlen (show_int (i + 70)) <= zlen (show_int 1000)) /\
  exists files, simulate (fun g s => g + s) 20 (bytes "run.dat") 1000 70 0 = Ended files /\ get files 0 = Some (bytes "run.0070.dat", 70) /\ get files 14 = Some (bytes "run.1050.dat", 1050).
Proof.
  split; [reflexivity|]. split.
  - intros i Hi. replace (zlen (show_int 1000)) with (zlen (show_int 9999)) by (vm_compute; reflexivity). apply show_len_mono. lia.
  - eexists. split; [vm_compute; reflexivity|]. split; vm_compute; reflexivity.
Qed.

(* The names in full.  The k-th file of a run is numbered by the step reached, filled up with zeros to the digits of [steps]: start gives start.0500,
   w.ext gives w.0500.ext, and a number before the extension is replaced, w.0100.ext giving w.0500.ext, but any other part is kept, w.mid.ext giving
   w.mid.0500.ext.  The run begins at step 0 for names with at most one dot, and at the number for stem.number.ext *)
Theorem C34_names : forall G (update : G -> Z -> G) outfile steps increment start g fuel files k f,
  0 < increment -> 0 <= steps -> steps + increment - 1 <= int_max -> 2 * zlen outfile + 11 < 4096 ->
  iterations_start outfile = Some start -> 0 <= start ->
  simulate update fuel outfile steps increment g = Ended files -> 1 <= k -> get files (k - 1) = Some f ->
  let i := start + k * increment in
  let number := repeat 48 (Z.to_nat (zlen (show_int steps) - zlen (show_int i))) ++ show_int i in
  (dotless outfile -> start = 0 /\ fst f = outfile ++ 46 :: number) /\
  (forall w ext, outfile = w ++ 46 :: ext -> dotless w -> dotless ext -> start = 0 /\ fst f = w ++ 46 :: number ++ 46 :: ext) /\
  (forall w mid ext, outfile = w ++ 46 :: mid ++ 46 :: ext -> dotless mid -> dotless ext ->
     (numeral mid -> fst f = w ++ 46 :: number ++ 46 :: ext) /\ (~ numeral mid -> fst f = w ++ 46 :: mid ++ 46 :: number ++ 46 :: ext) /\
     (dotless w -> numeral mid -> mid <> [] -> digits_val mid <= int_max -> start = digits_val mid)).
Proof.
  intros G update outfile steps inc start g fuel files k f Hi Hs Hm Hl Es H0 E Hk Gf i number.
  assert (fst f = out_base outfile ++ number ++ out_suffix outfile) as ->.
  { destruct (out_parts outfile) as [Lb Ls]. rewrite (simulate_files update outfile start steps inc g fuel files) in Gf; auto; try lia. unfold all_files, get in Gf. destruct (Z.ltb_spec (k - 1) 0); [lia|].
    assert (Z.to_nat (k - 1) < length (zrange 1 (chunks start steps inc + 1)))%nat as Lt by (rewrite <- (map_length (fun k => (padded (out_base outfile) (out_suffix outfile) steps (start + k * inc), Nat.iter (Z.to_nat k) (fun g => update g inc) g))); apply nth_error_Some; congruence).
    rewrite length_zrange in Lt. rewrite nth_error_map, nth_error_zrange in Gf by lia. cbn [option_map] in Gf. injection Gf as <-. cbn [fst]. replace (1 + Z.of_nat (Z.to_nat (k - 1))) with k by lia.
    unfold padded, number, i. rewrite <- !app_assoc. reflexivity. }
  split; [|split].
  - intros D. destruct (undotted outfile D) as (S0 & -> & ->). split; [congruence|]. now rewrite app_nil_r, <- app_assoc.
  - intros w ext Eo Dw De. assert (iterations_start outfile = Some 0 /\ out_base outfile = w ++ [46] /\ out_suffix outfile = 46 :: ext) as (S0 & B & S) by (rewrite Eo; exact (plain w ext Dw De)). rewrite B, S. split; [congruence|]. now rewrite <- app_assoc.
  - intros w mid ext Eo Dm De. assert ((numeral mid -> out_base outfile = w ++ [46]) /\ (~ numeral mid -> out_base outfile = (w ++ 46 :: mid) ++ [46]) /\ out_suffix outfile = 46 :: ext) as (B1 & B2 & S) by (rewrite Eo; exact (dotted w mid ext Dm De)). rewrite S. split; [|split].
    + intros N. rewrite (B1 N). now rewrite <- app_assoc.
    + intros N. rewrite (B2 N). now rewrite <- !app_assoc.
    + intros Dw N Ne L. assert (iterations_start outfile = Some (digits_val mid)) as S0 by (rewrite Eo; exact (proj1 (numbered w mid ext Dw N Ne De L))). congruence.
Qed.
Print Assumptions C34_names.

Example C34_names_case :
  simulate (fun g s => g + s) 2 (bytes "a.b.dat") 1000 500 0 = Ended [(bytes "a.b.0500.dat", 500); (bytes "a.b.1000.dat", 1000)] /\
  simulate (fun g s => g + s) 2 (bytes "a.b") 1000 500 0 = Ended [(bytes "a.0500.b", 500); (bytes "a.1000.b", 1000)] /\
  simulate (fun g s => g + s) 1 (bytes "a.0500.b") 1000 500 0 = Ended [(bytes "a.1000.b", 500)] /\
  simulate (fun g s => g + s) 1 (bytes "a") 20 20 0 = Ended [(bytes "a.20", 20)] /\ dotless (bytes "a") /\ ~ numeral (bytes "b") /\ numeral (bytes "0500").
Proof.
  do 4 (split; [vm_compute; reflexivity|]). split; [repeat constructor; discriminate|]. split; [|apply is_numeral; reflexivity].
  intros N. apply is_numeral in N. discriminate N.
Qed.

(* A run whose output name is "stem.ext" or "stem.number.ext", interrupted after one of its files, is continued by a run that
   reads that file: the restarted run writes the remaining files of the interrupted one. *)
Theorem C34_restart : forall G (update : G -> Z -> G) stem number ext steps increment g fuel files done name g' rest,
  dotless stem -> dotless ext -> numeral number -> digits_val number <= int_max ->
  let outfile := stem ++ (46 : byte) :: (if number then [] else number ++ [46 : byte]) ++ ext in
  0 < increment -> 0 <= steps -> steps + increment - 1 <= int_max -> 2 * zlen outfile + 11 < 4096 ->
  simulate update fuel outfile steps increment g = Ended files ->
  files = done ++ (name, g') :: rest ->
  exists fuel', simulate update fuel' name steps increment g' = Ended rest.
Proof.
  intros G update stem number ext steps inc g fuel files done name g' rest Fs Fe Fn Ln outfile Hi Hs Hm Hl E Ef.
  destruct (out_parts outfile) as [Lb Ls].
  assert (exists start, 0 <= start /\ iterations_start outfile = Some start /\ out_base outfile = stem ++ [46 : byte] /\ out_suffix outfile = (46 : byte) :: ext) as (start & H0 & Es & Eb & Ex).
  { destruct number as [|b number].
    - destruct (plain stem ext Fs Fe) as (A & B & C). exists 0. split; [lia|]. auto.
    - destruct (numbered stem (b :: number) ext Fs Fn ltac:(congruence) Fe Ln) as (A & B & C). exists (digits_val (b :: number)).
      split; [|]. { apply digits_bound. eapply Forall_impl; [|exact Fn]. intros x Hx. cbv beta in Hx. unfold is_digit. destruct (Z.leb_spec 48 x), (Z.leb_spec x 57); auto; lia. }
      unfold outfile. rewrite <- app_assoc. auto. }
  rewrite (simulate_files update outfile start steps inc g fuel files) in Ef; auto; try lia.
  eapply restart_files; [exact Fs|exact Fe|exact Eb|exact Ex|..|exact Ef]; auto; lia.
Qed.
Print Assumptions C34_restart.
Example C34_restart_case : dotless (bytes "run") /\ dotless (bytes "dat") /\
  simulate (fun g s => g + s) 9 (bytes "run.dat") 1000 250 0 =
    Ended ([(bytes "run.0250.dat", 250)] ++ (bytes "run.0500.dat", 500) :: [(bytes "run.0750.dat", 750); (bytes "run.1000.dat", 1000)]) /\
  simulate (fun g s => g + s) 9 (bytes "run.0500.dat") 1000 250 500 = Ended [(bytes "run.0750.dat", 750); (bytes "run.1000.dat", 1000)].
Proof. split; [repeat constructor; discriminate|]. split; [repeat constructor; discriminate|]. split; vm_compute; reflexivity. Qed.

(* Output names without extension, as in the program's own help message: "prog start 1000 500" writes "start.0500", but a run
   restarted from it starts at step 0 again and writes "start.0500.0500". *)
Theorem C34_no_extension_refuted : forall G (update : G -> Z -> G) g,
  simulate update 2 (bytes "start") 1000 500 g = Ended [(bytes "start.0500", update g 500); (bytes "start.1000", update (update g 500) 500)] /\
  let g' := update g 500 in
  simulate update 2 (bytes "start.0500") 1000 500 g' = Ended [(bytes "start.0500.0500", update g' 500); (bytes "start.1000.0500", update (update g' 500) 500)].
Proof. intros. split; vm_compute; reflexivity. Qed.
Print Assumptions C34_no_extension_refuted.

(* A dot anywhere else in the path: "./run.0500.dat" starts at step 0 *)
Theorem C34_dotted_path_refuted : forall G (update : G -> Z -> G) g,
  simulate update 2 (bytes "./run.dat") 1000 500 g = Ended [(bytes "./run.0500.dat", update g 500); (bytes "./run.1000.dat", update (update g 500) 500)] /\
  let g' := update g 500 in
  simulate update 2 (bytes "./run.0500.dat") 1000 500 g' = Ended [(bytes "./run.0500.dat", update g' 500); (bytes "./run.1000.dat", update (update g' 500) 500)].
Proof. intros. split; vm_compute; reflexivity. Qed.
Print Assumptions C34_dotted_path_refuted.

(* The last step may have more digits than [steps]: the names are neither equally long nor sorted *)
Theorem C34_overshoot_refuted : forall G (update : G -> Z -> G) g,
  parse_command [bytes "run.dat"; bytes "999"; bytes "500"] = Simulate (bytes "run.dat") (bytes "run.dat") 999 500 /\
  simulate update 2 (bytes "run.dat") 999 500 g = Ended [(bytes "run.500.dat", update g 500); (bytes "run.1000.dat", update (update g 500) 500)] /\
  lex_lt (bytes "run.1000.dat") (bytes "run.500.dat").
Proof. intros. split; [vm_compute; reflexivity|]. split; [vm_compute; reflexivity|]. vm_compute. repeat apply lex_tail. apply lex_head. reflexivity. Qed.
Print Assumptions C34_overshoot_refuted.

(* ---- malformed command lines ---- *)
(* numerals that fit in an int *)
Definition small (s : list byte) := numeral s -> digits_val s <= int_max.
(* Missing: a single argument after the input file that is not a number, see the refutation below. *)
Theorem C58_defined_partial : forall args, Forall small args -> (forall a b, args = [a; b] -> a = bytes "--example" \/ a = bytes "--help" \/ numeral b) ->
  parse_command args <> Undefined.
Proof.
  assert (forall s, only_digits s = true -> numeral s) as D.
  { intros s H. apply Forall_forall. unfold only_digits in H. rewrite forallb_forall in H. intros x Hx. apply digit_bounds. auto. }
  assert (forall s, only_digits s = true -> small s -> exists v, atoi s = Some v) as A.
  { intros s H Sm. destruct s as [|b s]; [exists 0; reflexivity|]. exists (digits_val (b :: s)). replace (b :: s) with ((b :: s) ++ []) at 1 by apply app_nil_r.
    apply atoi_digits; [auto|congruence|exact I|apply Sm; auto]. }
  assert (forall i o a rest, small a -> Forall small rest -> parse_steps i o a rest <> Undefined) as P.
  { intros i o a rest Sa Sr. unfold parse_steps. destruct (only_digits a) eqn:Da; [|discriminate]. cbn [negb]. destruct (A a Da Sa) as [v ->].
    destruct rest as [|b rest]; [discriminate|]. inversion Sr; subst. destruct (only_digits b) eqn:Db; [|discriminate]. cbn [negb].
    destruct (A b Db ltac:(auto)) as [w ->]. destruct (v <? w); discriminate. }
  intros [|a1 rest] F Two; cbn [parse_command]; [discriminate|]. inversion F as [|? ? F1 Fr]; subst.
  destruct (list_eq_dec _ _ _); [discriminate|]. destruct (list_eq_dec _ _ _).
  { destruct rest as [|a2 [|a3 [|]]]; try discriminate; inversion Fr; subst; destruct (only_digits a2) eqn:D2; try discriminate; cbn [negb]; destruct (A a2 D2 ltac:(auto)) as [v ->]; discriminate. }
  destruct rest as [|a2 rest']; [discriminate|]. inversion Fr; subst. destruct (Z.ltb 4 _); [discriminate|]. destruct (only_digits a2) eqn:D2.
  - apply P; auto.
  - destruct rest' as [|a3 rest''].
    + exfalso. destruct (Two a1 a2 eq_refl) as [|[|N]]; try contradiction. assert (only_digits a2 = true); [|congruence].
      apply forallb_forall. intros x Hx. unfold numeral in N. rewrite Forall_forall in N. specialize (N x Hx). cbv beta in N. unfold is_digit. destruct (Z.leb_spec 48 x), (Z.leb_spec x 57); auto; lia.
    + inversion H2; subst. apply P; auto.
Qed.
Print Assumptions C58_defined_partial.

(* everything that is accepted has one of the forms of the help message, or such a form followed by one more argument *)
Theorem C58_accepted : forall args infile outfile steps increment, parse_command args = Simulate infile outfile steps increment ->
  exists s, numeral s /\ atoi s = Some steps /\
    ((increment = steps /\ (args = [infile; s] /\ outfile = infile \/ args = [infile; outfile; s])) \/
     exists i, numeral i /\ atoi i = Some increment /\ increment <= steps /\
       (args = [infile; s; i] /\ outfile = infile \/ args = [infile; outfile; s; i] \/
        exists ignored, args = [infile; s; i; ignored] /\ outfile = infile)).
Proof.
  assert (forall s, only_digits s = true -> numeral s) as D.
  { intros s H. apply Forall_forall. unfold only_digits in H. rewrite forallb_forall in H. intros x Hx. apply digit_bounds. auto. }
  assert (forall i o i' o' s inc a rest, parse_steps i o a rest = Simulate i' o' s inc -> i' = i /\ o' = o /\ numeral a /\ atoi a = Some s /\
    (rest = [] /\ inc = s \/ exists b t, rest = b :: t /\ numeral b /\ atoi b = Some inc /\ inc <= s)) as P.
  { intros i o i' o' s inc a rest. unfold parse_steps. destruct (only_digits a) eqn:Da; [|discriminate]. cbn [negb].
    destruct (atoi a) as [v|] eqn:Aa; [|discriminate]. destruct rest as [|b rest].
    - intros E. injection E as <- <- <- <-. auto 10.
    - destruct (only_digits b) eqn:Db; [|discriminate]. cbn [negb]. destruct (atoi b) as [w|] eqn:Ab; [|discriminate].
      destruct (Z.ltb_spec v w); [discriminate|]. intros E. injection E as <- <- <- <-. repeat split; auto. right. eauto 10. }
  intros [|a1 rest] infile outfile steps increment; cbn [parse_command]; [discriminate|].
  destruct (list_eq_dec _ _ _); [discriminate|]. destruct (list_eq_dec _ _ _).
  { destruct rest as [|a2 [|a3 [|]]]; try discriminate; destruct (negb _); try discriminate; destruct (atoi a2); discriminate. }
  destruct rest as [|a2 rest']; [discriminate|]. destruct (Z.ltb_spec 4 (zlen (a1 :: a2 :: rest'))) as [|L]; [discriminate|].
  rewrite !zlen_cons in L. destruct (only_digits a2).
  - intros E. apply P in E as (-> & -> & Na & Aa & [[-> ->]|(b & t & -> & Nb & Ab & Le)]).
    + exists a2. auto 10.
    + exists a2. split; [auto|]. split; [auto|]. right. exists b. split; [auto|]. split; [auto|]. split; [auto|].
      destruct t as [|c [|d t]]; [auto|eauto|]. rewrite !zlen_cons in L. pose proof (zlen_nonneg t). lia.
  - destruct rest' as [|a3 rest'']; [discriminate|]. intros E. apply P in E as (-> & -> & Na & Aa & [[-> ->]|(b & t & -> & Nb & Ab & Le)]).
    + exists a3. auto 10.
    + exists a3. split; [auto|]. split; [auto|]. right. exists b. split; [auto|]. split; [auto|]. split; [auto|].
      destruct t as [|c t]; [auto|]. rewrite !zlen_cons in L. pose proof (zlen_nonneg t). lia.
Qed.
Print Assumptions C58_accepted.
Example C58_case : parse_command [bytes "start"; bytes "final"; bytes "1000"; bytes "100"] = Simulate (bytes "start") (bytes "final") 1000 100 /\
  parse_command [bytes "start"; bytes "1000"] = Simulate (bytes "start") (bytes "start") 1000 1000 /\
  parse_command [bytes "start"; bytes "100"; bytes "1000"] = Usage /\ parse_command [bytes "start"] = Usage /\ parse_command [] = Usage /\
  parse_command [bytes "start"; bytes "final"; bytes "ten"] = Usage.
Proof. repeat split; vm_compute; reflexivity. Qed.

(* "prog start final": the missing number of steps is read through a null pointer *)
Theorem C58_missing_steps_refuted : forall infile, infile <> bytes "--help" -> infile <> bytes "--example" ->
  parse_command [infile; bytes "final"] = Undefined.
Proof. intros. cbn [parse_command]. destruct (list_eq_dec _ _ _); [contradiction|]. destruct (list_eq_dec _ _ _); [contradiction|]. reflexivity. Qed.
Print Assumptions C58_missing_steps_refuted.
