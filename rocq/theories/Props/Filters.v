(* C117: mmsp2z, wrongendian and mmsp2topo, from the command line to the files. *)
From Coq Require Import String Permutation.
From Verif Require Import Model.Base Model.Text Model.Boundary Model.Layout Model.Access Model.Setup Model.Codec Model.Region Model.MPI Model.Ghostswap Model.File Model.Simulate Model.Driver Model.Types Model.Pvd Model.Tools Model.Mmsp2z Model.Endian Model.Filters
  Spec.Box Spec.Bytes Spec.Access Spec.Decomp Spec.File Spec.Schedule Spec.Jobs Spec.Runs Spec.Mixed Spec.Options Spec.Endian Spec.Moved Spec.Filters
  Proof.BaseL Proof.TextL Proof.OptionsL Proof.ToolsL Props.File Props.Endian Props.Moved.
Local Open Scope list_scope.
Local Open Scope Z_scope.

Lemma line_prefix (p file : list byte) : prefix_of p (fst (getline file)) = true -> Types.starts p file = true.
Proof.
  unfold getline. assert (exists v, file = fst (span (fun b => negb (b =? 10)) file) ++ v) as [v E].
  { induction file as [|b l [v IH]]; [now exists []|]. cbn [span]. destruct (negb (b =? 10)); [|now exists (b :: l)]. destruct (span _ l) as [x y]. cbn [fst] in *. exists v. cbn [app]. now f_equal. }
  destruct (span (fun b => negb (b =? 10)) file) as [x y]. cbn [fst] in *. intros H. rewrite E. clear E.
  revert x H. induction p as [|a p IH]; intros [|b x] H; try reflexivity; try discriminate. cbn [prefix_of app Types.starts] in *. apply andb_true_iff in H as [-> H]. now rewrite IH.
Qed.

(* mmsp2z in out, two different names: if it ends well, out has what it makes of in; unless its behaviour is undefined no other file changes, however
   it ends *)
Theorem C117_compress : forall compress F (fshow : F -> list byte) fparse so_far cin a out rest d d' o file, not_option a -> a <> out -> d a = Some file ->
  z_run compress fshow fparse so_far cin (a :: out :: rest) d = (d', o) ->
  (o <> Undef -> only_writes out d d' /\ exists c, d' out = Some c) /\
  (o = Done tt <-> exists r, mmsp2z compress fshow fparse file = Done r) /\ (forall r, mmsp2z compress fshow fparse file = Done r -> d' out = Some r).
Proof.
  intros compress F fshow fparse so_far cin a out rest d d' o file [N1 N2] No Ed R. unfold z_run, two_files in R. rewrite (same_text_ne _ _ N1), (same_text_ne _ _ N2), Ed in R. cbv zeta in R.
  rewrite write_other, Ed in R by exact No. unfold only_writes.
  destruct (mmsp2z compress fshow fparse file) as [r|n|] eqn:E; injection R as <- <-; (split; [intros _; split; [intros m Nm; now rewrite !write_other by exact Nm|eexists; apply write_same]|]).
  - split; [split; eauto|]. intros r' H. injection H as <-. apply write_same.
  - split; [split; [discriminate|intros [r H]; discriminate]|discriminate].
  - split; [split; [discriminate|intros [r H]; discriminate]|discriminate].
Qed.
Print Assumptions C117_compress.

(* From the standard input *)
Theorem C117_compress_stdin : forall compress F (fshow : F -> list byte) fparse so_far cin out rest d r, mmsp2z compress fshow fparse cin = Done r ->
  exists d', z_run compress fshow fparse so_far cin (bytes "--" :: out :: rest) d = (d', Done tt) /\ d' out = Some r /\ only_writes out d d'.
Proof.
  intros. unfold z_run, two_files. rewrite (same_text_ne (bytes "--") (bytes "--help")), (proj2 (same_text_eq (bytes "--") (bytes "--")) eq_refl) by discriminate. cbv zeta. rewrite H.
  eexists. split; [reflexivity|]. split; [apply write_same|]. intros m Nm. now rewrite !write_other by exact Nm.
Qed.
Print Assumptions C117_compress_stdin.

(* The same name twice: the data are lost before anything has been read, whatever they were *)
Theorem C117_in_place_refuted : forall compress F (fshow : F -> list byte) fparse so_far cin a rest d file, not_option a -> d a = Some file ->
  exists d', z_run compress fshow fparse so_far cin (a :: a :: rest) d = (d', Undef) /\ d' a = Some so_far.
Proof.
  intros compress F fshow fparse so_far cin a rest d file [N1 N2] Ed. unfold z_run, two_files. rewrite (same_text_ne _ _ N1), (same_text_ne _ _ N2), Ed. cbv zeta. rewrite write_same.
  eexists. split; [reflexivity|]. apply write_same.
Qed.
Print Assumptions C117_in_place_refuted.

(* When the input is not what it should be, the former contents of the output are lost *)
Theorem C117_failure_refuted : forall compress F (fshow : F -> list byte) fparse so_far cin a out rest d file n, not_option a -> a <> out -> d a = Some file ->
  mmsp2z compress fshow fparse file = Exit n -> exists d', z_run compress fshow fparse so_far cin (a :: out :: rest) d = (d', Exit n) /\ d' out = Some so_far.
Proof.
  intros compress F fshow fparse so_far cin a out rest d file n [N1 N2] No Ed E. unfold z_run, two_files. rewrite (same_text_ne _ _ N1), (same_text_ne _ _ N2), Ed. cbv zeta. rewrite write_other, Ed, E by exact No.
  eexists. split; [reflexivity|]. apply write_same.
Qed.
Print Assumptions C117_failure_refuted.

(* wrongendian in out [n], two different names and n > 0 threads, of a file that np ranks wrote on a machine of the other byte order (C113), however
   the threads are scheduled: it ends well, out is the file that np ranks write here, up to the order of the blocks, and exactly that with one thread or
   one rank; no other file changes *)
Theorem C117_moved : forall t k w T (c : codec T) nums valid fresh S (dshow : S -> list byte) dparse compress uncompress F (fshow : F -> list byte) fparse pack fields gs dx B gh np D V file,
  movable t k w c nums valid fresh dshow dparse compress uncompress fshow fparse pack fields gs dx B gh np D V file ->
  forall so_far sched a out rest n d, a <> bytes "--help" -> a <> out -> threads_asked rest n -> 0 < n -> (forall l, written (Z.to_nat n) l (sched (Z.to_nat n) l)) ->
  d a = Some (machine_file nums (@rev byte) pack dshow (bytes t) fields gs dx B gh np V) ->
  exists d' r, endian_run compress uncompress fshow fparse so_far sched (a :: out :: rest) d = (d', Done tt) /\ only_writes out d d' /\ d' out = Some r /\
    (exists ws, Permutation (zrange 0 np) ws /\ r = stored_file (fun x => x) compress (header dshow (bytes t) fields gs dx) (map (rank_block nums gs B gh np V) ws)) /\
    (n = 1 \/ np = 1 -> r = file).
Proof.
  intros t k w T c nums valid fresh S dshow dparse compress uncompress F fshow fparse pack fields gs dx B gh np D V file M so_far sched a out rest n d Na No Hr Hn Hs Ed.
  destruct (C113_converts t k w T c nums valid fresh S dshow dparse compress uncompress F fshow fparse pack fields gs dx B gh np D V file M (Z.to_nat n) ltac:(lia)) as [(o1 & hd & l & body & Ec & _ & _) U].
  set (foreign := machine_file nums (@rev byte) pack dshow (bytes t) fields gs dx B gh np V) in *.
  destruct (U (hd ++ sched (Z.to_nat n) l)) as [P1 P2]; [exists hd, l, (sched (Z.to_nat n) l); auto|].
  unfold endian_run, two_files. rewrite (same_text_ne _ _ Na), Ed.
  pose proof Ec as Ec'. unfold convert in Ec'. destruct (getline foreign) as [ty s]. cbn [fst]. destruct (negb (prefix_of (bytes "grid") ty)); [discriminate|]. destruct (width_of ty); [|discriminate]. clear Ec'. cbv zeta.
  assert (match rest with [t] => atoi t | _ => Some 2 end = Some n) as ->.
  { destruct Hr as [[-> ->]|[Nn ->]]; [reflexivity|]. now apply atoi_int. }
  replace (n =? 0) with false by (symmetry; apply Z.eqb_neq; lia). replace (n <? 0) with false by (symmetry; apply Z.ltb_ge; lia). rewrite (same_text_ne _ _ No), Ec.
  eexists _, _. split; [reflexivity|]. split; [intros m Nm; now rewrite !write_other by exact Nm|]. split; [apply write_same|]. split; [exact P1|]. intros H. apply P2. destruct H as [->|H]; auto.
Qed.
Print Assumptions C117_moved.

(* However it ends, unless its behaviour is undefined, only out changes; and a file that is not a grid does not cost the former contents of out *)
Theorem C117_swap_files : forall compress uncompress F (fshow : F -> list byte) fparse so_far sched a out rest d d' o,
  endian_run compress uncompress fshow fparse so_far sched (a :: out :: rest) d = (d', o) -> (o <> Undef -> only_writes out d d') /\
  (forall file, d a = Some file -> Types.starts (bytes "grid") file = false -> a <> bytes "--help" -> o = Exit (-1) /\ forall m, d' m = d m).
Proof.
  intros compress uncompress F fshow fparse so_far sched a out rest d d' o R. unfold endian_run, two_files in R. split.
  - intros _ m Nm.
    destruct (same_text a (bytes "--help")); [now injection R as <- <-|]. destruct (d a) as [file|]; [|now injection R as <- <-]. cbv zeta in R. destruct (negb _); [now injection R as <- <-|].
    destruct (width_of _); [|now injection R as <- <-]. destruct (match rest with [t] => atoi t | _ => Some 2 end) as [n|]; [|injection R as <- <-; now rewrite write_other by exact Nm].
    destruct (n =? 0); [injection R as <- <-; now rewrite write_other by exact Nm|]. destruct (n <? 0); [injection R as <- <-; now rewrite !write_other by exact Nm|].
    destruct (same_text a out); [injection R as <- <-; now rewrite !write_other by exact Nm|].
    destruct (convert _ _ _ _ _) as [[hd l]| |]; injection R as <- <-; now rewrite !write_other by exact Nm.
  - intros file Ed Ns Na. rewrite (same_text_ne _ _ Na), Ed in R.
    assert (prefix_of (bytes "grid") (fst (getline file)) = false) as E.
    { destruct (prefix_of (bytes "grid") (fst (getline file))) eqn:E; [|reflexivity]. exfalso. rewrite <- not_true_iff_false in Ns. apply Ns. now apply line_prefix. }
    rewrite E in R. cbn [negb] in R. injection R as <- <-. auto.
Qed.
Print Assumptions C117_swap_files.

(* The same name twice never ends well, nor do no threads or less, and then the output is already emptied *)
Theorem C117_swap_in_place_refuted : forall compress uncompress F (fshow : F -> list byte) fparse so_far sched a rest d d',
  endian_run compress uncompress fshow fparse so_far sched (a :: a :: rest) d <> (d', Done tt).
Proof.
  intros compress uncompress F fshow fparse so_far sched a rest d d' R. unfold endian_run, two_files in R. destruct (same_text a (bytes "--help")); [discriminate|]. destruct (d a); [|discriminate].
  cbv zeta in R. destruct (negb _); [discriminate|]. destruct (width_of _); [|discriminate]. destruct (match rest with [t] => atoi t | _ => Some 2 end) as [n|]; [|discriminate].
  destruct (n =? 0); [discriminate|]. destruct (n <? 0); [discriminate|]. rewrite (proj2 (same_text_eq a a) eq_refl) in R. discriminate.
Qed.
Print Assumptions C117_swap_in_place_refuted.
Theorem C117_no_threads_refuted : forall compress uncompress F (fshow : F -> list byte) fparse so_far sched a out d file, a <> bytes "--help" -> d a = Some file ->
  prefix_of (bytes "grid") (fst (getline file)) = true -> width_of (fst (getline file)) <> None ->
  exists d', endian_run compress uncompress fshow fparse so_far sched [a; out; bytes "0"] d = (d', Exit (-1)) /\ d' out = Some [].
Proof.
  intros compress uncompress F fshow fparse so_far sched a out d file Na Ed P W. unfold endian_run, two_files. rewrite (same_text_ne _ _ Na), Ed, P. cbv zeta. cbn [negb]. destruct (width_of (fst (getline file))); [|congruence].
  change (atoi (bytes "0")) with (Some 0). cbn [Z.eqb]. eexists. split; [reflexivity|]. apply write_same.
Qed.
Print Assumptions C117_no_threads_refuted.

(* mmsp2topo in out, also with the same name twice: the table is written only if all went well, and otherwise no file changes *)
Theorem C117_table : forall table a out d d' o, topo_run table [a; out] d = (d', o) ->
  (o = Done tt -> exists file r, d a = Some file /\ table file = Done r /\ d' out = Some r /\ only_writes out d d') /\ (o <> Done tt -> forall m, d' m = d m).
Proof.
  intros table a out d d' o R. unfold topo_run in R. destruct (d a) as [file|] eqn:Ed; [|injection R as <- <-; split; [discriminate|auto]].
  destruct (topo_look file); [|injection R as <- <-; split; [discriminate|auto]..]. destruct (table file) as [r| |] eqn:Et; injection R as <- <-; (split; [|auto; congruence]); try discriminate.
  intros _. exists file, r. split; [reflexivity|]. split; [exact Et|]. split; [apply write_same|]. intros m Nm. now apply write_other.
Qed.
Print Assumptions C117_table.
(* A first line that ends too soon is not reported but ends the program by an exception *)
Theorem C117_short_type_refuted : forall table a out d, d a = Some (bytes "grid" ++ [10]) \/ d a = Some (bytes "grid:sparse" ++ [10]) -> topo_run table [a; out] d = (d, Exit 134).
Proof. intros table a out d [E|E]; unfold topo_run; rewrite E; reflexivity. Qed.
Print Assumptions C117_short_type_refuted.

(* --help alone is answered as a wrong command line by all three *)
Theorem C117_help_refuted : forall compress uncompress F (fshow : F -> list byte) fparse so_far cin sched table d,
  z_run compress fshow fparse so_far cin [bytes "--help"] d = (d, Exit (-1)) /\ endian_run compress uncompress fshow fparse so_far sched [bytes "--help"] d = (d, Exit (-1)) /\ topo_run table [bytes "--help"] d = (d, Exit 1).
Proof. intros. repeat split. Qed.
Print Assumptions C117_help_refuted.

(* The six numbers of C113 in two blocks, converted under another name *)
Lemma in_turn n l : (0 < n)%nat -> written n l (concat l).
Proof.
  intros Hn. remember (length l) as k eqn:Hk. revert l Hk. induction k as [k IH] using (well_founded_induction lt_wf). intros l ->. destruct l as [|b l]; [constructor|].
  rewrite <- (firstn_skipn n (b :: l)) at 2. rewrite concat_app. eapply (written_batch n (b :: l) _ (skipn n (b :: l))); [discriminate|symmetry; apply firstn_skipn|reflexivity|reflexivity|].
  apply (IH (length (skipn n (b :: l)))); [|reflexivity]. rewrite skipn_length. cbn [length]. lia.
Qed.
Example C117_case : exists d d' file r,
  endian_run (cons 0) (fun y _ => Some (tl y)) show_int ex_parse [] (fun _ l => concat l) [bytes "there"; bytes "here"; bytes "3"] d = (d', Done tt) /\
  d (bytes "here") = None /\ d' (bytes "here") = Some r /\ d' (bytes "there") = Some file /\ r <> file /\ (40 < length r)%nat.
Proof.
  destruct C113_case as (file & out & M & _). set (foreign := machine_file scalar_numbers (@rev byte) (cons 0) show_int ex_name 1 ex_gs [2] six_bcs 1 2 six_V) in *.
  destruct (C117_moved _ _ _ _ _ _ _ _ _ _ _ _ _ _ _ _ _ _ _ _ _ _ _ _ _ _ M [] (fun _ l => concat l) (bytes "there") (bytes "here") [bytes "3"] 3 (fun m => if same_text m (bytes "there") then Some foreign else None))
    as (d' & r & R & O & Er & (ws & Pw & Hr) & _); try discriminate.
  - right. split; [unfold natural, int_max; lia|reflexivity].
  - reflexivity.
  - intros l. apply in_turn. lia.
  - now rewrite (proj2 (same_text_eq (bytes "there") _) eq_refl).
  - eexists _, d', foreign, r. split; [exact R|]. split; [reflexivity|]. split; [exact Er|]. split; [rewrite O by discriminate; now rewrite (proj2 (same_text_eq (bytes "there") _) eq_refl)|].
    assert (ws = [0; 1] \/ ws = [1; 0]) as W by (change (zrange 0 2) with [0; 1] in Pw; apply Permutation_length_2_inv in Pw; tauto).
    destruct W as [-> | ->]; rewrite Hr; split; [vm_compute; discriminate|vm_compute; lia|vm_compute; discriminate|vm_compute; lia].
Qed.
