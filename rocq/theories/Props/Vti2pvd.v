(* C116: the script vti2pvd makes a picture of every data file of a directory and an index that lists them. *)
From Coq Require Import String QArith.QArith QArith.Qcanon Permutation.
From Verif Require Import Model.Base Model.Text Model.Num Model.Ghostswap Model.File Model.Driver Model.Types Model.Image Model.Options Model.Pvd
  Spec.Driver Spec.Options Spec.Pvd Model.Tools Model.Vti2pvd Spec.Tools Spec.Vti2pvd Proof.BaseL Proof.DriverL Proof.OptionsL Proof.PvdL Proof.TypesL Proof.ToolsL Proof.Vti2pvdL.
Local Open Scope list_scope.
Local Open Scope Z_scope.

(* A directory with the data files u.dat for u in us, the oldest first, in whose names dat is only the ending, all of which mmsp2vti can convert; jobs
   done in any order.  The index is named after the oldest file and lists the pictures u.vti in the order of age at the times 0, 1, 2, ...; each
   picture is there, the one that was there before or else that of the data file; nothing else changes *)
Theorem C116_index : forall atof convert first rest (data pic : list byte -> list byte) turns d,
  let us := first :: rest in
  NoDup us -> Forall (fun u => a_name (u ++ bytes ".dat") /\ ~ mentions (bytes "dat") u) us ->
  (forall u, In u us -> d (u ++ bytes ".dat") = Some (data u) /\ convert MMSP2VTI Plain (data u) = Done (pic u)) ->
  Permutation us turns ->
  exists d' text, vti2pvd atof convert (map (fun u => u ++ bytes ".dat") us) (map (fun u => u ++ bytes ".dat") turns) d = (d', Done tt) /\
    d' (index_file first) = Some text /\ lists text (map picture us) /\
    (forall u, In u us -> d' (picture u) = Some (match d (picture u) with Some old => old | None => pic u end)) /\
    (forall m, m <> index_file first -> ~ In m (map picture us) -> d' m = d m).
Proof.
  intros atof convert first rest data pic turns d us ND F H P.
  assert (NoDup turns) as ND' by (eapply Permutation_NoDup; eauto).
  assert (Forall fine turns) as F' by (eapply Permutation_Forall; eauto).
  assert (forall u, In u turns <-> In u us) as Pi by (intros u; split; apply Permutation_in; [now apply Permutation_sym|exact P]).
  destruct (jobs atof convert data pic turns ND' F' d) as [J1 J2]; [intros u Hu; apply H; now apply Pi|]. cbv zeta in J1, J2.
  assert (pvd_of (first ++ bytes ".dat") = index_file first) as Ep by (apply pvd_plain; inversion F; tauto).
  assert (forall u, picture u <> index_file first) as Np.
  { intros u E. apply (f_equal (@rev _)) in E. unfold picture, index_file in E. rewrite !rev_app_distr in E. cbn in E. discriminate. }
  unfold vti2pvd. unfold us at 1. cbn [map]. rewrite Ep. eexists _, _. split; [reflexivity|]. split; [apply write_same|]. split; [|split].
  - apply index_lists. apply pictures_listed. exact F.
  - intros u Hu. rewrite write_other by apply Np. apply J1. now apply Pi.
  - intros m N1 N2. rewrite write_other by exact N1. apply J2. intros C. apply N2. apply in_map_iff in C as (u & <- & Hu). apply in_map. now apply Pi.
Qed.
Print Assumptions C116_index.

(* Run again, with the jobs in another order, it changes nothing *)
Theorem C116_again : forall atof convert first rest (data pic : list byte -> list byte) turns turns' d d1 d2,
  let us := first :: rest in let names l := map (fun u => u ++ bytes ".dat") l in
  NoDup us -> Forall (fun u => a_name (u ++ bytes ".dat") /\ ~ mentions (bytes "dat") u) us ->
  (forall u, In u us -> d (u ++ bytes ".dat") = Some (data u) /\ convert MMSP2VTI Plain (data u) = Done (pic u)) ->
  Permutation us turns -> Permutation us turns' ->
  vti2pvd atof convert (names us) (names turns) d = (d1, Done tt) -> vti2pvd atof convert (names us) (names turns') d1 = (d2, Done tt) ->
  forall m, d2 m = d1 m.
Proof.
  intros atof convert first rest data pic turns turns' d d1 d2 us names ND F H P P' E1 E2 m.
  destruct (C116_index atof convert first rest data pic turns d ND F H P) as (d' & text & R & T & L & Pc & O). unfold names, us in E1. rewrite R in E1. injection E1 as ->.
  assert (forall u v, picture u <> v ++ bytes ".dat") as N1 by (intros; apply picture_name).
  assert (forall u, index_file first <> u ++ bytes ".dat") as N2.
  { intros u E. apply (f_equal (@rev _)) in E. unfold index_file in E. rewrite !rev_app_distr in E. cbn in E. discriminate. }
  destruct (C116_index atof convert first rest data pic turns' d1 ND F) as (d'' & text' & R' & T' & L' & Pc' & O'); [|exact P'|].
  { intros u Hu. destruct (H u Hu) as [Ed Ec]. split; [|exact Ec]. rewrite O; [exact Ed| |].
    - intros C. symmetry in C. now apply N2 in C.
    - intros C. apply in_map_iff in C as (v & C & _). now apply N1 in C. }
  unfold names, us in E2. rewrite R' in E2. injection E2 as ->.
  destruct (list_eq_dec Z.eq_dec m (index_file first)) as [->|Nm]; [rewrite T, T'; unfold lists in L, L'; congruence|].
  destruct (in_dec (list_eq_dec Z.eq_dec) m (map picture (first :: rest))) as [Im|Im]; [|now apply O'].
  apply in_map_iff in Im as (u & <- & Hu). rewrite (Pc' u Hu), (Pc u Hu). reflexivity.
Qed.
Print Assumptions C116_again.

(* A picture from before stays, although the data file is newer: it is listed and is not a picture of the data *)
Theorem C116_current_refuted : forall atof convert u old new d, a_name (u ++ bytes ".dat") -> ~ mentions (bytes "dat") u -> old <> new ->
  (exists data, d (u ++ bytes ".dat") = Some data /\ convert MMSP2VTI Plain data = Done new) -> d (picture u) = Some old ->
  exists d' text, vti2pvd atof convert [u ++ bytes ".dat"] [u ++ bytes ".dat"] d = (d', Done tt) /\ d' (index_file u) = Some text /\ lists text [picture u] /\ d' (picture u) <> Some new.
Proof.
  intros atof convert u old new d A N Nn (data & Ed & Ec) Eo.
  destruct (C116_index atof convert u [] (fun _ => data) (fun _ => new) [u] d) as (d' & text & R & T & L & Pc & _).
  - constructor; [intros []|constructor].
  - now constructor.
  - intros v [<-|[]]. auto.
  - reflexivity.
  - exists d', text. split; [exact R|]. split; [exact T|]. split; [exact L|]. rewrite (Pc u (or_introl eq_refl)), Eo. congruence.
Qed.
Print Assumptions C116_current_refuted.

(* A file whose name has dat before its ending too, such as data.dat: the picture is made, but the index lists another name, of a file that does
   not exist *)
Theorem C116_listed_refuted : forall atof convert u data pic d, a_name (u ++ bytes ".dat") -> mentions (bytes "dat") u ->
  d (u ++ bytes ".dat") = Some data -> convert MMSP2VTI Plain data = Done pic ->
  let listed := vti_of (u ++ bytes ".dat") in d listed = None -> pvd_of (u ++ bytes ".dat") <> listed -> pvd_of (u ++ bytes ".dat") <> picture u ->
  exists d' text, vti2pvd atof convert [u ++ bytes ".dat"] [u ++ bytes ".dat"] d = (d', Done tt) /\
    d' (picture u) = Some pic /\ listed <> picture u /\ d' (pvd_of (u ++ bytes ".dat")) = Some text /\ lists text [listed] /\ d' listed = None.
Proof.
  intros atof convert u data pic d A M Ed Ec listed El Np1 Np2.
  assert (listed = vti_of u ++ bytes ".dat") as Es by (apply replace_within; [discriminate|exact M]).
  assert (listed <> picture u) as Nl.
  { rewrite Es. intros E. symmetry in E. now apply picture_name in E. }
  unfold vti2pvd. cbn [fold_left]. unfold dat2vti. fold listed. rewrite El. unfold run_tool. cbn [request_of]. rewrite (vti_request_dat u A). cbn [r_in r_out r_order]. rewrite Ed. cbn [first_look opens_early]. cbv zeta. rewrite Ed, Ec. cbn [fst].
  eexists _, _. split; [reflexivity|]. split; [rewrite write_other by auto; apply write_same|]. split; [exact Nl|]. split; [apply write_same|]. split.
  - apply index_lists. repeat constructor.
  - rewrite !write_other by auto. exact El.
Qed.
Print Assumptions C116_listed_refuted.

(* A data file that cannot be converted is listed all the same, and the script ends as if all had gone well *)
Theorem C116_failure_refuted : forall atof convert u data n d, a_name (u ++ bytes ".dat") -> ~ mentions (bytes "dat") u ->
  d (u ++ bytes ".dat") = Some data -> convert MMSP2VTI Plain data = Exit n -> d (picture u) = None ->
  exists d' text, vti2pvd atof convert [u ++ bytes ".dat"] [u ++ bytes ".dat"] d = (d', Done tt) /\ d' (index_file u) = Some text /\ lists text [picture u] /\ d' (picture u) = None.
Proof.
  intros atof convert u data n d A N Ed Ec Ep.
  unfold vti2pvd. cbn [fold_left]. unfold dat2vti. rewrite (vti_plain u N), (pvd_plain u N). fold (picture u) (index_file u). rewrite Ep. unfold run_tool. cbn [request_of]. rewrite (vti_request_dat u A). cbn [r_in r_out r_order]. rewrite Ed. cbn [first_look opens_early]. cbv zeta. rewrite Ed, Ec. cbn [fst].
  eexists _, _. split; [reflexivity|]. split; [apply write_same|]. split.
  - apply index_lists. constructor; [now apply vti_plain|constructor].
  - rewrite write_other; [exact Ep|]. intros E. apply (f_equal (@rev _)) in E. unfold picture, index_file in E. rewrite !rev_app_distr in E. cbn in E. discriminate.
Qed.
Print Assumptions C116_failure_refuted.

(* With .dat in the middle of the name, as in run.data.5.dat, the index itself gets the name of a data file *)
Theorem C116_index_name_refuted : forall u, mentions (bytes ".dat") u -> exists v, data_file v (pvd_of (u ++ bytes ".dat")).
Proof. intros u M. exists (pvd_of u). apply replace_within; [discriminate|exact M]. Qed.
Print Assumptions C116_index_name_refuted.

(* Three files of a run, made out of order; the second has a picture already *)
Definition ex_disk : disk := fun m =>
  if same_text m (bytes "r.0.dat") then Some [0] else if same_text m (bytes "r.1.dat") then Some [1] else
  if same_text m (bytes "r.2.dat") then Some [2] else if same_text m (bytes "r.1.vti") then Some [21] else None.
Definition ex_convert (_ : tool) (_ : order) (c : list byte) : outcome (list byte) := match c with [k] => Done [20 + k] | _ => Exit 1 end.
Lemma no_dat (b : list byte) : finds (bytes "dat") b = false -> ~ mentions (bytes "dat") b.
Proof.
  intros H (x & y & ->). revert H. induction x as [|a x IH]; [discriminate|]. cbn [app finds]. intros H. apply orb_false_iff in H as [_ H]. auto.
Qed.
Example C116_case : exists d' text, vti2pvd (fun _ => 0%Qc) ex_convert [bytes "r.0.dat"; bytes "r.1.dat"; bytes "r.2.dat"] [bytes "r.2.dat"; bytes "r.0.dat"; bytes "r.1.dat"] ex_disk = (d', Done tt) /\
  d' (bytes "r.0.pvd") = Some text /\ lists text [bytes "r.0.vti"; bytes "r.1.vti"; bytes "r.2.vti"] /\
  d' (bytes "r.0.vti") = Some [20] /\ d' (bytes "r.1.vti") = Some [21] /\ d' (bytes "r.2.vti") = Some [22] /\ d' (bytes "r.1.dat") = Some [1].
Proof.
  destruct (C116_index (fun _ => 0%Qc) ex_convert (bytes "r.0") [bytes "r.1"; bytes "r.2"] (fun u => [nth 2 u 0 - 48]) (fun u => [20 + (nth 2 u 0 - 48)]) [bytes "r.2"; bytes "r.0"; bytes "r.1"] ex_disk)
    as (d' & text & R & T & L & Pc & O).
  - repeat constructor; cbn; intuition discriminate.
  - repeat constructor; apply no_dat; reflexivity.
  - intros u [<-|[<-|[<-|[]]]]; split; reflexivity.
  - apply (Permutation_middle [bytes "r.0"; bytes "r.1"] [] (bytes "r.2")) || (cbn; eapply perm_trans; [apply perm_skip, perm_swap|apply perm_swap]).
  - exists d', text. split; [exact R|]. split; [exact T|]. split; [exact L|].
    split; [exact (Pc (bytes "r.0") (or_introl eq_refl))|]. split; [exact (Pc (bytes "r.1") (or_intror (or_introl eq_refl)))|]. split; [exact (Pc (bytes "r.2") (or_intror (or_intror (or_introl eq_refl))))|].
    apply (O (bytes "r.1.dat")); [discriminate|]. cbn. intuition discriminate.
Qed.
(* data.dat: the picture is data.vti, but vtia.dat is listed *)
Example C116_data_case : vti_of (bytes "data.dat") = bytes "vtia.dat" /\ pvd_of (bytes "data.dat") = bytes "data.pvd" /\ picture (bytes "data") = bytes "data.vti" /\
  pvd_of (bytes "run.data.5.dat") = bytes "run.pvda.5.dat".
Proof. repeat split. Qed.

(* The files a run of a driver wrote under the name v.dat, the oldest first: the index lists their pictures in the order of the steps, and each picture
   there is that of the state of its step, unless it was there before *)
Theorem C116_run : forall atof convert G (update : G -> Z -> G) v steps increment start g fuel files (contents picture_of : G -> list byte) turns d,
  let outfile := v ++ bytes ".dat" in
  a_name outfile -> ~ mentions (bytes "dat") v ->
  0 < increment -> 0 <= steps -> steps + increment - 1 <= int_max -> 2 * zlen outfile + 11 < 4096 -> iterations_start outfile = Some start -> 0 <= start ->
  simulate update fuel outfile steps increment g = Ended files -> files <> [] ->
  (forall f, In f files -> d (fst f) = Some (contents (snd f)) /\ convert MMSP2VTI Plain (contents (snd f)) = Done (picture_of (snd f))) ->
  Permutation (map fst files) turns ->
  exists d' text us, vti2pvd atof convert (map fst files) turns d = (d', Done tt) /\
    Forall2 (fun f u => data_file u (fst f) /\ d' (picture u) = Some (match d (picture u) with Some old => old | None => picture_of (snd f) end)) files us /\
    d' (index_file (hd [] us)) = Some text /\ lists text (map picture us) /\
    (forall m, m <> index_file (hd [] us) -> ~ In m (map picture us) -> d' m = d m).
Proof.
  intros atof convert G update v steps inc start g fuel files contents pic turns d outfile A N Hi Hs Hm Hl Es H0 E Nf H P.
  assert (forall f, In f files -> fst f = stem (fst f) ++ bytes ".dat" /\ fine (stem (fst f))) as Hf.
  { destruct (out_parts outfile) as [Lb Ls]. rewrite (simulate_files update outfile start steps inc g fuel files) by (auto; lia). intros f I. unfold all_files in I. apply in_map_iff in I as (k & <- & I). apply in_zrange in I.
    cbn [fst]. destruct (run_names v steps (start + k * inc) A N ltac:(nia)) as (u & Eu & Fu). fold outfile in Eu. rewrite Eu. rewrite (stem_dat u) by exact (proj1 Fu). auto. }
  assert (extension_is outfile (bytes "dat")) as X by (exists v; split; [reflexivity|repeat constructor; discriminate]).
  destruct (run_images G update MMSP2VTI outfile steps inc start g fuel files ltac:(discriminate)) as [ND _]; auto.
  { split; [eauto|]. intros C. pose proof (ext_unique _ _ _ C X). discriminate. }
  assert (NoDup (map (fun f : list byte * G => stem (fst f)) files)) as NU.
  { apply (NoDup_map_inv picture). rewrite map_map. exact ND. }
  set (us := map (fun f : list byte * G => stem (fst f)) files).
  assert (map fst files = map (fun u => u ++ bytes ".dat") us) as Em by (unfold us; rewrite map_map; apply map_ext_in; intros f I; now apply Hf).
  assert (turns = map (fun u => u ++ bytes ".dat") (map stem turns)) as Et.
  { rewrite map_map. rewrite <- (map_id turns) at 1. apply map_ext_in. intros n I. apply (Permutation_in _ (Permutation_sym P)), in_map_iff in I as (f & <- & I). now apply Hf. }
  assert (Permutation us (map stem turns)) as Pu by (unfold us; rewrite <- map_map; now apply Permutation_map).
  destruct files as [|f0 files]; [contradiction|].
  set (data := fun u => match d (u ++ bytes ".dat") with Some c => c | None => [] end).
  set (pc := fun u => match convert MMSP2VTI Plain (data u) with Done r => r | _ => [] end).
  assert (forall f, In f (f0 :: files) -> data (stem (fst f)) = contents (snd f) /\ pc (stem (fst f)) = pic (snd f)) as Hd.
  { intros f I. destruct (Hf f I) as [Ef _], (H f I) as [Ed Ec]. assert (data (stem (fst f)) = contents (snd f)) as Q by (unfold data; now rewrite <- Ef, Ed). split; [exact Q|]. unfold pc. now rewrite Q, Ec. }
  destruct (C116_index atof convert (stem (fst f0)) (map (fun f : list byte * G => stem (fst f)) files) data pc (map stem turns) d) as (d' & text & R & T & L & Pc & O).
  - exact NU.
  - apply Forall_forall. intros u I. change (In u (map (fun f : list byte * G => stem (fst f)) (f0 :: files))) in I. apply in_map_iff in I as (f & <- & I). now apply Hf.
  - intros u I. change (In u (map (fun f : list byte * G => stem (fst f)) (f0 :: files))) in I. apply in_map_iff in I as (f & <- & I). destruct (Hd f I) as [-> ->], (Hf f I) as [<- _]. now apply H.
  - exact Pu.
  - exists d', text, us. rewrite Em, Et. split; [exact R|]. split; [|split; [exact T|split; [exact L|exact O]]].
    assert (forall f, In f (f0 :: files) -> data_file (stem (fst f)) (fst f) /\ d' (picture (stem (fst f))) = Some (match d (picture (stem (fst f))) with Some old => old | None => pic (snd f) end)) as Q.
    { intros f I. split; [now apply Hf|]. rewrite <- (proj2 (Hd f I)). apply Pc. exact (in_map (fun f : list byte * G => stem (fst f)) (f0 :: files) f I). }
    unfold us. clear - Q. induction (f0 :: files) as [|f l IH]; cbn [map]; constructor; [apply Q; now left|apply IH; intros; apply Q; now right].
Qed.
Print Assumptions C116_run.

(* run.dat, two files, the second one converted first *)
Example C116_run_case :
  let files := [(bytes "run.0500.dat", 500); (bytes "run.1000.dat", 1000)] in
  let turns := [bytes "run.1000.dat"; bytes "run.0500.dat"] in
  let d : disk := fun n => if same_text n (bytes "run.0500.dat") then Some [1] else if same_text n (bytes "run.1000.dat") then Some [2] else None in
  let convert := fun (_ : tool) (_ : order) (c : list byte) => Done (c ++ [33]) in
  simulate (fun g s => g + s) 2 (bytes "run.dat") 1000 500 0 = Ended files /\ a_name (bytes "run.dat") /\ ~ mentions (bytes "dat") (bytes "run") /\
  Permutation (map fst files) turns /\
  exists text, fst (vti2pvd (fun _ => 0%Qc) convert (map fst files) turns d) (bytes "run.0500.pvd") = Some text /\ lists text [bytes "run.0500.vti"; bytes "run.1000.vti"].
Proof.
  cbv zeta. split; [vm_compute; reflexivity|]. split; [exact I|]. split; [apply no_dat; reflexivity|]. split; [apply perm_swap|].
  eexists. split; vm_compute; reflexivity.
Qed.
