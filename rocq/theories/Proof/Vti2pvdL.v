(* The script vti2pvd. *)
From Coq Require Import String QArith.QArith QArith.Qcanon Permutation.
From Verif Require Import Model.Base Model.Text Model.Num Model.Ghostswap Model.File Model.Driver Model.Types Model.Image Model.Options Model.Pvd
  Spec.Driver Spec.Options Spec.Pvd Model.Tools Model.Vti2pvd Spec.Tools Spec.Vti2pvd Proof.BaseL Proof.DriverL Proof.OptionsL Proof.PvdL Proof.TypesL Proof.ToolsL.
Local Open Scope list_scope.
Local Open Scope Z_scope.

Lemma starts_iff (p s : list byte) : starts p s = true <-> exists v, s = p ++ v.
Proof.
  split.
  - revert s. induction p as [|a p IH]; intros s H; [now exists s|]. destruct s as [|b s]; [discriminate|]. cbn [starts] in H. apply andb_true_iff in H as [E H]. apply Z.eqb_eq in E as ->.
    destruct (IH s H) as [v ->]. now exists v.
  - intros [v ->]. apply starts_prefix.
Qed.
Lemma replace_here p r v : replace_first p r (p ++ v) = r ++ v.
Proof.
  unfold replace_first. destruct (p ++ v) as [|b l] eqn:E; rewrite <- E, starts_prefix, skipn_app, skipn_all, Nat.sub_diag; reflexivity.
Qed.
(* the first occurrence lies within u: what follows stays *)
Lemma replace_within p r u v : p <> [] -> mentions p u -> replace_first p r (u ++ v) = replace_first p r u ++ v.
Proof.
  intros Np. induction u as [|b u IH]; intros (x & y & E).
  - destruct x; [|discriminate]. destruct p; [congruence|discriminate].
  - cbn [app replace_first]. destruct (starts p (b :: u)) eqn:S.
    + apply starts_iff in S as [w S]. assert (b :: u ++ v = p ++ (w ++ v)) as E2 by (rewrite app_assoc, <- S; reflexivity).
      rewrite E2, starts_prefix, S, !skipn_app, !skipn_all, Nat.sub_diag. cbn [skipn app]. now rewrite <- app_assoc.
    + assert (starts p (b :: u ++ v) = false) as ->.
      { destruct (starts p (b :: u ++ v)) eqn:S2; [|reflexivity]. apply starts_iff in S2 as [w S2].
        assert (length p <= length (b :: u))%nat as Lp by (rewrite E, !app_length; lia).
        assert (firstn (length p) (b :: u ++ v) = p) as F by (rewrite S2, firstn_app, firstn_all, Nat.sub_diag; cbn; apply app_nil_r).
        change (b :: u ++ v) with ((b :: u) ++ v) in F. rewrite firstn_app in F. replace (length p - length (b :: u))%nat with 0%nat in F by lia. cbn [firstn] in F. rewrite app_nil_r in F.
        rewrite <- (firstn_skipn (length p) (b :: u)), F, starts_prefix in S. discriminate. }
      cbn [app]. f_equal. apply IH. destruct x as [|b' x]; [cbn [app] in E; rewrite E, starts_prefix in S; discriminate|].
      injection E as -> E. now exists x, y.
Qed.

(* dat at the front of u.dat is in u *)
Lemma front_dat (u : list byte) : starts (bytes "dat") (u ++ bytes ".dat") = true -> exists v, u = bytes "dat" ++ v.
Proof.
  intros H. apply starts_iff in H as [w H]. change (bytes "dat") with [100; 97; 116] in *. change (bytes ".dat") with [46; 100; 97; 116] in *.
  destruct u as [|b1 [|b2 [|b3 u]]]; cbn [app] in H; try discriminate. injection H as -> -> -> _. now exists u.
Qed.
Lemma mentions_cons p b u : mentions p u -> mentions p (b :: u).
Proof. intros (x & y & ->). now exists (b :: x), y. Qed.
Lemma vti_plain u : ~ mentions (bytes "dat") u -> vti_of (u ++ bytes ".dat") = u ++ bytes ".vti".
Proof.
  unfold vti_of. induction u as [|b u IH]; intros N; [reflexivity|]. cbn [app replace_first].
  destruct (starts (bytes "dat") (b :: u ++ bytes ".dat")) eqn:S.
  - destruct (front_dat (b :: u) S) as [v E]. destruct N. exists [], v. exact E.
  - f_equal. apply IH. intros M. apply N. now apply mentions_cons.
Qed.
Lemma pvd_plain u : ~ mentions (bytes "dat") u -> pvd_of (u ++ bytes ".dat") = u ++ bytes ".pvd".
Proof.
  unfold pvd_of. induction u as [|b u IH]; intros N; [reflexivity|]. cbn [app replace_first].
  destruct (starts (bytes ".dat") (b :: u ++ bytes ".dat")) eqn:S.
  - assert (starts (bytes "dat") (u ++ bytes ".dat") = true) as S2 by (change (bytes ".dat") with (46 :: bytes "dat") in S at 1; cbn [starts] in S; now apply andb_true_iff in S).
    destruct (front_dat u S2) as [v E]. destruct N. exists [b], v. now rewrite E.
  - f_equal. apply IH. intros M. apply N. now apply mentions_cons.
Qed.

(* ---- mmsp2vti on u.dat ---- *)
Lemma vti_request_dat u : a_name (u ++ bytes ".dat") -> vti_request [u ++ bytes ".dat"] = Done (mkReq (u ++ bytes ".dat") (picture u) Plain).
Proof.
  intros A. destruct (request_ok (fun _ => 0%Qc) MMSP2VTI No_options ltac:(discriminate) I) as (o & Eo & R). cbn [asked] in Eo. subst o. specialize (R _ (conj A I)). cbn [words app request_of] in R. rewrite R.
  do 2 f_equal. destruct (image_named MMSP2VTI (u ++ bytes ".dat")) as (t & W & ->). unfold picture. f_equal.
  change (bytes ".dat") with (46 :: [100; 97; 116]) in W. destruct W as [(r & E & Nr)|[N _]].
  - assert (rev r ++ 46 :: rev t = [116; 97; 100] ++ 46 :: rev u) as E2.
    { apply (f_equal (@rev _)) in E. rewrite !rev_app_distr in E. cbn [rev] in E. rewrite <- !app_assoc in E. cbn [app] in E. now symmetry. }
    apply split_dot in E2 as [_ E2]; [| |repeat constructor; discriminate].
    + rewrite <- (rev_involutive t), E2. apply rev_involutive.
    + apply dotless_in. now rewrite <- in_rev.
  - destruct N. apply in_app_iff. right. now left.
Qed.

Lemma entries_data_sets i fs us : Forall2 (fun f u => vti_of f = u) fs us -> forall k, i = Z.of_nat k ->
  entries i fs = concat (map (fun j => data_set (Z.of_nat j) (nth (j - k) us [])) (seq k (length us))).
Proof.
  intros F. revert i. induction F as [|f u fs us E F IH]; intros i k ->; [reflexivity|]. cbn [entries length seq map concat]. rewrite Nat.sub_diag. cbn [nth].
  f_equal; [unfold entry, data_set; now rewrite E|]. rewrite (IH (Z.of_nat k + 1) (S k)) by lia. f_equal. apply map_ext_in. intros j Hj. apply in_seq in Hj.
  replace (j - k)%nat with (S (j - S k)) by lia. reflexivity.
Qed.
Lemma index_lists fs us : Forall2 (fun f u => vti_of f = u) fs us -> lists (index_text fs) us.
Proof.
  intros F. unfold lists, index_text. rewrite (entries_data_sets 0 fs us F 0%nat eq_refl).
  rewrite (map_ext (fun j => data_set (Z.of_nat j) (nth (j - 0) us [])) (fun j => data_set (Z.of_nat j) (nth j us []))); [reflexivity|]. intros j. now rewrite Nat.sub_0_r.
Qed.

Section Jobs.
Context (atof : list byte -> Qc) (convert : tool -> order -> list byte -> outcome (list byte)).
Notation name u := (u ++ bytes ".dat").
Definition fine (u : list byte) : Prop := a_name (name u) /\ ~ mentions (bytes "dat") u.
Lemma picture_inj u v : picture u = picture v -> u = v.
Proof. apply app_inv_tail. Qed.
Lemma picture_name u v : picture u <> name v.
Proof. intros E. apply (f_equal (@rev _)) in E. unfold picture in E. rewrite !rev_app_distr in E. cbn in E. discriminate. Qed.

(* one job *)
Lemma job d u c result : fine u -> d (name u) = Some c -> convert MMSP2VTI Plain c = Done result ->
  (dat2vti atof convert d (name u)) (picture u) = Some (match d (picture u) with Some old => old | None => result end) /\
  forall m, m <> picture u -> dat2vti atof convert d (name u) m = d m.
Proof.
  intros [A N] Ec E. unfold dat2vti. rewrite (vti_plain u N). fold (picture u). destruct (d (picture u)) as [old|] eqn:O; [rewrite O; auto|].
  unfold run_tool. cbn [request_of]. rewrite (vti_request_dat u A). cbn [r_in r_out r_order]. rewrite Ec. cbn [first_look opens_early]. cbv zeta. rewrite Ec, E. cbn [fst].
  split; [apply write_same|]. intros m Nm. now apply write_other.
Qed.

Lemma jobs (data pic : list byte -> list byte) (us : list (list byte)) : NoDup us -> Forall fine us -> forall d,
  (forall u, In u us -> d (name u) = Some (data u) /\ convert MMSP2VTI Plain (data u) = Done (pic u)) ->
  let d' := fold_left (dat2vti atof convert) (map (fun u => name u) us) d in
  (forall u, In u us -> d' (picture u) = Some (match d (picture u) with Some old => old | None => pic u end)) /\
  (forall m, ~ In m (map picture us) -> d' m = d m).
Proof.
  induction us as [|u us IH]; intros ND F d H; cbn [map fold_left]; [split; [intros u []|auto]|].
  inversion ND as [|? ? Nu ND']. inversion F as [|? ? Fu F']. subst. destruct (H u (or_introl eq_refl)) as [Ec E].
  destruct (job d u _ _ Fu Ec E) as [J1 J2]. destruct (IH ND' F' (dat2vti atof convert d (name u))) as [I1 I2].
  { intros v Hv. destruct (H v (or_intror Hv)) as [Ev Cv]. split; [|exact Cv]. rewrite J2; [exact Ev|]. intros C. symmetry in C. now apply picture_name in C. }
  cbv zeta in *. split.
  - intros v [<-|Hv].
    + rewrite I2; [exact J1|]. intros C. apply in_map_iff in C as (w & E1 & Hw). apply picture_inj in E1. congruence.
    + rewrite (I1 v Hv), J2; [reflexivity|]. intros C. apply picture_inj in C. congruence.
  - intros m Nm. rewrite I2 by (intros C; apply Nm; now right). apply J2. intros ->. apply Nm. now left.
Qed.
End Jobs.

Lemma pictures_listed (us : list (list byte)) : Forall fine us -> Forall2 (fun f u => vti_of f = u) (map (fun u => u ++ bytes ".dat") us) (map picture us).
Proof. induction 1 as [|u us [A N] F IH]; cbn [map]; constructor; [now apply vti_plain|exact IH]. Qed.

(* ---- the files of a run ---- *)
Lemma dat_digits w mid : numeral mid -> mentions (bytes "dat") (w ++ 46 :: mid) -> mentions (bytes "dat") w.
Proof.
  change (bytes "dat") with [100; 97; 116]. intros Nm. induction w as [|b w IH]; intros (x & y & E).
  - exfalso. destruct x as [|c x]; cbn [app] in E; [discriminate|]. injection E as _ E. unfold numeral in Nm. rewrite E in Nm. apply Forall_app in Nm as [_ Nm]. inversion Nm. lia.
  - destruct x as [|c x].
    + cbn [app] in E. destruct w as [|b1 [|b2 w]]; cbn [app] in E; try discriminate. injection E as -> -> -> _. now exists [], w.
    + cbn [app] in E. injection E as _ E. apply mentions_cons, IH. now exists x, y.
Qed.
Lemma mentions_firstn p n (v : list byte) : mentions p (firstn n v) -> mentions p v.
Proof. intros (x & y & E). exists x, (y ++ skipn n v). rewrite <- (firstn_skipn n v) at 1. rewrite E, <- !app_assoc. reflexivity. Qed.
Lemma base_of_dat v : exists n, out_base (v ++ bytes ".dat") = firstn n v ++ [46].
Proof.
  assert (last_dot (v ++ bytes ".dat") = Some (zlen v)) as L.
  { induction v as [|b v IH]; [reflexivity|]. cbn [app last_dot]. rewrite IH. now rewrite zlen_cons, Z.add_comm. }
  assert (forall n, 0 <= n <= zlen v -> substr (v ++ bytes ".dat") 0 n = firstn (Z.to_nat n) v) as Sb.
  { intros n Hn. change (firstn (Z.to_nat n) (v ++ bytes ".dat") = firstn (Z.to_nat n) v). rewrite firstn_app. replace (Z.to_nat n - length v)%nat with 0%nat by (unfold zlen in Hn; lia). cbn [firstn]. apply app_nil_r. }
  unfold out_base. rewrite L. destruct (first_dot (v ++ bytes ".dat")) as [f|] eqn:Ff.
  - pose proof (zlen_nonneg v). destruct (first_dot (skipn _ _)) eqn:Fs; [|exists (Z.to_nat (zlen v)); now rewrite Sb by lia].
    rewrite firstn_zlen. destruct (last_dot v) as [p|] eqn:Lp.
    + assert (0 <= p <= zlen v) as Hp.
      { pose proof (last_dot_split v) as H1. rewrite Lp in H1. destruct H1 as (u & e & E & _ & ->). pose proof (zlen_nonneg u). split; [lia|].
        pose proof (f_equal (@length _) E) as Q. rewrite app_length in Q. cbn [length] in Q. unfold zlen in *. lia. }
      cbv zeta. destruct (forallb _ _); [exists (Z.to_nat p)|exists (Z.to_nat (zlen v))]; now rewrite Sb by lia.
    + exfalso. pose proof (last_dot_split v) as D. rewrite Lp in D.
      assert (f = zlen v) as ->.
      { clear - Ff D. revert f Ff. induction v as [|b v IH]; intros f Ff; [now injection Ff as <-|]. inversion D as [|? ? Db Dv]. subst. cbn [app first_dot] in Ff. destruct (Z.eqb_spec b 46); [contradiction|]. destruct (first_dot (v ++ bytes ".dat")) as [k|]; [|discriminate].
        injection Ff as <-. rewrite (IH Dv k eq_refl), zlen_cons. lia. }
      replace (Z.to_nat (zlen v + 1)) with (length (v ++ [46])) in Fs by (rewrite app_length; unfold zlen; cbn [length]; lia).
      change (bytes ".dat") with ([46] ++ bytes "dat") in Fs. rewrite app_assoc, skipn_app, skipn_all, Nat.sub_diag in Fs. discriminate.
  - exfalso. clear - Ff. revert Ff. induction v as [|b v IH]; [discriminate|]. cbn [app first_dot]. destruct (b =? 46); [discriminate|]. destruct (first_dot (v ++ bytes ".dat")); [discriminate|]. intros _. now apply IH.
Qed.
Lemma run_names v steps step : a_name (v ++ bytes ".dat") -> ~ mentions (bytes "dat") v -> 0 <= step ->
  exists u, padded (out_base (v ++ bytes ".dat")) (out_suffix (v ++ bytes ".dat")) steps step = u ++ bytes ".dat" /\ fine u.
Proof.
  intros A N H0. destruct (base_of_dat v) as [n Eb]. destruct (padded_mid (out_base (v ++ bytes ".dat")) (out_suffix (v ++ bytes ".dat")) steps step H0) as (mid & -> & Nm & _ & _).
  assert (out_suffix (v ++ bytes ".dat") = bytes ".dat") as ->.
  { destruct (suffix_cases (v ++ bytes ".dat")) as [(D & _)|(e & X & ->)].
    - exfalso. apply dotless_in in D. apply D. apply in_app_iff. right. now left.
    - change (bytes ".dat") with (46 :: [100; 97; 116]). f_equal. apply (ext_unique (v ++ bytes ".dat")); [exact X|]. exists v. split; [reflexivity|]. repeat constructor; discriminate. }
  rewrite Eb. exists (firstn n v ++ 46 :: mid). split; [now rewrite <- !app_assoc|]. split.
  - destruct v as [|b v]; [now rewrite firstn_nil|]. destruct n as [|n]; [exact I|]. exact A.
  - intros M. apply N. apply (mentions_firstn _ n). now apply (dat_digits _ mid).
Qed.
Lemma stem_dat u : a_name (u ++ bytes ".dat") -> stem (u ++ bytes ".dat") = u.
Proof.
  intros A. destruct (request_ok (fun _ => 0%Qc) MMSP2VTI No_options ltac:(discriminate) I) as (o & Eo & R). cbn [asked] in Eo. subst o. specialize (R _ (conj A I)). cbn [words app request_of] in R.
  rewrite (vti_request_dat u A) in R. injection R as R. unfold image, picture in R. cbn [minds_digits proper_ending] in R. now apply app_inv_tail in R.
Qed.
