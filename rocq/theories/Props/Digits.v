(* C92: the spacings in a checkpoint file. *)
From Coq Require Import QArith.QArith QArith.Qcanon QArith.Qpower String.
From Verif Require Import Model.Base Model.Text Model.Boundary Model.Layout Model.Access Model.Setup Model.Codec Model.Region Model.MPI Model.Ghostswap Model.File Model.Digits
  Spec.Box Spec.Access Spec.Bytes Spec.Decomp Spec.File Spec.Schedule Spec.Stencil Spec.Digits Proof.BaseL Proof.DigitsL Props.File.
Local Open Scope list_scope.

(* A spacing is written as the characters of a number, and read back as a number of six significant digits that differs from it by at
   most five parts in a million (rounded to a double). *)
Theorem C92_text : forall near d, ordinary d ->
  exists d', parse_double near (show_double d) = Some d' /\ to_six near d d' /\
    show_double d <> [] /\ Forall (fun b => 48 <= b <= 57 \/ b = 43 \/ b = 45 \/ b = 46 \/ b = 69 \/ b = 101) (show_double d).
Proof.
  intros near d H. destruct (six_spec d H) as (A & B & C & E & F). exists (near (six d)). split; [unfold parse_double; now rewrite C|].
  split; [exists (six d); auto|]. split; auto.
Qed.
Print Assumptions C92_text.

(* What is read back is written as the same text again, and survives every further trip through a file. *)
Theorem C92_once : forall near, rounding near -> forall d d', ordinary d -> parse_double near (show_double d) = Some d' ->
  show_double d' = show_double d /\ exact_text show_double (parse_double near) d'.
Proof.
  intros near R d d' H E. destruct (six_spec d H) as (A & B & C & L & F). pose proof (show_near near d R H) as S. unfold parse_double in E. rewrite C in E. injection E as <-.
  split; [auto|]. split; [|rewrite S; auto]. rewrite S. unfold parse_double. now rewrite C.
Qed.
Print Assumptions C92_once.

(* A spacing is restored exactly by a file if and only if it is the double next to a number of six significant digits. *)
Theorem C92_exact : forall near, rounding near -> forall d, ordinary d ->
  parse_double near (show_double d) = Some d <-> exists v, six_figures v /\ d = near v.
Proof.
  intros near R d H. destruct (six_spec d H) as (A & B & C & L & F). unfold parse_double. rewrite C. cbn [bind]. split.
  - intros E. injection E as E. exists (six d). auto.
  - intros (v & Fv & Ed). f_equal. rewrite Ed at 1. rewrite (six_near near v R Fv). auto.
Qed.
Print Assumptions C92_exact.

(* rounding to the nearest double, of 53 binary digits *)
Theorem C92_rounding : rounding round53 /\ forall q, (0 < q)%Qc -> within (Q2Qc (1 # 2 ^ 53)) (round53 q) q.
Proof. split; [exact round53_rounding|]. intros q H. replace (Q2Qc (1 # 2 ^ 53)) with (pow2 (-53)) by (apply Qc_is_canon; reflexivity). now apply round53_err. Qed.
Print Assumptions C92_rounding.

(* So a spacing is lost whenever no number of six digits is within one part in 10^8 of it. *)
Theorem C92_exact_refuted : forall near, rounding near -> forall d, ordinary d ->
  (forall v, six_figures v -> ~ within (pow10 (-8)) d v) -> parse_double near (show_double d) <> Some d.
Proof. intros near R d H N E. apply (C92_exact near R d H) in E as (v & F & ->). exact (N v F (R v F)). Qed.
Print Assumptions C92_exact_refuted.

(* Negative spacings, and zero: the text of -d is that of d after a minus sign, and is read as the opposite of what d is read as; so everything
   said above of d holds of -d. *)
Theorem C92_signs : forall near, rounding near -> (forall v, six_figures v -> near (- v)%Qc = (- near v)%Qc) -> forall d, ordinary d ->
  show_double (- d)%Qc = 45 :: show_double d /\
  exists d', parse_double near (show_double d) = Some d' /\ parse_double near (show_double (- d)%Qc) = Some (- d')%Qc /\
    show_double (- d')%Qc = show_double (- d)%Qc /\ exact_text show_double (parse_double near) (- d')%Qc.
Proof.
  intros near R O d H. destruct (six_spec d H) as (A & B & C & E & F). pose proof (show_near near d R H) as S.
  assert (0 < d)%Qc as Pd. { destruct H as [H _]. eapply Qclt_le_trans; [|exact H]. reflexivity. }
  pose proof (show_minus d Pd) as M. assert (parse_double near (show_double (- d)%Qc) = Some (- near (six d))%Qc) as Q.
  { unfold parse_double. rewrite M. rewrite parse_minus, C; [cbn [option_map bind]; now rewrite O|]. unfold show_double. assert (Qcompare d 0 = Gt) as ->; [|apply first_char]. now apply Qgt_alt. }
  assert (show_double (- near (six d))%Qc = show_double (- d)%Qc) as M'. { rewrite M, <- S. apply show_minus. now apply near_pos. }
  split; [auto|]. exists (near (six d)). split; [unfold parse_double; now rewrite C|]. split; [auto|]. split; [auto|].
  split; [now rewrite M'|]. rewrite M', M. split; [discriminate|]. constructor; auto 8.
Qed.
Print Assumptions C92_signs.
Theorem C92_signed_rounding : rounding round_double /\ (forall v, six_figures v -> round_double (- v)%Qc = (- round_double v)%Qc) /\
  show_double 0%Qc = bytes "0" /\ parse_double round_double (show_double 0%Qc) = Some 0%Qc.
Proof.
  split; [|split; [|split; [vm_compute; reflexivity|]]].
  - intros v F. destruct (round_double_pos v (six_pos v F)) as [-> _]. apply (proj1 C92_rounding), F.
  - intros v F. destruct (round_double_pos v (six_pos v F)) as [-> ->]. reflexivity.
  - transitivity (Some (round_double 0%Qc)); [vm_compute; reflexivity|]. f_equal. apply Qc_is_canon. reflexivity.
Qed.
Print Assumptions C92_signed_rounding.
Example C92_minus : show_double (round_double (Q2Qc (-1 # 3))) = bytes "-0.333333" /\ parse_double round_double (bytes "-2.5e-07") = Some (round_double (Q2Qc (-1 # 4000000))).
Proof. split; vm_compute; reflexivity. Qed.

Example C92_case :
  (* 0.025, 5, 1234.56 and 0.1 survive; 1/3 becomes 0.333333 *)
  map (fun d => (show_double d, match parse_double round53 (show_double d) with Some d' => Qeq_bool d d' | None => false end))
    (map round53 [Q2Qc (1 # 40); Q2Qc (5 # 1); Q2Qc (123456 # 100); Q2Qc (1 # 10); Q2Qc (1 # 3)]) =
  [(bytes "0.025", true); (bytes "5", true); (bytes "1234.56", true); (bytes "0.1", true); (bytes "0.333333", false)] /\
  ordinary (round53 (Q2Qc (1 # 3))).
Proof. split; [vm_compute; reflexivity|]. split; vm_compute; discriminate. Qed.
Example C92_exponents : map show_double (map round53 [Q2Qc (1 # 100000); Q2Qc (1234567 # 1); Q2Qc (9999996 # 10); Q2Qc (1 # 10000)]) =
  [bytes "1e-05"; bytes "1.23457e+06"; bytes "1e+06"; bytes "0.0001"].
Proof. vm_compute. reflexivity. Qed.

(* ---- whole files ---- *)
Lemma header_text (D : Type) (dshow : D -> list byte) name fields gs dx dx' : map dshow dx = map dshow dx' -> header dshow name fields gs dx = header dshow name fields gs dx'.
Proof. intros E. unfold header. rewrite !flat_map_concat_map. rewrite <- (map_map dshow (fun t => t ++ [10]) dx), <- (map_map dshow (fun t => t ++ [10]) dx'). now rewrite E. Qed.
Lemma read_back near (R : rounding near) dx : Forall ordinary dx ->
  exists dx', Forall2 (to_six near) dx dx' /\ Forall (exact_text show_double (parse_double near)) dx' /\ map show_double dx = map show_double dx' /\ length dx' = length dx.
Proof.
  induction 1 as [|d dx H _ (dx' & A & B & C & E)]; [exists []; repeat split; constructor|].
  destruct (C92_text near d H) as (d' & Ed & T & _). destruct (C92_once near R d d' H Ed) as [S X]. exists (d' :: dx'). repeat split.
  - now constructor.
  - now constructor.
  - cbn [map]. now rewrite S, C.
  - cbn. now rewrite E.
Qed.

(* A grid written by the serial build and read again: everything but the spacings is restored, the spacings are rounded to six digits,
   and the restored grid is written as the same file. *)
Theorem C92_serial : forall near, rounding near -> forall T (c : codec T) valid fresh raw compress uncompress,
  serialises c valid -> lossless compress uncompress ->
  forall name fields axs dx data,
  good_name name -> int_range fields -> int_range (zlen axs) -> axs <> [] ->
  wf_axes 0 axs -> Forall (fun a => a_x0 a = a_g0 a /\ a_x1 a = a_g1 a /\ a_g0 a < a_g1 a) axs ->
  Forall (fun a => int_range (a_g0 a) /\ int_range (a_g1 a) /\ int_range (a_b0 a) /\ int_range (a_b1 a)) axs ->
  length dx = length axs -> Forall ordinary dx ->
  zlen data = cells axs -> Forall valid data -> recognisable c raw compress axs data ->
  exists file ld,
    output_serial c show_double raw compress name fields axs dx data = Some file /\
    input_serial c fresh (parse_double near) raw uncompress name (length axs) file = Done ld /\
    ld_fields ld = fields /\ Forall2 (to_six near) dx (ld_dx ld) /\ lo_axes (ld_local ld) = axs /\ lo_data (ld_local ld) = data /\
    output_serial c show_double raw compress name fields axs (ld_dx ld) data = Some file.
Proof.
  intros near R T c valid fresh raw compress uncompress S L name fields axs dx data N F Z Ne W X I Ld Od Lc V Rc.
  destruct (read_back near R dx Od) as (dx' & A & B & C & E).
  destruct (C19_serial_round_trip T c valid fresh raw compress uncompress Qc show_double (parse_double near) S L name fields axs dx' data N F Z Ne W X I ltac:(congruence) B Lc V Rc) as (file & ld & O & In & L1 & L2 & L3 & L4).
  exists file, ld. rewrite L2. split; [|auto 10]. rewrite <- O. unfold output_serial. now rewrite (header_text _ _ _ _ _ _ _ C).
Qed.
Print Assumptions C92_serial.

(* The same for a file written by np ranks and read by np' ranks.  The hypothesis is that of C20 without the one on spacings. *)
Theorem C92_parallel : forall near, rounding near -> forall T (c : codec T) valid fresh raw compress uncompress,
  serialises c valid -> lossless compress uncompress ->
  forall name fields gs dx B np gh (data : Z -> list T) V, length dx = length gs -> Forall ordinary dx ->
  (forall dx', length dx' = length dx -> Forall (exact_text show_double (parse_double near)) dx' -> map show_double dx' = map show_double dx ->
     writable_run c valid raw compress show_double (parse_double near) name fields gs dx' B np gh data V) ->
  exists file, writes_file c raw compress show_double name fields np (rank_axes np gs gh B) dx data file /\
  forall np' gh' r ge, 0 < np' -> 0 <= gh' -> 0 <= r < np' -> setup_mpi np' gs gh' r = Some ge ->
  exists ld, input c fresh (parse_double near) raw uncompress (fun gs => setup_mpi np' gs gh' r) name (length gs) file = Done ld /\
    ld_fields ld = fields /\ Forall2 (to_six near) dx (ld_dx ld) /\ ld_geom ld = ge /\
    (forall x, owns ge x -> grid_read true (lo_axes (ld_local ld)) (lo_data (ld_local ld)) x = Some (V x)) /\
    (* every rank reads the same spacings, and they would be written as the same header *)
    header show_double name fields gs (ld_dx ld) = header show_double name fields gs dx.
Proof.
  intros near R T c valid fresh raw compress uncompress S L name fields gs dx B np gh data V Ld Od W.
  destruct (read_back near R dx Od) as (dx' & A & X & C & E). specialize (W dx' E X (eq_sym C)).
  destruct (C20_portable T c valid fresh raw compress uncompress Qc show_double (parse_double near) name fields gs dx' B np gh data V S L W) as (file & Wf & In).
  exists file. split.
  - unfold writes_file in *. destruct Wf as (Wr & f & F1 & F2 & F3). exists Wr, f. split; [auto|]. split; [|auto].
    assert ((ranks np (fun r => output_mpi c show_double raw compress np name fields (rank_axes np gs gh B r) dx (data r) r)) = (ranks np (fun r => output_mpi c show_double raw compress np name fields (rank_axes np gs gh B r) dx' (data r) r))) as ->; [|auto].
    unfold ranks. apply map_ext. intros r. unfold output_mpi. now rewrite (header_text _ _ _ _ _ _ _ C).
  - intros np' gh' r ge H1 H2 H3 H4. destruct (In np' gh' r ge H1 H2 H3 H4) as (ld & I1 & I2 & I3 & I4 & I5 & I6 & _). exists ld. rewrite I3. split; [auto|]. split; [auto|]. split; [auto|]. split; [auto|]. split; [auto|]. symmetry. now apply header_text.
Qed.
Print Assumptions C92_parallel.
