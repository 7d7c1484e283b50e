(* C115: a file that was cut short (a full disk, a job that was stopped while it was writing, a copy that broke off) is never taken for a grid,
   but it is not refused either. *)
From stdpp Require Import gmap.
From Coq Require Import Strings.String.
From Coq Require Import QArith.QArith QArith.Qcanon.
From Verif Require Import Model.Base Model.Text Model.Boundary Model.Layout Model.Access Model.Setup Model.Codec Model.File Model.Simulate Model.Types
  Spec.Box Spec.Bytes Spec.Decomp Spec.File Spec.Schedule Spec.Jobs Spec.Runs Spec.Mixed Spec.Types Spec.Cut
  Proof.BaseL Proof.TextL Proof.FileL Proof.SetupL Proof.MixedL Proof.TypesL Proof.OpensL Proof.CutL Proof.CutF Props.File Props.Program Props.Jobs Props.Runs Props.Mixed.
Local Open Scope Z_scope.

(* Every file that np ranks write, each of which has nodes, and every proper beginning of it: a serial program does not get a grid from it *)
Theorem C115_serial : forall T (c : codec T) valid fresh S (dshow : S -> list byte) dparse raw compress uncompress name fields gs dx B gh,
  storable c valid fresh dshow dparse compress uncompress name fields gs dx B gh -> zlen gs <= 3 ->
  forall np D file, peopled np gs gh -> checkpoint c valid dshow dparse raw compress name fields gs dx B gh np D file ->
  forall p, cut_short p file -> forall ld, input_serial c fresh dparse raw uncompress name (length gs) p <> Done ld.
Proof.
  intros T c valid fresh S dshow dparse raw compress uncompress name fields gs dx B gh Hs Hd np D file Hp Ck p C ld E.
  destruct (missed_serial c valid fresh dshow dparse raw compress uncompress name fields gs dx B gh Hs Hd np D file Hp Ck p C) as [H|[_ (code & H)]]; congruence.
Qed.
Print Assumptions C115_serial.

(* Any number np' of ranks with any number of ghosts that start from it: at least one of them does not get its part of the grid *)
Theorem C115_parallel : forall T (c : codec T) valid fresh S (dshow : S -> list byte) dparse raw compress uncompress name fields gs dx B gh,
  storable c valid fresh dshow dparse compress uncompress name fields gs dx B gh -> zlen gs <= 3 ->
  forall np D file, peopled np gs gh -> checkpoint c valid dshow dparse raw compress name fields gs dx B gh np D file ->
  forall p np' gh', cut_short p file -> 0 < np' -> 0 <= gh' ->
  exists r, 0 <= r < np' /\ forall ld, input c fresh dparse raw uncompress (fun gs => setup_mpi np' gs gh' r) name (length gs) p <> Done ld.
Proof.
  intros T c valid fresh S dshow dparse raw compress uncompress name fields gs dx B gh Hs Hd np D file Hp Ck p np' gh' C Hn Hg.
  destruct (missed_rank c valid fresh dshow dparse raw compress uncompress name fields gs dx B gh Hs Hd np D file Hp Ck p np' gh' C Hn Hg) as (r & Hr & H).
  exists r. split; [exact Hr|]. intros ld E. destruct H as [H|[_ (code & H)]]; congruence.
Qed.
Print Assumptions C115_parallel.

(* The programs for pictures and tables, of every kind and element they support, do not get one either *)
Theorem C115_tools : forall T (cod : kind -> elem -> codec T) fresh (valid : T -> Prop) S (dshow : S -> list byte) dparse raw compress uncompress p k e fields gs dx B gh,
  storable (cod k e) valid (fresh (opened_as p k) e) dshow dparse compress uncompress (grid_name k e) fields gs dx B gh ->
  cod KScalar e = cod KPlain e -> supported p k e -> zlen gs <= 3 ->
  forall np D file, peopled np gs gh -> checkpoint (cod k e) valid dshow dparse raw compress (grid_name k e) fields gs dx B gh np D file ->
  forall s, cut_short s file -> forall k' e' ld, open_grid cod fresh dparse raw uncompress p s <> Done (k', e', ld).
Proof.
  intros T cod fresh valid S dshow dparse raw compress uncompress p k e fields gs dx B gh Hs Cs Su Hd np D file Hp Ck s C k' e' ld.
  pose proof (missed_serial (cod k e) valid _ dshow dparse raw compress uncompress _ fields gs dx B gh Hs Hd np D file Hp Ck s C) as M.
  destruct (ckpt_header _ _ _ _ _ raw _ _ _ _ _ _ _ _ _ _ _ Hs Ck) as [rest Ef]. destruct C as (q & Nq & Eq). rewrite Ef in Eq.
  assert (1 <= zlen gs <= 3) as H13 by (split; [|exact Hd]; destruct Hs; destruct gs; [easy|]; rewrite zlen_cons; pose proof (zlen_nonneg gs); lia).
  exact (open_cut cod fresh dparse raw uncompress dshow p k e fields gs dx _ s q k' e' ld Cs Su H13 (eq_sym Eq) M).
Qed.
Print Assumptions C115_tools.

(* But it is not refused: as soon as the line with the type is there, what the program does is undefined (it goes on with memory that was never
   written), whatever is missing *)
Theorem C115_undefined : forall T (c : codec T) valid fresh S (dshow : S -> list byte) dparse raw compress uncompress name fields gs dx B gh,
  storable c valid fresh dshow dparse compress uncompress name fields gs dx B gh -> zlen gs <= 3 ->
  forall np D file, peopled np gs gh -> checkpoint c valid dshow dparse raw compress name fields gs dx B gh np D file ->
  forall p, cut_short p file -> (length name <= length p)%nat -> input_serial c fresh dparse raw uncompress name (length gs) p = Undef.
Proof.
  intros T c valid fresh S dshow dparse raw compress uncompress name fields gs dx B gh Hs Hd np D file Hp Ck p C L.
  destruct (missed_serial c valid fresh dshow dparse raw compress uncompress name fields gs dx B gh Hs Hd np D file Hp Ck p C) as [H|[H _]]; [exact H|lia].
Qed.
Print Assumptions C115_undefined.

(* So no file at all is safe: of every file the part without the last byte is not refused *)
Theorem C115_rejected_refuted : forall T (c : codec T) valid fresh S (dshow : S -> list byte) dparse raw compress uncompress name fields gs dx B gh,
  storable c valid fresh dshow dparse compress uncompress name fields gs dx B gh -> zlen gs <= 3 ->
  forall np D file, peopled np gs gh -> checkpoint c valid dshow dparse raw compress name fields gs dx B gh np D file ->
  cut_short (removelast file) file /\ ~ exists code, input_serial c fresh dparse raw uncompress name (length gs) (removelast file) = Exit code.
Proof.
  intros T c valid fresh S dshow dparse raw compress uncompress name fields gs dx B gh Hs Hd np D file Hp Ck.
  destruct (ckpt_header _ _ _ _ _ raw _ _ _ _ _ _ _ _ _ _ _ Hs Ck) as [rest Ef].
  assert (length name < length file)%nat as L by (rewrite Ef; unfold header; rewrite <- !app_assoc, app_length; cbn [app length]; unfold byte; lia).
  assert (file <> []) as Ne by (intros ->; simpl in L; lia).
  pose proof (app_removelast_last 0 Ne) as El.
  assert (cut_short (removelast file) file) as C by (exists [last file 0]; split; [discriminate|exact El]).
  split; [exact C|]. intros (code & E). rewrite (C115_undefined _ _ _ _ _ _ _ _ _ _ _ _ _ _ _ _ Hs Hd np D file Hp Ck _ C) in E; [discriminate|].
  pose proof (f_equal (@length _) El) as L2. rewrite app_length in L2. cbn [length] in L2. unfold byte in *. lia.
Qed.
Print Assumptions C115_rejected_refuted.

(* The rod of C106, written by two ranks: every beginning of the file *)
Example C115_case : peopled 2 ex_gs 1 /\ exists file, checkpoint rod_codec (fun _ => True) show_int ex_parse true (fun x => x) rod_name 1 ex_gs [2] ex_bcs 1 2 rod_field file /\
  (30 < length file)%nat /\ (forall p, cut_short p file -> (18 <= length p)%nat -> input_serial rod_codec (fun _ => 0%Qc) ex_parse true (fun y _ => Some y) rod_name 1 p = Undef) /\
  forall p k e ld, cut_short p file -> open_grid (fun _ _ => rod_codec) (fun _ _ _ => 0%Qc) ex_parse true (fun y _ => Some y) Vti p <> Done (k, e, ld).
Proof.
  assert (peopled 2 ex_gs 1) as Hp.
  { intros r ge Hr E. assert (r = 0 \/ r = 1) as [-> | ->] by lia; vm_compute in E; inversion E; subst ge; (constructor; [simpl; lia|constructor]). }
  split; [exact Hp|]. destruct rod_checkpoint as [file Ck]. exists file. split; [exact Ck|].
  assert (zlen ex_gs <= 3) as Hd by (vm_compute; discriminate). split; [|split].
  - destruct (ckpt_header _ _ _ _ _ _ _ _ _ _ _ _ _ _ _ _ _ rod_storable Ck) as [rest ->]. rewrite !app_length.
    assert (length (header show_int rod_name 1 ex_gs [2]) = 29%nat) as -> by reflexivity. assert (length (pd_enc pod_int 2) = 4%nat) as -> by reflexivity.
    lia.
  - intros p C L. exact (C115_undefined _ _ _ _ _ _ _ _ _ _ _ _ _ _ _ _ rod_storable Hd 2 rod_field file Hp Ck p C L).
  - intros p k e ld C. assert (rod_name = grid_name KScalar EDouble) as Nm by reflexivity. pose proof rod_storable as Hs. rewrite Nm in *.
    exact (C115_tools Qc (fun _ _ => rod_codec) (fun _ _ _ => 0%Qc) (fun _ => True) Z show_int ex_parse true (fun x => x) (fun y _ => Some y) Vti KScalar EDouble 1 ex_gs [2] ex_bcs 1 Hs eq_refl
      ltac:(repeat split; try discriminate; now left) Hd 2 rod_field file Hp Ck p C k e ld).
Qed.
