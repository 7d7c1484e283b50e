(* C112: the programs that make pictures and tables open the files of runs of every number of processes, and cannot tell them apart. *)
From stdpp Require Import gmap.
From Coq Require Import Strings.String.
From Coq Require Import QArith.QArith QArith.Qcanon.
From Verif Require Import Model.Base Model.Text Model.Boundary Model.Layout Model.Access Model.Setup Model.Codec Model.File Model.Simulate Model.Types
  Spec.Box Spec.Bytes Spec.Decomp Spec.File Spec.Schedule Spec.Jobs Spec.Runs Spec.Mixed Spec.Types
  Proof.BaseL Proof.TextL Proof.FileL Proof.SetupL Proof.MixedL Proof.TypesL Proof.OpensL Props.File Props.Program Props.Jobs Props.Runs Props.Mixed.
Local Open Scope Z_scope.

(* Every kind and element that the program supports, every file of it that np ranks write: the program finds the kind, the element, the number of
   fields, the spacing, the limits and boundary conditions of the whole grid and the value of every node *)
Theorem C112_opens : forall T (cod : kind -> elem -> codec T) fresh (valid : T -> Prop) S (dshow : S -> list byte) dparse raw compress uncompress p k e fields gs dx B gh,
  storable (cod k e) valid (fresh (opened_as p k) e) dshow dparse compress uncompress (grid_name k e) fields gs dx B gh ->
  cod KScalar e = cod KPlain e -> supported p k e -> zlen gs <= 3 ->
  forall np D file, zlen D = cells (whole gs B) -> checkpoint (cod k e) valid dshow dparse raw compress (grid_name k e) fields gs dx B gh np D file ->
  exists ld, open_grid cod fresh dparse raw uncompress p file = Done (opened_as p k, e, ld) /\
    ld_fields ld = fields /\ ld_dx ld = dx /\ lo_axes (ld_local ld) = whole gs B /\ lo_data (ld_local ld) = D.
Proof.
  intros T cod fresh valid S dshow dparse raw compress uncompress p k e fields gs dx B gh Hs Cs Su Hd np D file LD Ck.
  destruct (C111_serial_reads _ _ _ _ _ _ _ _ _ _ _ _ _ _ _ _ Hs np D file LD Ck) as (ld & I & R).
  destruct (ckpt_header _ _ _ _ _ raw _ _ _ _ _ _ _ _ _ _ _ Hs Ck) as [rest ->].
  exists ld. split; [|exact R]. apply open_reads; auto. split; [|exact Hd]. destruct Hs. destruct gs; [easy|]. rewrite zlen_cons. pose proof (zlen_nonneg gs). lia.
Qed.
Print Assumptions C112_opens.

(* Two files of the same field, written by np and by np' ranks in runs with any two numbers of ghosts: the program has the same grid from both, so
   its pictures and tables are the same *)
Theorem C112_same : forall T (cod : kind -> elem -> codec T) fresh (valid : T -> Prop) S (dshow : S -> list byte) dparse raw compress uncompress p k e fields gs dx B gh gh',
  storable (cod k e) valid (fresh (opened_as p k) e) dshow dparse compress uncompress (grid_name k e) fields gs dx B gh ->
  storable (cod k e) valid (fresh (opened_as p k) e) dshow dparse compress uncompress (grid_name k e) fields gs dx B gh' ->
  cod KScalar e = cod KPlain e -> supported p k e -> zlen gs <= 3 ->
  forall np np' D file file', zlen D = cells (whole gs B) ->
  checkpoint (cod k e) valid dshow dparse raw compress (grid_name k e) fields gs dx B gh np D file ->
  checkpoint (cod k e) valid dshow dparse raw compress (grid_name k e) fields gs dx B gh' np' D file' ->
  exists k' e' ld ld', open_grid cod fresh dparse raw uncompress p file = Done (k', e', ld) /\ open_grid cod fresh dparse raw uncompress p file' = Done (k', e', ld') /\
    ld_fields ld = ld_fields ld' /\ ld_dx ld = ld_dx ld' /\ lo_axes (ld_local ld) = lo_axes (ld_local ld') /\ lo_data (ld_local ld) = lo_data (ld_local ld').
Proof.
  intros T cod fresh valid S dshow dparse raw compress uncompress p k e fields gs dx B gh gh' Hs Hs' Cs Su Hd np np' D file file' LD Ck Ck'.
  destruct (C112_opens _ _ _ _ _ _ _ _ _ _ _ _ _ _ _ _ _ _ Hs Cs Su Hd _ _ _ LD Ck) as (ld & O & A1 & A2 & A3 & A4).
  destruct (C112_opens _ _ _ _ _ _ _ _ _ _ _ _ _ _ _ _ _ _ Hs' Cs Su Hd _ _ _ LD Ck') as (ld' & O' & B1 & B2 & B3 & B4).
  exists (opened_as p k), e, ld, ld'. repeat split; congruence.
Qed.
Print Assumptions C112_same.

(* What a program does not support it refuses, however many ranks wrote the file *)
Theorem C112_refuses : forall T (cod : kind -> elem -> codec T) fresh (valid : T -> Prop) fresh' S (dshow : S -> list byte) dparse raw compress uncompress p k e fields gs dx B gh,
  storable (cod k e) valid fresh' dshow dparse compress uncompress (grid_name k e) fields gs dx B gh -> p <> Pvd -> ~ supported p k e ->
  forall np D file, checkpoint (cod k e) valid dshow dparse raw compress (grid_name k e) fields gs dx B gh np D file ->
  exists code, open_grid cod fresh dparse raw uncompress p file = Exit code.
Proof.
  intros T cod fresh valid fresh' S dshow dparse raw compress uncompress p k e fields gs dx B gh Hs N Su np D file Ck.
  destruct (ckpt_header _ _ _ _ _ raw _ _ _ _ _ _ _ _ _ _ _ Hs Ck) as [rest ->]. unfold header. rewrite <- !app_assoc. cbn [app]. apply open_unsupported; auto using show_not_blank.
Qed.
Print Assumptions C112_refuses.

(* The last file of a campaign of serial and parallel runs, however scheduled: the program has what one serial run would have left *)
Theorem C112_campaign : forall T (cod : kind -> elem -> codec T) fresh (valid : T -> Prop) S (dshow : S -> list byte) dparse raw compress uncompress p k e fields gs dx B gh,
  storable (cod k e) valid (fresh (opened_as p k) e) dshow dparse compress uncompress (grid_name k e) fields gs dx B gh ->
  cod KScalar e = cod KPlain e -> supported p k e -> zlen gs <= 3 ->
  forall runs np D D' file np' file', Forall (sensible valid gs B gh) runs ->
  zlen D = cells (whole gs B) -> checkpoint (cod k e) valid dshow dparse raw compress (grid_name k e) fields gs dx B gh np D file ->
  feasible (cod k e) valid raw compress gs B gh np D runs -> serial_runs gs B runs D = Some D' ->
  passes (cod k e) (fresh (opened_as p k) e) dshow dparse raw compress uncompress (grid_name k e) gs gh np file runs np' file' ->
  exists ld, open_grid cod fresh dparse raw uncompress p file' = Done (opened_as p k, e, ld) /\
    ld_fields ld = fields /\ ld_dx ld = dx /\ lo_axes (ld_local ld) = whole gs B /\ lo_data (ld_local ld) = D'.
Proof.
  intros T cod fresh valid S dshow dparse raw compress uncompress p k e fields gs dx B gh Hs Cs Su Hd runs np D D' file np' file' Fs LD Ck Fe E Pa.
  destruct (C111_campaign _ _ _ _ _ _ _ _ _ _ _ _ _ _ _ _ Hs runs np D D' file Fs LD Ck Fe E) as (_ & H). destruct (H np' file' Pa) as (Ck' & ld & I & R).
  destruct (ckpt_header _ _ _ _ _ raw _ _ _ _ _ _ _ _ _ _ _ Hs Ck') as [rest ->].
  exists ld. split; [|exact R]. apply open_reads; auto. split; [|exact Hd]. destruct Hs. destruct gs; [easy|]. rewrite zlen_cons. pose proof (zlen_nonneg gs). lia.
Qed.
Print Assumptions C112_campaign.

(* The rod of C106 written by two ranks, of MMSP::scalar<double>: mmsp2vti opens it, mmsp2tsv refuses it *)
Example C112_case : exists file,
  checkpoint rod_codec (fun _ => True) show_int ex_parse true (fun x => x) rod_name 1 ex_gs [2] ex_bcs 1 2 rod_field file /\
  (exists ld, open_grid (fun _ _ => rod_codec) (fun _ _ _ => 0%Qc) ex_parse true (fun y _ => Some y) Vti file = Done (KScalar, EDouble, ld) /\
    ld_dx ld = [2] /\ lo_axes (ld_local ld) = whole ex_gs ex_bcs /\ lo_data (ld_local ld) = rod_field) /\
  (exists code, open_grid (fun _ _ => rod_codec) (fun _ _ _ => 0%Qc) ex_parse true (fun y _ => Some y) Tsv file = Exit code).
Proof.
  destruct rod_checkpoint as [file Ck]. exists file. split; [exact Ck|].
  assert (rod_name = grid_name KScalar EDouble) as Nm by reflexivity. pose proof rod_storable as Hs. rewrite Nm in *. split.
  - destruct (C112_opens Qc (fun _ _ => rod_codec) (fun _ _ _ => 0%Qc) (fun _ => True) Z show_int ex_parse true (fun x => x) (fun y _ => Some y) Vti KScalar EDouble 1 ex_gs [2] ex_bcs 1 Hs eq_refl
      ltac:(repeat split; try discriminate; now left) ltac:(vm_compute; discriminate) 2 rod_field file eq_refl Ck) as (ld & O & _ & R). exists ld. auto.
  - eapply (C112_refuses Qc (fun _ _ => rod_codec) (fun _ _ _ => 0%Qc) (fun _ => True) _ Z show_int ex_parse true (fun x => x) (fun y _ => Some y) Tsv KScalar EDouble 1 ex_gs [2] ex_bcs 1 Hs); [discriminate| |exact Ck].
    intros (_ & H & _). now destruct (H eq_refl).
Qed.
