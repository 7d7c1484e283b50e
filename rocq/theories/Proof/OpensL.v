From stdpp Require Import gmap.
From Verif Require Import Model.Base Model.Text Model.Boundary Model.Layout Model.Access Model.Setup Model.Codec Model.File Model.Simulate Model.Types
  Spec.Box Spec.Bytes Spec.Decomp Spec.File Spec.Schedule Spec.Jobs Spec.Runs Spec.Mixed Spec.Types
  Proof.BaseL Proof.TextL Proof.FileL Proof.SetupL Proof.CheckpointL Proof.JobsL Proof.MixedL Proof.TypesL Props.File.
From Coq Require Import ZifyBool.
Local Open Scope Z_scope.

Lemma ckpt_header {T} (c : codec T) valid (fresh : Z -> T) {S} (dshow : S -> list byte) dparse raw compress uncompress name fields gs dx B gh np D file :
  storable c valid fresh dshow dparse compress uncompress name fields gs dx B gh -> checkpoint c valid dshow dparse raw compress name fields gs dx B gh np D file ->
  exists rest, file = header dshow name fields gs dx ++ pd_enc pod_int np ++ rest.
Proof.
  intros Hs (data & V & Wr & Fd & Wf). destruct Hs.
  assert (file = CheckpointL.file c raw compress dshow name fields gs dx B np gh data) as -> by (eapply writes_unique; [exact Wf|]; eapply writes_portable; eauto).
  unfold CheckpointL.file. eauto.
Qed.

Local Opaque grid_name.
Section Opens.
Context {T : Type} (cod : kind -> elem -> codec T) (fresh : kind -> elem -> Z -> T).
Context {S : Type} (dshow : S -> list byte) (dparse : list byte -> option S) (raw : bool) (uncompress : list byte -> Z -> option (list byte)).

(* a file that a class with the name of the data type reads is read by the class that the program chooses *)
Lemma open_reads p k e fields gs (dx : list S) rest ld : cod KScalar e = cod KPlain e -> supported p k e -> 1 <= zlen gs <= 3 ->
  input_serial (cod k e) (fresh (opened_as p k) e) dparse raw uncompress (grid_name k e) (length gs) (header dshow (grid_name k e) fields gs dx ++ rest) = Done ld ->
  open_grid cod fresh dparse raw uncompress p (header dshow (grid_name k e) fields gs dx ++ rest) = Done (opened_as p k, e, ld).
Proof.
  intros Cs Su Hd I. destruct (supported_pick p k e Su) as [P A].
  assert (int_range (zlen gs)) as Hz by (unfold int_range; split; [lia|]; eapply Z.le_lt_trans; [apply Hd|reflexivity]).
  unfold header in *. rewrite <- !app_assoc in *. cbn [app] in *.
  unfold open_grid. rewrite (getline_line _ _ (grid_name_line k e)), P. cbn [obind].
  unfold read_dim at 1.
  match goal with |- context [read_int (show_int (zlen gs) ++ 10 :: ?r)] =>
    pose proof (read_show [] (zlen gs) (10 :: r) (Forall_nil_2 _) Hz ltac:(now vm_compute)) as R; cbn [app] in R; rewrite R end. cbn [obind].
  replace (zlen gs <? 1) with false by (symmetry; apply Z.ltb_ge; lia).
  replace (zlen gs >? 3) with false by (symmetry; rewrite Z.gtb_ltb; apply Z.ltb_ge; lia). cbn [orb].
  replace (Z.to_nat (zlen gs)) with (length gs) by (unfold zlen; lia).
  assert (cod (opened_as p k) e = cod k e) as -> by (destruct p, k; cbn; auto).
  unfold input_serial, input in *.
  match goal with |- context [read_header _ _ _ (grid_name k e ++ 10 :: ?r)] => rewrite (header_accepts dparse (opened_as p k) e k e k e (length gs) r A) end.
  - rewrite I. reflexivity.
  - unfold accepts. now rewrite eqb_refl_l.
Qed.
End Opens.
