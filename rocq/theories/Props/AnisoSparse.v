(* C89, and C42 and C70 again: sparse multiphase fields at every time step, not only the first.  Exact arithmetic. *)
From Coq Require Import QArith.QArith QArith.Qcanon.
From Verif Require Import Model.Base Model.Boundary Model.Layout Model.Access Model.Sparse Model.Evolve Model.AnisoSparse
  Spec.Box Spec.Access Spec.Stencil Spec.Evolve Spec.AnisoSparse Proof.BaseL Proof.StencilL Proof.StencilS Proof.AnisoSparseL Proof.AnisoSparseF Proof.AnisoSparseG Proof.GrowL.
Local Open Scope Z_scope.
Local Open Scope list_scope.

Definition q (a : Z) (b : positive) : Qc := Q2Qc (a # b).
Definition ring (ns : list Z) : list limits := map (fun n => mkLim 0 n 0 n periodic periodic) ns.
Definition spaced (dx : list Qc) (ls : list limits) : Prop := length dx = length ls /\ Forall (fun h => h <> 0%Qc) dx.

(* C89: whatever the two grids hold, a step of the anisotropic programs computes at every node the multiphase-field equation for the fields
   that are stored at the node and its neighbours *)
Theorem C89_rule : forall ls dx energy eps mobility pinned former latter, Forall serial_axis ls -> ls <> [] -> spaced dx ls ->
  symmetric energy -> symmetric eps -> symmetric mobility ->
  zlen former = cells (lay 0 ls) -> Forall tidy former -> zlen latter = cells (lay 0 ls) -> Forall tidy latter ->
  exists latter', aniso_step false (lay 0 ls) dx energy eps mobility pinned (former, latter) = Some (latter', former) /\
    zlen latter' = cells (lay 0 ls) /\ Forall tidy latter' /\
    forall x, in_box (map l_x0 ls) (map l_x1 ls) x ->
      follows (q 1 100) (fun i j => q 1 2 * eps i j * eps i j)%Qc (fun i j => Qc_of 4 * energy i j / Qc_of 8)%Qc (Qc_of 3) (pin pinned mobility) dx
        (fields_of ls former) x (fields_of ls latter x) (fields_of ls latter' x).
Proof. intros ls dx energy eps mobility pinned former latter Fs Hne [Ld Fd] Se Sp Sm Lf Tf Ll Tl. exact (aniso_step_ok ls dx Fs Hne Ld Fd energy eps mobility pinned former latter Se Sp Sm Lf Tf Ll Tl). Qed.
Print Assumptions C89_rule.

Lemma pin_symmetric b m : symmetric m -> symmetric (pin b m).
Proof. intros S i j. unfold pin. now rewrite (S j i), (orb_comm (j =? 0)). Qed.
Lemma tidy_of N ls data : sound N ls data -> zlen data = cells (lay 0 ls) /\ Forall tidy data.
Proof. intros [L A]. split; [auto|]. eapply Forall_impl; [|exact A]. intros o H. apply H. Qed.

(* C89: in every run of every length no field is ever negative and the sum of the fields never falls below one *)
Theorem C89_every_step : forall ls dx energy eps mobility pinned N n former latter, Forall serial_axis ls -> ls <> [] -> spaced dx ls ->
  symmetric energy -> symmetric eps -> symmetric mobility -> N < 100000000 -> sound N ls former -> full former -> sound N ls latter ->
  exists former' latter', iterate n (aniso_step false (lay 0 ls) dx energy eps mobility pinned) (former, latter) = Some (former', latter') /\
    sound N ls former' /\ full former' /\ sound N ls latter'.
Proof.
  intros ls dx energy eps mobility pinned N n former latter Fs Hne Sd Se Sp Sm Nb. revert former latter. induction n as [|n IH]; intros former latter Sf Ff Sl; [exists former, latter; auto|].
  destruct (tidy_of _ _ _ Sf) as [Lf Tf]. destruct (tidy_of _ _ _ Sl) as [Ll Tl].
  destruct (C89_rule ls dx energy eps mobility pinned former latter Fs Hne Sd Se Sp Sm Lf Tf Ll Tl) as (l' & E & L' & T' & V).
  destruct (whole_step ls Fs N Nb _ _ _ _ _ (pin_symmetric pinned mobility Sm) dx former latter l' Sf Ff Sl L' T' V) as (S' & F' & _).
  cbn [iterate]. rewrite E. cbn [bind]. apply IH; auto.
Qed.
Print Assumptions C89_every_step.

(* C89: after a step the fields that met at a node add up to exactly one, none of them above one, unless there is only one of them; from an
   empty second grid, as in the first step, they are all that is stored *)
Theorem C89_projection : forall ls dx energy eps mobility pinned N former latter, Forall serial_axis ls -> ls <> [] -> spaced dx ls ->
  symmetric energy -> symmetric eps -> symmetric mobility -> N < 100000000 -> sound N ls former -> full former -> sound N ls latter ->
  exists former', aniso_step false (lay 0 ls) dx energy eps mobility pinned (former, latter) = Some (former', former) /\
    forall x, in_box (map l_x0 ls) (map l_x1 ls) x ->
      exists ks, NoDup ks /\ (forall k, In k ks <-> near (fields_of ls former) x k) /\ (zlen ks < 2 -> fields_of ls former' x = fields_of ls former x) /\
        (2 <= zlen ks -> sumQ (map (at_index (fields_of ls former' x)) ks) = 1%Qc /\ (forall k, In k ks -> at_index (fields_of ls former' x) k <= 1)%Qc /\
          (fields_of ls latter x = [] -> total (fields_of ls former' x) = 1%Qc)).
Proof.
  intros ls dx energy eps mobility pinned N former latter Fs Hne Sd Se Sp Sm Nb Sf Ff Sl. destruct (tidy_of _ _ _ Sf) as [Lf Tf]. destruct (tidy_of _ _ _ Sl) as [Ll Tl].
  destruct (C89_rule ls dx energy eps mobility pinned former latter Fs Hne Sd Se Sp Sm Lf Tf Ll Tl) as (l' & E & L' & T' & V). exists l'. split; [exact E|].
  apply (whole_step ls Fs N Nb _ _ _ _ _ (pin_symmetric pinned mobility Sm) dx former latter l' Sf Ff Sl L' T' V).
Qed.
Print Assumptions C89_projection.

(* the same for interface_field_evolves of algorithms/evolvers.cpp with one energy and one mobility *)
Theorem C42_rule : forall ls dx dt epsilon w mu former latter, Forall serial_axis ls -> ls <> [] -> spaced dx ls ->
  zlen former = cells (lay 0 ls) -> Forall tidy former -> zlen latter = cells (lay 0 ls) -> Forall tidy latter ->
  exists latter', evolve_step false (lay 0 ls) dx dt epsilon w mu (former, latter) = Some (latter', former) /\
    zlen latter' = cells (lay 0 ls) /\ Forall tidy latter' /\
    forall x, in_box (map l_x0 ls) (map l_x1 ls) x ->
      follows dt (fun _ _ => q 1 2 * epsilon * epsilon)%Qc (fun _ _ => w) 0 (fun _ _ => mu) dx (fields_of ls former) x (fields_of ls latter x) (fields_of ls latter' x).
Proof. intros ls dx dt epsilon w mu former latter Fs Hne [Ld Fd] Lf Tf Ll Tl. exact (evolve_step_ok ls dx Fs Hne Ld Fd dt epsilon w mu former latter Lf Tf Ll Tl). Qed.
Print Assumptions C42_rule.
Theorem C42_every_step : forall ls dx dt epsilon w mu N n former latter, Forall serial_axis ls -> ls <> [] -> spaced dx ls ->
  N < 100000000 -> sound N ls former -> full former -> sound N ls latter ->
  exists former' latter', iterate n (evolve_step false (lay 0 ls) dx dt epsilon w mu) (former, latter) = Some (former', latter') /\
    sound N ls former' /\ full former' /\ sound N ls latter'.
Proof.
  intros ls dx dt epsilon w mu N n former latter Fs Hne Sd Nb. revert former latter. induction n as [|n IH]; intros former latter Sf Ff Sl; [exists former, latter; auto|].
  destruct (tidy_of _ _ _ Sf) as [Lf Tf]. destruct (tidy_of _ _ _ Sl) as [Ll Tl].
  destruct (C42_rule ls dx dt epsilon w mu former latter Fs Hne Sd Lf Tf Ll Tl) as (l' & E & L' & T' & V).
  destruct (whole_step ls Fs N Nb dt _ _ 0%Qc (fun _ _ => mu) ltac:(intros ? ?; reflexivity) dx former latter l' Sf Ff Sl L' T' V) as (S' & F' & _).
  cbn [iterate]. rewrite E. cbn [bind]. apply IH; auto.
Qed.
Print Assumptions C42_every_step.
Theorem C42_projection : forall ls dx dt epsilon w mu N former latter, Forall serial_axis ls -> ls <> [] -> spaced dx ls ->
  N < 100000000 -> sound N ls former -> full former -> sound N ls latter ->
  exists former', evolve_step false (lay 0 ls) dx dt epsilon w mu (former, latter) = Some (former', former) /\
    forall x, in_box (map l_x0 ls) (map l_x1 ls) x ->
      exists ks, NoDup ks /\ (forall k, In k ks <-> near (fields_of ls former) x k) /\ (zlen ks < 2 -> fields_of ls former' x = fields_of ls former x) /\
        (2 <= zlen ks -> sumQ (map (at_index (fields_of ls former' x)) ks) = 1%Qc /\ (forall k, In k ks -> at_index (fields_of ls former' x) k <= 1)%Qc /\
          (fields_of ls latter x = [] -> total (fields_of ls former' x) = 1%Qc)).
Proof.
  intros ls dx dt epsilon w mu N former latter Fs Hne Sd Nb Sf Ff Sl. destruct (tidy_of _ _ _ Sf) as [Lf Tf]. destruct (tidy_of _ _ _ Sl) as [Ll Tl].
  destruct (C42_rule ls dx dt epsilon w mu former latter Fs Hne Sd Lf Tf Ll Tl) as (l' & E & L' & T' & V). exists l'. split; [exact E|].
  apply (whole_step ls Fs N Nb dt _ _ 0%Qc (fun _ _ => mu) ltac:(intros ? ?; reflexivity) dx former latter l' Sf Ff Sl L' T' V).
Qed.
Print Assumptions C42_projection.

Definition one2 (_ _ : Z) : Qc := 1%Qc.
Definition eps0 (_ _ : Z) : Qc := q 2546 1000.
Definition grains : list (list (option (Z * Qc))) := [[Some (0, 1%Qc)]; [Some (1, 1%Qc)]; [Some (0, q 1 2); Some (2, q 1 2)]].
Lemma tidy_list (l : list (Z * Qc)) : NoDup (map fst l) -> tidy (map Some l).
Proof. intros N. exists l. auto. Qed.
Example C89_case : let ls := ring [3] in Forall serial_axis ls /\ spaced [1%Qc] ls /\ symmetric one2 /\ symmetric eps0 /\ sound 3 ls grains /\ full grains /\ sound 3 ls [[]; []; []] /\
  exists former' latter', iterate 3 (aniso_step false (lay 0 ls) [1%Qc] one2 eps0 one2 false) (grains, [[]; []; []]) = Some (former', latter') /\ former' <> grains.
Proof.
  cbv zeta. split; [repeat constructor; cbn; try lia; right; right; left; reflexivity|]. split; [split; [reflexivity|repeat constructor; discriminate]|]. split; [intros ? ?; reflexivity|]. split; [intros ? ?; reflexivity|].
  split; [split; [reflexivity|]|split; [|split; [split; [reflexivity|]|]]].
  - repeat (apply Forall_cons || apply Forall_nil); (split; [|split; [cbn; repeat constructor; discriminate|cbn; repeat constructor; cbn; lia]]).
    + apply (tidy_list [(0, 1%Qc)]). repeat constructor; cbn; tauto.
    + apply (tidy_list [(1, 1%Qc)]). repeat constructor; cbn; tauto.
    + apply (tidy_list [(0, q 1 2); (2, q 1 2)]). repeat constructor; cbn; intuition lia.
  - repeat (apply Forall_cons || apply Forall_nil); discriminate.
  - repeat (apply Forall_cons || apply Forall_nil); (split; [exists []; split; [reflexivity|constructor]|split; constructor]).
  - do 2 eexists. split; [vm_compute; reflexivity|]. discriminate.
Qed.

(* The sum may exceed one: the cell that a step writes to still holds the step before last, and a field that is gone in between comes back.
   Two steps of a one-node grid, starting with an empty second grid and fields that add up to one *)
Definition trio : list (Z * Qc) := [(0, q 49 100); (1, q 49 100); (2, q 1 50)].
Definition fast (_ _ : Z) : Qc := Qc_of 100.
Theorem C89_stale_refuted : exists ls dx energy eps mobility former' l,
  Forall serial_axis ls /\ spaced dx ls /\ symmetric energy /\ symmetric eps /\ symmetric mobility /\ on_simplex trio /\
  iterate 2 (aniso_step false (lay 0 ls) dx energy eps mobility false) ([map Some trio], [[]]) = Some former' /\
  fst former' = [map Some l] /\ (1 < total l)%Qc.
Proof.
  exists (ring [1]), [1%Qc], one2, eps0, fast. do 2 eexists. split; [repeat constructor; cbn; try lia; right; right; left; reflexivity|]. split; [split; [reflexivity|repeat constructor; discriminate]|].
  split; [intros ? ?; reflexivity|]. split; [intros ? ?; reflexivity|]. split; [intros ? ?; reflexivity|]. split; [|split; [vm_compute; reflexivity|]].
  - split; [repeat constructor; cbn; intuition lia|]. split; [repeat (apply Forall_cons || apply Forall_nil); split; (reflexivity || discriminate)|apply Qc_is_canon; reflexivity].
  - split; [|].
    + match goal with |- fst ([?o], _) = _ => let l := eval vm_compute in (stored o) in instantiate (1 := l) end. reflexivity.
    + vm_compute. reflexivity.
Qed.
Print Assumptions C89_stale_refuted.
(* the particles of the anisotropic sparse Zener program: where field 0 is one it does not stay one *)
Theorem C70_sparse_anisotropic_refuted : exists ls dx energy eps mobility former latter former' latter', Forall serial_axis ls /\ sound 3 ls former /\ full former /\
  aniso_step false (lay 0 ls) dx energy eps mobility true (former, latter) = Some (former', latter') /\
  at_index (fields_of ls former [0]) 0 = 1%Qc /\ (at_index (fields_of ls former' [0%Z]) 0 < 1)%Qc.
Proof.
  exists (ring [3]), [1%Qc], one2, eps0, one2, grains, [[]; []; []]. destruct C89_case as (Fs & _ & _ & _ & So & Fu & _). do 2 eexists. split; [exact Fs|]. split; [exact So|]. split; [exact Fu|]. split; [vm_compute; reflexivity|]. split; vm_compute; reflexivity.
Qed.
Print Assumptions C70_sparse_anisotropic_refuted.

(* but they never appear where there were none *)
Lemma no_particle dt gradient barrier triple mobility dx F x stale l : follows dt gradient barrier triple (pin true mobility) dx F x stale l ->
  at_index (F x) 0 = 0%Qc -> at_index stale 0 = 0%Qc -> at_index l 0 = 0%Qc.
Proof.
  intros (ks & Nk & Hk & H1 & H2) Z1 Z2. destruct (Z.lt_ge_cases (zlen ks) 2) as [C|C]; [now rewrite (H1 C)|]. destruct (H2 C) as [V _]. rewrite V. unfold projected. destruct (Qc_eq_dec _ 0); [reflexivity|].
  assert (forall v : Z -> Qc, v 0 = 0%Qc -> kept ks v (at_index stale) 0 = 0%Qc) as K. { intros v Hv. unfold kept. rewrite Hv, Z2. destruct (in_dec Z.eq_dec 0 ks); [|reflexivity]. destruct (Qclt_le_dec _ 0); reflexivity. }
  rewrite K; [unfold Qcdiv; now rewrite Qcmult_0_l|]. unfold target. rewrite Z1. unfold speed.
  rewrite (sumQ_ext _ (fun _ => 0%Qc)) by (intros j _; unfold pin; cbn [andb orb Z.eqb]; ring). rewrite sumQ_zero. replace (0 + dt * (Qc_of 2 / Qc_of (zlen ks)) * - 0)%Qc with 0%Qc by ring. reflexivity.
Qed.
Theorem C89_particles : forall ls dx energy eps mobility n former latter, Forall serial_axis ls -> ls <> [] -> spaced dx ls ->
  symmetric energy -> symmetric eps -> symmetric mobility ->
  zlen former = cells (lay 0 ls) -> Forall tidy former -> zlen latter = cells (lay 0 ls) -> Forall tidy latter ->
  exists former' latter', iterate n (aniso_step false (lay 0 ls) dx energy eps mobility true) (former, latter) = Some (former', latter') /\
    forall x, in_box (map l_x0 ls) (map l_x1 ls) x -> at_index (fields_of ls former x) 0 = 0%Qc -> at_index (fields_of ls latter x) 0 = 0%Qc -> at_index (fields_of ls former' x) 0 = 0%Qc.
Proof.
  intros ls dx energy eps mobility n former latter Fs Hne Sd Se Sp Sm. revert former latter. induction n as [|n IH]; intros former latter Lf Tf Ll Tl; [exists former, latter; auto|].
  destruct (C89_rule ls dx energy eps mobility true former latter Fs Hne Sd Se Sp Sm Lf Tf Ll Tl) as (l' & E & L' & T' & V). destruct (IH l' former L' T' Lf Tf) as (f2 & l2 & E2 & V2).
  exists f2, l2. cbn [iterate]. rewrite E. cbn [bind]. split; [exact E2|]. intros x B Z1 Z2. apply V2; auto. exact (no_particle _ _ _ _ _ _ _ _ _ _ (V x B) Z1 Z2).
Qed.
Print Assumptions C89_particles.

(* C63 at every step: the isotropic sparse program computes its growth rule at every node, whatever the second grid holds; fields that the
   rule does not store keep the value of the step before last *)
Theorem C63_every_step : forall ls dx former latter, Forall serial_axis ls -> ls <> [] -> spaced dx ls ->
  zlen former = cells (lay 0 ls) -> Forall tidy former -> zlen latter = cells (lay 0 ls) -> Forall tidy latter ->
  exists latter', grow_step false (lay 0 ls) dx (former, latter) = Some (latter', former) /\ zlen latter' = cells (lay 0 ls) /\ Forall tidy latter' /\
    forall x, in_box (map l_x0 ls) (map l_x1 ls) x -> let F := fields_of ls former in let stale := fields_of ls latter x in let l := fields_of ls latter' x in
      exists ks, NoDup ks /\ (forall k, In k ks <-> near F x k) /\ (zlen ks < 2 -> l = F x) /\
        (2 <= zlen ks -> (forall k, at_index l k = kept ks (grown F dx x) (at_index stale) k) /\
          (forall k, In k (map fst l) <-> In k (map fst stale) \/ In k ks /\ (q 1 100000000 < grown F dx x k)%Qc)).
Proof.
  intros ls dx former latter Fs Hne [Ld Fd] Lf Tf Ll Tl.
  apply (step_loop ls dx Fs Ld (grow false (lay 0 ls) dx) (fun F x stale l => exists ks, NoDup ks /\ (forall k, In k ks <-> near F x k) /\ (zlen ks < 2 -> l = F x) /\
        (2 <= zlen ks -> (forall k, at_index l k = kept ks (grown F dx x) (at_index stale) k) /\ (forall k, In k (map fst l) <-> In k (map fst stale) \/ In k ks /\ (q 1 100000000 < grown F dx x k)%Qc)))); auto.
  intros u node F stale Hn Lu St Nd Ru Nst. exact (grow_any false 0 ls dx former u node F stale ltac:(lia) ltac:(auto) Hne (lims_le _ Fs) Hn Lu Ld Fd St Nd Ru Nst).
Qed.
Print Assumptions C63_every_step.
