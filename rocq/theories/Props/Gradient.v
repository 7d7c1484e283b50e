(* C90: Monte Carlo grain growth in a temperature gradient *)
From Coq Require Import QArith.QArith QArith.Qcanon.
From Verif Require Import Model.Base Model.Boundary Model.Layout Model.Access Model.Spin Model.Evolve Model.Gradient Spec.Box Spec.Stencil Spec.Spin
  Proof.BaseL Proof.StencilM Proof.SpinL Proof.SpinF Proof.GrowthL Proof.GrowthF Proof.GradientL Props.Spin.
Local Open Scope list_scope.
Local Open Scope Z_scope.

(* C90: the temperature is 673 at the low end of the first axis of the whole domain, rises by the same amount from node to node,
   and would reach 723 just behind the last node *)
Theorem C90_temperature : forall l ls c y, l_g0 l <= c < l_g1 l ->
  temperature (lay 0 (l :: ls)) (l_g0 l :: y) = Qc_of 673 /\
  (temperature (lay 0 (l :: ls)) ((c + 1)%Z :: y) - temperature (lay 0 (l :: ls)) (c :: y) = Qc_of 50 / Qc_of (l_g1 l - l_g0 l)%Z)%Qc /\
  temperature (lay 0 (l :: ls)) (l_g1 l :: y) = Qc_of 723 /\
  (Qc_of 673 <= temperature (lay 0 (l :: ls)) (c :: y))%Qc /\ (temperature (lay 0 (l :: ls)) (c :: y) < Qc_of 723)%Qc.
Proof. exact temperature_ok. Qed.
Print Assumptions C90_temperature.

(* what the program uses of exp *)
Definition exp_like (ex : Qc -> Qc) : Prop := (forall v, 0 < ex v)%Qc /\ (forall v w, v < w -> ex v < ex w)%Qc.
(* the chance that a node is attempted lies strictly between 0 and 1, and rises with the first coordinate; so a random number that
   lets a node be attempted does so for every node with a larger first coordinate, 0 does so for all nodes, and RAND_MAX for none *)
Theorem C90_selection : forall ex top l ls c c' y y', exp_like ex -> 0 < top -> l_g0 l <= c < l_g1 l -> l_g0 l <= c' < l_g1 l ->
  let axs := lay 0 (l :: ls) in
  (0 < selection_probability ex axs (c :: y))%Qc /\ (selection_probability ex axs (c :: y) < 1)%Qc /\
  (c < c' -> (selection_probability ex axs (c :: y) < selection_probability ex axs (c' :: y'))%Qc) /\
  (c = c' -> selection_probability ex axs (c :: y) = selection_probability ex axs (c' :: y')) /\
  (forall rd, selected ex top axs (c :: y) rd = true <-> (Qc_of rd / Qc_of top <= selection_probability ex axs (c :: y))%Qc) /\
  (forall rd, c <= c' -> selected ex top axs (c :: y) rd = true -> selected ex top axs (c' :: y') rd = true) /\
  selected ex top axs (c :: y) 0 = true /\ selected ex top axs (c :: y) top = false.
Proof. intros ex top l ls c c' y y' [Pos Mono]. now apply selection_ok. Qed.
Print Assumptions C90_selection.

(* an attempt at a node that is selected is that of isotropic grain growth; at a node that is not selected the grid stays as it is *)
Theorem C90_attempt : forall ex top hot ls data a, whole ls -> zlen data = cells (lay 0 ls) -> in_box (map l_x0 ls) (map l_x1 ls) (at_site a) ->
  attempts (lay 0 ls) hot (selected ex top (lay 0 ls)) [a] data =
  if selected ex top (lay 0 ls) (at_site a) (a_d a) then attempts (lay 0 ls) hot always [a] data else Some data.
Proof. intros. now apply attempt_or_not. Qed.
Print Assumptions C90_attempt.

(* the whole update: defined, keeps to the spins of the beginning, does not raise the energy at temperature zero, and ends when the
   random numbers pick every cell again and again; for every function ex and every RAND_MAX *)
Theorem C90_update : forall ex top hot ls fuel rnd steps data, whole ls -> zlen ls = 2 \/ zlen ls = 3 -> (forall a b k, 0 <= rnd a b k) -> zlen data = cells (lay 0 ls) ->
  let update fuel := gradient_update ex top (lay 0 ls) hot fuel rnd steps data in
  (exists r, update fuel = Some r /\ forall data', r = Some data' -> zlen data' = cells (lay 0 ls) /\ Forall (fun s => In s data) data' /\
     ((forall r dE, 0 < dE -> hot r dE = false) -> grain_energy2 ls (value_at ls data') <= grain_energy2 ls (value_at ls data))) /\
  (Forall (fun l => l_x0 l + 2 <= l_x1 l) ls -> (forall a b, fair (num_lattice_cells (lay 0 ls)) (rnd a b)) -> exists fuel data', update fuel = Some (Some data')).
Proof.
  intros ex top hot ls fuel rnd steps data W D R L update. split.
  - destruct (C47_growth_spins ls hot (selected ex top (lay 0 ls)) fuel rnd steps data W D R L) as (r & E & H). exists r. split; [exact E|]. intros d' ->. destruct (H d' eq_refl) as [L' S']. split; [auto|]. split; [auto|].
    intros Cold. eapply C47_growth_descends; eauto.
  - intros S2 F. destruct (C49_terminates ls hot (selected ex top (lay 0 ls)) rnd steps data W D S2 R F L) as (_ & f & d' & E & _). eauto.
Qed.
Print Assumptions C90_update.
(* ex v = 1/(1 - v) for negative v, continued by 1 + v *)
Definition ex1 (v : Qc) : Qc := if Qclt_le_dec v 0 then (/ (1 - v))%Qc else (1 + v)%Qc.
Example C90_case : exp_like ex1 /\ let ls := map (fun n => mkLim 3 (3 + n) 3 (3 + n) 0 0) [3; 2] in let axs := lay 0 ls in
  whole ls /\ Forall (fun l => l_x0 l + 2 <= l_x1 l) ls /\
  selected ex1 1000 axs [3; 3] 950 = false /\ selected ex1 1000 axs [5; 3] 950 = true /\
  (exists d, gradient_update ex1 1000 axs never 60 (fun _ _ k => Z.of_nat (k * 7)) 1 [1; 2; 3; 4; 5; 6] = Some (Some d) /\ d <> [1; 2; 3; 4; 5; 6]).
Proof.
  split; [split|].
  - intros v. unfold ex1. destruct (Qclt_le_dec v 0) as [H|H]; [apply inv_pos|]; unfold Qclt, Qcle in *; rewrite ?this_add, ?this_sub; change (this 1%Qc) with 1%Q; change (this 0%Qc) with 0%Q in *; Lqa.lra.
  - intros v w Hl. unfold ex1. destruct (Qclt_le_dec v 0) as [H|H], (Qclt_le_dec w 0) as [H'|H'].
    + apply inv_lt; unfold Qclt in *; rewrite ?this_sub; change (this 1%Qc) with 1%Q; change (this 0%Qc) with 0%Q in *; Lqa.lra.
    + apply Qclt_le_trans with 1%Qc; [|unfold Qcle in *; rewrite ?this_add; change (this 1%Qc) with 1%Q; change (this 0%Qc) with 0%Q in *; Lqa.lra].
      replace 1%Qc with (/ 1)%Qc at 2 by reflexivity. apply inv_lt; unfold Qclt in *; rewrite ?this_sub; change (this 1%Qc) with 1%Q; change (this 0%Qc) with 0%Q in *; Lqa.lra.
    + exfalso. unfold Qclt, Qcle in *. change (this 0%Qc) with 0%Q in *. Lqa.lra.
    + unfold Qclt, Qcle in *. rewrite ?this_add. change (this 1%Qc) with 1%Q. Lqa.lra.
  - cbv zeta. split; [repeat constructor; cbn; lia|]. split; [repeat constructor; cbn; lia|]. split; [vm_compute; reflexivity|]. split; [vm_compute; reflexivity|].
    eexists. split; [vm_compute; reflexivity|vm_compute; discriminate].
Qed.
