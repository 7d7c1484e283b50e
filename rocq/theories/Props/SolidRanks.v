(* C105: dendritic solidification gives the same field on any number of processes. *)
From Coq Require Import QArith.QArith QArith.Qcanon.
From Verif Require Import Model.Base Model.Boundary Model.Layout Model.Access Model.Setup Model.Codec Model.MPI Model.Ghostswap Model.Simulate Model.SolidRanks
  Spec.Box Spec.Access Spec.Bytes Spec.Decomp Spec.Schedule Spec.Program
  Proof.BaseL Proof.CodecL Proof.LayoutL Proof.AccessL Proof.ExecL Proof.ProgramL Proof.SolidRL Props.Stages Props.Program.
Local Open Scope Z_scope.

(* The two fields of a node are the phase and the temperature; flux takes the gradient of the phase to the product with the anisotropic
   diffusivity, melt the temperature to the driving force.  calls q: for every call of update() on rank q the number of steps and what the
   memory of newGrid held; ref q: what the memory of refGrid held at first; calls0, ref0: the same in the serial run. *)
Theorem C105_solidification : forall c np gs bs ghosts B dx flux melt tau dt diffusivity (data : Z -> list (list Qc)) (ref : Z -> list Qc) calls data0 ref0 calls0 data0',
  grids np gs bs ghosts B -> serialises c (fun v => zlen v = 2) -> (forall v, zlen v = 2 -> c_size c v <= B) ->
  zlen data0 = cells (whole gs bs) -> Forall (fun v => zlen v = 2) data0 -> zlen ref0 = cells (whole gs bs) ->
  Forall (fun b => zlen (snd b) = cells (whole gs bs) /\ Forall (fun v => zlen v = 2) (snd b)) calls0 ->
  (forall q ge, 0 <= q < np -> setup_mpi np gs ghosts q = Some ge ->
     zlen (data q) = cells (ge_axes ge) /\ Forall (fun v => zlen v = 2) (data q) /\ zlen (ref q) = cells (ge_axes ge) /\
     map fst (calls q) = map fst calls0 /\ Forall (fun a => zlen (snd a) = cells (ge_axes ge) /\ Forall (fun v => zlen v = 2) (snd a)) (calls q)) ->
  same_field np gs bs ghosts data data0 ->
  serial_solid dx flux melt tau dt diffusivity (whole gs bs) calls0 data0 ref0 = Some data0' ->
  computes (fun v => zlen v = 2) np gs bs ghosts (solid_program dx flux melt tau dt diffusivity c np gs bs ghosts data ref calls) data0'.
Proof.
  intros c np gs bs gh B dx flux melt tau dt df data ref calls data0 ref0 calls0 data0' Gr S HB L0 V0 LR Hn HD Sf E.
  eapply (solid_ranks c np gs bs gh B dx flux melt tau dt df data ref calls data0 ref0 calls0); eauto.
  intros q ge Hq Eg. destruct (HD q ge Hq Eg) as (A1 & A2 & A3 & A4 & A5). repeat (split; [assumption|]).
  clear - A4 A5. revert A4 A5. generalize (calls q) as l, calls0 as m. induction l as [|a l IH]; intros [|b m] A4 A5; cbn in A4; try discriminate; constructor; inversion A5; subst; [|apply IH; [congruence|auto]].
  split; [congruence|tauto].
Qed.
Print Assumptions C105_solidification.

(* A plate of 4 by 2 nodes, periodic in both directions, on two processes that share its length; two calls, one of two steps.  The memory
   outside of the nodes a process owns holds sevens. *)
Definition plate : list gaxis := [mkG 0 4; mkG 0 2].
Definition plate_sides : list (Z * Z) := [(periodic, periodic); (periodic, periodic)].
Definition plate_node (x y : Z) : list Qc := [Q2Qc (1 + x * x # 20); Q2Qc (y - x # 4)].
Definition plate_field : list (list Qc) := map (fun i => plate_node (i / 2) (i mod 2)) (zrange 0 8).
Definition plate_rank (q : Z) : list (list Qc) :=
  map (fun i => let x := 2 * q - 1 + i / 4 in let y := i mod 4 - 1 in
    if (2 * q <=? x) && (x <? 2 * q + 2) && (0 <=? y) && (y <? 2) then plate_node x y else [Qz 7; Qz 7]) (zrange 0 16).
Definition plate_calls (n : nat) : list (nat * list (list Qc)) := [(2%nat, repeat [Qz 5; Qz 5] n); (1%nat, repeat [Qz 5; Qz 5] n)].
Definition plate_flux (a b : Qc) : Qc * Qc := ((a - b / Qz 10)%Qc, (a / Qz 10 + b)%Qc).
Definition plate_melt (T : Qc) : Qc := (T / Qz 8)%Qc.
Local Notation plate_serial :=
  (serial_solid [1; 1]%Qc plate_flux plate_melt (Qz 4) (Q2Qc (1 # 8)) (Q2Qc (1 # 2)) (whole plate plate_sides) (plate_calls 8) plate_field (repeat (Qz 9) 8)).
Local Notation plate_program :=
  (solid_program [1; 1]%Qc plate_flux plate_melt (Qz 4) (Q2Qc (1 # 8)) (Q2Qc (1 # 2)) fractions 2 plate plate_sides 1 plate_rank (fun _ => repeat (Qz 6) 16) (fun _ => plate_calls 16)).
Lemma plate_grids : grids 2 plate plate_sides 1 8.
Proof.
  split; [lia|]. split; [discriminate|]. split; [lia|]. split; [lia|]. split; [repeat (apply Forall2_cons; [split; [cbn; lia|]; split; right; right; left; reflexivity|]); apply Forall2_nil|].
  intros q ge Hq Eg. assert (q = 0 \/ q = 1) as [-> | ->] by lia; vm_compute in Eg; inversion Eg; subst ge; (split; [repeat constructor; simpl; lia|vm_compute; discriminate]).
Qed.
Lemma plate_same : same_field 2 plate plate_sides 1 plate_rank plate_field.
Proof.
  intros q ge p Hq Eg. assert (q = 0 \/ q = 1) as [-> | ->] by lia; vm_compute in Eg; inversion Eg; subst ge; intros O; unfold owns in O; simpl in O; destruct p as [|x [|y [|z p]]]; try tauto; destruct O as [Ox [Oy _]];
    [assert (x = 0 \/ x = 1) as [-> | ->] by lia|assert (x = 2 \/ x = 3) as [-> | ->] by lia]; assert (y = 0 \/ y = 1) as [-> | ->] by lia; eexists; split; vm_compute; reflexivity.
Qed.
Example C105_case : exists data0' data', plate_serial = Some data0' /\ data0' <> plate_field /\ always_ends 2 plate_program data' /\ same_field 2 plate plate_sides 1 data' data0'.
Proof.
  assert (match plate_serial with Some n => map (map this) n <> map (map this) plate_field | _ => False end) as V by (vm_compute; discriminate).
  destruct plate_serial as [n|] eqn:E; [|easy]. exists n.
  destruct (C105_solidification fractions 2 plate plate_sides 1 8 [1; 1]%Qc plate_flux plate_melt (Qz 4) (Q2Qc (1 # 8)) (Q2Qc (1 # 2)) plate_rank (fun _ => repeat (Qz 6) 16) (fun _ => plate_calls 16)
    plate_field (repeat (Qz 9) 8) (plate_calls 8) n) as ((d' & A & Sf & _) & _).
  - apply plate_grids.
  - apply fractions_ok. unfold int_max. lia.
  - intros v Hv. cbn [fractions vector_codec c_size fraction_pod pd_size]. lia.
  - reflexivity.
  - repeat constructor.
  - reflexivity.
  - repeat (constructor; [split; [reflexivity|repeat constructor]|]). constructor.
  - intros q ge Hq Eg. assert (cells (ge_axes ge) = 16) as -> by (assert (q = 0 \/ q = 1) as [-> | ->] by lia; vm_compute in Eg; inversion Eg; reflexivity).
    split; [reflexivity|]. split; [assert (q = 0 \/ q = 1) as [-> | ->] by lia; repeat constructor|]. split; [reflexivity|]. split; [reflexivity|]. repeat (constructor; [split; [reflexivity|repeat constructor]|]). constructor.
  - apply plate_same.
  - exact E.
  - exists d'. split; [reflexivity|]. split; [intros ->; now apply V|]. split; [exact A|exact Sf].
Qed.
