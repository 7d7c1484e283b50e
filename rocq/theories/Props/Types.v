(* C74: the programs that make pictures and tables open the files the library writes. *)
From Coq Require Import String.
From Verif Require Import Model.Base Model.Text Model.Boundary Model.Layout Model.Setup Model.Codec Model.File Model.Types Spec.Bytes Spec.Access Spec.File Spec.Types
  Proof.BaseL Proof.TextL Proof.CodecL Proof.LayoutL Proof.TypesL.
Local Open Scope string_scope.
Local Open Scope list_scope.
Local Open Scope Z_scope.

(* C74: every grid of one to three dimensions, of every supported kind and element, written by output: the program finds the kind and the element in
   the file, builds the grid class for it, and the grid holds the fields, spacing, limits, boundary conditions and data that were written *)
Theorem C74_opens_partial : forall T (cod : kind -> elem -> codec T) fresh (valid : kind -> elem -> T -> Prop)
    D (dshow : D -> list byte) dparse raw compress uncompress p k e fields (axs : list axis) dx data,
  serialises (cod k e) (valid k e) -> lossless compress uncompress -> cod KScalar e = cod KPlain e ->
  supported p k e ->
  int_range fields -> 1 <= zlen axs <= 3 ->
  wf_axes 0 axs -> Forall (fun a => a_x0 a = a_g0 a /\ a_x1 a = a_g1 a /\ a_g0 a < a_g1 a) axs ->
  Forall (fun a => int_range (a_g0 a) /\ int_range (a_g1 a) /\ int_range (a_b0 a) /\ int_range (a_b1 a)) axs ->
  length dx = length axs -> Forall (exact_text dshow dparse) dx ->
  zlen data = cells axs -> Forall (valid k e) data -> recognisable (cod k e) raw compress axs data ->
  exists file ld,
    output_serial (cod k e) dshow raw compress (grid_name k e) fields axs dx data = Some file /\
    open_grid cod fresh dparse raw uncompress p file = Done (opened_as p k, e, ld) /\
    ld_fields ld = fields /\ ld_dx ld = dx /\ lo_axes (ld_local ld) = axs /\ lo_data (ld_local ld) = data.
Proof. intros. now apply (open_supported cod fresh valid). Qed.
Print Assumptions C74_opens_partial.

(* C74: no file of a grid of long double, whatever its dimensions and data, is opened by any of mmsp2png, mmsp2vti, mmsp2tsv and mmsp2xyz: the
   test for "long" comes before that for "long double", the file is opened as a grid of long, and input rejects it *)
Theorem C74_long_double_refuted : forall T (cod : kind -> elem -> codec T) fresh D (dshow : D -> list byte) (dparse : list byte -> option D) raw compress uncompress p k fields axs dx data file,
  p <> Pvd -> output_serial (cod k ELDouble) dshow raw compress (grid_name k ELDouble) fields axs dx data = Some file ->
  exists code, open_grid cod fresh dparse raw uncompress p file = Exit code.
Proof.
  intros T cod fresh D dshow dparse raw compress uncompress p k fields axs dx data file N O.
  apply output_name in O as (rest & -> & Nb). apply open_unsupported; [auto..|]. intros [H _]. now apply H.
Qed.
Print Assumptions C74_long_double_refuted.

(* C74: no file of a grid of MMSP::scalar is opened by mmsp2png, mmsp2tsv and mmsp2xyz: they use the class of grids of built-in numbers *)
Theorem C74_scalar_refuted : forall T (cod : kind -> elem -> codec T) fresh D (dshow : D -> list byte) (dparse : list byte -> option D) raw compress uncompress p e fields axs dx data file,
  p = Png \/ p = Tsv \/ p = Xyz -> output_serial (cod KScalar e) dshow raw compress (grid_name KScalar e) fields axs dx data = Some file ->
  exists code, open_grid cod fresh dparse raw uncompress p file = Exit code.
Proof.
  intros T cod fresh D dshow dparse raw compress uncompress p e fields axs dx data file N O.
  apply output_name in O as (rest & -> & Nb). apply open_unsupported; [auto|intros ->; destruct N as [N|[N|N]]; discriminate|].
  intros (_ & H & _). destruct (H eq_refl) as [H'|H']; rewrite H' in N; destruct N as [N|[N|N]]; discriminate.
Qed.
Print Assumptions C74_scalar_refuted.

(* the two sets: 4 kinds times 12 elements *)
Example C74_supported : supported Vti KScalar EDouble /\ supported Tsv KSparse EFloat /\ supported Xyz KVector EUChar /\ ~ supported Png KScalar EInt /\ ~ supported Vti KVector ELDouble.
Proof. unfold supported. repeat split; try discriminate; try (intros; discriminate); try (now left). - intros (_ & H & _). now destruct (H eq_refl). - now intros [H _]. Qed.
(* a plane of 2 x 3 integers with four different boundary conditions, opened by mmsp2tsv; the compressor adds a byte *)
Definition c74_parse (t : list byte) : option Z := match read_int t with Some (v, _) => Some v | None => None end.
Definition c74_axes : list axis := with_bcs [(Neumann, mirror); (Dirichlet, periodic)] (ge_axes (setup_single [mkG (-1) 1; mkG 0 3] 0)).
Example C74_case : exists file ld,
    output_serial (pod_codec pod_int) show_int false (cons 0) (bytes "grid:int") 1 c74_axes [2; 3] [10; -20; 30; 40; 50; 60] = Some file /\
    open_grid (fun _ _ => pod_codec pod_int) (fun _ _ _ => 0) c74_parse false (fun y _ => Some (tl y)) Tsv file = Done (KPlain, EInt, ld) /\
    ld_fields ld = 1 /\ ld_dx ld = [2; 3] /\ lo_axes (ld_local ld) = c74_axes /\ lo_data (ld_local ld) = [10; -20; 30; 40; 50; 60].
Proof.
  eapply (C74_opens_partial Z (fun _ _ => pod_codec pod_int) (fun _ _ _ => 0) (fun _ _ => int_range) Z show_int c74_parse false (cons 0) (fun y _ => Some (tl y)) Tsv KPlain EInt 1 c74_axes [2; 3] [10; -20; 30; 40; 50; 60]).
  - exact (pod_serialises pod_int int_range pod_int_ok).
  - intros x. split; [reflexivity|]. rewrite zlen_cons. pose proof (zlen_nonneg x). Z.to_euclidean_division_equations; lia.
  - reflexivity.
  - repeat split; discriminate.
  - unfold int_range; lia.
  - vm_compute. intuition congruence.
  - vm_compute. intuition congruence.
  - repeat constructor.
  - repeat constructor; vm_compute; congruence.
  - reflexivity.
  - repeat constructor; try (vm_compute; congruence).
  - reflexivity.
  - repeat constructor; vm_compute; congruence.
  - intros n bs Sz To. vm_compute in Sz. inversion Sz; subst n. vm_compute in To. inversion To; subst bs. vm_compute; intuition congruence.
Qed.
