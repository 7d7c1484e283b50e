(* C119: the layout of a grid file. *)
From Coq Require Import String Permutation.
From Verif Require Import Model.Base Model.Text Model.Boundary Model.Layout Model.Access Model.Setup Model.Codec Model.Region Model.MPI Model.Ghostswap Model.File Model.Simulate Model.Types Model.Endian
  Spec.Box Spec.Bytes Spec.Access Spec.Decomp Spec.File Spec.Schedule Spec.Jobs Spec.Runs Spec.Mixed Spec.Endian Spec.Moved Spec.Decimal Spec.Format
  Proof.BaseL Proof.TextL Proof.LayoutL Proof.CodecL Proof.FileL Proof.CheckpointL Proof.EndianL Proof.EndianF Proof.JobsL Proof.MixedL Proof.DecimalL Proof.FormatL
  Props.File Props.Endian Props.Moved.
Local Open Scope list_scope.
Local Open Scope Z_scope.

(* The file of any number of processes, one of them in a program without MPI (C111, Props/Mixed.v): the header, the number of blocks, and for each process its block, with the cells in
   it in the order of the nodes, the last coordinate running fastest *)
Theorem C119_format : forall T (c : codec T) k w nums valid fresh S (dshow : S -> list byte) dparse raw compress uncompress name fields gs dx B gh,
  storable c valid fresh dshow dparse compress uncompress name fields gs dx B gh -> cell_type k w T c nums valid ->
  forall np D V file, checkpoint c valid dshow dparse raw compress name fields gs dx B gh np D file -> has_field gs B D V ->
  exists head, header_text name (zlen gs) fields (map (fun g => (gx_0 g, gx_1 g)) gs) (map dshow dx) head /\
    file = head ++ le 4 np ++ flat_map (fun r =>
      let axs := rank_axes np gs gh B r in
      let data := flat_map (fun x => concat (nums (V x))) (nodes_in (map a_x0 axs) (map a_x1 axs)) in
      block_text (map (fun a => (a_x0 a, a_x1 a)) axs) (map (fun a => (a_b0 a, a_b1 a)) axs) data (if raw then data else compress data)) (zrange 0 np).
Proof.
  intros T c k w nums valid fresh S dshow dparse raw compress uncompress name fields gs dx B gh Hs CT np D V file Ck Fd.
  pose proof (C113_here T c k w nums valid fresh S dshow dparse raw compress uncompress name fields gs dx B gh Hs CT np D V file Ck Fd) as ->.
  assert (0 <= np) as Hn by (destruct Ck as (data & V0 & Wr & _); destruct Wr; lia).
  exists (header dshow name fields gs dx). split; [apply header_ok|]. unfold machine_file, stored_file. f_equal. f_equal.
  - rewrite concat_id. cbn [concat]. rewrite app_nil_r, zlen_map, zlen_zrange by lia. rewrite Z.sub_0_r. apply int_le.
  - rewrite map_map, flat_map_concat_map. f_equal. apply map_ext. intros r. cbv zeta. unfold stored_block, rank_block. cbn [bk_lims bk_bcs bk_numbers]. rewrite !concat_id.
    set (axs := rank_axes np gs gh B r). set (xs := nodes_in _ _). unfold block_text.
    assert (concat (flat_map (fun x => nums (V x)) xs) = flat_map (fun x => concat (nums (V x))) xs) as E.
    { clear. induction xs as [|x xs IH]; [reflexivity|]. cbn [flat_map]. now rewrite concat_app, IH. }
    rewrite E. rewrite concat_app. cbn [concat]. rewrite app_nil_r, !ulong_le, <- !app_assoc. f_equal.
    + clear. induction (map _ axs ++ map _ axs) as [|l ls IH]; [reflexivity|]. cbn [flat_map app concat]. rewrite IH, !int_le, <- app_assoc. reflexivity.
    + destruct raw; reflexivity.
Qed.
Print Assumptions C119_format.

(* The header is determined by what it says; the theorems that mention [header] (C44, C113, C117) mean this text *)
Theorem C119_header : forall S (dshow : S -> list byte) name fields gs dx head,
  head = header dshow name fields gs dx <-> header_text name (zlen gs) fields (map (fun g => (gx_0 g, gx_1 g)) gs) (map dshow dx) head.
Proof.
  intros S dshow name fields gs dx head. split; [intros ->; apply header_ok|]. intros H. exact (header_unique _ _ _ _ _ _ _ H (header_ok dshow name fields gs dx)).
Qed.
Print Assumptions C119_header.

(* the bytes of a cell: those of the number; the length and the numbers of a vector; the number of items and each index and value of a sparse cell *)
Theorem C119_cells : (forall v, concat (scalar_numbers v) = v) /\ (forall v, concat (vector_numbers v) = le 4 (zlen v) ++ concat v) /\
  (forall v, concat (sparse_numbers v) = le 4 (zlen v) ++ flat_map (fun it => le 4 (fst it) ++ snd it) v).
Proof.
  split; [intros v; apply app_nil_r|]. split; intros v; unfold vector_numbers, sparse_numbers; cbn [concat]; rewrite int_le; [reflexivity|]. f_equal.
  induction v as [|it v IH]; [reflexivity|]. cbn [flat_map app concat]. rewrite IH, int_le, <- app_assoc. reflexivity.
Qed.
Print Assumptions C119_cells.

(* different numbers have different bytes *)
Theorem C119_injective : forall u v, (an_int u /\ an_int v -> le 4 u = le 4 v -> u = v) /\ (0 <= u < 2 ^ 64 /\ 0 <= v < 2 ^ 64 -> le 8 u = le 8 v -> u = v).
Proof.
  assert (forall n u v, 0 <= u < 256 ^ Z.of_nat n -> 0 <= v < 256 ^ Z.of_nat n -> le_enc n u = le_enc n v -> u = v) as X.
  { induction n as [|n IH]; intros u v Hu Hv E; [cbn in *; lia|]. cbn [le_enc] in E. injection E as E1 E2. rewrite Nat2Z.inj_succ, Z.pow_succ_r in Hu, Hv by lia.
    assert (u / 256 = v / 256) as Q by (apply IH; auto; (split; [apply Z.div_pos; lia|apply Z.div_lt_upper_bound; lia])).
    rewrite (Z.div_mod u 256), (Z.div_mod v 256), Q by lia. unfold byte in *. lia. }
  intros u v. split.
  - intros [Iu Iv] E. unfold an_int in *. rewrite <- (le_mod 4 u), <- (le_mod 4 v), <- !le_le in E. apply X in E; [|apply Z.mod_pos_bound; reflexivity..]. change (256 ^ Z.of_nat 4) with (2 ^ 32) in E.
    pose proof (Z.div_mod u (2 ^ 32)). pose proof (Z.div_mod v (2 ^ 32)). assert (u / 2 ^ 32 = 0 \/ u / 2 ^ 32 = -1). { assert (-1 <= u / 2 ^ 32) by (apply Z.div_le_lower_bound; lia). assert (u / 2 ^ 32 < 1) by (apply Z.div_lt_upper_bound; lia). lia. }
    assert (v / 2 ^ 32 = 0 \/ v / 2 ^ 32 = -1). { assert (-1 <= v / 2 ^ 32) by (apply Z.div_le_lower_bound; lia). assert (v / 2 ^ 32 < 1) by (apply Z.div_lt_upper_bound; lia). lia. } lia.
  - intros [Iu Iv] E. rewrite <- !le_le in E. now apply X in E.
Qed.
Print Assumptions C119_injective.

(* what is written for an integer, and what is read from these bytes *)
Theorem C119_numbers : forall v, pd_enc pod_int v = le 4 v /\ pd_enc pod_ulong v = le 8 v /\ (an_int v -> pd_dec pod_int (le 4 v) = v) /\ (0 <= v < 2 ^ 64 -> pd_dec pod_ulong (le 8 v) = v).
Proof.
  intros v. split; [apply int_le|]. split; [apply ulong_le|]. split; intros H.
  - rewrite <- int_le. destruct pod_int_ok as [_ K]. apply K. exact H.
  - rewrite <- ulong_le. apply (le_dec_enc 8). exact H.
Qed.
Print Assumptions C119_numbers.

(* two nodes, -2 and -1, with the values 1 and -2 in one field, spacing 3, periodic, without compression *)
Example C119_case : output_serial (pod_codec pod_int) show_int true (fun x => x) (bytes "grid:int") 1 (whole [mkG (-2) 0] [(2, 2)]) [3] [1; -2] =
  Some (bytes "grid:int" ++ [10] ++ bytes "1" ++ [10] ++ bytes "1" ++ [10] ++ bytes "-2 0" ++ [10] ++ bytes "3" ++ [10] ++ [1; 0; 0; 0] ++
        [254; 255; 255; 255; 0; 0; 0; 0] ++ [2; 0; 0; 0; 2; 0; 0; 0] ++ [8; 0; 0; 0; 0; 0; 0; 0] ++ [8; 0; 0; 0; 0; 0; 0; 0] ++ [1; 0; 0; 0; 254; 255; 255; 255]).
Proof. vm_compute. reflexivity. Qed.
(* the hypotheses of C119_format are those of C113_here, met by the file of two processes in C113_case *)
Example C119_format_case : exists file head, checkpoint (pod_codec (pod_raw 4)) (fun v => zlen v = 4) show_int ex_parse false (cons 0) ex_name 1 ex_gs [2] six_bcs 1 2 six_field file /\
  header_text ex_name 1 1 (map (fun g => (gx_0 g, gx_1 g)) ex_gs) [show_int 2] head /\ exists rest, file = head ++ [2; 0; 0; 0] ++ rest.
Proof.
  destruct C113_case as (file & out & M & _). destruct M. destruct (C119_format _ _ _ _ _ _ _ _ _ _ false _ _ _ _ _ _ _ _ v_store v_cells _ _ _ _ v_here v_field) as (head & H & E).
  exists file, head. split; [exact v_here|]. split; [exact H|]. eexists. exact E.
Qed.
