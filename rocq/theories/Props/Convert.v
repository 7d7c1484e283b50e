(* C45, C46: the grid converters *)
From Coq Require Import String QArith Qcanon.
From Verif Require Import Model.Base Model.Text Model.Num Model.Boundary Model.Layout Model.Setup Model.Sparse Model.Evolve Model.Convert
  Spec.Bytes Spec.Access Spec.Evolve Spec.Convert Proof.BaseL Proof.TextL Proof.SparseL Proof.EvolveL Proof.ConvertL Proof.ConvertF.
Local Open Scope list_scope.
Local Open Scope Z_scope.

(* C45, MC -> PF -> MC: every grid of non-negative grain numbers comes back with its limits and its numbers, in every dimension,
   whatever freshly allocated cells contain.  In between, a node of grain k holds the vector with 1 at k and 0 elsewhere *)
Theorem C45_MC_PF_MC : forall junk junk' (g : sgrid Z), serial_grid g -> Forall (fun id => 0 <= id) (sg_data g) ->
  exists pf g', MC2PF junk g = Some pf /\ PF2MC junk' pf = Some g' /\
    box pf = box g /\ (forall id, In id (sg_data g) -> id < sg_fields pf) /\ sg_data pf = map (indicator (sg_fields pf)) (sg_data g) /\
    serial_grid g' /\ box g' = box g /\ sg_data g' = sg_data g.
Proof.
  intros junk junk' g Sg Hi. destruct (MC2PF_ok junk g Sg Hi) as (pf & m & E & Sp & Bp & _ & Fp & M0 & M & Dp).
  destruct (PF2MC_ok junk' pf (m + 1) (sg_data g) Sp Fp Dp) as (g' & E' & Sg' & Bg' & Dg' & _).
  - rewrite Forall_forall in Hi |- *. intros v Hv. specialize (Hi v Hv). specialize (M v Hv). lia.
  - exists pf, g'. rewrite Fp. repeat (split; [first [assumption|congruence|intros id Hid; specialize (M id Hid); lia]|]). assumption.
Qed.
Print Assumptions C45_MC_PF_MC.

(* C45, MC -> sPF -> MC: the same, for any integers *)
Theorem C45_MC_sPF_MC : forall junk (g : sgrid Z), serial_grid g ->
  exists s g', MC2sPF g = Some s /\ sPF2MC junk s = Some g' /\
    box s = box g /\ sg_data s = map (fun id => [Some (id, 1%Qc)]) (sg_data g) /\
    serial_grid g' /\ box g' = box g /\ sg_data g' = sg_data g.
Proof.
  intros junk g Sg. destruct (MC2sPF_ok g Sg) as (s & E & Ss & Bs & _ & Ds). destruct (sPF2MC_ok junk s (sg_data g) Ss Ds) as (g' & E' & Sg' & Bg' & Dg' & _).
  exists s, g'. repeat (split; [first [assumption|congruence]|]). assumption.
Qed.
Print Assumptions C45_MC_sPF_MC.

(* C45, sPF -> PF -> sPF, in any dimension but three: every node keeps, for every field, its value if it exceeds the threshold
   1e-8 and reads zero otherwise; no field is stored twice *)
Theorem C45_sPF_PF_sPF : forall junk (g : sgrid (sobj Qc)) (ls : list (list (Z * Qc))),
  serial_grid g -> List.length (sg_axes g) <> 3%nat -> sg_data g = map (map Some) ls ->
  Forall (fun l => NoDup (map fst l) /\ Forall (fun k => 0 <= k) (map fst l)) ls ->
  exists pf g', sPF2PF junk g = Some pf /\ PF2sPF pf = Some g' /\ box pf = box g /\ serial_grid g' /\ box g' = box g /\
    exists ls', sg_data g' = map (map Some) ls' /\
      Forall2 (fun l l' => NoDup (map fst l') /\ forall k, at_index l' k = if qgt (at_index l k) epsilon then at_index l k else 0%Qc) ls ls'.
Proof.
  intros junk g ls Sg N3 Hd Hl. destruct (sPF2PF_ok junk g ls Sg N3 Hd Hl) as (pf & m & E & Sp & Bp & _ & Fp & M0 & M & Dp).
  destruct (PF2sPF_ok pf (m + 1) Sp Fp) as (g' & E' & Sg' & Bg' & ls' & D' & F).
  { rewrite Dp. apply Forall_forall. intros row Hr. apply in_map_iff in Hr as (l & <- & _). unfold row_of. rewrite BaseL.zlen_map, zlen_zrange by lia. lia. }
  exists pf, g'. repeat (split; [first [assumption|congruence]|]). exists ls'. split; [assumption|]. rewrite Dp in F.
  assert (forall l, In l ls -> Forall (fun k => 0 <= k <= m) (map fst l)) as B.
  { intros l Il. rewrite Forall_forall in Hl. destruct (Hl l Il) as (_ & P). rewrite Forall_forall in P |- *. intros k Hk. specialize (P k Hk). specialize (M l k Il Hk). lia. }
  clear - F B M0. revert ls' F. induction ls as [|l ls IH]; intros ls' F; inversion F as [|? l' ? t [ND A] F']; subst; constructor; [|apply IH; auto; intros; apply B; now right].
  split; [exact ND|]. intros k. rewrite A. destruct (Z_le_dec 0 k) as [H0|H0]; [destruct (Z_le_dec k m) as [H1|H1]|].
  - unfold row_of. rewrite get_map_zrange by lia. reflexivity.
  - rewrite get_none by (unfold row_of; rewrite BaseL.zlen_map, zlen_zrange; lia). rewrite at_index_out; [reflexivity|]. intros I. specialize (B l (or_introl eq_refl)). rewrite Forall_forall in B. specialize (B k I). lia.
  - rewrite get_none by lia. rewrite at_index_out; [reflexivity|]. intros I. specialize (B l (or_introl eq_refl)). rewrite Forall_forall in B. specialize (B k I). lia.
Qed.
Print Assumptions C45_sPF_PF_sPF.

(* grids to test with *)
Definition small {T} (lims : list (Z * Z)) (dx : list Qc) (d : list T) : sgrid T :=
  mkS 1 (ge_axes (setup_single (map (fun l => mkG (fst l) (snd l)) lims) 0)) dx d.
Example C45_case : let g := small [(0, 2); (-1, 1)] [1%Qc; 1%Qc] [3; 0; 1; 3] in
  serial_grid g /\ Forall (fun id => 0 <= id) (sg_data g) /\
  (exists pf, MC2PF 0%Qc g = Some pf /\ sg_fields pf = 4) /\
  let s := small [(0, 2)] [1%Qc] [[Some (2, 1%Qc)]; [Some (0, Q2Qc (1 # 2)); Some (1, Q2Qc (1 # 1000000000))]] in
  serial_grid s /\ List.length (sg_axes s) <> 3%nat /\
  sg_data s = map (map Some) [[(2, 1%Qc)]; [(0, Q2Qc (1 # 2)); (1, Q2Qc (1 # 1000000000))]].
Proof.
  cbv zeta. split; [|split; [repeat constructor; discriminate|split; [eexists; split; [vm_compute; reflexivity|reflexivity]|split; [|split; [discriminate|reflexivity]]]]].
  - unfold serial_grid. split; [discriminate|]. split; [cbn; repeat split; lia|]. split; [repeat constructor|reflexivity].
  - unfold serial_grid. split; [discriminate|]. split; [cbn; repeat split; lia|]. split; [repeat constructor|reflexivity].
Qed.

(* C45 is false in three dimensions: sPF2PF makes a two-dimensional grid.  For a grid of 1 x 1 x 2 nodes it writes past the end
   of that grid; for 1 x 1 x 1 it drops an axis *)
Theorem C45_three_dimensions_refuted : forall junk,
  (exists g : sgrid (sobj Qc), serial_grid g /\ sg_data g = map (map Some) [[(0, 1%Qc)]; [(0, 1%Qc)]] /\ sPF2PF junk g = None) /\
  (exists (g : sgrid (sobj Qc)) pf, serial_grid g /\ sg_data g = map (map Some) [[(0, 1%Qc)]] /\
     sPF2PF junk g = Some pf /\ List.length (box g) = 3%nat /\ List.length (box pf) = 2%nat).
Proof.
  intros junk. split.
  - exists (small [(0, 1); (0, 1); (0, 2)] [1%Qc; 1%Qc; 1%Qc] [[Some (0, 1%Qc)]; [Some (0, 1%Qc)]]). split; [|split; vm_compute; reflexivity].
    unfold serial_grid. split; [discriminate|]. split; [cbn; repeat split; lia|]. split; [repeat constructor|reflexivity].
  - exists (small [(0, 1); (0, 1); (0, 1)] [1%Qc; 1%Qc; 1%Qc] [[Some (0, 1%Qc)]]). eexists. split; [|repeat split; vm_compute; reflexivity].
    unfold serial_grid. split; [discriminate|]. split; [cbn; repeat split; lia|]. split; [repeat constructor|reflexivity].
Qed.
Print Assumptions C45_three_dimensions_refuted.

(* MC -> PF needs the non-negative numbers: the number -1 makes it write before the start of a vector *)
Theorem C45_negative_refuted : forall junk, exists g : sgrid Z, serial_grid g /\ MC2PF junk g = None.
Proof.
  intros junk. exists (small [(0, 1)] [1%Qc] [-1]). split; [|vm_compute; reflexivity].
  unfold serial_grid. split; [discriminate|]. split; [cbn; repeat split; lia|]. split; [repeat constructor|reflexivity].
Qed.
Print Assumptions C45_negative_refuted.

(* C45 is false of the rest of the grid: no converter copies the spacing *)
Theorem C45_spacing_refuted : forall junk junk', exists (g pf_g' s_g' : sgrid Z), serial_grid g /\ sg_dx g = [Q2Qc (1 # 2)] /\
  (exists pf, MC2PF junk g = Some pf /\ PF2MC junk' pf = Some pf_g') /\ sg_dx pf_g' = [1%Qc] /\
  (exists s, MC2sPF g = Some s /\ sPF2MC junk' s = Some s_g') /\ sg_dx s_g' = [1%Qc].
Proof.
  intros junk junk'. exists (small [(0, 1)] [Q2Qc (1 # 2)] [0]). do 2 eexists. split; [|split; [reflexivity|split; [eexists; split; vm_compute; reflexivity|split; [vm_compute; reflexivity|split; [eexists; split; vm_compute; reflexivity|vm_compute; reflexivity]]]]].
  unfold serial_grid. split; [discriminate|]. split; [cbn; repeat split; lia|]. split; [repeat constructor|reflexivity].
Qed.
Print Assumptions C45_spacing_refuted.

(* C46: MC2vox then vox2MC gives back the integers, node by node, of every three-dimensional grid whose sizes and values are ints.
   The limits are moved to start at zero *)
Theorem C46_round_trip : forall junk (g : sgrid Z), serial_grid g -> List.length (sg_axes g) = 3%nat ->
  Forall (fun l => int_range (snd l - fst l)) (box g) -> Forall int_range (sg_data g) ->
  exists text g', MC2vox g = Some text /\ vox2MC junk text = Some g' /\ serial_grid g' /\
    sg_data g' = sg_data g /\ box g' = map (fun l => (0, snd l - fst l)) (box g).
Proof. intros junk g H1 H2 H3 H4. destruct (vox_ok junk g H1 H2 H3 H4) as (t & g' & A & B & C & D & _ & E & _). exists t, g'. auto. Qed.
Print Assumptions C46_round_trip.
(* hence grids that start at zero come back with their limits *)
Theorem C46_round_trip_at_zero : forall junk (g : sgrid Z), serial_grid g -> List.length (sg_axes g) = 3%nat ->
  Forall (fun l => fst l = 0 /\ int_range (snd l)) (box g) -> Forall int_range (sg_data g) ->
  exists text g', MC2vox g = Some text /\ vox2MC junk text = Some g' /\ sg_data g' = sg_data g /\ box g' = box g.
Proof.
  intros junk g H1 H2 H3 H4. destruct (C46_round_trip junk g H1 H2) as (t & g' & A & B & C & D & E); auto.
  - eapply Forall_impl; [|exact H3]. intros [a b] (Z0 & R). cbn in *. subst. now rewrite Z.sub_0_r.
  - exists t, g'. repeat (split; [assumption|]). rewrite E. clear - H3. induction H3 as [|[a b] l [Z0 _] _ IH]; [reflexivity|]. cbn [map fst snd] in *. rewrite IH. subst. now rewrite Z.sub_0_r.
Qed.
Print Assumptions C46_round_trip_at_zero.
Example C46_case : let g := small [(0, 2); (0, 3); (0, 4)] [1%Qc; 1%Qc; 1%Qc] (zrange (-3) 21) in
  serial_grid g /\ List.length (sg_axes g) = 3%nat /\ Forall (fun l => fst l = 0 /\ int_range (snd l)) (box g) /\ Forall int_range (sg_data g).
Proof.
  cbv zeta. split; [|split; [reflexivity|split; [cbn; unfold int_range; repeat constructor; cbn; lia|]]].
  - unfold serial_grid. split; [discriminate|]. split; [cbn; repeat split; lia|]. split; [repeat constructor|reflexivity].
  - apply Forall_forall. intros v H. apply in_zrange in H. unfold int_range. lia.
Qed.

(* C46 is false of the rest of the grid: a domain that does not start at zero is moved, and the spacing is lost *)
Theorem C46_origin_spacing_refuted : forall junk, exists (g g' : sgrid Z) text, serial_grid g /\ MC2vox g = Some text /\ vox2MC junk text = Some g' /\
  box g = [(5, 6); (0, 1); (0, 1)] /\ box g' = [(0, 1); (0, 1); (0, 1)] /\ sg_dx g = repeat (Q2Qc (1 # 2)) 3 /\ sg_dx g' = repeat 1%Qc 3.
Proof.
  intros junk. exists (small [(5, 6); (0, 1); (0, 1)] (repeat (Q2Qc (1 # 2)) 3) [7]). do 2 eexists. split; [|repeat split; vm_compute; reflexivity].
  unfold serial_grid. split; [discriminate|]. split; [cbn; repeat split; lia|]. split; [repeat constructor|reflexivity].
Qed.
Print Assumptions C46_origin_spacing_refuted.
