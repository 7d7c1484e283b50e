(* the solidification program: heat balance, and uniform fields *)
From Coq Require Import QArith.QArith QArith.Qcanon Lqa.
From Verif Require Import Model.Base Model.Boundary Model.Layout Model.Access Model.Stencil Model.Evolve Model.Dynamics Spec.Box Spec.Access Spec.Stencil Spec.Dynamics
  Proof.BaseL Proof.LayoutL Proof.AccessL Proof.StencilL Proof.StencilS Proof.StencilQ Proof.StencilM Proof.EndianF Proof.RandomL Proof.DynamicsL Proof.DynamicsF Proof.DynamicsB.
Local Open Scope list_scope.
Local Open Scope Z_scope.

(* what holds of the result of a loop that comes to an end *)
Lemma fold_range_some {S} (P : Z -> S -> Prop) (f : S -> Z -> option S) n lo s s' : P lo s ->
  (forall i s s', lo <= i < lo + Z.of_nat n -> P i s -> f s i = Some s' -> P (i + 1) s') ->
  fold_opt f (zrange lo (lo + Z.of_nat n)) s = Some s' -> P (lo + Z.of_nat n) s'.
Proof.
  revert lo s; induction n as [|n IH]; intros lo s P0 H E.
  - rewrite zrange_nil in E by lia. cbn in E. injection E as <-. now replace (lo + Z.of_nat 0) with lo by lia.
  - rewrite zrange_cons in E by lia. cbn [fold_opt] in E. destruct (f s lo) as [s1|] eqn:E1; [|discriminate]. cbn [bind] in E.
    replace (lo + Z.of_nat (Datatypes.S n)) with (lo + 1 + Z.of_nat n) in * by lia. apply (IH (lo + 1) s1); auto.
    + apply H with (s := s); auto. lia.
    + intros i t t' Hi. apply H. lia.
Qed.

Ltac unbind E := match type of E with bind ?e ?k = Some _ => let x := fresh "x" in let Ex := fresh "Ex" in destruct e as [x|] eqn:Ex; [|discriminate E]; cbn [bind] in E end.

Section Heat.
Context (ls : list limits) (dx : list Qc) (Hs : Forall serial_axis ls) (Hd : length dx = length ls) (Hz : Forall (fun h => h <> 0%Qc) dx).
Notation N := (nodes (lay 0 ls)).
Notation C := (cells (lay 0 ls)).

Lemma read_pos {T} (data : list T) i : zlen data = C -> 0 <= i < N -> grid_read false (lay 0 ls) data (position (lay 0 ls) i) = get data i.
Proof.
  clear Hd Hz dx. intros L Hi. destruct (read_int_position false 0 ls data i) as [E _]; [lia|auto|apply lims_le, Hs|auto|]. now rewrite <- E.
Qed.
Lemma write_pos {T} (data : list T) i v : zlen data = C -> 0 <= i < N -> grid_write false (lay 0 ls) data (position (lay 0 ls) i) v = put data i v.
Proof.
  clear Hd Hz dx. intros L Hi. destruct (read_int_position false 0 ls data i) as [_ E]; [lia|auto|apply lims_le, Hs|auto|]. now rewrite <- E.
Qed.
Lemma put_comp v h q v' j : put v h q = Some v' -> 0 <= j < zlen v -> comp j v' = if j =? h then q else comp j v.
Proof.
  clear. intros P Hj. pose proof (put_len _ _ _ _ P) as L. destruct (Z.eqb_spec j h) as [->|Nj].
  - pose proof (get_put_eq _ _ _ _ P) as G. rewrite comp_get in G by lia. congruence.
  - pose proof (get_put_ne _ _ _ j _ P ltac:(lia)) as G. rewrite !comp_get in G by lia. congruence.
Qed.
Lemma get_cell (n : Z) (data : list (list Qc)) i : zlen data = C -> Forall (fun c => zlen c = n) data -> 0 <= i < N ->
  get data i = Some (nth (Z.to_nat i) data []) /\ zlen (nth (Z.to_nat i) data []) = n.
Proof.
  intros L F Hi. destruct (read_cell ls n data L F i Hi) as (c & E & Lc & Ec & _). unfold grid_read_int, addr_int in E. now rewrite E, <- Ec.
Qed.

(* the undercooling after one step, whatever happens to the phase *)
Lemma node_heat melt tau dt DiffT old D new ref i new' ref' : vgrid ls 2 old -> vgrid ls 2 new -> zlen ref = C -> 0 <= i < N ->
  solidify_node false (lay 0 ls) dx melt tau dt DiffT old D (new, ref) i = Some (new', ref') ->
  vgrid ls 2 new' /\ zlen ref' = C /\ dt <> 0%Qc /\
  (forall j, 0 <= j < N -> j <> i -> get new' j = get new j /\ get ref' j = get ref j) /\
  comp 1 (nth (Z.to_nat i) new' []) = (comp 1 (nth (Z.to_nat i) old []) + dt * DiffT * lap ls dx (field 1 old) (position (lay 0 ls) i)
    + (comp 0 (nth (Z.to_nat i) old []) - nth (Z.to_nat i) ref 0))%Qc /\
  get ref' i = Some (comp 0 (nth (Z.to_nat i) old [])).
Proof.
  intros (Lo & Fo) (Ln & Fn) Lr Hi E. unfold solidify_node in E.
  rewrite (read_pos old i), (read_pos new i) in E by auto. destruct (get_cell 2 old i Lo Fo Hi) as [G2 L2]. destruct (get_cell 2 new i Ln Fn Hi) as [G3 L3].
  rewrite G2 in E. cbn [bind] in E. rewrite !(comp_get' _ _ 2) in E by (auto; lia). cbn [bind] in E.
  unbind E. rewrite G3 in E. cbn [bind] in E. unbind E. unbind E. unbind E.
  rewrite (flaplacian_serial ls dx Hs Hd Hz 2) in E by (auto; try lia; now apply pos_box). cbn [bind] in E.
  rewrite read_int_0 in E by auto. cbn [bind] in E. unbind E. unbind E. rewrite write_pos in E by auto. unbind E. unbind E. injection E as <- <-.
  unfold recip in Ex3. destruct (Qc_eq_dec dt 0) as [|Ndt]; [discriminate|]. injection Ex3 as <-.
  assert (zlen x2 = 2) as Lx2 by (rewrite (put_len _ _ _ _ Ex2); auto). assert (zlen x4 = 2) as Lx4 by (rewrite (put_len _ _ _ _ Ex4); auto).
  unfold grid_write_int, addr_int in Ex6. pose proof (put_len _ _ _ _ Ex5) as L5. pose proof (put_len _ _ _ _ Ex6) as L6.
  split; [split; [lia|]|].
  { apply put_some in Ex5 as [_ ->]. apply Forall_forall. intros c I. rewrite Forall_forall in Fn. clear - I Fn Lx4.
    revert I. generalize (Z.to_nat i). induction new as [|a l IH]; intros [|k] I; simpl in I; try easy.
    - destruct I as [<-|I]; auto. apply Fn. now right.
    - destruct I as [<-|I]; [apply Fn; now left|]. apply (IH (fun x H => Fn x (or_intror H)) k I). }
  split; [lia|]. split; [auto|]. split; [|split].
  - intros j Hj Nj. split; [apply (get_put_ne _ _ _ _ _ Ex5)|apply (get_put_ne _ _ _ _ _ Ex6)]; lia.
  - pose proof (get_put_eq _ _ _ _ Ex5) as G. rewrite (BaseL.get_nth x5 i []) in G by (rewrite L5, Ln, cells_nodes_0; auto). injection G as ->.
    rewrite (put_comp _ _ _ _ 1 Ex4) by lia. change (1 =? 1) with true. cbv iota. field. auto.
  - exact (get_put_eq _ _ _ _ Ex6).
Qed.

Lemma step_heat flux melt tau dt DiffT old new ref old' new' ref' : vgrid ls 2 old -> vgrid ls 2 new -> zlen ref = C ->
  solidify_step false (lay 0 ls) dx flux melt tau dt DiffT (old, new, ref) = Some (old', new', ref') ->
  vgrid ls 2 old' /\ new' = old /\ ref' = field 0 old /\
  field 1 old' = tab N (fun i => comp 1 (nth (Z.to_nat i) old []) + dt * DiffT * lap ls dx (field 1 old) (position (lay 0 ls) i)
    + (comp 0 (nth (Z.to_nat i) old []) - nth (Z.to_nat i) ref 0))%Qc.
Proof.
  intros Go Gn Lr E. unfold solidify_step in E. unbind E. unbind E. destruct x0 as [n1 r1]. injection E as <- <- <-. rename x into D. clear Ex.
  pose proof (N_nonneg ls Hs) as HN. replace N with (0 + Z.of_nat (Z.to_nat N)) in Ex0 by lia.
  set (U := fun i => (comp 1 (nth (Z.to_nat i) old []) + dt * DiffT * lap ls dx (field 1 old) (position (lay 0 ls) i)
    + (comp 0 (nth (Z.to_nat i) old []) - nth (Z.to_nat i) ref 0))%Qc).
  pose proof (fold_range_some (fun m st => vgrid ls 2 (fst st) /\ zlen (snd st) = C /\
    (forall j, 0 <= j < m -> comp 1 (nth (Z.to_nat j) (fst st) []) = U j /\ get (snd st) j = Some (comp 0 (nth (Z.to_nat j) old []))) /\
    (forall j, m <= j < N -> get (snd st) j = get ref j)) (solidify_node false (lay 0 ls) dx melt tau dt DiffT old D) (Z.to_nat N) 0 (new, ref) (n1, r1)) as H.
  replace (0 + Z.of_nat (Z.to_nat N)) with N in H by lia. replace (0 + Z.of_nat (Z.to_nat N)) with N in Ex0 by lia.
  destruct (fun A B => H A B Ex0) as (G1 & L1 & J & _).
  - cbn [fst snd]. split; [auto|]. split; [auto|]. split; intros; [lia|auto].
  - intros i [n2 r2] [n3 r3] Hi (G2 & L2 & J & K) St. cbn [fst snd] in *.
    destruct (node_heat melt tau dt DiffT old D n2 r2 i n3 r3 Go G2 L2 Hi St) as (G3 & L3 & _ & O & V & R). split; [auto|]. split; [auto|]. split.
    + intros j Hj. destruct (Z.eq_dec j i) as [->|Nj].
      * split; [|auto]. rewrite V. unfold U. do 2 f_equal. pose proof (K i ltac:(lia)) as Ki. rewrite !(BaseL.get_nth _ i 0%Qc) in Ki by (rewrite ?L2, ?Lr, cells_nodes_0; auto). congruence.
      * destruct (O j ltac:(lia) Nj) as [O1 O2]. rewrite O2. destruct (J j ltac:(lia)) as [J1 J2]. split; [|auto]. rewrite <- J1. f_equal.
        rewrite !(BaseL.get_nth _ j []) in O1 by (rewrite ?(proj1 G2), ?(proj1 G3), cells_nodes_0; lia). congruence.
    + intros j Hj. destruct (O j ltac:(lia) ltac:(lia)) as [_ O2]. rewrite O2. apply K. lia.
  - cbn [fst snd] in *. split; [auto|]. split; [auto|]. rewrite cells_nodes_0 in L1. split.
    + rewrite (list_get r1 (fun j => comp 0 (nth (Z.to_nat j) old [])) N); auto; [|intros j Hj; now apply J].
      symmetry. apply list_get; [rewrite field_len; rewrite <- cells_nodes_0; apply Go|]. intros j Hj. rewrite (BaseL.get_nth _ j 0%Qc); [f_equal; apply field_nth|]. rewrite field_len, (proj1 Go), cells_nodes_0. auto.
    + apply list_get; [rewrite field_len; rewrite <- cells_nodes_0; apply G1|]. intros j Hj. rewrite (BaseL.get_nth _ j 0%Qc); [f_equal; rewrite field_nth; apply (proj1 (J j Hj))|].
      rewrite field_len, (proj1 G1), cells_nodes_0. auto.
Qed.

Lemma step_balance flux melt tau dt DiffT old new ref old' new' ref' : vgrid ls 2 old -> vgrid ls 2 new -> zlen ref = C -> Forall (fun l => periodic_axis l \/ insulated_axis l) ls ->
  solidify_step false (lay 0 ls) dx flux melt tau dt DiffT (old, new, ref) = Some (old', new', ref') ->
  vgrid ls 2 old' /\ vgrid ls 2 new' /\ ref' = field 0 old /\ (total 1 old' - sumQ ref' = total 1 old - sumQ ref)%Qc.
Proof.
  intros Go Gn Lr P E. destruct (step_heat _ _ _ _ _ _ _ _ _ _ _ Go Gn Lr E) as (G' & -> & -> & U). split; [auto|]. split; [auto|]. split; [auto|].
  rewrite (total_field 1 old'), U, sum_tab, !sumQ_add, sumQ_mul, sumQ_sub, lap_sum by (auto; rewrite field_len; apply Go). destruct Go as [Lo Fo].
  rewrite (field_sum ls 1 old Lo), (field_sum ls 0 old Lo), (total_field 0). rewrite <- (sum_list ref), Lr, cells_nodes_0. ring.
Qed.
End Heat.
