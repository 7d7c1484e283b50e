(* loops over the nodes of a serial grid; Laplacians of the fields of a vector grid *)
From Coq Require Import QArith.QArith QArith.Qcanon.
From Verif Require Import Model.Base Model.Boundary Model.Layout Model.Access Model.Stencil Model.Evolve Model.Dynamics Spec.Box Spec.Access Spec.Stencil
  Proof.BaseL Proof.LayoutL Proof.AccessL Proof.StencilL Proof.StencilS Proof.StencilQ Proof.StencilM Proof.EndianF Proof.RandomL.
Local Open Scope list_scope.
Local Open Scope Z_scope.

Lemma list_get {A} (l : list A) t n : zlen l = n -> (forall i, 0 <= i < n -> get l i = Some (t i)) -> l = map t (zrange 0 n).
Proof.
  intros L H. assert (Some l = Some (map t (zrange 0 n))) as E; [|congruence]. rewrite <- (get_all l) at 1. rewrite L. apply map_opt_map.
  intros i Hi. apply in_zrange in Hi. auto.
Qed.
Lemma get_map_range {A} (t : Z -> A) n i : 0 <= i < n -> get (map t (zrange 0 n)) i = Some (t i).
Proof.
  intros H. unfold get. destruct (Z.ltb_spec i 0); [lia|]. rewrite nth_error_map, nth_error_zrange by lia. cbn [option_map]. do 2 f_equal. lia.
Qed.
Lemma zlen_map_range {A} (t : Z -> A) n : 0 <= n -> zlen (map t (zrange 0 n)) = n.
Proof. intros. rewrite BaseL.zlen_map, zlen_zrange; lia. Qed.

(* a loop that rewrites every element of an array once *)
Lemma fold_cells {A} (f : Z -> A -> option A) (t : Z -> A) n (dest : list A) : zlen dest = n ->
  (forall i c, 0 <= i < n -> get dest i = Some c -> f i c = Some (t i)) ->
  fold_opt (fun d i => do c <- get d i; do c <- f i c; put d i c) (zrange 0 n) dest = Some (map t (zrange 0 n)).
Proof.
  intros L H. assert (0 <= n) as Hn by (rewrite <- L; apply zlen_nonneg).
  destruct (fold_inv (fun i d => zlen d = n /\ (forall j, 0 <= j < i -> get d j = Some (t j)) /\ (forall j, i <= j < n -> get d j = get dest j))
    (fun d i => do c <- get d i; do c <- f i c; put d i c) 0 n dest) as (d & E & Ld & G & _); auto.
  - repeat split; auto; intros; lia.
  - intros i d Hi (Ld & G & R). destruct (get_ok dest i) as [c Ec]; [lia|]. rewrite R by lia. rewrite Ec. cbn [bind]. rewrite (H i c) by auto. cbn [bind].
    rewrite put_ok by lia. eexists. split; [reflexivity|]. split; [|split].
    + unfold zlen. rewrite length_set_nth. exact Ld.
    + intros j Hj. assert (put d i (t i) = Some (set_nth (Z.to_nat i) d (t i))) as P by (apply put_ok; lia).
      destruct (Z.eq_dec j i) as [->|N]; [rewrite (get_put_eq _ _ _ _ P); reflexivity|]. rewrite (get_put_ne _ _ _ _ _ P) by lia. apply G. lia.
    + intros j Hj. assert (put d i (t i) = Some (set_nth (Z.to_nat i) d (t i))) as P by (apply put_ok; lia).
      rewrite (get_put_ne _ _ _ _ _ P) by lia. apply R. lia.
  - rewrite E. f_equal. now apply list_get.
Qed.

Lemma for_cells_eq {A} ls (f : Z -> A -> option A) t dest : zlen dest = cells (lay 0 ls) ->
  (forall i c, 0 <= i < nodes (lay 0 ls) -> In c dest -> f i c = Some (t i)) ->
  for_cells false (lay 0 ls) f dest = Some (map t (zrange 0 (nodes (lay 0 ls)))).
Proof.
  intros L H. rewrite cells_nodes_0 in L. unfold for_cells, grid_read_int, grid_write_int, addr_int. apply fold_cells; auto.
  intros i c Hi E. apply H; auto. unfold get in E. destruct (i <? 0); [discriminate|]. eapply nth_error_In; eauto.
Qed.

Lemma fill_eq f t lo n v : 0 <= lo <= n -> zlen v = n -> (forall i, lo <= i < n -> f i = Some (t i)) ->
  fill f lo n v = Some (tab n (fun i => if i <? lo then nth (Z.to_nat i) v 0%Qc else t i)).
Proof.
  intros Hn L H. unfold fill. set (g := fun m i => if i <? lo then nth (Z.to_nat i) v 0%Qc else if i <? m then t i else nth (Z.to_nat i) v 0%Qc).
  destruct (fold_inv (fun m d => d = tab n (g m)) (fun v i => do q <- f i; put v i q) lo n v) as (d & E & ->); [lia| | |].
  - rewrite (list_tab v), L at 1. apply tab_ext. intros j Hj. unfold g. destruct (j <? lo); reflexivity.
  - intros i s Hi ->. rewrite H by lia. cbn [bind]. rewrite put_tab by lia. eexists. split; [reflexivity|]. apply tab_ext. intros j Hj. unfold g.
    destruct (Z.eqb_spec j i); [subst; destruct (Z.ltb_spec i lo); [lia|]; destruct (Z.ltb_spec i (i + 1)); [reflexivity|lia]|].
    destruct (j <? lo); [reflexivity|]. destruct (Z.ltb_spec j i), (Z.ltb_spec j (i + 1)); try reflexivity; lia.
  - rewrite E. f_equal. apply tab_ext. intros j Hj. unfold g. destruct (j <? lo); [reflexivity|]. destruct (Z.ltb_spec j n); [reflexivity|lia].
Qed.

Lemma get_map_opt {A B} (f : A -> B) l i : get (map f l) i = option_map f (get l i).
Proof. unfold get. destruct (i <? 0); [reflexivity|]. apply nth_error_map. Qed.
Lemma read_map {A B} (f : A -> B) mpi axs data x : grid_read mpi axs (map f data) x = option_map f (grid_read mpi axs data x).
Proof. unfold grid_read. destruct (addr_vec _ _ _ _); [|reflexivity]. cbn [bind]. apply get_map_opt. Qed.
Lemma at_or_map {A B} (f : A -> B) d axs data y : at_or (f d) axs (map f data) y = f (at_or d axs data y).
Proof. unfold at_or. rewrite read_map. destruct (grid_read _ _ _ _); reflexivity. Qed.

Definition field (j : Z) (data : list (list Qc)) : list Qc := map (comp j) data.
Lemma field_len j data : zlen (field j data) = zlen data.
Proof. apply BaseL.zlen_map. Qed.
Lemma comp_zeros j n : comp j (repeat 0%Qc n) = 0%Qc.
Proof. unfold comp. apply nth_repeat. Qed.
Lemma field_nth j data i : nth (Z.to_nat i) (field j data) 0%Qc = comp j (nth (Z.to_nat i) data []).
Proof. unfold field. transitivity (nth (Z.to_nat i) (map (comp j) data) (comp j [])); [f_equal; unfold comp; destruct (Z.to_nat j); reflexivity|]. apply map_nth. Qed.
Lemma comp_tab n F j : 0 <= j < n -> comp j (tab n F) = F j.
Proof. intros H. pose proof (get_tab n F j H) as G. unfold comp. unfold get in G. destruct (j <? 0); [discriminate|]. erewrite nth_error_nth; eauto. Qed.

Section Fields.
Context (ls : list limits) (dx : list Qc) (Hs : Forall serial_axis ls) (Hd : length dx = length ls) (Hz : Forall (fun h => h <> 0%Qc) dx).
Context (n : Z) (Hn : 0 <= n) (data : list (list Qc)) (L : zlen data = cells (lay 0 ls)) (Ln : Forall (fun c => zlen c = n) data).

Notation dflt := (repeat 0%Qc (Z.to_nat n)).
Lemma at_or_len y : zlen (at_or dflt (lay 0 ls) data y) = n.
Proof.
  unfold at_or. destruct (grid_read _ _ _ _) as [v|] eqn:E.
  - unfold grid_read in E. destruct (addr_vec _ _ _ _); [|discriminate]. cbn [bind] in E. unfold get in E. destruct (_ <? _); [discriminate|].
    apply nth_error_In in E. rewrite Forall_forall in Ln. now apply Ln.
  - unfold zlen. rewrite repeat_length. lia.
Qed.
Lemma at_or_field j y : comp j (at_or dflt (lay 0 ls) data y) = at_or 0%Qc (lay 0 ls) (field j data) y.
Proof. unfold field. rewrite <- (at_or_map (comp j) dflt). f_equal. now rewrite comp_zeros. Qed.

Lemma vlaplacian_at_serial i : 0 <= i < nodes (lay 0 ls) ->
  vlaplacian_at false (lay 0 ls) dx n data i = Some (tab n (fun j => lap ls dx (field j data) (position (lay 0 ls) i))).
Proof.
  intros Hi. unfold vlaplacian_at. pose proof (pos_box ls Hs i Hi) as B. pose proof (local_len ls _ B) as Lx.
  rewrite (vlaplacian_eq _ _ _ n data _ (at_or dflt (lay 0 ls) data)); auto; try (rewrite length_lay; auto).
  - f_equal. apply tab_ext. intros j Hj. unfold lap. rewrite (zlen_lay ls). apply sumQ_ext. intros a _. unfold second_difference. now rewrite !at_or_field.
  - now apply serial_star.
  - apply at_or_len.
Qed.
Lemma flaplacian_serial x j : box ls x -> 0 <= j < n -> flaplacian false (lay 0 ls) dx data x j = Some (lap ls dx (field j data) x).
Proof.
  intros B Hj. pose proof (local_len ls _ B) as Lx.
  rewrite (flaplacian_eq _ _ _ n data _ (at_or dflt (lay 0 ls) data)); auto; try (rewrite length_lay; auto).
  - f_equal. unfold lap. rewrite (zlen_lay ls). apply sumQ_ext. intros a _. unfold second_difference. now rewrite !at_or_field.
  - now apply serial_star.
  - apply at_or_len.
Qed.
Lemma read_cell i : 0 <= i < nodes (lay 0 ls) -> exists c, grid_read_int false (lay 0 ls) data i = Some c /\ zlen c = n /\ c = nth (Z.to_nat i) data [] /\ In c data.
Proof.
  clear Hs Hd Hz. intros Hi. rewrite <- cells_nodes_0, <- L in Hi. unfold grid_read_int, addr_int. rewrite (BaseL.get_nth data i []) by auto.
  assert (In (nth (Z.to_nat i) data []) data) as I by (apply nth_In; unfold zlen in Hi; lia). eexists. split; [reflexivity|]. split; [|auto]. rewrite Forall_forall in Ln. now apply Ln.
Qed.
End Fields.

Lemma comp_get' v j n : zlen v = n -> 0 <= j < n -> get v j = Some (comp j v).
Proof. intros. apply comp_get. lia. Qed.
