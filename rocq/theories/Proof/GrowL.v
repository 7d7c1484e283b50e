(* the isotropic sparse grain-growth step on cells that are not empty *)
From Coq Require Import QArith.QArith QArith.Qcanon.
From Verif Require Import Model.Base Model.Num Model.Boundary Model.Layout Model.Access Model.Sparse Model.Stencil Model.Evolve
  Spec.Box Spec.Access Spec.Sparse Spec.Stencil Spec.Evolve Spec.AnisoSparse Proof.BaseL Proof.LayoutL Proof.AccessL Proof.SparseL Proof.StencilL Proof.StencilS Proof.EvolveL Proof.EvolveF Proof.AnisoSparseL Proof.AnisoSparseF.
Local Open Scope Z_scope.
Local Open Scope list_scope.

Lemma keep_any (value : Z -> Qc) (s : list (Z * Z)) mine : nd s -> nd mine ->
  let ks := map fst s in
  exists l, fold_opt (fun o (it : Z * Z) => if qgt (value (fst it)) cutoff then sset_op num_Qc o (fst it) (fun _ => value (fst it)) else Some o) s (map Some mine) = Some (map Some l) /\ nd l /\
    (forall k, at_index l k = kept ks value (at_index mine) k) /\ (forall k, In k (map fst l) <-> In k (map fst mine) \/ In k ks /\ (cutoff < value k)%Qc).
Proof.
  intros Ns Nm ks. set (step := fun (o : sobj Qc) (it : Z * Z) => if qgt (value (fst it)) cutoff then sset_op num_Qc o (fst it) (fun _ => value (fst it)) else Some o).
  destruct (fold_inv_done step (fun d st => exists l, st = map Some l /\ nd l /\
     (forall k, at_index l k = if in_dec Z.eq_dec k (map fst d) then if Qclt_le_dec cutoff (value k) then value k else at_index mine k else at_index mine k) /\
     (forall k, In k (map fst l) <-> In k (map fst mine) \/ In k (map fst d) /\ (cutoff < value k)%Qc)) s) with (s := map Some mine) as (st & E & l & -> & Nl & V & K).
  - intros d st [k z] (r & Er) (l & -> & Nl & V & K). unfold step. cbn [fst].
    assert (~ In k (map fst d)) as Nk. { intros I. rewrite Er, map_app in Ns. cbn [map fst] in Ns. apply NoDup_remove_2 in Ns. apply Ns. apply in_or_app. auto. }
    assert (forall j, j <> k -> (if in_dec Z.eq_dec j (map fst (d ++ [(k, z)])) then if Qclt_le_dec cutoff (value j) then value j else at_index mine j else at_index mine j) = at_index l j) as W.
    { intros j D. rewrite V, map_app. cbn [map fst]. destruct (in_dec Z.eq_dec j (map fst d ++ [k])) as [I|I], (in_dec Z.eq_dec j (map fst d)) as [I'|I']; try reflexivity; exfalso.
      - apply in_app_or in I as [I|[I|[]]]; [contradiction|congruence].
      - apply I. apply in_or_app. auto. }
    assert (forall A (a b : A), (if in_dec Z.eq_dec k (map fst (d ++ [(k, z)])) then a else b) = a) as Wk. { intros A a b. destruct (in_dec Z.eq_dec k (map fst (d ++ [(k, z)]))) as [|C]; [reflexivity|]. exfalso. apply C. rewrite map_app. apply in_or_app. simpl. auto. }
    destruct (qgt (value k) cutoff) eqn:G.
    + apply qgt_true in G. rewrite sset_op_map. eexists. split; [reflexivity|]. eexists. split; [reflexivity|]. split; [now apply NoDup_aset|]. split.
      * intros j. rewrite at_aset. destruct (Z.eqb_spec j k) as [->|D]; [|now rewrite W]. rewrite Wk. destruct (Qclt_le_dec cutoff (value k)) as [|C]; [reflexivity|]. exfalso. exact (Qclt_not_le _ _ G C).
      * intros j. rewrite in_keys_aset, K, map_app, in_app_iff. cbn [map In fst]. split; [intros [->|[?|[? ?]]]; auto|]. intros [?|[[?|[<-|[]]] ?]]; auto.
    + apply qgt_false in G. eexists. split; [reflexivity|]. exists l. split; [reflexivity|]. split; [auto|]. split.
      * intros j. destruct (Z.eq_dec j k) as [->|D]; [|now rewrite W]. rewrite Wk, V. destruct (in_dec Z.eq_dec k (map fst d)); [contradiction|]. destruct (Qclt_le_dec cutoff (value k)) as [C|]; [|reflexivity]. exfalso. exact (Qclt_not_le _ _ C G).
      * intros j. rewrite K, map_app, in_app_iff. cbn [map In fst]. split; [intros [?|[? ?]]; auto|]. intros [?|[[?|[<-|[]]] C]]; auto. exfalso. exact (Qclt_not_le _ _ C G).
  - exists mine. split; [reflexivity|]. split; [auto|]. split; [reflexivity|]. simpl. tauto.
  - exists l. split; [exact E|]. split; [auto|]. split; [|exact K]. intros k. rewrite V. reflexivity.
Qed.

(* what a step of the program makes of a cell *)
Section Node.
Context (mpi : bool) (g : Z) (ls : list limits) (dx : list Qc) (former latter : list (sobj Qc)) (node : Z) (F : list Z -> list (Z * Qc)) (stale : list (Z * Qc)).
Notation axs := (lay g ls).
Notation x := (position axs node).
Context (Hg : 0 <= g) (Hm : mpi = false -> g = 0) (Hne : ls <> []) (Hl : lims_ok ls) (Hi : 0 <= node < nodes axs) (Hz : zlen latter = cells axs).
Context (Ld : length dx = length ls) (Fd : Forall (fun h => h <> 0%Qc) dx).
Context (St : star mpi axs former x (fun y => map Some (F y))) (Nd : forall y, nd (F y)).
Context (Old : grid_read mpi axs latter x = Some (map Some stale)) (Ns : nd stale).
Lemma grow_any : exists latter' l, grow mpi axs dx former latter node = Some latter' /\
  zlen latter' = zlen latter /\ grid_read mpi axs latter' x = Some (map Some l) /\ nd l /\
  (forall y, in_box (map l_x0 ls) (map l_x1 ls) y -> y <> x -> grid_read mpi axs latter' y = grid_read mpi axs latter y) /\
  exists ks, NoDup ks /\ (forall k, In k ks <-> near F x k) /\ (zlen ks < 2 -> l = F x) /\
    (2 <= zlen ks -> (forall k, at_index l k = kept ks (grown F dx x) (at_index stale) k) /\ (forall k, In k (map fst l) <-> In k (map fst stale) \/ In k ks /\ (cutoff < grown F dx x k)%Qc)).
Proof.
  pose proof (xlen g ls node Hl Hi) as Lx.
  destruct (neighbourhood_eq mpi axs dx former x F Lx ltac:(rewrite length_lay; auto) St Nd) as (s & Es & Nds & Hs). { destruct ls; [congruence|discriminate]. }
  unfold grow. rewrite Es. cbn [bind]. rewrite BaseL.zlen_map. destruct (Z.ltb_spec (zlen s) 2) as [S2|S2].
  - destruct (node_write mpi g ls former latter node F (fun cell m => assign_from m cell) (map Some stale) (map Some (F x)) Hg Hm Hl Hi Hz ltac:(apply St) Old ltac:(apply (assign_ok stale (F x)))) as (l' & E & L & R & O).
    exists l', (F x). split; [exact E|]. split; [exact L|]. split; [exact R|]. split; [apply Nd|]. split; [exact O|]. exists (map fst s). split; [auto|]. split; [auto|]. rewrite BaseL.zlen_map. split; [auto|lia].
  - destruct (slaplacian_eq mpi axs dx former x F Lx ltac:(rewrite length_lay; auto) Fd St Nd) as (lap & El & Nl & Hlap). rewrite El. cbn [bind].
    set (sum := sumQ (map (fun it => snd it * snd it)%Qc (F x))).
    assert (fold_opt (fun sum j => do phi <- svalue (map Some (F x)) j; Some (sum + phi * phi)%Qc) (zrange 0 (zlen (map Some (F x)))) 0%Qc = Some sum) as Esum.
    { rewrite BaseL.zlen_map. rewrite (fold_items (fun sum it => Some (sum + snd it * snd it)%Qc)).
      - unfold sum. assert (forall m a, fold_opt (fun sum it => Some (sum + snd it * snd it)%Qc) m a = Some (a + sumQ (map (fun it : Z * Qc => snd it * snd it) m))%Qc) as X.
        { induction m as [|it m IH]; intros a; simpl; [f_equal; ring|]. rewrite IH. f_equal. ring. }
        rewrite X. f_equal. ring.
      - intros t i a Ha. unfold svalue. rewrite (sitem_map _ _ _ Ha). reflexivity. }
    destruct (keep_any (grown F dx x) s stale Nds Ns) as (l & Eo & Nn & V & K).
    destruct (node_write mpi g ls former latter node F (fun cell m =>
       do sum <- fold_opt (fun sum j => do phi <- svalue cell j; Some (sum + phi * phi)%Qc) (zrange 0 (zlen cell)) 0%Qc;
       fold_opt (fun mine j => do i <- sindex (map Some s) j; do phi <- sread num_Qc cell i; do l <- sread num_Qc (map Some lap) i;
         let value := (phi - hundredth * (- phi - phi * phi * phi + c2 * (phi * sum - l)))%Qc in
         if qgt value cutoff then sset_op num_Qc mine i (fun _ => value) else Some mine) (zrange 0 (zlen s)) m) (map Some stale) (map Some l) Hg Hm Hl Hi Hz ltac:(apply St) Old) as (l' & E & L & R & O).
    { rewrite Esum. cbn [bind]. etransitivity; [|exact Eo]. apply fold_items. intros o i a Ha. rewrite (sindex_map _ _ _ Ha). cbn [bind]. rewrite !sread_map. cbn [bind]. rewrite <- !at_index_aval, Hlap. reflexivity. }
    exists l', l. split; [exact E|]. split; [exact L|]. split; [exact R|]. split; [auto|]. split; [exact O|]. exists (map fst s). split; [auto|]. split; [auto|]. rewrite BaseL.zlen_map. split; [lia|]. auto.
Qed.
End Node.
