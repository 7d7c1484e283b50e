From Coq Require Import QArith.QArith QArith.Qcanon.
From Verif Require Import Model.Base Model.Num Model.Boundary Model.Layout Model.Access Model.Sparse Model.Stencil Model.Evolve Model.AnisoSparse
  Spec.Box Spec.Access Spec.Sparse Spec.Stencil Spec.Spin Spec.Evolve Spec.AnisoSparse Proof.BaseL Proof.LayoutL Proof.AccessL Proof.SparseL Proof.StencilL Proof.StencilS Proof.SpinF Proof.SiteL Proof.EvolveL Proof.EvolveF Proof.AnisoSparseL.
Local Open Scope Z_scope.
Local Open Scope list_scope.

Lemma clamp_eq v : (let v := if qgt v 1 then 1%Qc else v in if qgt 0 v then 0%Qc else v) = clamp v.
Proof.
  cbv zeta. unfold clamp. destruct (qgt v 1) eqn:G1.
  - apply qgt_true in G1. change (qgt 0 1) with false. cbn. destruct (Qclt_le_dec v 0) as [C|_]; [exfalso; apply (Qclt_not_le 0 1); [reflexivity|]; apply Qclt_le_weak; eapply Qclt_trans; eauto|]. destruct (Qclt_le_dec 1 v) as [|C]; [auto|]. exfalso. exact (Qclt_not_le _ _ G1 C).
  - apply qgt_false in G1. unfold qgt. destruct (Qclt_le_dec v 0); [auto|]. destruct (Qclt_le_dec 1 v) as [C|]; [exfalso; exact (Qclt_not_le _ _ C G1)|auto].
Qed.
Lemma in_keys_aset (l : list (Z * Qc)) k f j : In j (map fst (aset num_Qc l k f)) <-> j = k \/ In j (map fst l).
Proof. rewrite keys_aset. intuition. Qed.
Lemma amap_at (c : Qc) l k : at_index (amap (fun v => v * c)%Qc l) k = (at_index l k * c)%Qc.
Proof. rewrite !at_index_aval. unfold aval. rewrite lookup_amap. destruct (lookup l k); cbn; ring. Qed.

Lemma new_values_any dt cell dpdt (s : list (Z * Z)) mine (sp : Z -> Qc) : nd s -> nd mine -> (forall k, In k (map fst s) -> at_index dpdt k = sp k) ->
  let ks := map fst s in let value := fun k => clamp (at_index cell k + dt * (c2 / q_of (zlen s)) * sp k)%Qc in
  exists l, new_values dt (map Some cell) (map Some dpdt) (map Some s) (map Some mine) = Some (map Some l, sum_over ks (kept ks value (at_index mine))) /\ nd l /\
    (forall k, at_index l k = kept ks value (at_index mine) k) /\ (forall k, In k (map fst l) <-> In k (map fst mine) \/ In k ks /\ (cutoff < value k)%Qc).
Proof.
  intros Ns Nm Sp ks value. unfold new_values. rewrite BaseL.zlen_map.
  set (step := fun (st : sobj Qc * Qc) (it : Z * Z) => let '(latter, sum) := st in do latter <- (if qgt (value (fst it)) cutoff then sset_op num_Qc latter (fst it) (fun _ => value (fst it)) else Some latter);
    do v <- sread num_Qc latter (fst it); Some (latter, (sum + v)%Qc)).
  rewrite (fold_items step).
  2:{ intros [o sum] i a Hi. rewrite (sindex_map _ _ _ Hi). cbn [bind]. rewrite !sread_map. cbn [bind]. rewrite clamp_eq, <- !at_index_aval. rewrite Sp by (apply in_map; eapply nth_error_In; eauto). reflexivity. }
  destruct (fold_inv_done step (fun d st => exists l, st = (map Some l, sum_over (map fst d) (kept ks value (at_index mine))) /\ nd l /\
     (forall k, at_index l k = if in_dec Z.eq_dec k (map fst d) then kept ks value (at_index mine) k else at_index mine k) /\
     (forall k, In k (map fst l) <-> In k (map fst mine) \/ In k (map fst d) /\ (cutoff < value k)%Qc)) s) with (s := (map Some mine, 0%Qc)) as (st & E & l & -> & Nl & V & K).
  - intros d st [k z] (r & Er) (l & -> & Nl & V & K). unfold step. cbn [fst].
    assert (In k ks) as Ik by (unfold ks; rewrite Er, map_app; apply in_or_app; simpl; auto).
    assert (~ In k (map fst d)) as Nk. { intros I. rewrite Er, map_app in Ns. cbn [map fst] in Ns. apply NoDup_remove_2 in Ns. apply Ns. apply in_or_app. auto. }
    assert (at_index l k = at_index mine k) as Vk by (rewrite V; destruct (in_dec Z.eq_dec k (map fst d)); [contradiction|reflexivity]).
    assert (forall j, (if in_dec Z.eq_dec j (map fst (d ++ [(k, z)])) then kept ks value (at_index mine) j else at_index mine j) = if j =? k then kept ks value (at_index mine) k else at_index l j) as W.
    { intros j. rewrite V, map_app. cbn [map fst]. destruct (in_dec Z.eq_dec j (map fst d ++ [k])) as [I|I]; destruct (Z.eqb_spec j k) as [->|D].
      - reflexivity.
      - destruct (in_dec Z.eq_dec j (map fst d)) as [|C]; [reflexivity|]. apply in_app_or in I as [I|[I|[]]]; [contradiction|congruence].
      - exfalso. apply I. apply in_or_app. simpl. auto.
      - destruct (in_dec Z.eq_dec j (map fst d)) as [C|]; [|reflexivity]. exfalso. apply I. apply in_or_app. auto. }
    destruct (qgt (value k) cutoff) eqn:G.
    + apply qgt_true in G. rewrite sset_op_map. cbn [bind]. rewrite sread_map. cbn [bind]. rewrite <- at_index_aval, at_aset, Z.eqb_refl.
      assert (kept ks value (at_index mine) k = value k) as Kk. { unfold kept. destruct (in_dec Z.eq_dec k ks); [|contradiction]. fold cutoff. destruct (Qclt_le_dec cutoff (value k)) as [|C]; [reflexivity|]. exfalso. exact (Qclt_not_le _ _ G C). }
      eexists. split; [reflexivity|]. eexists. split; [|split; [|split]].
      * f_equal. rewrite !map_app, sumQ_app. cbn [map sumQ fst]. rewrite Kk. ring.
      * now apply NoDup_aset.
      * intros j. rewrite at_aset, W, Kk. reflexivity.
      * intros j. rewrite in_keys_aset, K, map_app, in_app_iff. cbn [map In fst]. split; [intros [->|[?|[? ?]]]; auto|]. intros [?|[[?|[<-|[]]] ?]]; auto.
    + apply qgt_false in G. cbn [bind]. rewrite sread_map. cbn [bind]. rewrite <- at_index_aval, Vk.
      assert (kept ks value (at_index mine) k = at_index mine k) as Kk. { unfold kept. destruct (in_dec Z.eq_dec k ks); [|contradiction]. fold cutoff. destruct (Qclt_le_dec cutoff (value k)) as [C|]; [|reflexivity]. exfalso. exact (Qclt_not_le _ _ C G). }
      eexists. split; [reflexivity|]. exists l. split; [|split; [|split]]; auto.
      * f_equal. rewrite !map_app, sumQ_app. cbn [map sumQ fst]. rewrite Kk. ring.
      * intros j. rewrite W, Kk. destruct (Z.eqb_spec j k) as [->|]; auto.
      * intros j. rewrite K, map_app, in_app_iff. cbn [map In fst]. split; [intros [?|[? ?]]; auto|]. intros [?|[[?|[<-|[]]] C]]; auto. exfalso. exact (Qclt_not_le _ _ C G).
  - exists mine. split; [reflexivity|]. split; [auto|]. split; [reflexivity|]. simpl. tauto.
  - exists l. split; [exact E|]. split; [auto|]. split; [|exact K]. intros k. rewrite V. destruct (in_dec Z.eq_dec k (map fst s)) as [|C]; [reflexivity|]. unfold kept. destruct (in_dec Z.eq_dec k ks); [contradiction|reflexivity].
Qed.
Lemma settle_any dt cell dpdt (s : list (Z * Z)) mine (sp : Z -> Qc) : nd s -> nd mine -> (forall k, In k (map fst s) -> at_index dpdt k = sp k) ->
  let ks := map fst s in let value := fun k => clamp (at_index cell k + dt * (c2 / q_of (zlen s)) * sp k)%Qc in
  exists l, (do r <- new_values dt (map Some cell) (map Some dpdt) (map Some s) (map Some mine); let rsum := if Qc_eq_dec (snd r) 0 then 0%Qc else (/ snd r)%Qc in sscale num_Qc (fst r) (Outside rsum)) = Some (map Some l) /\ nd l /\
    (forall k, at_index l k = projected ks (kept ks value (at_index mine)) k) /\ (forall k, In k (map fst l) <-> In k (map fst mine) \/ In k ks /\ (cutoff < value k)%Qc).
Proof.
  intros Ns Nm Sp ks value. destruct (new_values_any dt cell dpdt s mine sp Ns Nm Sp) as (l & E & Nl & V & K). rewrite E. cbn [bind fst snd]. rewrite sscale_map by auto. eexists. split; [reflexivity|]. split; [now rewrite keys_amap|]. split.
  - intros k. change (n_mul num_Qc) with Qcmult. rewrite amap_at, V. unfold projected. fold ks. destruct (Qc_eq_dec _ 0); [ring|reflexivity].
  - intros k. rewrite keys_amap. apply K.
Qed.

(* ---- one node ---- *)
Section Node.
Context (mpi : bool) (g : Z) (ls : list limits) (dx : list Qc) (former latter : list (sobj Qc)) (node : Z) (F : list Z -> list (Z * Qc)) (stale : list (Z * Qc)).
Notation axs := (lay g ls).
Notation x := (position axs node).
Context (Hg : 0 <= g) (Hm : mpi = false -> g = 0) (Hne : ls <> []) (Hl : lims_ok ls) (Hi : 0 <= node < nodes axs) (Hz : zlen latter = cells axs).
Context (Ld : length dx = length ls) (Fd : Forall (fun h => h <> 0%Qc) dx).
Context (St : star mpi axs former x (fun y => map Some (F y))) (Nd : forall y, nd (F y)).
Context (Old : grid_read mpi axs latter x = Some (map Some stale)) (Ns : nd stale).

(* a program that collects the fields, copies or computes rates and settles *)
Lemma node_follows dt gradient barrier triple mobility (deriv : sobj Qc -> sobj Qc -> sobj Z -> option (sobj Qc)) :
  (forall lap s, nd s -> (forall k, at_index lap k = field_laplacian F dx x k) -> exists d, deriv (map Some (F x)) (map Some lap) (map Some s) = Some (map Some d) /\ nd d /\
     forall k, In k (map fst s) -> at_index d k = speed gradient barrier triple mobility (at_index (F x)) (field_laplacian F dx x) (map fst s) k) ->
  exists latter' l, (do s <- neighbourhood mpi axs former x; do cell <- grid_read_int mpi axs former node; do mine <- grid_read_int mpi axs latter node;
     do result <- (if zlen s <? 2 then assign_from mine cell else do lap <- slaplacian mpi axs dx former x; do dpdt <- deriv cell lap s; do r <- new_values dt cell dpdt s mine;
       let rsum := if Qc_eq_dec (snd r) 0 then 0%Qc else (/ snd r)%Qc in sscale num_Qc (fst r) (Outside rsum));
     grid_write_int mpi axs latter node result) = Some latter' /\
  zlen latter' = zlen latter /\ grid_read mpi axs latter' x = Some (map Some l) /\ nd l /\
  (forall y, in_box (map l_x0 ls) (map l_x1 ls) y -> y <> x -> grid_read mpi axs latter' y = grid_read mpi axs latter y) /\
  follows dt gradient barrier triple mobility dx F x stale l.
Proof.
  intros HD. pose proof (xlen g ls node Hl Hi) as Lx.
  destruct (neighbourhood_eq mpi axs dx former x F Lx ltac:(rewrite length_lay; auto) St Nd) as (s & Es & Nds & Hs). { destruct ls; [congruence|discriminate]. }
  rewrite Es. cbn [bind]. rewrite BaseL.zlen_map. destruct (Z.ltb_spec (zlen s) 2) as [S2|S2].
  - destruct (node_write mpi g ls former latter node F (fun cell m => assign_from m cell) (map Some stale) (map Some (F x)) Hg Hm Hl Hi Hz ltac:(apply St) Old ltac:(apply (assign_ok stale (F x)))) as (l' & E & L & R & O).
    exists l', (F x). split; [exact E|]. split; [exact L|]. split; [exact R|]. split; [apply Nd|]. split; [exact O|]. exists (map fst s). split; [auto|]. split; [auto|]. rewrite BaseL.zlen_map. split; [auto|lia].
  - destruct (slaplacian_eq mpi axs dx former x F Lx ltac:(rewrite length_lay; auto) Fd St Nd) as (lap & El & Nl & Hlap). rewrite El. cbn [bind].
    destruct (HD lap s Nds Hlap) as (d & Ed & _ & Vd). destruct (settle_any dt (F x) d s stale _ Nds Ns Vd) as (l & Ef & Nl1 & V & K).
    destruct (node_write mpi g ls former latter node F (fun cell m => do dpdt <- deriv cell (map Some lap) (map Some s); do r <- new_values dt cell dpdt (map Some s) m;
       let rsum := if Qc_eq_dec (snd r) 0 then 0%Qc else (/ snd r)%Qc in sscale num_Qc (fst r) (Outside rsum)) (map Some stale) (map Some l) Hg Hm Hl Hi Hz ltac:(apply St) Old) as (l' & E & L & R & O).
    { rewrite Ed. cbn [bind]. exact Ef. }
    exists l', l. split; [exact E|]. split; [exact L|]. split; [exact R|]. split; [auto|]. split; [exact O|]. exists (map fst s). split; [auto|]. split; [auto|]. rewrite BaseL.zlen_map. split; [lia|]. intros _. cbv zeta.
    unfold target. rewrite BaseL.zlen_map. split; [exact V|exact K].
Qed.
End Node.

(* ---- all nodes ---- *)
Section Loop.
Context {T : Type} (d : T) (ls : list limits) (Fs : Forall serial_axis ls) (ok : T -> Prop) (R : list Z -> T -> T -> Prop) (step : list T -> Z -> option (list T)).
Notation axs := (lay 0 ls).
Notation val := (at_or d axs).
Context (H : forall u p, zlen u = cells axs -> Forall ok u -> 0 <= p < nodes axs -> exists u', step u p = Some u' /\ zlen u' = cells axs /\ Forall ok u' /\
  R (position axs p) (val u (position axs p)) (val u' (position axs p)) /\ forall y, box ls y -> y <> position axs p -> val u' y = val u y).
Lemma nodes_loop u : zlen u = cells axs -> Forall ok u -> exists u', fold_opt step (zrange 0 (nodes axs)) u = Some u' /\ zlen u' = cells axs /\ Forall ok u' /\
  forall x, box ls x -> R x (val u x) (val u' x).
Proof.
  intros L O. pose proof (nodes_pos ls Fs) as NP.
  assert (forall n, (n <= Z.to_nat (nodes axs))%nat -> exists u', fold_opt step (zrange 0 (Z.of_nat n)) u = Some u' /\ zlen u' = cells axs /\ Forall ok u' /\
    forall p, 0 <= p < nodes axs -> if p <? Z.of_nat n then R (position axs p) (val u (position axs p)) (val u' (position axs p)) else val u' (position axs p) = val u (position axs p)) as A.
  { induction n as [|n IH]; intros Hn.
    - exists u. split; [reflexivity|]. split; [auto|]. split; [auto|]. intros p Hp. destruct (Z.ltb_spec p (Z.of_nat 0)); [lia|reflexivity].
    - destruct IH as (v & E & Lv & Ov & Hv); [lia|]. destruct (H v (Z.of_nat n) Lv Ov ltac:(lia)) as (w & Ew & Lw & Ow & Rw & Kw). exists w.
      rewrite Nat2Z.inj_succ, <- Z.add_1_r, zrange_snoc, fold_opt_app, E by lia. cbn [bind fold_opt]. rewrite Ew. split; [reflexivity|]. split; [auto|]. split; [auto|].
      intros p Hp. specialize (Hv p Hp). destruct (Z.eq_dec p (Z.of_nat n)) as [->|D].
      + destruct (Z.ltb_spec (Z.of_nat n) (Z.of_nat n)); [lia|]. destruct (Z.ltb_spec (Z.of_nat n) (Z.of_nat n + 1)); [|lia]. now rewrite <- Hv.
      + assert (position axs p <> position axs (Z.of_nat n)) as Np. { intros E0. apply D. destruct (position_into 0 axs (Z.of_nat n) (wf_lay 0 ls (lims_le _ Fs)) ltac:(lia)) as [_ I]. apply I; auto. }
        rewrite (Kw _ (site_ok ls p Fs Hp) Np). destruct (Z.ltb_spec p (Z.of_nat n)), (Z.ltb_spec p (Z.of_nat n + 1)); try lia; auto. }
  destruct (A (Z.to_nat (nodes axs)) (le_n _)) as (u' & E & L' & O' & V). rewrite Z2Nat.id in * by lia. exists u'. split; [auto|]. split; [auto|]. split; [auto|].
  intros x B. destruct (position_all ls Fs x B) as (p & Hp & <-). specialize (V p Hp). destruct (Z.ltb_spec p (nodes axs)); [auto|lia].
Qed.
End Loop.

Lemma stored_map l : stored (map Some l) = l.
Proof. unfold stored. induction l; simpl; [auto|]. now rewrite IHl. Qed.
Lemma tidy_stored o : tidy o -> o = map Some (stored o) /\ nd (stored o).
Proof. intros (l & -> & N). rewrite stored_map. auto. Qed.

Section Grid.
Context (ls : list limits) (dx : list Qc) (Fs : Forall serial_axis ls) (Hne : ls <> []) (Ld : length dx = length ls) (Fd : Forall (fun h => h <> 0%Qc) dx).
Notation axs := (lay 0 ls).
Notation fields_of := (fields_of ls).

Lemma fields_nd data y : Forall tidy data -> nd (fields_of data y).
Proof.
  intros T. unfold AnisoSparse.fields_of. destruct (grid_read false axs data y) as [o|] eqn:E; [|constructor]. apply tidy_stored. rewrite Forall_forall in T. apply T.
  unfold grid_read in E. destruct (addr_vec _ _ _ _); [|discriminate]. cbn [bind] in E. apply get_err in E. eapply nth_error_In; eauto.
Qed.
Lemma fields_star data x : zlen data = cells axs -> Forall tidy data -> box ls x -> star false axs data x (fun y => map Some (fields_of data y)).
Proof.
  intros L T B. assert (forall y, length y = length ls -> box ls (cbs ls y) -> grid_read false axs data y = Some (map Some (fields_of data y))) as A.
  { intros y Ly By. rewrite (read_defined (@nil (option (Z * Qc))) ls data y Fs L Ly By). f_equal. unfold AnisoSparse.fields_of. apply tidy_stored.
    assert (In (at_or [] axs data y) data) as I; [|rewrite Forall_forall in T; apply T; exact I]. rewrite <- (val_cbs [] ls data y Ly By). now apply val_in. }
  pose proof (local_len _ _ B) as Lx. split; [apply A; [auto|now rewrite cbs_in]|]. intros i Hi.
  assert (forall c, c = 1 \/ c = -1 -> grid_read false axs data (nb x i c) = Some (map Some (fields_of data (nb x i c)))) as X; [|split; apply X; auto].
  intros c Hc. assert (Z.to_nat i < length ls)%nat as Li by (unfold zlen in Hi; rewrite length_lay in Hi; lia). apply A; [unfold nb; rewrite length_set_nth; auto|].
  unfold nb. rewrite cbs_set by auto. apply box_set; auto. cbv zeta.
  pose proof (proj1 (in_box_nth ls x) B) as [_ Bx]. specialize (Bx (Z.to_nat i) (mkLim 0 0 0 0 0 0) Li). apply cb_range; [|lia]. rewrite Forall_forall in Fs. apply Fs. now apply nth_In.
Qed.

Lemma step_loop (f : list (sobj Qc) -> list (sobj Qc) -> Z -> option (list (sobj Qc))) (R : (list Z -> list (Z * Qc)) -> list Z -> list (Z * Qc) -> list (Z * Qc) -> Prop) former latter :
  (forall u node F stale, 0 <= node < nodes axs -> zlen u = cells axs -> star false axs former (position axs node) (fun y => map Some (F y)) -> (forall y, nd (F y)) ->
     grid_read false axs u (position axs node) = Some (map Some stale) -> nd stale ->
     exists u' l, f former u node = Some u' /\ zlen u' = zlen u /\ grid_read false axs u' (position axs node) = Some (map Some l) /\ nd l /\
       (forall y, box ls y -> y <> position axs node -> grid_read false axs u' y = grid_read false axs u y) /\ R F (position axs node) stale l) ->
  zlen former = cells axs -> Forall tidy former -> zlen latter = cells axs -> Forall tidy latter ->
  exists latter', (do l <- fold_opt (f former) (zrange 0 (nodes axs)) latter; Some (l, former)) = Some (latter', former) /\ zlen latter' = cells axs /\ Forall tidy latter' /\
    forall x, box ls x -> R (fields_of former) x (fields_of latter x) (fields_of latter' x).
Proof.
  intros H Lf Tf Ll Tl.
  destruct (nodes_loop [] ls Fs tidy (fun x o o' => R (fields_of former) x (stored o) (stored o')) (f former)) with (u := latter) as (l' & E & L' & T' & V); auto.
  - unfold sobj in *. intros u p Lu Tu Hp. pose proof (site_ok ls p Fs Hp) as B. pose proof (read_val [] ls Fs u _ Lu B) as Ru.
    assert (tidy (at_or [] axs u (position axs p))) as Tp by (rewrite Forall_forall in Tu; apply Tu; now apply val_in). apply tidy_stored in Tp as [Eo No].
    rewrite Eo in Ru. destruct (H u p (fields_of former) _ Hp Lu (fields_star former _ Lf Tf B) (fun y => fields_nd former y Tf) Ru No) as (u' & l & E & L' & R' & Nl & O & V).
    exists u'. split; [auto|]. split; [etransitivity; [exact L'|exact Lu]|].
    assert (forall y, box ls y -> y <> position axs p -> at_or [] axs u' y = at_or [] axs u y) as Oy by (intros y By Ny; unfold at_or, sobj in *; now rewrite O).
    assert (at_or [] axs u' (position axs p) = map Some l) as Ep by (unfold at_or, sobj in *; now rewrite R'). split; [|split; [|exact Oy]].
    + apply Forall_forall. intros o Ho. apply In_nth_error in Ho as [n En]. assert (0 <= Z.of_nat n < nodes axs) as Hn. { rewrite (nodes_eq ls Fs). assert (n < length u')%nat by (apply nth_error_Some; congruence). unfold zlen in *. lia. }
      assert (zlen u' = cells axs) as Lu' by (etransitivity; [exact L'|exact Lu]). pose proof (read_node [] ls Fs u' (Z.of_nat n) Lu' Hn) as Rn. unfold grid_read_int, addr_int in Rn. cbn [bind] in Rn. unfold get in Rn. destruct (Z.ltb_spec (Z.of_nat n) 0); [lia|]. rewrite Nat2Z.id, En in Rn. injection Rn as ->.
      destruct (list_eq_dec Z.eq_dec (position axs (Z.of_nat n)) (position axs p)) as [->|D]; [rewrite Ep; exists l; auto|]. rewrite Oy by (auto; now apply site_ok). rewrite Forall_forall in Tu. apply Tu. apply val_in; auto. now apply site_ok.
    + rewrite Ep, stored_map. exact V.
  - exists l'. unfold sobj in *. rewrite E. auto.
Qed.
Lemma aniso_step_ok energy eps mobility pinned former latter : symmetric energy -> symmetric eps -> symmetric mobility ->
  zlen former = cells axs -> Forall tidy former -> zlen latter = cells axs -> Forall tidy latter ->
  exists latter', aniso_step false axs dx energy eps mobility pinned (former, latter) = Some (latter', former) /\ zlen latter' = cells axs /\ Forall tidy latter' /\
    forall x, box ls x -> follows hundredth (grad_of eps) (barrier_of energy) (q_of 3) (pin pinned mobility) dx (fields_of former) x (fields_of latter x) (fields_of latter' x).
Proof.
  intros Se Sp Sm. apply step_loop. intros u node F stale Hn Lu St Nd Ru Nst. unfold aniso_evolve.
  destruct (node_follows false 0 ls dx former u node F stale ltac:(lia) ltac:(auto) Hne (lims_le _ Fs) Hn Lu Ld Fd St Nd Ru Nst hundredth (grad_of eps) (barrier_of energy) (q_of 3) (pin pinned mobility)
     (fun cell lap s => do dFdp <- aniso_derivatives energy eps cell lap s; aniso_rates mobility pinned dFdp s)) as (u' & l & E & X).
  - intros lap s Ns Hlap. destruct (aniso_derivatives_ok energy eps Se Sp (F (position axs node)) lap s Ns) as (d & -> & Ndd & Vd). cbn [bind].
    apply (aniso_rates_ok mobility Sm pinned d s (fun k => force (grad_of eps) (barrier_of energy) (q_of 3) (at_index (F (position axs node))) (field_laplacian F dx (position axs node)) (map fst s) k) Ns).
    intros k Hk. rewrite Vd by auto. unfold force. do 2 f_equal. apply map_ext. intros j. now rewrite Hlap.
  - exists u', l. split; [|exact X]. etransitivity; [|exact E]. clear E X. unfold sobj in *. destruct (neighbourhood false axs former (position axs node)) as [s|]; [|reflexivity]. cbn [bind]. destruct (grid_read_int false axs former node) as [cell|]; [|reflexivity]. cbn [bind]. destruct (grid_read_int false axs u node) as [mine|]; [|reflexivity]. cbn [bind]. destruct (zlen s <? 2); [reflexivity|].
    destruct (slaplacian false axs dx former (position axs node)) as [lap|]; [|reflexivity]. cbn [bind]. destruct (aniso_derivatives _ _ _ _ _) as [dd|]; reflexivity.
Qed.
Lemma evolve_step_ok dt epsilon w mu former latter :
  zlen former = cells axs -> Forall tidy former -> zlen latter = cells axs -> Forall tidy latter ->
  exists latter', evolve_step false axs dx dt epsilon w mu (former, latter) = Some (latter', former) /\ zlen latter' = cells axs /\ Forall tidy latter' /\
    forall x, box ls x -> follows dt (fun _ _ => half * epsilon * epsilon)%Qc (fun _ _ => w) 0 (fun _ _ => mu) dx (fields_of former) x (fields_of latter x) (fields_of latter' x).
Proof.
  apply step_loop. intros u node F stale Hn Lu St Nd Ru Nst. unfold evolve.
  destruct (node_follows false 0 ls dx former u node F stale ltac:(lia) ltac:(auto) Hne (lims_le _ Fs) Hn Lu Ld Fd St Nd Ru Nst dt (fun _ _ => half * epsilon * epsilon)%Qc (fun _ _ => w) 0%Qc (fun _ _ => mu)
     (fun cell lap s => do dFdp <- derivatives epsilon w cell lap s; rates mu dFdp s)) as (u' & l & E & X).
  - intros lap s Ns Hlap. set (x := position axs node). unfold derivatives.
    destruct (pairs_adds s (fun d hi ji => do lj <- sread num_Qc (map Some lap) ji; do pj <- sread num_Qc (map Some (F x)) ji; do d <- sset_op num_Qc d hi (fun a => a + (half * epsilon * epsilon * lj + w * pj))%Qc;
      do lh <- sread num_Qc (map Some lap) hi; do ph <- sread num_Qc (map Some (F x)) hi; sset_op num_Qc d ji (fun a => a + (half * epsilon * epsilon * lh + w * ph))%Qc) (fun i j => half * epsilon * epsilon * at_index lap j + w * at_index (F x) j)%Qc Ns) as (d & -> & Ndd & Vd).
    { intros a b. apply (adds_fun (fun d => do d <- sset_op num_Qc d a (fun q => q + (half * epsilon * epsilon * at_index lap b + w * at_index (F x) b))%Qc; sset_op num_Qc d b (fun q => q + (half * epsilon * epsilon * at_index lap a + w * at_index (F x) a))%Qc)).
      - intros o. rewrite !sread_map. cbn [bind]. now rewrite <- !at_index_aval.
      - apply (adds_seq (fun d => sset_op num_Qc d a _) (fun d => sset_op num_Qc d b _)); apply adds_set; intros q; reflexivity. }
    cbn [bind]. apply (aniso_rates_ok (fun _ _ => mu) ltac:(intros ? ?; reflexivity) false d s (fun k => force (fun _ _ => half * epsilon * epsilon)%Qc (fun _ _ => w) 0 (at_index (F x)) (field_laplacian F dx x) (map fst s) k) Ns).
    intros k Hk. rewrite Vd. destruct (in_dec Z.eq_dec k (map fst s)) as [_|]; [|contradiction]. rewrite force_eq by auto. rewrite Qcmult_0_l, Qcplus_0_r. apply sumQ_ext. intros j _. now rewrite Hlap.
  - exists u', l. split; [|exact X]. etransitivity; [|exact E]. clear E X. unfold sobj in *. destruct (neighbourhood false axs former (position axs node)) as [s|]; [|reflexivity]. cbn [bind]. destruct (grid_read_int false axs former node) as [cell|]; [|reflexivity]. cbn [bind]. destruct (grid_read_int false axs u node) as [mine|]; [|reflexivity]. cbn [bind]. destruct (zlen s <? 2); [reflexivity|].
    destruct (slaplacian false axs dx former (position axs node)) as [lap|]; [|reflexivity]. cbn [bind]. destruct (derivatives _ _ _ _ _) as [dd|]; reflexivity.
Qed.
End Grid.
