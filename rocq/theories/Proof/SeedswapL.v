From Coq Require Import QArith Qcanon Permutation.
From Verif Require Import Model.Base Model.Boundary Model.Layout Model.Access Model.Setup Model.Num Model.Sparse Model.Codec Model.MPI Model.Ghostswap Model.Simulate Model.Tessellate Model.Digits Model.Seedswap
  Spec.Box Spec.Access Spec.Bytes Spec.Decomp Spec.Schedule Spec.Sparse Spec.Tessellate Spec.Seedswap
  Proof.BaseL Proof.LayoutL Proof.AccessL Proof.CodecL Proof.SetupL Proof.SparseL Proof.MPIL Proof.SimulateL Proof.GlobalL Proof.TessellateL Proof.TessellateF Proof.HeapL.
Local Open Scope Z_scope.

Lemma map_opt_post {A B C} (f : A -> option B) (g : A -> B -> C) l ys : map_opt f l = Some ys ->
  map_opt (fun a => do b <- f a; Some (g a b)) l = Some (Simulate.zip_with g l ys).
Proof.
  revert ys. induction l as [|a l IH]; intros ys E; [now inversion E|]. cbn [map_opt] in *. destruct (f a) as [b|]; [|discriminate]. cbn [bind] in *.
  destruct (map_opt f l) as [m|]; [|discriminate]. injection E as <-. rewrite (IH m eq_refl). reflexivity.
Qed.
Lemma zip_map_r {A B C} (g : A -> B -> C) (f : A -> B) l : Simulate.zip_with g l (map f l) = map (fun a => g a (f a)) l.
Proof. induction l as [|a l IH]; [reflexivity|]. cbn [map Simulate.zip_with]. now rewrite IH. Qed.
Lemma map_opt_ext {A B} (f g : A -> option B) l : (forall a, f a = g a) -> map_opt f l = map_opt g l.
Proof. intros H. induction l as [|a l IH]; [reflexivity|]. cbn [map_opt]. now rewrite H, IH. Qed.

Section Exchange.
Context {A : Type} (np : Z) (local : Z -> list seed) (Hnp : 0 < np).
Hypothesis H3 : forall r, 0 <= r < np -> Forall (fun s : seed => length s = 3%nat /\ Forall int_range s) (local r).
Hypothesis Htotal : 3 * sumZ (map (fun r => zlen (local r)) (zrange 0 np)) <= int_max.
Let nax : Z -> list axis := fun _ => [].
Let nod : Z -> list (sobj unit) := fun _ => [].

Lemma swap_steps n s (K : Z -> list (list seed) -> proc A) : gsteps n (ranks np (fun r => K r (doubled local np r)), no_chans) s ->
  gsteps (6 + n) (ranks np (fun r => gen_seedswap r (local r) (K r)), no_chans) s.
Proof.
  intros G. set (szs := map (fun r => 3 * zlen (local r)) (zrange 0 np)).
  assert (sumZ szs <=? int_max = true) as Hs by (apply Z.leb_le; unfold szs; rewrite (sum3 np nax local nod H3); auto).
  assert (zlen szs = np) as Zs by (unfold szs; rewrite BaseL.zlen_map, zlen_zrange; lia).
  set (P5 := fun r => Coll 5 (pd_enc pod_int 1) (fun _ : list msg => K r (doubled local np r))).
  set (P4 := fun r => barrier (P5 r)).
  set (k3 := fun r sizes (bs : list msg) =>
      lift (guard (if list_eq_dec Z.eq_dec (map zlen bs) (map (Z.mul 4) sizes) then true else false)) (fun _ =>
      let block := concat (map (fun b => arr_dec pod_int (Z.to_nat (zlen b / 4)) b) bs) in
      lift (map_opt (fun i => do n <- get sizes i; do got <- seeds_from_buffer block (sumZ (firstn (Z.to_nat i) sizes)) n;
                          Some ((if i =? r then local r else []) ++ got)) (zrange 0 (zlen sizes))) (fun seeds =>
      barrier (Coll 5 (pd_enc pod_int 1) (fun _ => K r seeds))))).
  set (P3 := fun r => Coll 4 (arr_enc pod_int (concat (local r))) (k3 r szs)).
  set (P2 := fun r => barrier (P3 r)).
  set (k1 := fun r (ms : list msg) => let sizes := map (pd_dec pod_int) ms in
      lift (guard (sumZ sizes <=? int_max)) (fun _ => barrier (Coll 4 (arr_enc pod_int (concat (local r))) (k3 r sizes)))).
  set (P1 := fun r => Coll 3 (pd_enc pod_int (3 * zlen (local r))) (k1 r)).
  change (6 + n)%nat with (S (S (S (S (S (S n)))))).
  eapply (coll_gsteps np 0 (fun _ => []) _ (fun r _ => P1 r) P1); [auto| |reflexivity|].
  { intros r Hr. unfold gen_seedswap. rewrite to_buffer_concat by (eapply (L3 np nax local nod H3); eauto). cbn [lift]. rewrite zlen_concat3 by (eapply (L3 np nax local nod H3); eauto).
    assert (3 * zlen (local r) <=? int_max = true) as ->. { apply Z.leb_le. pose proof (size_ok np nax local nod H3 Htotal r Hr). lia. } reflexivity. }
  eapply (coll_gsteps np 3 (fun r => pd_enc pod_int (3 * zlen (local r))) _ k1 P2); [auto|reflexivity| |].
  { intros r Hr. unfold k1, msg. rewrite (sizes_eq np nax local nod H3 Htotal). fold szs. cbv zeta. rewrite Hs. reflexivity. }
  eapply (coll_gsteps np 0 (fun _ => []) _ (fun r _ => P3 r) P3); [auto|reflexivity|reflexivity|].
  eapply (coll_gsteps np 4 (fun r => arr_enc pod_int (concat (local r))) _ (fun r => k3 r szs) P4); [auto|reflexivity| |].
  { intros r Hr. unfold k3, msg. rewrite (block_eq np nax local nod H3). cbv zeta. rewrite Zs.
    assert (map zlen (map (fun r => arr_enc pod_int (concat (local r))) (zrange 0 np)) = map (Z.mul 4) szs) as ->.
    { unfold szs. rewrite !map_map. apply map_ext_in. intros q Hq. apply in_zrange in Hq. rewrite (zlen_arr_enc pod_int int_range) by (auto using pod_int_ok; eapply (ints np local H3); eauto).
      rewrite zlen_concat3 by (eapply (L3 np nax local nod H3); eauto). change (pd_size pod_int) with 4. lia. }
    destruct (list_eq_dec Z.eq_dec (map (Z.mul 4) szs) (map (Z.mul 4) szs)); [|congruence]. cbn [guard lift].
    pose proof (map_opt_post _ (fun i got => (if i =? r then local r else []) ++ got) _ _ (unpack np nax local nod Hnp H3)) as U. fold szs in U.
    erewrite map_opt_ext; [rewrite U|]. 2:{ intros i. cbv beta. destruct (get szs i); reflexivity. } cbn [lift].
    rewrite zip_map_r. unfold P4, P5. do 3 f_equal. unfold doubled.
    replace (map (fun a => (if a =? r then local r else []) ++ local a) (zrange 0 np)) with (map (fun i => (if i =? r then local i else []) ++ local i) (zrange 0 np)); [reflexivity|].
    apply map_ext. intros i. destruct (Z.eqb_spec i r) as [->|]; reflexivity. }
  eapply (coll_gsteps np 0 (fun _ => []) _ (fun r _ => P5 r) P5); [auto|reflexivity|reflexivity|].
  eapply (coll_gsteps np 5 _ _ (fun r _ => K r (doubled local np r)) (fun r => K r (doubled local np r))); [auto|reflexivity|reflexivity|]. exact G.
Qed.
End Exchange.

(* the doubled list: where the first nearest seed is *)
Lemma doubled_concat (local : Z -> list seed) np r : 0 <= r < np -> concat (doubled local np r) =
  concat (map local (zrange 0 r)) ++ local r ++ local r ++ concat (map local (zrange (r + 1) np)).
Proof.
  intros Hr. unfold doubled. rewrite (zrange_app 0 r np), (zrange_cons r np) by lia. rewrite map_app, concat_app. cbn [map concat]. rewrite Z.eqb_refl, <- app_assoc. f_equal; [|do 2 f_equal].
  - f_equal. apply map_ext_in. intros i Hi. apply in_zrange in Hi. destruct (Z.eqb_spec i r); [lia|reflexivity].
  - f_equal. apply map_ext_in. intros i Hi. apply in_zrange in Hi. destruct (Z.eqb_spec i r); [lia|reflexivity].
Qed.
Lemma all_concat (local : Z -> list seed) np r : 0 <= r < np -> concat (map local (zrange 0 np)) = concat (map local (zrange 0 r)) ++ local r ++ concat (map local (zrange (r + 1) np)).
Proof. intros Hr. rewrite (zrange_app 0 r np), (zrange_cons r np) by lia. rewrite map_app, concat_app. reflexivity. Qed.

Lemma get_app_l {A} (l m : list A) k : k < zlen l -> get (l ++ m) k = get l k.
Proof. unfold get, zlen. intros H. destruct (Z.ltb_spec k 0); [reflexivity|]. apply nth_error_app1. lia. Qed.
Lemma get_app_r {A} (l m : list A) k : zlen l <= k -> get (l ++ m) k = get m (k - zlen l).
Proof. unfold get, zlen. intros H. destruct (Z.ltb_spec k 0); [lia|]. destruct (Z.ltb_spec (k - Z.of_nat (length l)) 0); [lia|]. rewrite nth_error_app2 by lia. f_equal. lia. Qed.

Lemma first_nearest_double (pre a post : list seed) x k : first_nearest (pre ++ a ++ post) x k ->
  first_nearest (pre ++ a ++ a ++ post) x (if k <? zlen (pre ++ a) then k else k + zlen a).
Proof.
  unfold seed in *. intros (s & Gs & Ms). rewrite !app_assoc in *. set (n := zlen (pre ++ a)) in *. pose proof (zlen_nonneg a) as Ha.
  (* every position of the doubled list corresponds to one of the other *)
  assert (forall j t, get (((pre ++ a) ++ a) ++ post) j = Some t -> exists j', get ((pre ++ a) ++ post) j' = Some t /\ j' <= j /\ (j < n -> j' = j) /\ (n + zlen a <= j -> j' = j - zlen a) /\ (n <= j < n + zlen a -> j' = j - zlen a)) as C.
  { intros j t Hj. destruct (Z_lt_le_dec j n) as [H1|H1].
    - exists j. rewrite <- app_assoc in Hj. rewrite get_app_l in Hj by exact H1. rewrite get_app_l by exact H1. split; [auto|]. lia.
    - exists (j - zlen a). split; [|lia]. rewrite <- app_assoc in Hj. rewrite get_app_r in Hj by exact H1. fold n in Hj. destruct (Z_lt_le_dec (j - n) (zlen a)) as [H2|H2].
      + rewrite get_app_l in Hj by exact H2. rewrite <- app_assoc. assert (n = zlen pre + zlen a) as En by (unfold n; apply zlen_app). rewrite get_app_r by lia. rewrite get_app_l by lia. rewrite <- Hj. f_equal. lia.
      + rewrite get_app_r in Hj by exact H2. rewrite get_app_r by (fold n; lia). fold n. rewrite <- Hj. f_equal. lia. }
  exists s. split.
  - destruct (Z.ltb_spec k n) as [H1|H1].
    + rewrite get_app_l in Gs by exact H1. rewrite <- app_assoc. now rewrite get_app_l by exact H1.
    + rewrite get_app_r in Gs by exact H1. rewrite <- app_assoc. rewrite get_app_r by (fold n; lia). fold n. fold n in Gs. rewrite get_app_r by lia. rewrite <- Gs. f_equal. lia.
  - intros j t Hj. destruct (C j t Hj) as (j' & Gj & Lj & C1 & C2 & C3). destruct (Ms j' t Gj) as [M1 M2]. split; [auto|]. intros Hlt. apply M2. destruct (Z.ltb_spec k n); lia.
Qed.
Lemma first_nearest_unique seeds x k k' : first_nearest seeds x k -> first_nearest seeds x k' -> k = k'.
Proof.
  intros (s & G & M) (s' & G' & M'). destruct (M k' s' G') as [A B], (M' k s G) as [A' B']. destruct (Z.lt_trichotomy k k') as [H|[H|H]]; [specialize (B' H); lia|auto|specialize (B H); lia].
Qed.

Lemma tess_first (seeds : list seed) x : seeds <> [] -> exists k, first_nearest seeds x k.
Proof.
  induction seeds as [|s t IH]; [congruence|]. intros _. destruct t as [|s' t'].
  - exists 0, s. split; [reflexivity|]. intros j u Hj. assert (j = 0) as -> by (apply HeapL.get_range in Hj; unfold zlen in Hj; simpl in Hj; lia). inversion Hj. lia.
  - destruct IH as (k & u & Gu & M); [discriminate|]. assert (forall j, 0 <= j -> get (s :: s' :: t') (j + 1) = get (s' :: t') j) as Sh.
    { intros j Hj. change (s :: s' :: t') with ([s] ++ s' :: t'). rewrite get_app_r by (unfold zlen; simpl; lia). f_equal. unfold zlen; simpl; lia. }
    pose proof (HeapL.get_range _ _ _ Gu) as Ru. destruct (Z_le_gt_dec (dist2 x s) (dist2 x u)) as [H|H].
    + exists 0, s. split; [reflexivity|]. intros j v Hj. pose proof (HeapL.get_range _ _ _ Hj). destruct (Z.eq_dec j 0) as [->|]; [inversion Hj; lia|].
      replace j with (j - 1 + 1) in Hj by lia. rewrite Sh in Hj by lia. destruct (M _ _ Hj). lia.
    + exists (k + 1), u. split; [rewrite Sh by lia; auto|]. intros j v Hj. pose proof (HeapL.get_range _ _ _ Hj). destruct (Z.eq_dec j 0) as [->|]; [inversion Hj; subst; lia|].
      replace j with (j - 1 + 1) in Hj by lia. rewrite Sh in Hj by lia. destruct (M _ _ Hj). split; [auto|]. intros. assert (dist2 x u < dist2 x v) by (match goal with F : _ -> dist2 x u < _ |- _ => apply F; lia end). lia.
Qed.

Theorem gen_tessellation {T} (N : num T) (one : T) np gs gh bs (local : Z -> list seed) (data : Z -> list (sobj T)) :
  0 < np -> gs <> [] -> (length gs <= 3)%nat -> gok gs -> 0 <= gh -> length bs = length gs ->
  sumZ (map (fun g => glen g ^ 2) gs) <= int_max ->
  (forall r, 0 <= r < np -> Forall (domain_seed gs) (local r)) ->
  concat (map local (zrange 0 np)) <> [] -> 3 * sumZ (map (fun r => zlen (local r)) (zrange 0 np)) <= int_max ->
  (forall r ge, 0 <= r < np -> setup_mpi np gs gh r = Some ge -> zlen (data r) = cells (ge_axes ge) /\ Forall (fun o => o = []) (data r)) ->
  exists D' f, finished np (fun r => (doubled local np r, D' r)) f /\
    inevitable (ranks np (fun r => lift (setup_mpi np gs gh r) (fun ge =>
       gen_tessellate N one r (ge_axes (with_bounds set_bounds_axis bs ge)) (local r) (data r))), no_chans) f /\
    forall r ge x, 0 <= r < np -> setup_mpi np gs gh r = Some ge -> owns ge x ->
      exists k, first_nearest (concat (map local (zrange 0 np))) x k /\
        grid_read true (ge_axes (with_bounds set_bounds_axis bs ge)) (D' r) x =
          Some [Some (if k <? zlen (concat (map local (zrange 0 (r + 1)))) then k else k + zlen (local r), one)].
Proof.
  intros Hnp Hne H3 Hg Hgh Lb Hsq HL NE Ht HD.
  assert (forall r, 0 <= r < np -> exists ge, setup_mpi np gs gh r = Some ge) as SG.
  { intros r Hr. destruct (setup_eq np gs gh r Hnp Hne Hg Hr) as (p & _ & _ & _ & _ & S4). eauto. }
  set (axs := fun r => match setup_mpi np gs gh r with Some ge => ge_axes (with_bounds set_bounds_axis bs ge) | None => [] end).
  set (all := map local (zrange 0 np)) in *.
  assert (forall r, 0 <= r < np -> exists d', exact_voronoi N one true (axs r) (doubled local np r ++ [[]]) (data r) = Some d' /\
    forall ge x, setup_mpi np gs gh r = Some ge -> owns ge x -> exists k, first_nearest (concat (doubled local np r)) x k /\ grid_read true (axs r) d' x = Some [Some (k, one)]) as V.
  { intros r Hr. assert (concat (doubled local np r ++ [[]]) = concat (doubled local np r)) as EC by (rewrite concat_app; simpl; now rewrite app_nil_r).
    destruct (SG r Hr) as [ge Ege]. destruct (rank_geometry np gs gh bs r ge Hnp Hne Hg Hr Lb Ege) as (ls & El & Ll & Ol & IP & G0 & G1 & X0 & X1 & Cl & _).
    unfold axs. rewrite Ege. rewrite El. destruct (HD r ge Hr Ege) as [Dl De].
    assert (forall s, In s (concat (doubled local np r)) <-> In s (concat all)) as EI.
    { intros s. rewrite (doubled_concat local np r Hr). unfold all. rewrite (all_concat local np r Hr). rewrite !in_app_iff. tauto. }
    assert (forall s, In s (concat (doubled local np r)) -> domain_seed gs s) as DS.
    { intros s Hs. apply EI in Hs. apply in_concat in Hs as (l & Hl & Hs). unfold all in Hl. apply in_map_iff in Hl as (q & <- & Hq). apply in_zrange in Hq.
      specialize (HL q Hq). rewrite Forall_forall in HL. auto. }
    destruct (voronoi N one true gh ls (doubled local np r ++ [[]]) (data r)) as (d' & E & _ & V).
    - lia.
    - discriminate.
    - auto.
    - congruence.
    - auto.
    - congruence.
    - eapply Forall_impl; [|exact De]. intros o ->. now exists [].
    - rewrite EC. intros E0. apply NE. destruct (concat all) as [|s t] eqn:Ea; [auto|]. exfalso. assert (In s (concat (doubled local np r))) as I by (apply EI; left; auto). rewrite E0 in I. destruct I.
    - rewrite EC. apply Forall_forall. intros s Hs. destruct (DS s Hs) as (A & _ & B). split; [auto|]. rewrite G0, G1, length_lay, Ll. exact B.
    - intros x s Hx Hs. rewrite EC in Hs. destruct (DS s Hs) as (_ & _ & B). eapply Z.lt_le_trans; [|exact Hsq]. apply dist2_bound; auto.
      eapply (owned_inside np gs gh r ge); eauto. unfold owns. now rewrite <- X0, <- X1.
    - exists d'. split; [exact E|]. intros ge' x E' Ox. inversion E'; subst ge'. unfold owns in Ox. rewrite <- X0, <- X1 in Ox.
      destruct (V x Ox) as (k & l & K1 & K2 & K3). exists k. rewrite EC in K1. split; [auto|]. rewrite K3.
      assert (l = []) as ->; [|reflexivity]. unfold grid_read in K2. destruct (addr_vec true (lay gh ls) x 0) as [a|]; [|discriminate]. cbn [bind] in K2.
      unfold get in K2. destruct (a <? 0); [discriminate|]. apply nth_error_In in K2. rewrite Forall_forall in De. apply De in K2. destruct l; [auto|discriminate]. }
  set (D' := fun r => match exact_voronoi N one true (axs r) (doubled local np r ++ [[]]) (data r) with Some d => d | None => [] end).
  destruct (conclude np (fun r => gen_tessellate N one r (axs r) (local r) (data r)) (fun r => (doubled local np r, D' r)) 7 no_chans no_chans Hnp quiet_empty) as (f & F1 & F2).
  { apply (swap_steps np local Hnp) with (K := fun r seeds => lift (exact_voronoi N one true (axs r) (seeds ++ [[]]) (data r)) (fun data => barrier (Ret (seeds, data)))) (n := 1%nat).
    - intros r Hr. eapply Forall_impl; [|apply HL; auto]. intros s (A & B & _). auto.
    - exact Ht.
    - eapply (coll_gsteps np 0 (fun _ => []) _ (fun r _ => Ret (doubled local np r, D' r)) (fun r => Ret (doubled local np r, D' r))); [auto| |reflexivity|constructor].
      intros r Hr. unfold D'. destruct (V r Hr) as (d' & E & _). rewrite E. reflexivity. }
  exists D', f. split; [exact F1|]. split.
  - erewrite ranks_ext; [exact F2|]. intros r Hr. destruct (SG r Hr) as [ge Ege]. unfold axs. rewrite Ege. reflexivity.
  - intros r ge x Hr Ege Ox. destruct (V r Hr) as (d' & E & W). destruct (W ge x Ege Ox) as (k' & K1 & K2).
    destruct (tess_first (concat all) x NE) as [k Hk]. exists k. split; [auto|]. unfold all in Hk. rewrite (all_concat local np r Hr) in Hk. apply first_nearest_double in Hk.
    rewrite (doubled_concat local np r Hr) in K1. pose proof (first_nearest_unique _ _ _ _ K1 Hk) as ->. unfold D'. rewrite E. unfold axs in K2. rewrite Ege in K2. rewrite K2.
    rewrite (zrange_snoc 0 r) by lia. rewrite map_app, concat_app. cbn [map concat]. rewrite app_nil_r. reflexivity.
Qed.
