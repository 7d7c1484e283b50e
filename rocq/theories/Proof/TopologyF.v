From Coq Require Import QArith.QArith QArith.Qcanon Sorting.Sorted Sorting.Permutation.
From Verif Require Import Model.Base Model.Stencil Model.Evolve Model.Topology Spec.Stencil Spec.Topology Proof.BaseL Proof.StencilL Proof.EvolveL Proof.GrainsizeL Proof.TopologyL.
Local Open Scope Z_scope.
Local Open Scope list_scope.

Definition holds (f : Z) (e : list Z) : bool := if in_dec Z.eq_dec f e then true else false.
Lemma sorted_nodup e : StronglySorted Z.lt e -> NoDup e.
Proof. intros H. apply (inc_nodup Z.ltb order_Z). now apply inc_of_sorted. Qed.
Lemma occurrences f e : NoDup e -> forall p, fold_left (fun p s => if s =? f then p + 1 else p) e p = p + (if holds f e then 1 else 0).
Proof.
  unfold holds. induction 1 as [|x e Hx Hn IH]; intros p; cbn [fold_left]; [destruct (in_dec _ f []) as [[]|]; lia|]. rewrite IH.
  destruct (Z.eqb_spec x f) as [->|N].
  - destruct (in_dec _ f e) as [|]; [contradiction|]. destruct (in_dec _ f (f :: e)) as [|N]; [lia|]. elim N. simpl; auto.
  - destruct (in_dec _ f e) as [i|n], (in_dec _ f (x :: e)) as [j|k]; try lia; [elim k; simpl; auto|]. destruct j; [congruence|contradiction].
Qed.
Lemma side_count_eq es f : (forall e, In e (map fst es) -> NoDup e) -> side_count es f = zlen (filter (holds f) (map fst es)).
Proof.
  unfold side_count. intros H.
  assert (forall p, fold_left (fun p (eit : list Z * list (list Z)) => fold_left (fun p s => if s =? f then p + 1 else p) (fst eit) p) es p = p + zlen (filter (holds f) (map fst es))) as X; [|rewrite X; lia].
  induction es as [|it es IH]; intros p; cbn [fold_left map filter]; [unfold zlen; cbn [length]; lia|].
  rewrite occurrences by (apply H; simpl; auto). rewrite IH by (intros; apply H; simpl; auto). destruct (holds f (fst it)); [rewrite zlen_cons|]; lia.
Qed.
Lemma perm_filter {A} (P : A -> bool) l l' : Permutation l l' -> Permutation (filter P l) (filter P l').
Proof.
  induction 1; cbn; auto.
  - destruct (P x); auto.
  - destruct (P x), (P y); auto. constructor.
  - etransitivity; eauto.
Qed.
Lemma perm_zlen {A} (l l' : list A) : Permutation l l' -> zlen l = zlen l'.
Proof. intros H. unfold zlen. now rewrite (Permutation_length H). Qed.
Section Inv.
Context (h : list act) (g : grain) (I : inv h g).
Lemma faces_perm : Permutation (faces g) (neighbours h).
Proof.
  apply NoDup_Permutation; [apply (inc_nodup _ order_Z), I|apply NoDup_nodup|]. apply I.
Qed.
Lemma edges_perm : Permutation (map fst (edges g)) (boundaries h).
Proof.
  apply NoDup_Permutation; [apply (inc_nodup _ order_lex), I|apply NoDup_nodup|]. apply I.
Qed.
Lemma sides_eq f : side_count (edges g) f = sides h f.
Proof.
  rewrite side_count_eq by (intros; now apply sorted_nodup, (i_sets _ _ I)). unfold sides. apply perm_zlen. apply perm_filter. exact edges_perm.
Qed.
Lemma num_faces_eq : num_faces g = zlen (neighbours h).
Proof. apply perm_zlen, faces_perm. Qed.
Lemma num_edges_eq : num_edges g = zlen (boundaries h).
Proof. unfold num_edges. rewrite <- (perm_zlen _ _ edges_perm). now rewrite BaseL.zlen_map. Qed.
Lemma has_edge_eq e : has_edge g e = true <-> In e (boundaries h).
Proof.
  unfold has_edge. rewrite <- (i_edges_in _ _ I), existsb_exists, in_map_iff. unfold same_set. split.
  - intros (it & Hit & E). destruct (list_eq_dec _ _ _); [|discriminate]. eauto.
  - intros (it & <- & Hit). exists it. split; auto. destruct (list_eq_dec _ _ _); auto.
Qed.
End Inv.
Lemma sides_nonneg h f : 0 <= sides h f.
Proof. apply zlen_nonneg. Qed.

(* the p-vector *)
Lemma nth_repeat0 n j : nth j (repeat 0 n) 0 = 0.
Proof. revert j. induction n; intros [|j]; cbn; auto. Qed.
Lemma nth_pad (l : list Z) n j : nth j (l ++ repeat 0 n) 0 = nth j l 0.
Proof.
  destruct (Nat.lt_ge_cases j (length l)) as [H|H]; [now rewrite app_nth1|]. rewrite app_nth2, nth_repeat0 by lia. now rewrite nth_overflow.
Qed.
Lemma nth_set_nth (l : list Z) n j v : (n < length l)%nat -> nth j (set_nth n l v) 0 = if Nat.eqb j n then v else nth j l 0.
Proof.
  revert n j. induction l as [|x l IH]; intros [|n] [|j] H; cbn in *; try lia; auto. apply IH. lia.
Qed.
Lemma sum_set_nth (l : list Z) n v : (n < length l)%nat -> sumZ (set_nth n l v) = sumZ l - nth n l 0 + v.
Proof.
  revert n. induction l as [|x l IH]; intros [|n] H; cbn [set_nth nth length] in *; rewrite ?sumZ_cons; try lia. rewrite IH by lia. lia.
Qed.
Lemma sum_pad l n : sumZ (l ++ repeat 0 n) = sumZ l.
Proof. induction l as [|x l IH]; cbn [app]; [induction n; cbn [repeat]; rewrite ?sumZ_cons; auto|rewrite !sumZ_cons; lia]. Qed.
Lemma set_nth_length {A} n (l : list A) v : length (set_nth n l v) = length l.
Proof. revert n. induction l; intros [|n]; cbn; auto. Qed.
Lemma bump_eq pv p : 0 <= p -> exists q, (Z.to_nat p < length q)%nat /\ q = pv ++ repeat 0 (Z.to_nat (p + 1 - zlen pv)) /\ bump pv p = set_nth (Z.to_nat p) q (nth (Z.to_nat p) q 0 + 1).
Proof.
  intros H. set (q := pv ++ repeat 0 (Z.to_nat (p + 1 - zlen pv))). assert ((Z.to_nat p < length q)%nat) as L.
  { unfold q. rewrite app_length, repeat_length. unfold zlen. lia. }
  exists q. repeat split; auto. unfold bump. fold q. unfold get. replace (p <? 0) with false by (symmetry; apply Z.ltb_ge; lia).
  rewrite (nth_error_nth' q 0 L). reflexivity.
Qed.
Lemma nth_bump pv p j : 0 <= p -> nth j (bump pv p) 0 = nth j pv 0 + (if Z.of_nat j =? p then 1 else 0).
Proof.
  intros H. destruct (bump_eq pv p H) as (q & L & Eq & ->). rewrite nth_set_nth by auto. subst q. rewrite !nth_pad.
  destruct (Nat.eqb_spec j (Z.to_nat p)) as [E|N], (Z.eqb_spec (Z.of_nat j) p) as [E'|E']; subst; lia.
Qed.
Lemma sum_bump pv p : 0 <= p -> sumZ (bump pv p) = sumZ pv + 1.
Proof. intros H. destruct (bump_eq pv p H) as (q & L & Eq & ->). rewrite sum_set_nth by auto. subst q. rewrite nth_pad, sum_pad. lia. Qed.
Lemma len_bump pv p : 0 <= p -> zlen (bump pv p) = Z.max (zlen pv) (p + 1).
Proof. intros H. destruct (bump_eq pv p H) as (q & L & Eq & ->). unfold zlen. rewrite set_nth_length. subst q. rewrite app_length, repeat_length. unfold zlen. lia. Qed.

Section Count.
Context (s : Z -> Z) (Hs : forall f, 0 <= s f).
Definition tally fs pv := fold_left (fun pv f => bump pv (s f)) fs pv.
Lemma tally_nth fs j : forall pv, nth j (tally fs pv) 0 = nth j pv 0 + zlen (filter (fun f => s f =? Z.of_nat j) fs).
Proof.
  induction fs as [|f fs IH]; intros pv; cbn [tally fold_left filter]; [unfold zlen; cbn [length]; lia|]. fold (tally fs (bump pv (s f))). rewrite IH, nth_bump by auto.
  rewrite Z.eqb_sym. destruct (s f =? Z.of_nat j); rewrite ?zlen_cons; lia.
Qed.
Lemma tally_sum fs : forall pv, sumZ (tally fs pv) = sumZ pv + zlen fs.
Proof. induction fs as [|f fs IH]; intros pv; cbn [tally fold_left]; [unfold zlen; cbn [length]; lia|]. fold (tally fs (bump pv (s f))). rewrite IH, sum_bump, zlen_cons by auto. lia. Qed.
Lemma tally_len fs n : forall pv, n <= zlen (tally fs pv) <-> n <= zlen pv \/ exists f, In f fs /\ n <= s f + 1.
Proof.
  induction fs as [|f fs IH]; intros pv; cbn [tally fold_left]; [firstorder|]. fold (tally fs (bump pv (s f))). rewrite IH, len_bump by auto. split.
  - intros [H|(x & Hx & H)]; [|right; exists x; simpl; auto]. destruct (Z.max_spec (zlen pv) (s f + 1)) as [[_ E]|[_ E]]; rewrite E in H; [right; exists f; simpl; auto|auto].
  - intros [H|(x & [->|Hx] & H)]; [left|left|right; eauto]; lia.
Qed.
(* the sum of i * pvec[i] *)
Definition weigh i (pv : list Z) := fold_left (fun '(c, a, i) n => (c + n, a + n * i, i + 1)) pv (0, 0, i).
Fixpoint moment (i : Z) (pv : list Z) : Z := match pv with [] => 0 | n :: r => n * i + moment (i + 1) r end.
Lemma weigh_eq pv : forall c a i, fold_left (fun '(c, a, i) n => (c + n, a + n * i, i + 1)) pv (c, a, i) = (c + sumZ pv, a + moment i pv, i + zlen pv).
Proof.
  induction pv as [|n pv IH]; intros c a i; cbn [fold_left moment]; [unfold zlen; cbn [length]; change (sumZ []) with 0; repeat f_equal; lia|].
  rewrite IH, sumZ_cons, zlen_cons. f_equal; [f_equal|]; lia.
Qed.
Lemma moment_set pv n v : forall i, (n < length pv)%nat -> moment i (set_nth n pv v) = moment i pv + (v - nth n pv 0) * (i + Z.of_nat n).
Proof.
  revert n. induction pv as [|x pv IH]; intros [|n] i H; cbn [length set_nth moment nth] in *; try lia. rewrite IH by lia. lia.
Qed.
Lemma moment_pad pv n : forall i, moment i (pv ++ repeat 0 n) = moment i pv.
Proof. induction pv as [|x pv IH]; intros i; cbn [app moment]; [revert i; induction n; intros i; cbn [repeat moment]; rewrite ?IHn; lia|rewrite IH; lia]. Qed.
Lemma moment_bump pv p : 0 <= p -> moment 0 (bump pv p) = moment 0 pv + p.
Proof. intros H. destruct (bump_eq pv p H) as (q & L & Eq & ->). rewrite moment_set by auto. subst q. rewrite nth_pad, moment_pad. lia. Qed.
Lemma tally_moment fs : forall pv, moment 0 (tally fs pv) = moment 0 pv + sumZ (map s fs).
Proof. induction fs as [|f fs IH]; intros pv; cbn [tally fold_left map]; [change (sumZ []) with 0; lia|]. fold (tally fs (bump pv (s f))). rewrite IH, moment_bump, sumZ_cons by auto. lia. Qed.
End Count.

(* every edge is counted once for each of its ends *)
Lemma count_ends (fs : list Z) (es : list (list Z)) : NoDup fs ->
  (forall e, In e es -> NoDup e /\ forall x, In x e -> In x fs) ->
  sumZ (map (fun f => zlen (filter (holds f) es)) fs) = sumZ (map zlen es).
Proof.
  intros N. induction es as [|e es IH]; intros H; cbn [filter map].
  - change (sumZ []) with 0. clear N H. induction fs; cbn [map]; rewrite ?sumZ_cons; auto.
  - rewrite sumZ_cons, <- IH by (intros; apply H; simpl; auto). destruct (H e ltac:(simpl; auto)) as [Ne Ie]. clear IH H.
    assert (sumZ (map (fun f => zlen (if holds f e then e :: filter (holds f) es else filter (holds f) es)) fs) = zlen (filter (fun f => holds f e) fs) + sumZ (map (fun f => zlen (filter (holds f) es)) fs)) as ->.
    { clear. induction fs as [|f fs IH]; cbn [map filter]; [reflexivity|]. rewrite !sumZ_cons, IH. destruct (holds f e); rewrite ?zlen_cons; lia. }
    f_equal. apply perm_zlen. apply NoDup_Permutation; auto using NoDup_filter. intros x. rewrite filter_In. unfold holds. destruct (in_dec _ x e); split; intuition (auto; discriminate).
Qed.

(* the vertices *)
Definition found (g : grain) (e : idset) (v : idset) : Prop :=
  exists a b r c, e = a :: b :: r /\ In c (faces g) /\ c <> a /\ c <> b /\
    has_edge g (oinsert Z.ltb c (oinsert Z.ltb a [])) = true /\ has_edge g (oinsert Z.ltb c (oinsert Z.ltb b [])) = true /\ v = idset_of [a; b; c].
Lemma infer_ok g : 3 <= num_edges g -> 3 <= num_faces g -> (forall e, In e (map fst (edges g)) -> exists a b r, e = a :: b :: r /\ a <> b) ->
  exists g' , infer_vertices 3 g = Some (g', num_verts g') /\ same_shape g g' /\ vert_check g' = true /\ face_check g' = face_check g /\
    NoDup (vertices g') /\ forall v, In v (vertices g') <-> exists e, In e (map fst (edges g)) /\ found g e v.
Proof.
  intros H1 H2 H3. set (g1 := set_checks g (face_check g) true).
  assert (exists vs, fold_opt (fun vs (eit : idset * list (list Z)) =>
        do a <- get (fst eit) 0;
        do b <- get (fst eit) 1;
        do _ <- guard (negb (a =? b));
        fold_opt (fun vs c =>
          if (c =? a) || (c =? b) then Some vs
          else
            let pair_a := oinsert Z.ltb c (oinsert Z.ltb a []) in
            let pair_b := oinsert Z.ltb c (oinsert Z.ltb b []) in
            if has_edge g1 pair_a && has_edge g1 pair_b
            then Some (oinsert lexlt (idset_of [a; b; c]) vs) else Some vs) (faces g1) vs) (edges g1) [] = Some vs /\
        inc lexlt vs /\ forall v, In v vs <-> exists e, In e (map fst (edges g)) /\ found g e v) as (vs & E & Ei & Em).
  { apply (fold_inv_done _ (fun d vs => inc lexlt vs /\ forall v, In v vs <-> exists e, In e (map fst d) /\ found g e v)).
    2: { split; [constructor|]. intros v. split; [intros []|]. intros (e & [] & _). }
    intros d vs it (r & Er) [Hi Hm]. change (edges g1) with (edges g) in Er.
    destruct (H3 (fst it)) as (a & b & t & Ee & Nab). { rewrite Er, map_app. apply in_or_app. right. simpl. auto. }
    rewrite Ee. cbn [get]. change (get (a :: b :: t) 0) with (Some a). change (get (a :: b :: t) 1) with (Some b). cbn [bind].
    replace (a =? b) with false by (symmetry; now apply Z.eqb_neq). cbn [negb guard bind].
    edestruct (fold_inv_done (fun vs c =>
          if (c =? a) || (c =? b) then Some vs
          else
            let pair_a := oinsert Z.ltb c (oinsert Z.ltb a []) in
            let pair_b := oinsert Z.ltb c (oinsert Z.ltb b []) in
            if has_edge g1 pair_a && has_edge g1 pair_b
            then Some (oinsert lexlt (idset_of [a; b; c]) vs) else Some vs)
       (fun dn vs => inc lexlt vs /\ forall v, In v vs <-> (exists e, In e (map fst d) /\ found g e v) \/
          exists c, In c dn /\ c <> a /\ c <> b /\ has_edge g (oinsert Z.ltb c (oinsert Z.ltb a [])) = true /\ has_edge g (oinsert Z.ltb c (oinsert Z.ltb b [])) = true /\ v = idset_of [a; b; c])
       (faces g1)) as (vs' & E' & Hi' & Hm').
    - intros dn s c _ [Si Sm]. cbn zeta. destruct ((c =? a) || (c =? b)) eqn:Eab.
      + exists s. split; auto. split; auto. intros v. rewrite Sm. split; (intros [K|(c' & K & R)]; [auto|right]); [exists c'; rewrite in_app_iff; auto|].
        apply in_app_or in K. destruct K as [K|[->|[]]]; [eauto|]. apply orb_prop in Eab. destruct Eab as [Q|Q]; apply Z.eqb_eq in Q; subst; tauto.
      + apply orb_false_elim in Eab. destruct Eab as [Na Nb]. apply Z.eqb_neq in Na, Nb. change (has_edge g1) with (has_edge g).
        destruct (has_edge g _ && has_edge g _) eqn:Eh; eexists; (split; [reflexivity|]).
        * split; [apply inc_oinsert; auto using order_lex|]. apply andb_prop in Eh. destruct Eh as [Ha Hb]. intros v. rewrite in_oinsert by apply order_lex. rewrite Sm. split.
          -- intros [->|[K|(c' & K & R)]]; [right; exists c; rewrite in_app_iff; simpl; tauto|auto|right; exists c'; rewrite in_app_iff; auto].
          -- intros [K|(c' & K & R)]; [auto|]. apply in_app_or in K. destruct K as [K|[<-|[]]]; [right; right; eauto|]. left. tauto.
        * split; auto. intros v. rewrite Sm. split; (intros [K|(c' & K & R)]; [auto|right]); [exists c'; rewrite in_app_iff; auto|].
          apply in_app_or in K. destruct K as [K|[->|[]]]; [eauto|]. destruct R as (_ & _ & R1 & R2 & _). rewrite R1, R2 in Eh. discriminate.
    - split; [exact Hi|]. intros v. rewrite Hm. split; [auto|]. intros [K|(c & [] & _)]. exact K.
    - exists vs'. split; [exact E'|]. split; auto. intros v. rewrite Hm'. rewrite map_app. cbn [map]. split.
      + intros [(e & K1 & K2)|(c & K & K1 & K2 & K3 & K4 & K5)]; [exists e; rewrite in_app_iff; auto|]. exists (fst it). split; [rewrite in_app_iff; simpl; auto|]. exists a, b, t, c. tauto.
      + intros (e & K1 & K2). apply in_app_or in K1. destruct K1 as [K1|[<-|[]]]; [eauto|]. right. destruct K2 as (a' & b' & t' & c & Q & K). rewrite Ee in Q. inversion Q; subst.
        exists c. tauto. }
  unfold infer_vertices. cbv zeta. fold g1. change (3 =? 2) with false. cbv iota. cbv zeta in E.
  change (num_edges g1) with (num_edges g). change (num_faces g1) with (num_faces g).
  replace (num_edges g <? 3) with false by (symmetry; apply Z.ltb_ge; lia). replace (num_faces g <? 3) with false by (symmetry; apply Z.ltb_ge; lia).
  rewrite E. cbn [bind]. eexists. split; [reflexivity|]. repeat split; auto; [apply (inc_nodup _ order_lex), Ei|..]; apply Em.
Qed.

Lemma pair_set a c : a <> c -> oinsert Z.ltb c (oinsert Z.ltb a []) = if a <? c then [a; c] else [c; a].
Proof.
  intros N. cbn. destruct (Z.ltb_spec c a), (Z.ltb_spec a c); auto; lia.
Qed.
Lemma triple_set a b c : a < b -> c <> a -> c <> b -> idset_of [a; b; c] = if c <? a then [c; a; b] else if c <? b then [a; c; b] else [a; b; c].
Proof.
  intros H N1 N2. unfold idset_of. cbn [fold_left oinsert]. replace (b <? a) with false by (symmetry; apply Z.ltb_ge; lia). replace (a <? b) with true by (symmetry; apply Z.ltb_lt; lia).
  cbn [oinsert]. destruct (Z.ltb_spec c a); auto. destruct (Z.ltb_spec a c); [|lia]. destruct (Z.ltb_spec c b); auto. destruct (Z.ltb_spec b c); [auto|lia].
Qed.
Lemma corner_found h g v : inv h g -> paired h -> (corner h v <-> exists e, In e (map fst (edges g)) /\ found g e v).
Proof.
  intros I P. split.
  - intros (a & b & c & -> & L & Hab & Hac & Hbc). exists [a; b]. rewrite (i_edges_in _ _ I). split; auto. exists a, b, [], c.
    rewrite !pair_set, triple_set by lia. replace (a <? c) with true by (symmetry; apply Z.ltb_lt; lia). replace (b <? c) with true by (symmetry; apply Z.ltb_lt; lia).
    replace (c <? a) with false by (symmetry; apply Z.ltb_ge; lia). replace (c <? b) with false by (symmetry; apply Z.ltb_ge; lia).
    rewrite (has_edge_eq h g I [a; c]), (has_edge_eq h g I [b; c]), (i_faces_in _ _ I). destruct (P _ Hbc) as (x & y & E & _ & _ & Hy). inversion E; subst. repeat split; auto; lia.
  - intros (e & He & a & b & r & c & E & Hc & Na & Nb & Ha & Hb & ->). subst e. rewrite (i_edges_in _ _ I) in He. destruct (P _ He) as (x & y & E & L & _). injection E as -> -> ->.
    rewrite pair_set in Ha, Hb by lia. rewrite (has_edge_eq h g I) in Ha, Hb. rewrite triple_set by lia. unfold corner.
    destruct (Z.ltb_spec c x); destruct (Z.ltb_spec x c); try lia.
    + destruct (Z.ltb_spec y c); try lia. exists c, x, y. repeat split; auto; lia.
    + destruct (Z.ltb_spec c y), (Z.ltb_spec y c); try lia; [exists x, c, y|exists x, y, c]; repeat split; auto; lia.
Qed.

(* compute_topology on a grain with edges *)
Lemma tally_ext s s' fs pv : (forall f, s f = s' f) -> tally s fs pv = tally s' fs pv.
Proof. intros H. unfold tally. revert pv. induction fs; intros pv; cbn [fold_left]; auto. rewrite H. apply IHfs. Qed.
Lemma make_eq h g : inv h g -> face_check g = true -> vert_check g = true -> boundaries h <> [] ->
  make_pvector 3 g = let pv := tally (sides h) (faces g) [0] in
    do n <- get pv 1; do _ <- guard (n =? 0); Some (set_topo g (faces g) pv (vertices g) (edges g), zlen pv).
Proof.
  intros I F V B. unfold make_pvector. rewrite F. cbn [bind]. rewrite V. cbn [bind]. change (3 =? 2) with false. cbn iota.
  rewrite (num_edges_eq _ _ I). replace (zlen (boundaries h) =? 0) with false; [|symmetry; apply Z.eqb_neq; destruct (boundaries h); [easy|rewrite zlen_cons; pose proof (zlen_nonneg l0 ); lia]].
  fold (tally (side_count (edges g)) (faces g) [0]). rewrite (tally_ext _ (sides h)) by (intros; apply (sides_eq _ _ I)). reflexivity.
Qed.
Lemma tally_one h g : inv h g -> nth 1 (tally (sides h) (faces g) [0]) 0 = faces_with h 1.
Proof.
  intros I. rewrite tally_nth by (intros; apply sides_nonneg). cbn [nth]. unfold faces_with. rewrite (perm_zlen _ _ (perm_filter _ _ _ (faces_perm _ _ I))). change (Z.of_nat 1) with 1. lia.
Qed.
Lemma make_spec h g g' n : inv h g -> face_check g = true -> vert_check g = true -> boundaries h <> [] -> make_pvector 3 g = Some (g', n) ->
  pvector g' = tally (sides h) (faces g) [0] /\ n = zlen (pvector g') /\ faces_with h 1 = 0.
Proof.
  intros I F V B. rewrite (make_eq h) by auto. cbn zeta. destruct (get _ 1) as [m|] eqn:E; cbn [bind]; [|discriminate]. destruct (m =? 0) eqn:Em; cbn [guard bind]; [|discriminate].
  intros H; inversion H; subst; cbn. repeat split; auto. rewrite <- (tally_one h g I). unfold get in E. cbn in E. apply Z.eqb_eq in Em. subst. now apply nth_error_nth.
Qed.
Lemma make_success h g : inv h g -> face_check g = true -> vert_check g = true -> paired h -> boundaries h <> [] -> faces_with h 1 = 0 -> exists r, make_pvector 3 g = Some r.
Proof.
  intros I F V P B Z1. rewrite (make_eq h) by auto. cbn zeta. set (pv := tally _ _ _).
  assert (2 <= zlen pv) as L.
  { apply tally_len; [intros; apply sides_nonneg|]. right. destruct (boundaries h) as [|e r] eqn:Eb; [easy|]. destruct (P e) as (a & b & -> & L & Ha & Hb); [rewrite Eb; simpl; auto|].
    exists a. split; [now apply (i_faces_in _ _ I)|]. unfold sides. rewrite Eb. cbn [filter]. destruct (in_dec _ a [a; b]) as [i|n]; [|elim n; simpl; auto].
    rewrite zlen_cons. pose proof (zlen_nonneg (filter (fun e => if in_dec Z.eq_dec a e then true else false) r)). lia. }
  rewrite (BaseL.get_nth pv 1 0) by lia. cbn [bind]. change (Z.to_nat 1) with 1%nat. unfold pv. rewrite (tally_one h g I), Z1. cbn. eauto.
Qed.
