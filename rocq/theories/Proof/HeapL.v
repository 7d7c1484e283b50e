From Coq Require Import Permutation.
From Verif Require Import Model.Base Model.Boundary Model.Layout Model.Access Model.Setup Model.Num Model.Sparse Model.Codec Model.MPI Model.Ghostswap Model.Simulate Model.Tessellate Model.FastMarch
  Proof.BaseL Proof.SparseL Proof.TessellateL Proof.FastMarchL.

(* ---- the binary heap of priority_queue.h keeps its order, and its back pointers except that of the first element ---- *)
Lemma get_in_range {A} (l : list A) i : 0 <= i < zlen l -> exists a, get l i = Some a.
Proof. intros H. destruct (get l i) as [a|] eqn:E; [eauto|]. exfalso. unfold get in E. destruct (Z.ltb_spec i 0); [lia|]. apply nth_error_None in E. unfold zlen in H. lia. Qed.
Lemma get_range {A} (l : list A) i a : get l i = Some a -> 0 <= i < zlen l.
Proof. intros H. eapply get_some_iff; eauto. Qed.
Lemma get_inj {A} (l : list A) i j a : NoDup l -> get l i = Some a -> get l j = Some a -> i = j.
Proof.
  intros N H1 H2. pose proof (get_range _ _ _ H1) as B. apply get_nth_error in H1 as [P1 H1]. apply get_nth_error in H2 as [P2 H2].
  assert (Z.to_nat i = Z.to_nat j); [|lia]. eapply NoDup_nth_error; eauto; [unfold zlen in B; lia|congruence].
Qed.
Lemma get_in {A} (l : list A) i a : get l i = Some a -> In a l.
Proof. intros H. apply get_nth_error in H as [_ H]. eapply nth_error_In; eauto. Qed.
Lemma in_get {A} (l : list A) a : In a l -> exists i, get l i = Some a.
Proof. intros H. apply In_nth_error in H as [n H]. exists (Z.of_nat n). rewrite SparseL.get_nth. auto. Qed.
Lemma put_range {A} (l : list A) i v : 0 <= i < zlen l -> exists l', put l i v = Some l'.
Proof. intros H. unfold put. destruct (Z.ltb_spec i 0); [lia|]. destruct (Z.leb_spec (Z.of_nat (length l)) i); [unfold zlen in H; lia|]. simpl. eauto. Qed.

Lemma swap_full q i j s t : get (q_heap q) i = Some s -> get (q_heap q) j = Some t -> i <> j ->
  exists q', pq_swap q i j = Some q' /\ zlen (q_heap q') = zlen (q_heap q) /\
    (forall n, get (q_heap q') n = if n =? i then Some t else if n =? j then Some s else get (q_heap q) n) /\
    (forall n, q_back q' n = if n =? s then Some j else if n =? t then Some i else q_back q n).
Proof.
  intros Es Et Ne. unfold pq_swap. rewrite Et, Es. cbn [bind]. destruct (put_range (q_heap q) j s (get_range _ _ _ Et)) as [h1 E1]. rewrite E1. cbn [bind].
  pose proof (put_len _ _ _ _ E1) as L1. destruct (put_range h1 i t) as [h2 E2]; [rewrite L1; eapply get_range; eauto|]. rewrite E2. cbn [bind]. pose proof (put_len _ _ _ _ E2) as L2.
  assert (forall n, get h2 n = if n =? i then Some t else if n =? j then Some s else get (q_heap q) n) as G.
  { intros n. destruct (Z.eqb_spec n i) as [->|Ni]; [exact (get_put_eq _ _ _ _ E2)|]. rewrite (get_put_ne _ _ _ _ _ E2) by auto.
    destruct (Z.eqb_spec n j) as [->|Nj]; [exact (get_put_eq _ _ _ _ E1)|]. now rewrite (get_put_ne _ _ _ _ _ E1) by auto. }
  rewrite (G i), Z.eqb_refl. cbn [bind]. rewrite (G j), Z.eqb_refl. destruct (Z.eqb_spec j i) as [e|_]; [congruence|]. cbn [bind].
  eexists. split; [reflexivity|]. cbn [q_heap q_back]. split; [congruence|]. split; [exact G|]. intros n. unfold upd. destruct (n =? s); auto.
Qed.

(* c is a child of p *)
Definition kid (p c : Z) : Prop := 0 <= p /\ (c = 2 * p + 1 \/ c = 2 * p + 2).
Lemma kid_par i : 0 < i -> kid (Z.quot (i - 1) 2) i.
Proof.
  intros H. rewrite Z.quot_div_nonneg by lia. pose proof (Z.div_mod (i - 1) 2 ltac:(lia)). pose proof (Z.mod_pos_bound (i - 1) 2 ltac:(lia)).
  split; [apply Z.div_pos; lia|]. lia.
Qed.
(* back pointers are right from position lo on *)
Definition ex (lo : Z) (q : pqueue) : Prop := forall i a, lo <= i -> get (q_heap q) i = Some a -> q_back q a = Some i.
Definition right_ (q : pqueue) (a : Z) : Prop := exists i, q_back q a = Some i /\ get (q_heap q) i = Some a.

Section Heap.
Context (vox : list voxel).
Definition key (h : list Z) (i : Z) : Z := match get h i with Some a => val vox a | None => 0 end.
Definition has (h : list Z) : Prop := forall a, In a h -> exists v, get vox a = Some v.
Definition hord (h : list Z) : Prop := forall p c, kid p c -> c < zlen h -> key h p <= key h c.
Lemma value_val a : (exists v, get vox a = Some v) -> value vox a = Some (val vox a).
Proof. intros [v E]. unfold value, val. now rewrite E. Qed.

Lemma swap_ex lo q i j s t q' : NoDup (q_heap q) -> ex lo q -> get (q_heap q) i = Some s -> get (q_heap q) j = Some t -> i <> j -> pq_swap q i j = Some q' -> ex lo q' /\ right_ q' s /\ right_ q' t /\ (forall a, right_ q a -> right_ q' a).
Proof.
  intros N X Es Et Ne E. destruct (swap_full q i j s t Es Et Ne) as (q2 & E2 & _ & G & B). rewrite E in E2. injection E2 as <-.
  assert (s <> t) as Nst by (intros ->; apply Ne; eapply get_inj; eauto).
  assert (forall n a, get (q_heap q') n = Some a -> (n = i \/ n = j \/ q_back q a = Some n) -> q_back q' a = Some n) as K.
  { intros n a Hn Hb. rewrite G in Hn. rewrite B. destruct (Z.eqb_spec n i) as [->|Ni].
    - injection Hn as <-. destruct (Z.eqb_spec t s); [congruence|]. now rewrite Z.eqb_refl.
    - destruct (Z.eqb_spec n j) as [->|Nj]; [injection Hn as <-; now rewrite Z.eqb_refl|]. destruct Hb as [?|[?|Hb]]; [congruence|congruence|].
      destruct (Z.eqb_spec a s) as [->|]; [exfalso; apply Ni; eapply get_inj; eauto|]. destruct (Z.eqb_spec a t) as [->|]; [exfalso; apply Nj; eapply get_inj; eauto|]. auto. }
  assert (right_ q' s) as Rs. { exists j. assert (get (q_heap q') j = Some s) as Gj by (rewrite G; destruct (Z.eqb_spec j i); [congruence|now rewrite Z.eqb_refl]). split; [apply K; auto|auto]. }
  assert (right_ q' t) as Rt. { exists i. assert (get (q_heap q') i = Some t) as Gi by (rewrite G; now rewrite Z.eqb_refl). split; [apply K; auto|auto]. }
  split; [|split; [auto|split; [auto|]]].
  - intros n a Hn Hg. apply K; [auto|]. destruct (Z.eq_dec n i); [auto|]. destruct (Z.eq_dec n j); [auto|]. right. right. apply X; [auto|]. rewrite G in Hg. destruct (Z.eqb_spec n i); [congruence|]. destruct (Z.eqb_spec n j); congruence.
  - intros a (n & H1 & H2). destruct (Z.eq_dec a s) as [->|Ns]; [auto|]. destruct (Z.eq_dec a t) as [->|Nt]; [auto|].
    exists n. rewrite G, B. destruct (Z.eqb_spec a s); [congruence|]. destruct (Z.eqb_spec a t); [congruence|]. split; [auto|]. destruct (Z.eqb_spec n i); [congruence|]. destruct (Z.eqb_spec n j); [congruence|auto].
Qed.
Lemma swap_key q i j s t q' : get (q_heap q) i = Some s -> get (q_heap q) j = Some t -> i <> j -> pq_swap q i j = Some q' ->
  forall n, key (q_heap q') n = if n =? i then key (q_heap q) j else if n =? j then key (q_heap q) i else key (q_heap q) n.
Proof.
  intros Es Et Ne E n. destruct (swap_full q i j s t Es Et Ne) as (q2 & E2 & _ & G & _). rewrite E in E2. injection E2 as <-.
  unfold key. rewrite G, Es, Et. destruct (n =? i); [auto|]. destruct (n =? j); auto.
Qed.

Definition hole_up (h : list Z) (i : Z) : Prop :=
  (forall p c, kid p c -> c < zlen h -> c <> i -> key h p <= key h c) /\ (forall p c, kid p i -> kid i c -> c < zlen h -> key h p <= key h c).
Definition hole_down (h : list Z) (i : Z) : Prop :=
  (forall p c, kid p c -> c < zlen h -> p <> i -> key h p <= key h c) /\ (forall p c, kid p i -> kid i c -> c < zlen h -> key h p <= key h c).

Lemma up_full lo : forall fuel q i, qok q -> has (q_heap q) -> ex lo q -> 0 <= i < zlen (q_heap q) -> i < Z.of_nat fuel -> hole_up (q_heap q) i ->
  exists q', percolate_up vox fuel q i = Some q' /\ hord (q_heap q') /\ ex lo q' /\ (forall a, right_ q a -> right_ q' a).
Proof.
  induction fuel as [|f IH]; intros q i O V X Hi Hf [H1 H2]; [lia|]. cbn [percolate_up]. destruct (Z.ltb_spec 0 i) as [Pi|Ni].
  - pose proof (kid_par i Pi) as Kp. set (par := Z.quot (i - 1) 2) in *. destruct (get_in_range (q_heap q) i Hi) as [a Ea]. destruct (get_in_range (q_heap q) par) as [b Eb]; [unfold kid in Kp; lia|].
    rewrite Ea. cbn [bind]. rewrite Eb. cbn [bind]. rewrite (value_val a) by (apply V; eapply get_in; eauto). cbn [bind]. rewrite (value_val b) by (apply V; eapply get_in; eauto). cbn [bind].
    assert (key (q_heap q) i = val vox a) as Ka by (unfold key; now rewrite Ea). assert (key (q_heap q) par = val vox b) as Kb by (unfold key; now rewrite Eb).
    destruct (Z.ltb_spec (val vox a) (val vox b)) as [Lt|Ge].
    + assert (i <> par) as Nip by (unfold kid in Kp; lia). destruct (swap_full q i par a b Ea Eb Nip) as (q1 & E1 & L1 & G1 & _). rewrite E1. cbn [bind].
      destruct (swap_ok _ _ _ _ O E1) as [O1 P1]. pose proof (swap_key q i par a b q1 Ea Eb Nip E1) as K1. destruct (swap_ex lo q i par a b q1 (proj1 O) X Ea Eb Nip E1) as (X1 & _ & _ & R1).
      destruct (IH q1 par) as (q' & E' & O' & X' & R'); auto.
      * intros x Hx. apply V. eapply Permutation_in; [symmetry; exact P1|exact Hx].
      * rewrite L1. unfold kid in Kp. lia.
      * unfold kid in Kp. lia.
      * rewrite Ka, Kb in K1. split.
        -- intros p c Kpc Lc Nc. rewrite L1 in Lc. rewrite !K1. destruct (Z.eqb_spec c i) as [->|Nci].
           ++ assert (p = par) as -> by (unfold kid in *; lia). destruct (Z.eqb_spec par i); [congruence|]. rewrite Z.eqb_refl. lia.
           ++ destruct (Z.eqb_spec c par); [congruence|]. destruct (Z.eqb_spec p i) as [->|Npi]; [rewrite <- Kb; apply H2; auto|]. destruct (Z.eqb_spec p par) as [->|Npp]; [|auto].
              specialize (H1 par c Kpc Lc Nci). lia.
        -- intros p c Kpp Kpc Lc. rewrite L1 in Lc. rewrite !K1. destruct (Z.eqb_spec p i); [unfold kid in *; lia|]. destruct (Z.eqb_spec p par); [unfold kid in *; lia|].
           assert (key (q_heap q) p <= key (q_heap q) par) as Y by (apply H1; auto; unfold kid in *; lia). destruct (Z.eqb_spec c i) as [->|Nci]; [lia|]. destruct (Z.eqb_spec c par); [unfold kid in *; lia|].
           specialize (H1 par c Kpc Lc Nci). lia.
      * exists q'. split; [auto|]. split; [auto|]. split; [auto|]. auto.
    + exists q. split; [auto|]. split; [|auto]. intros p c Kpc Lc. destruct (Z.eq_dec c i) as [->|Nc]; [|auto]. assert (p = par) as -> by (unfold kid in *; lia). lia.
  - exists q. split; [auto|]. split; [|auto]. intros p c Kpc Lc. apply H1; auto. unfold kid in Kpc. lia.
Qed.

Lemma down_full lo : forall fuel q i, qok q -> has (q_heap q) -> ex lo q -> 0 <= i <= zlen (q_heap q) -> zlen (q_heap q) - i < Z.of_nat fuel -> hole_down (q_heap q) i ->
  exists q', percolate_down vox fuel q i = Some q' /\ hord (q_heap q') /\ ex lo q' /\ (forall a, right_ q a -> right_ q' a).
Proof.
  induction fuel as [|f IH]; intros q i O V X Hi Hf [H1 H2]; [lia|]. cbn [percolate_down]. destruct (Z.ltb_spec (2 * i + 1) (zlen (q_heap q))) as [Lt|Ge].
  - destruct (get_in_range (q_heap q) (2 * i + 1) ltac:(lia)) as [l El]. rewrite El. cbn [bind]. rewrite (value_val l) by (apply V; eapply get_in; eauto). cbn [bind].
    assert (exists c cn, (if 2 * i + 2 <? zlen (q_heap q) then do r <- get (q_heap q) (2 * i + 2); do vr <- value vox r; Some (if vr <? val vox l then 2 * i + 2 else 2 * i + 1) else Some (2 * i + 1)) = Some c /\
      kid i c /\ c < zlen (q_heap q) /\ get (q_heap q) c = Some cn /\ forall x, kid i x -> x < zlen (q_heap q) -> key (q_heap q) c <= key (q_heap q) x) as (c & cn & Ec & Kc & Lc & Gc & Mc).
    { assert (key (q_heap q) (2 * i + 1) = val vox l) as Kl by (unfold key; now rewrite El). destruct (Z.ltb_spec (2 * i + 2) (zlen (q_heap q))) as [Lr|Gr].
      - destruct (get_in_range (q_heap q) (2 * i + 2) ltac:(lia)) as [r Er]. rewrite Er. cbn [bind]. rewrite (value_val r) by (apply V; eapply get_in; eauto). cbn [bind].
        assert (key (q_heap q) (2 * i + 2) = val vox r) as Kr by (unfold key; now rewrite Er). destruct (Z.ltb_spec (val vox r) (val vox l)).
        + exists (2 * i + 2), r. split; [auto|]. split; [unfold kid; lia|]. split; [auto|]. split; [auto|]. intros x [_ [-> | ->]] _; lia.
        + exists (2 * i + 1), l. split; [auto|]. split; [unfold kid; lia|]. split; [auto|]. split; [auto|]. intros x [_ [-> | ->]] _; lia.
      - exists (2 * i + 1), l. split; [auto|]. split; [unfold kid; lia|]. split; [auto|]. split; [auto|]. intros x [_ [-> | ->]] Lx; lia. }
    rewrite Ec. cbn [bind]. rewrite Gc. cbn [bind]. rewrite (value_val cn) by (apply V; eapply get_in; eauto). cbn [bind].
    destruct (get_in_range (q_heap q) i ltac:(lia)) as [a Ea]. rewrite Ea. cbn [bind]. rewrite (value_val a) by (apply V; eapply get_in; eauto). cbn [bind].
    assert (key (q_heap q) i = val vox a) as Ka by (unfold key; now rewrite Ea). assert (key (q_heap q) c = val vox cn) as Kcn by (unfold key; now rewrite Gc).
    destruct (Z.ltb_spec (val vox cn) (val vox a)) as [Ls|Gs].
    + assert (c <> i) as Nci by (unfold kid in Kc; lia). destruct (swap_full q c i cn a Gc Ea Nci) as (q1 & E1 & L1 & G1 & _). rewrite E1. cbn [bind].
      destruct (swap_ok _ _ _ _ O E1) as [O1 P1]. pose proof (swap_key q c i cn a q1 Gc Ea Nci E1) as K1. destruct (swap_ex lo q c i cn a q1 (proj1 O) X Gc Ea Nci E1) as (X1 & _ & _ & R1).
      destruct (IH q1 c) as (q' & E' & O' & X' & R'); auto.
      * intros x Hx. apply V. eapply Permutation_in; [symmetry; exact P1|exact Hx].
      * rewrite L1. unfold kid in Kc. lia.
      * rewrite L1. unfold kid in Kc. lia.
      * rewrite Ka, Kcn in K1. split.
        -- intros p x Kpx Lx Np. rewrite L1 in Lx. rewrite !K1. destruct (Z.eqb_spec p c); [congruence|]. destruct (Z.eqb_spec p i) as [->|Npi].
           ++ destruct (Z.eqb_spec x c) as [->|Nxc]; [lia|]. destruct (Z.eqb_spec x i); [unfold kid in *; lia|]. rewrite <- Kcn. auto.
           ++ destruct (Z.eqb_spec x c) as [->|Nxc]; [unfold kid in *; lia|]. destruct (Z.eqb_spec x i) as [->|Nxi]; [rewrite <- Kcn; auto|auto].
        -- intros p x Kpc Kcx Lx. rewrite L1 in Lx. rewrite !K1. assert (p = i) as -> by (unfold kid in *; lia). destruct (Z.eqb_spec i c); [congruence|]. rewrite Z.eqb_refl.
           destruct (Z.eqb_spec x c); [unfold kid in *; lia|]. destruct (Z.eqb_spec x i); [unfold kid in *; lia|]. rewrite <- Kcn. auto.
      * exists q'. auto 10.
    + exists q. split; [auto|]. split; [|auto]. intros p x Kpx Lx. destruct (Z.eq_dec p i) as [->|Np]; [|auto]. specialize (Mc x Kpx Lx). lia.
  - exists q. split; [auto|]. split; [|auto]. intros p x Kpx Lx. apply H1; auto. unfold kid in Kpx. lia.
Qed.

Lemma hord_min h : hord h -> forall i, 0 <= i < zlen h -> key h 0 <= key h i.
Proof.
  intros H. assert (forall n : nat, forall i, 0 <= i < zlen h -> i <= Z.of_nat n -> key h 0 <= key h i) as Y.
  { induction n as [|n IH]; intros i Hi Hn; [replace i with 0 by lia; lia|]. destruct (Z.eq_dec i 0) as [->|N]; [lia|]. pose proof (kid_par i ltac:(lia)) as K.
    specialize (H _ _ K ltac:(lia)). assert (key h 0 <= key h (Z.quot (i - 1) 2)); [|lia]. apply IH; unfold kid in K; lia. }
  intros i Hi. apply (Y (Z.to_nat i)); lia.
Qed.

Lemma push_full lo q a : qok q -> has (a :: q_heap q) -> ex lo q -> hord (q_heap q) -> q_back q a = None ->
  exists q', pq_push vox q a = Some q' /\ hord (q_heap q') /\ ex lo q' .
Proof.
  intros O V X H B. unfold pq_push. rewrite B. cbn [guard bind]. assert (~ In a (q_heap q)) as Na by (intros I; apply (proj2 O) in I; congruence).
  set (h := q_heap q ++ [a]). assert (zlen h = zlen (q_heap q) + 1) as Lh by (unfold h, zlen; rewrite app_length; simpl; lia).
  assert (forall n, get h n = if n =? zlen (q_heap q) then Some a else get (q_heap q) n) as G.
  { intros n. unfold h, get. destruct (Z.eqb_spec n (zlen (q_heap q))) as [->|Nn].
    - unfold zlen. destruct (Z.ltb_spec (Z.of_nat (length (q_heap q))) 0); [lia|]. rewrite Nat2Z.id, nth_error_app2, Nat.sub_diag by lia. reflexivity.
    - destruct (Z.ltb_spec n 0); [auto|]. destruct (Z.lt_ge_cases n (zlen (q_heap q))) as [L|L]; [unfold zlen in L; rewrite nth_error_app1 by lia; auto|].
      unfold zlen in *. rewrite (proj2 (nth_error_None _ _)) by (rewrite app_length; simpl; lia). symmetry. apply nth_error_None. lia. }
  assert (forall n, n <> zlen (q_heap q) -> key h n = key (q_heap q) n) as K. { intros n Nn. unfold key. rewrite G. destruct (Z.eqb_spec n (zlen (q_heap q))); [congruence|auto]. }
  set (q1 := mkQ h (upd (q_back q) a (Some (zlen h - 1)))).
  assert (qok q1) as O1.
  { destruct O as [N O]. split; cbn [q1 q_heap q_back].
    + eapply Permutation_NoDup; [apply Permutation_cons_append|]. constructor; auto.
    + intros n. unfold upd, h. rewrite in_app_iff. simpl. destruct (Z.eqb_spec n a) as [->|]; [split; [auto|discriminate]|]. rewrite O. split; [auto|]. intros [?|[?|[]]]; [auto|congruence]. }
  destruct (up_full lo (S (length h)) q1 (zlen h - 1)) as (q' & E & H' & X' & _); auto.
  - cbn [q1 q_heap]. intros x Hx. apply V. unfold h in Hx. apply in_app_iff in Hx as [Hx|[Hx|[]]]; simpl; auto.
  - intros i x Hi Hx. cbn [q1 q_heap q_back] in *. unfold upd. rewrite G in Hx. destruct (Z.eqb_spec i (zlen (q_heap q))) as [->|Ni].
    + injection Hx as <-. rewrite Z.eqb_refl. f_equal. lia.
    + destruct (Z.eqb_spec x a) as [->|]; [exfalso; apply Na; eapply get_in; eauto|]. auto.
  - cbn [q1 q_heap]. unfold zlen in *. lia.
  - unfold zlen. lia.
  - cbn [q1 q_heap]. split; [|intros p c Kp Kc Lc; unfold kid in Kc; unfold zlen in *; lia]. intros p c Kpc Lc Nc. rewrite !K by (unfold kid in Kpc; lia). apply H; [auto|lia].
  - exists q'. auto.
Qed.

Lemma update_full lo q a : qok q -> has (q_heap q) -> ex lo q -> right_ q a -> (forall i, get (q_heap q) i = Some a -> hole_up (q_heap q) i) ->
  exists q', pq_update vox q a = Some q' /\ hord (q_heap q') /\ ex lo q'.
Proof.
  intros O V X (i & B & G) H. unfold pq_update. rewrite B. cbn [bind]. pose proof (get_range _ _ _ G) as Hi.
  destruct (up_full lo (S (Z.to_nat i)) q i) as (q1 & E1 & H1 & X1 & R1); auto; [lia|]. rewrite E1. cbn [bind]. destruct (R1 a) as (j & B1 & G1); [exists i; auto|]. rewrite B1. cbn [bind].
  destruct (up_ok _ _ _ _ _ O E1) as [O1 P1]. pose proof (get_range _ _ _ G1) as Hj.
  destruct (down_full lo (S (length (q_heap q1))) q1 j) as (q' & E' & H' & X' & _); auto.
  - intros x Hx. apply V. eapply Permutation_in; [symmetry; exact P1|exact Hx].
  - lia.
  - unfold zlen in *. lia.
  - split; [intros p c Kp Lc _; auto|]. intros p c Kp Kc Lc. transitivity (key (q_heap q1) j); apply H1; auto; lia.
  - exists q'. auto.
Qed.

Lemma pop_full q a t : qok q -> has (q_heap q) -> ex 1 q -> hord (q_heap q) -> q_heap q = a :: t ->
  exists q', pq_pop vox q = Some q' /\ hord (q_heap q') /\ ex 1 q'.
Proof.
  intros O V X H Eh. unfold pq_pop. rewrite Eh. change (get (a :: t) 0) with (Some a). cbn [bind].
  assert (q_back q a <> None) as Ba by (apply (proj2 O); rewrite Eh; simpl; auto). destruct (q_back q a) as [ia|]; [|congruence]. cbn [guard bind].
  destruct (get_in_range (a :: t) (zlen (a :: t) - 1)) as [b Eb]; [unfold zlen; simpl length; lia|]. rewrite Eb. cbn [bind]. change (put (a :: t) 0 b) with (Some (b :: t)). cbn [bind].
  set (h := removelast (b :: t)). set (q1 := mkQ h (upd (q_back q) a None)).
  assert (zlen h = zlen t) as Lh. { unfold h, zlen. f_equal. destruct t as [|c t]; [reflexivity|]. change (length (b :: removelast (c :: t)) = length (c :: t)). pose proof (app_removelast_last 0 (l := c :: t) ltac:(discriminate)) as Y. rewrite Y at 2. rewrite app_length. simpl. lia. }
  assert (zlen (a :: t) = zlen t + 1) as La by (unfold zlen; simpl length; lia).
  assert (forall n, 0 <= n < zlen t -> get h n = if n =? 0 then Some b else get (a :: t) n) as G.
  { intros n Hn. assert (b :: t = h ++ [last (b :: t) 0]) as Y by (apply app_removelast_last; discriminate).
    assert (get h n = get (b :: t) n) as ->. { rewrite Y. unfold get. destruct (Z.ltb_spec n 0); [lia|]. rewrite nth_error_app1; [auto|]. unfold zlen in *. lia. }
    destruct (Z.eqb_spec n 0) as [->|N]; [reflexivity|]. unfold get. destruct (Z.ltb_spec n 0); [lia|]. destruct (Z.to_nat n) eqn:En; [lia|reflexivity]. }
  assert (Permutation t h) as P. { (* the back element has moved to the front *)
    clear - Eb. unfold h. destruct t as [|c t]; [constructor|]. change (removelast (b :: c :: t)) with (b :: removelast (c :: t)).
    destruct (@exists_last _ (c :: t) ltac:(discriminate)) as (t' & z & Et). rewrite Et in *. rewrite removelast_last.
    replace b with z. { symmetry. apply Permutation_cons_append. }
    rewrite get_nth_error in Eb. destruct Eb as [_ Eb]. unfold zlen in Eb. simpl length in Eb. rewrite app_length in Eb. simpl length in Eb.
    replace (Z.to_nat (Z.of_nat (S (length t' + 1)) - 1)) with (S (length t')) in Eb by lia. simpl in Eb. rewrite nth_error_app2, Nat.sub_diag in Eb by lia. simpl in Eb. congruence. }
  assert (qok q1) as O1.
  { destruct O as [N O]. rewrite Eh in N, O. inversion N as [|? ? Na Nt]; subst. split; cbn [q1 q_heap q_back]; [eapply Permutation_NoDup; [exact P|exact Nt]|]. intros n. unfold upd.
    assert (In n t <-> In n h) as <- by (split; apply Permutation_in; [|symmetry]; exact P).
    destruct (Z.eqb_spec n a) as [->|]; [split; [congruence|tauto]|]. rewrite O. simpl. split; [intros [?|?]; [congruence|auto]|auto]. }
  assert (forall n, 0 < n < zlen t -> key h n = key (q_heap q) n) as K. { intros n Hn. unfold key. rewrite G by lia. destruct (Z.eqb_spec n 0); [lia|]. now rewrite Eh. }
  destruct (down_full 1 (S (length h)) q1 0) as (q' & E & H' & X' & _); auto.
  - cbn [q1 q_heap]. intros x Hx. apply V. rewrite Eh. right. eapply Permutation_in; [symmetry; exact P|exact Hx].
  - intros i x Hi Hx. cbn [q1 q_heap q_back] in *. pose proof (get_range _ _ _ Hx) as R. rewrite Lh in R. rewrite G in Hx by lia. destruct (Z.eqb_spec i 0); [lia|]. unfold upd.
    destruct (Z.eqb_spec x a) as [->|Nx]; [|apply X; [auto|now rewrite Eh]]. exfalso. destruct O as [N _]. rewrite Eh in N. pose proof (get_inj (a :: t) i 0 a N Hx eq_refl). lia.
  - cbn [q1 q_heap]. unfold zlen. lia.
  - cbn [q1 q_heap]. unfold zlen. lia.
  - cbn [q1 q_heap]. split; [|intros p c Kp; unfold kid in Kp; lia]. intros p c Kpc Lc Np. rewrite Lh in Lc. rewrite !K by (unfold kid in Kpc; lia). apply H; [auto|]. rewrite Eh. lia.
  - exists q'. auto.
Qed.
End Heap.
