(* Programs whose ranks make different numbers of collective calls never end *)
From Verif Require Import Model.Base Model.Boundary Model.Layout Model.Access Model.Setup Model.Codec Model.Region Model.MPI Model.Ghostswap Model.Spin Model.SpinRanks
  Spec.Box Spec.Decomp Spec.Schedule Spec.SpinRanks Proof.BaseL Proof.MPIL.
Local Open Scope list_scope.
Local Open Scope Z_scope.

(* every run of p to its end makes n collective calls *)
Inductive colls {A} : nat -> proc A -> Prop :=
| colls_ret a : colls 0 (Ret a)
| colls_fail n : colls n Fail
| colls_send n d t m k : colls n k -> colls n (Isend d t m k)
| colls_recv n s t k : (forall m, colls n (k m)) -> colls n (Recv s t k)
| colls_wait n d t k : colls n k -> colls n (WaitSend d t k)
| colls_coll n kd m k : (forall ms, colls n (k ms)) -> colls (S n) (Coll kd m k).

Lemma colls_lift {A B} n (o : option B) (k : B -> proc A) : (forall b, o = Some b -> colls n (k b)) -> colls n (lift o k).
Proof. destruct o; cbn; intros H; [auto|constructor]. Qed.
Lemma colls_barrier {A} n (k : proc A) : colls n k -> colls (S n) (barrier k).
Proof. intros H. constructor. auto. Qed.

Lemma colls_transfer {T A} (c : codec T) rng axs data sp rp t1 t2 a b x y (k : list T -> proc A) n : (forall d, colls n (k d)) ->
  colls (2 + n) (transfer c rng axs data sp rp t1 t2 a b x y k).
Proof.
  intros H. unfold transfer. apply colls_lift. intros ss _. constructor. constructor. intros m. constructor. destruct (negb _); [constructor|]. apply colls_barrier.
  destruct (_ || _); [constructor|]. apply colls_lift. intros [sb i] _. constructor. constructor. intros m2. constructor. destruct (_ <? _); [constructor|]. apply colls_barrier.
  apply colls_lift. intros [d i2] _. auto.
Qed.
Lemma colls_axes {T A} (c : codec T) rng ge is : forall data (k : list T -> proc A) n, (forall d, colls n (k d)) -> colls (4 * length is + n) (swap_axes c rng ge is data k).
Proof.
  induction is as [|i is IH]; intros data k n H; [apply H|]. cbn [swap_axes]. replace (4 * length (i :: is) + n)%nat with (2 + (2 + (4 * length is + n)))%nat by (cbn [length]; lia).
  unfold swap_up. do 3 (apply colls_lift; intros ? _). apply colls_transfer. intros d. unfold swap_down. do 3 (apply colls_lift; intros ? _). apply colls_transfer. intros d2. now apply IH.
Qed.
Lemma colls_swap {T A} (c : codec T) ge data (k : list T -> proc A) n : (forall d, colls n (k d)) -> colls (4 * length (ge_axes ge) + 2 + n) (ghostswap c ge data k).
Proof.
  intros H. unfold ghostswap. replace (4 * length (ge_axes ge) + 2 + n)%nat with (S (4 * length (seq 0 (length (ge_axes ge))) + S n))%nat by (rewrite seq_length; lia).
  apply colls_barrier. apply colls_axes. intros d. now apply colls_barrier.
Qed.
Lemma colls_visits {T} trial (c : codec T) ge rnd g hs : forall st,
  colls ((4 * length (ge_axes ge) + 2) * length (filter (exchanges g) hs)) (rank_visits trial c ge rnd g hs st).
Proof.
  induction hs as [|h hs IH]; intros st; cbn [rank_visits filter].
  - cbn [length]. rewrite Nat.mul_0_r. constructor.
  - apply colls_lift. intros st1 _. destruct (g =? 0); [constructor|]. destruct (exchanges g h); [|apply IH]. cbn [length]. rewrite Nat.mul_succ_r, Nat.add_comm. apply colls_swap. intros d. apply IH.
Qed.

Lemma at_coll_get {A} kd (ps : list (proc A)) ms ks : at_coll kd ps ms ks -> forall r p, get ps r = Some p -> exists m k, p = Coll kd m k /\ get ks r = Some k.
Proof.
  intros H r p E. unfold get in *. destruct (r <? 0); [discriminate|]. revert E. generalize (Z.to_nat r). clear r. induction H as [|m k ps ms ks _ IH]; intros [|n] E; try discriminate; cbn in *; [|eauto].
  injection E as <-. exists m, k. auto.
Qed.
Lemma get_map_opt {A B} (f : A -> B) l i : get (map f l) i = option_map f (get l i).
Proof. unfold get. destruct (i <? 0); [reflexivity|]. apply nth_error_map. Qed.

(* two ranks with different numbers of collective calls to come *)
Definition apart {A} (a b : Z) (ps : list (proc A)) : Prop := exists p q m n, get ps a = Some p /\ get ps b = Some q /\ colls m p /\ colls n q /\ m <> n.

Lemma colls_local {A} np r g (p : proc A) ch p' ch' n : lstep np r g p ch p' ch' -> colls n p -> colls n p'.
Proof. intros H C. destruct H; inversion C; subst; auto. Qed.
Lemma put_get_any {A} (l l' : list A) i j v : put l i v = Some l' -> get l' j = if j =? i then Some v else get l j.
Proof. intros E. destruct (Z.eqb_spec j i) as [->|N]; [eapply get_put_eq; eauto|eapply get_put_ne; eauto]. Qed.
Lemma apart_step {A} a b g (s s' : state A) : step g s s' -> apart a b (fst s) -> apart a b (fst s').
Proof.
  intros H (p & q & m & n & Ea & Eb & Ca & Cb & N). destruct H as [g r p1 p2 ps ps' ch ch' E L P|kd ps ms ks ch _ C]; cbn [fst] in *.
  - pose proof (fun j => put_get_any ps ps' r j p2 P) as X. unfold apart. rewrite (X a), (X b).
    assert (forall j u k, get ps j = Some u -> colls k u -> exists u', (if j =? r then Some p2 else get ps j) = Some u' /\ colls k u') as Y.
    { intros j u k Ej Cj. destruct (Z.eqb_spec j r) as [->|]; [|eauto]. rewrite E in Ej. injection Ej as <-. exists p2. split; [auto|]. eapply colls_local; eauto. }
    destruct (Y a p m Ea Ca) as (p' & Ep & Cp), (Y b q n Eb Cb) as (q' & Eq & Cq). exists p', q', m, n. auto.
  - destruct (at_coll_get _ _ _ _ C a p Ea) as (ma & ka & -> & Ka), (at_coll_get _ _ _ _ C b q Eb) as (mb & kb & -> & Kb).
    inversion Ca as [| | | | |m' ? ? ? Cm]; subst. inversion Cb as [| | | | |n' ? ? ? Cn]; subst.
    exists (ka ms), (kb ms), m', n'. rewrite !get_map_opt, Ka, Kb. cbn. repeat split; auto.
Qed.
Lemma apart_steps {A} a b k (s s' : state A) : steps k s s' -> apart a b (fst s) -> apart a b (fst s').
Proof. induction 1; auto. intros H1. apply IHsteps. eapply apart_step; eauto. Qed.
Lemma apart_end {A} a b np (D : Z -> A) s : apart a b (fst s) -> finished np D s -> False.
Proof.
  intros (p & q & m & n & Ea & Eb & Ca & Cb & N) [F _]. rewrite F in Ea, Eb. unfold ranks in *. rewrite get_map_opt in Ea, Eb.
  destruct (get (zrange 0 np) a); [|discriminate]. destruct (get (zrange 0 np) b); [|discriminate]. cbn in Ea, Eb. injection Ea as <-. injection Eb as <-. inversion Ca; inversion Cb; subst; auto.
Qed.
