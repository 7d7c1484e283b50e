From Verif Require Import Model.Base Model.Boundary Model.Layout Model.Setup Model.Codec Model.Region Model.MPI
  Model.Ghostswap Spec.Box Spec.Access Spec.Bytes Spec.Decomp Spec.Schedule
  Proof.SetupL Proof.BaseL Proof.LayoutL Proof.CodecL Proof.RegionL Proof.SerialL Proof.MPIL.
From Coq Require Import ZifyBool.
Ltac Zify.zify_post_hook ::= Z.div_mod_to_equations.

(* ---- pointwise views of the list predicates ---- *)
Lemma in_box_iff lo hi x : in_box lo hi x <->
  length x = length lo /\ length hi = length lo /\
  forall j, (j < length lo)%nat -> nth j lo 0 <= nth j x 0 < nth j hi 0.
Proof.
  revert hi x; induction lo as [|l lo IH]; intros [|h hi] [|c x]; simpl;
    try (split; [tauto|intros (? & ? & _); discriminate]).
  - split; [intros _; repeat split; auto; lia|tauto].
  - rewrite IH. split.
    + intros (H0 & L1 & L2 & H). repeat split; try lia; destruct j; simpl; try lia; apply H; lia.
    + intros (L1 & L2 & H). split; [apply (H O); lia|]. split; [lia|]. split; [lia|].
      intros j Hj. apply (H (S j)); lia.
Qed.
Lemma inside_iff mn mx lo hi : Box.inside mn mx lo hi <->
  length mn = length lo /\ length mx = length lo /\ length hi = length lo /\
  forall j, (j < length lo)%nat -> nth j lo 0 <= nth j mn 0 /\ nth j mx 0 <= nth j hi 0.
Proof.
  revert mx lo hi; induction mn as [|a mn IH]; intros [|b mx] [|l lo] [|h hi]; simpl;
    try (split; [tauto|intros (? & ? & ? & _); discriminate]).
  - split; [intros _; repeat split; auto; lia|tauto].
  - rewrite IH. split.
    + intros (H0 & H1 & L1 & L2 & L3 & H). repeat split; try lia; destruct j; simpl; try lia; apply H; lia.
    + intros (L1 & L2 & L3 & H). split; [apply (H O); lia|]. split; [apply (H O); lia|].
      split; [lia|]. split; [lia|]. split; [lia|]. intros j Hj. apply (H (S j)); lia.
Qed.
Lemma extents_eq mn mx mn' mx' : length mx = length mn -> length mn' = length mn -> length mx' = length mn ->
  (forall j, (j < length mn)%nat -> nth j mx 0 - nth j mn 0 = nth j mx' 0 - nth j mn' 0) ->
  extents mn mx = extents mn' mx'.
Proof.
  revert mx mn' mx'; induction mn as [|a mn IH]; intros [|b mx] [|c mn'] [|d mx']; simpl; try discriminate; auto.
  intros L1 L2 L3 H. f_equal; [apply (H O); lia|]. apply IH; try lia. intros j Hj. apply (H (S j)); lia.
Qed.
Lemma nth_translate f t x j : length t = length f -> length x = length f -> (j < length f)%nat ->
  nth j (translate f t x) 0 = nth j x 0 - nth j f 0 + nth j t 0.
Proof.
  revert t x j; induction f as [|a f IH]; intros [|b t] [|c x] [|j]; simpl; try lia; auto.
  intros. apply IH; lia.
Qed.
Lemma length_translate f t x : length t = length f -> length x = length f -> length (translate f t x) = length f.
Proof.
  revert t x; induction f as [|a f IH]; intros [|b t] [|c x]; simpl; try lia; auto.
Qed.
Lemma length_wrap gs x : length x = length gs -> length (wrap gs x) = length gs.
Proof. revert x; induction gs; intros [|c x]; simpl; intros; auto; discriminate. Qed.
Lemma nth_wrap gs x j d : length x = length gs -> (j < length gs)%nat ->
  nth j (wrap gs x) 0 = gx_0 (nth j gs d) + (nth j x 0 - gx_0 (nth j gs d)) mod glen (nth j gs d).
Proof.
  revert x j; induction gs as [|g gs IH]; intros [|c x] [|j]; simpl; intros; try lia; auto. apply IH; lia.
Qed.
Lemma list_eq_nth (a b : list Z) : length a = length b -> (forall j, (j < length a)%nat -> nth j a 0 = nth j b 0) -> a = b.
Proof. intros. eapply nth_ext; eauto. Qed.
Lemma nth_map_eq {X Y} (f : X -> Y) l j d d' : (j < length l)%nat -> nth j (map f l) d = f (nth j l d').
Proof. intros. rewrite (nth_indep _ d (f d')) by (now rewrite map_length). apply map_nth. Qed.

Lemma total_bound {T} (c : codec T) (vs : list T) B : Forall (fun v => c_size c v <= B) vs -> total c vs <= zlen vs * B.
Proof.
  induction 1 as [|v vs Hv _ IH]; [reflexivity|]. rewrite total_cons, zlen_cons. lia.
Qed.

(* ---- one transfer, all ranks in lockstep ---- *)
Section Transfer.
Context {T A : Type} (c : codec T) (rng : Z -> Z -> list Z) (valid : T -> Prop).
Context (np : Z) (gh : Z) (ax : Z -> list axis).
Context (sp rp : Z -> Z) (smin smax rmin rmax : Z -> list Z).

(* regions of the ranks fit together *)
Record fit : Prop := {
  fit_perm : forall r, 0 <= r < np -> 0 <= sp r < np /\ 0 <= rp r < np /\ rp (sp r) = r /\ sp (rp r) = r;
  fit_wf : forall r, 0 <= r < np -> wf_axes gh (ax r) /\ ax r <> [] /\ length (ax r) = length (ax (rp r));
  fit_s : forall r, 0 <= r < np -> Box.inside (smin r) (smax r) (map a_s0 (ax r)) (map a_s1 (ax r));
  fit_r : forall r, 0 <= r < np -> Box.inside (rmin r) (rmax r) (map a_s0 (ax r)) (map a_s1 (ax r));
  fit_e : forall r, 0 <= r < np -> extents (smin (rp r)) (smax (rp r)) = extents (rmin r) (rmax r)
}.

(* d' is what the ranks hold after the transfer when they held d before *)
Definition moved (d d' : Z -> list T) : Prop := forall r, 0 <= r < np ->
  zlen (d' r) = zlen (d r) /\
  (forall y, in_rng rng (rmin r) (rmax r) y ->
     get (d' r) (encode (ax r) y) = get (d (rp r)) (encode (ax (rp r)) (translate (rmin r) (smin (rp r)) y))) /\
  (forall y, in_box (map a_s0 (ax r)) (map a_s1 (ax r)) y -> ~ in_rng rng (rmin r) (rmax r) y ->
     get (d' r) (encode (ax r) y) = get (d r) (encode (ax r) y)).

Lemma transfer_round (d : Z -> list T) (K : Z -> list T -> proc A) t1 t2 ch :
  serialises c valid -> rng_ok rng -> 0 < np -> fit ->
  (forall r, 0 <= r < np -> zlen (d r) = cells (ax r) /\ Forall valid (d r)) ->
  (forall r n, 0 <= r < np -> buffer_size c rng (d r) (ax r) (smin r) (smax r) 0 = Some n -> n <= int_max) ->
  quiet ch ->
  exists d' n ch', quiet ch' /\ moved d d' /\
    gsteps n (ranks np (fun r => transfer c rng (ax r) (d r) (sp r) (rp r) t1 t2
                                   (smin r) (smax r) (rmin r) (rmax r) (K r)), ch)
             (ranks np (fun r => K r (d' r)), ch').
Proof.
  intros S R Hnp F Hd Hb Q. destruct F as [Fp Fw Fs Fr Fe].
  (* what each pair does *)
  assert (forall r, 0 <= r < np -> exists n bs, 0 <= n <= int_max /\ zlen bs = n /\
    buffer_size c rng (d (rp r)) (ax (rp r)) (smin (rp r)) (smax (rp r)) 0 = Some n /\
    to_buffer c rng (d (rp r)) (ax (rp r)) (smin (rp r)) (smax (rp r)) 0 (repeat 0 (Z.to_nat n)) 0 = Some (bs, n) /\
    exists d', from_buffer c rng (d r) (ax r) (rmin r) (rmax r) 0 bs 0 = Some (d', n) /\
      zlen d' = zlen (d r) /\
      (forall y, in_rng rng (rmin r) (rmax r) y ->
         get d' (encode (ax r) y) = get (d (rp r)) (encode (ax (rp r)) (translate (rmin r) (smin (rp r)) y))) /\
      (forall y, in_box (map a_s0 (ax r)) (map a_s1 (ax r)) y -> ~ in_rng rng (rmin r) (rmax r) y ->
         get d' (encode (ax r) y) = get (d r) (encode (ax r) y))) as Pair.
  { intros r Hr. destruct (Fp r Hr) as (P1 & P2 & P3 & P4).
    destruct (Fw r Hr) as (W & Wn & Wl). destruct (Fw _ P2) as (W' & Wn' & _).
    destruct (Hd r Hr) as [L V]. destruct (Hd _ P2) as [L' V'].
    pose proof (inside_len _ _ _ _ (Fs _ P2)) as (A1 & A2 & _).
    pose proof (inside_len _ _ _ _ (Fr _ Hr)) as (B1 & B2 & _). rewrite map_length in *.
    destruct (region_copy c valid rng gh gh (ax (rp r)) (ax r) (smin (rp r)) (smax (rp r)) (rmin r) (rmax r)
      (d (rp r)) S R W' W Wn') as (n & bs & Hn & Lb & Sz & To & From); try congruence.
    { apply extents_shape; try congruence. now apply Fe. }
    { intros y Hy. eapply inside_box; [apply Fs; auto|]. eapply in_rng_box; eauto. }
    { intros y Hy. eapply inside_box; [apply Fr; auto|]. eapply in_rng_box; eauto. }
    { intros y v _ Hv. rewrite Forall_forall in V'. apply V'.
      unfold get in Hv. destruct (_ <? _); [discriminate|]. eapply nth_error_In; eauto. }
    exists n, bs. split; [split; [auto|]; eapply Hb; [|exact Sz]; auto|]. split; [auto|]. split; [auto|]. split.
    - specialize (To [] (repeat 0 (Z.to_nat n)) []). rewrite app_nil_r in To. cbn [app] in To. change (zlen (@nil byte)) with 0 in To.
      rewrite To by (unfold zlen; rewrite repeat_length; lia). now rewrite app_nil_r.
    - destruct (From [] [] (d r) L) as (d' & F1 & F2 & F3 & F4). rewrite app_nil_r in F1. cbn [app] in F1. change (zlen (@nil byte)) with 0 in F1.
      exists d'. auto. }
  set (sz := fun r => match buffer_size c rng (d r) (ax r) (smin r) (smax r) 0 with Some n => n | None => 0 end).
  set (bs := fun r => match to_buffer c rng (d r) (ax r) (smin r) (smax r) 0 (repeat 0 (Z.to_nat (sz r))) 0 with
                      | Some (b, n) => b | None => [] end).
  set (d' := fun r => match from_buffer c rng (d r) (ax r) (rmin r) (rmax r) 0 (bs (rp r)) 0 with
                      | Some (x, _) => x | None => d r end).
  assert (forall r, 0 <= r < np ->
    0 <= sz r <= int_max /\ zlen (bs r) = sz r /\
    buffer_size c rng (d r) (ax r) (smin r) (smax r) 0 = Some (sz r) /\
    to_buffer c rng (d r) (ax r) (smin r) (smax r) 0 (repeat 0 (Z.to_nat (sz r))) 0 = Some (bs r, sz r)) as Snd.
  { intros r Hr. destruct (Fp r Hr) as (P1 & P2 & P3 & P4).
    destruct (Pair (sp r) P1) as (n & b & X1 & X2 & X3 & X4 & _). rewrite P3 in *.
    assert (sz r = n) as E by (unfold sz; now rewrite X3).
    assert (bs r = b) as E2 by (unfold bs; now rewrite E, X4).
    rewrite E, E2. auto. }
  assert (forall r, 0 <= r < np ->
    from_buffer c rng (d r) (ax r) (rmin r) (rmax r) 0 (bs (rp r)) 0 = Some (d' r, sz (rp r)) /\ True) as Rcv.
  { intros r Hr. destruct (Fp r Hr) as (P1 & P2 & P3 & P4).
    destruct (Pair r Hr) as (n & b & X1 & X2 & X3 & X4 & x & X5 & _).
    assert (sz (rp r) = n) as E by (unfold sz; now rewrite X3).
    assert (bs (rp r) = b) as E2 by (unfold bs; now rewrite E, X4).
    unfold d'. rewrite E, E2, X5. auto. }
  assert (moved d d') as Mv.
  { intros r Hr. destruct (Fp r Hr) as (P1 & P2 & P3 & P4).
    destruct (Pair r Hr) as (n & b & X1 & X2 & X3 & X4 & x & X5 & X6 & X7 & X8).
    assert (sz (rp r) = n) as E by (unfold sz; now rewrite X3).
    assert (bs (rp r) = b) as E2 by (unfold bs; now rewrite E, X4).
    assert (d' r = x) as -> by (unfold d'; now rewrite E2, X5). auto. }
  exists d'.
  set (tail := fun r => if (int_max <? sz r) || (int_max <? sz (rp r)) then Fail else
    lift (to_buffer c rng (d r) (ax r) (smin r) (smax r) 0 (repeat 0 (Z.to_nat (sz r))) 0) (fun '(send_buffer, n) =>
    Isend (sp r) t2 (firstn (Z.to_nat n) send_buffer) (
    Recv (rp r) t2 (fun m =>
    WaitSend (sp r) t2 (
    if sz (rp r) <? zlen m then Fail else
    barrier (
    lift (from_buffer c rng (d r) (ax r) (rmin r) (rmax r) 0 (m ++ repeat 0 (Z.to_nat (sz (rp r) - zlen m))) 0)
         (fun '(data', _) => K r data'))))))).
  (* round 1: sizes *)
  destruct (exchange_round np sp rp t1 (fun r => pd_enc pod_ulong (sz r))
    (fun r size_msg => if negb (zlen size_msg =? 8) then Fail else
       let recv_size := pd_dec pod_ulong size_msg in
       barrier (if (int_max <? sz r) || (int_max <? recv_size) then Fail else
         lift (to_buffer c rng (d r) (ax r) (smin r) (smax r) 0 (repeat 0 (Z.to_nat (sz r))) 0) (fun '(send_buffer, n) =>
         Isend (sp r) t2 (firstn (Z.to_nat n) send_buffer) (
         Recv (rp r) t2 (fun m =>
         WaitSend (sp r) t2 (
         if recv_size <? zlen m then Fail else
         barrier (
         lift (from_buffer c rng (d r) (ax r) (rmin r) (rmax r) 0 (m ++ repeat 0 (Z.to_nat (recv_size - zlen m))) 0)
              (fun '(data', _) => K r data')))))))) ch ltac:(lia) Q Fp) as (n1 & c1 & Q1 & G1).
  (* round 2: data *)
  destruct (exchange_round np sp rp t2 bs
    (fun r m => if sz (rp r) <? zlen m then Fail else
         barrier (
         lift (from_buffer c rng (d r) (ax r) (rmin r) (rmax r) 0 (m ++ repeat 0 (Z.to_nat (sz (rp r) - zlen m))) 0)
              (fun '(data', _) => K r data'))) c1 ltac:(lia) Q1 Fp) as (n2 & c2 & Q2 & G2).
  exists (n1 + (1 + (n2 + 1)))%nat, c2. split; [auto|]. split; [auto|].
  eapply gsteps_app.
  { erewrite (ranks_ext np (fun r => transfer _ _ _ _ _ _ _ _ _ _ _ _ _)); [exact G1|].
    intros r Hr. unfold transfer. destruct (Snd r Hr) as (_ & _ & -> & _). reflexivity. }
  eapply gsteps_app.
  { apply gsteps_1. rewrite (ranks_ext np _ (fun r => Coll 0 [] (fun _ => tail r))).
    { apply (all_coll np 0 (fun _ => []) (fun r _ => tail r)). lia. }
    intros r Hr. cbv beta. destruct (Fp r Hr) as (_ & P2 & _). destruct (Snd _ P2) as (X1 & _).
    destruct (pod_uint_ok 8) as [_ U]. destruct (U (sz (rp r))) as [U1 U2].
    { change (256 ^ Z.of_nat 8) with 18446744073709551616. unfold int_max in X1. lia. }
    change (zlen (pd_enc pod_ulong (sz (rp r))) = 8) in U1. change (pd_dec pod_ulong (pd_enc pod_ulong (sz (rp r))) = sz (rp r)) in U2.
    rewrite U1, U2. reflexivity. }
  eapply gsteps_app.
  { match goal with |- gsteps _ (ranks np ?f, _) _ => erewrite (ranks_ext np f); [exact G2|] end. intros r Hr. cbv beta. unfold tail.
    destruct (Fp r Hr) as (_ & P2 & _). destruct (Snd _ Hr) as (X1 & X2 & X3 & X4). destruct (Snd _ P2) as (Y1 & _).
    destruct (Z.ltb_spec int_max (sz r)); [lia|]. destruct (Z.ltb_spec int_max (sz (rp r))); [lia|]. cbn [orb].
    rewrite X4. cbn [lift]. rewrite firstn_all2 by (unfold zlen in X2; lia). reflexivity. }
  apply gsteps_1. rewrite (ranks_ext np _ (fun r => Coll 0 [] (fun _ => K r (d' r)))).
  { apply (all_coll np 0 (fun _ => []) (fun r _ => K r (d' r))). lia. }
  intros r Hr. cbv beta. destruct (Fp r Hr) as (_ & P2 & _). destruct (Snd _ P2) as (X1 & X2 & _).
  destruct (Z.ltb_spec (sz (rp r)) (zlen (bs (rp r)))); [lia|].
  replace (Z.to_nat (sz (rp r) - zlen (bs (rp r)))) with O by lia. cbn [repeat]. rewrite app_nil_r.
  destruct (Rcv r Hr) as [-> _]. reflexivity.
Qed.
End Transfer.
