(* An executable scheduler for concrete runs. *)
From Verif Require Import Model.Base Model.MPI Spec.Schedule Proof.BaseL Proof.MPIL.

Section Exec.
Context {A : Type}.
Definition lnext (np r : Z) (p : proc A) (ch : chans) : option (proc A * chans) :=
  match p with
  | Isend d t m k => if (0 <=? d) && (d <? np) then Some (k, set_chan ch r d t (chan ch r d t ++ [m])) else None
  | Recv s t k => if (0 <=? s) && (s <? np) then
                    match chan ch s r t with m :: q => Some (k m, set_chan ch s r t q) | [] => None end else None
  | WaitSend d t k => match chan ch r d t with [] => Some (k, ch) | _ => None end
  | _ => None
  end.
Fixpoint collect (kind : Z) (ps : list (proc A)) : option (list msg * list (list msg -> proc A)) :=
  match ps with
  | [] => Some ([], [])
  | Coll kd m k :: ps' => if kd =? kind then
                            do r <- collect kind ps'; Some (m :: fst r, k :: snd r) else None
  | _ => None
  end.
Fixpoint first_local (np r : Z) (pre ps : list (proc A)) (ch : chans) : option (state A) :=
  match ps with
  | [] => None
  | p :: ps' => match lnext np r p ch with
                | Some (p', ch') => Some (rev pre ++ p' :: ps', ch')
                | None => first_local np (r + 1) (p :: pre) ps' ch
                end
  end.
Definition next (s : state A) : option (state A) :=
  match first_local (zlen (fst s)) 0 [] (fst s) (snd s) with
  | Some s' => Some s'
  | None => match fst s with
            | Coll kind m k :: _ => do r <- collect kind (fst s); Some (map (fun k => k (fst r)) (snd r), snd s)
            | _ => None
            end
  end.
Fixpoint run (fuel : nat) (s : state A) : state A :=
  match fuel with
  | O => s
  | S f => match next s with Some s' => run f s' | None => s end
  end.

Lemma lnext_sound np r p ch p' ch' : lnext np r p ch = Some (p', ch') -> lstep np r true p ch p' ch'.
Proof.
  destruct p; simpl; try discriminate.
  - destruct (Z.leb_spec 0 dst); simpl; [|discriminate]. destruct (Z.ltb_spec dst np); [|discriminate].
    intros H1; inversion H1; subst. constructor. lia.
  - destruct (Z.leb_spec 0 src); simpl; [|discriminate]. destruct (Z.ltb_spec src np); [|discriminate].
    destruct (chan ch src r tag) eqn:E; [discriminate|]. intros H1; inversion H1; subst. constructor; [lia|auto].
  - destruct (chan ch r dst tag) eqn:E; [|discriminate]. intros H1; inversion H1; subst. constructor; auto.
Qed.
Lemma collect_sound kind ps ms ks : collect kind ps = Some (ms, ks) -> at_coll kind ps ms ks.
Proof.
  revert ms ks; induction ps as [|p ps IH]; intros ms ks; simpl; [intros H; inversion H; constructor|].
  destruct p; try discriminate. destruct (Z.eqb_spec kind0 kind); [subst|discriminate].
  destruct (collect kind ps) as [[a b]|]; simpl; [|discriminate]. intros H; inversion H; subst. constructor. auto.
Qed.
Lemma first_local_sound np r pre ps ch s' : first_local np r pre ps ch = Some s' -> np = zlen pre + zlen ps -> r = zlen pre ->
  step true (rev pre ++ ps, ch) s'.
Proof.
  revert r pre; induction ps as [|p ps IH]; intros r pre; simpl; [discriminate|].
  destruct (lnext np r p ch) as [[p' ch']|] eqn:E.
  - intros H Hn Hr. inversion H; subst. eapply (step_local _ (zlen pre) p p').
    + assert (0 <= zlen pre) by apply zlen_nonneg. unfold get. destruct (Z.ltb_spec (zlen pre) 0); [lia|].
      rewrite nth_error_app2 by (unfold zlen; rewrite rev_length; lia).
      replace (Z.to_nat (zlen pre) - length (rev pre))%nat with O by (unfold zlen; rewrite rev_length; lia). reflexivity.
    + replace (zlen (rev pre ++ p :: ps)) with (zlen pre + zlen (p :: ps)); [now apply lnext_sound|].
      unfold zlen. rewrite app_length, rev_length. lia.
    + assert (0 <= zlen pre) by apply zlen_nonneg.
      assert (forall l : list (proc A), set_nth (length l) (l ++ p :: ps) p' = l ++ p' :: ps) as SN by (induction l; simpl; congruence).
      rewrite put_ok by (unfold zlen; rewrite app_length, rev_length; simpl; lia).
      replace (Z.to_nat (zlen pre)) with (length (rev pre)) by (unfold zlen; rewrite rev_length; lia).
      now rewrite SN.
  - intros H Hn Hr. specialize (IH (r + 1) (p :: pre) H). simpl in IH. rewrite <- app_assoc in IH. simpl in IH.
    apply IH; rewrite zlen_cons in *; rewrite ?zlen_cons; lia.
Qed.
Lemma next_sound s s' : next s = Some s' -> step true s s'.
Proof.
  destruct s as [ps ch]. unfold next. simpl fst. simpl snd.
  destruct (first_local (zlen ps) 0 [] ps ch) eqn:E.
  - intros H; inversion H; subst. apply first_local_sound in E; auto.
  - destruct ps as [|[] ps]; try discriminate.
    destruct (collect kind (Coll kind m k :: ps)) as [[ms ks]|] eqn:C; cbn [bind fst snd]; [|discriminate].
    intros H; inversion H; subst. apply collect_sound in C. eapply step_coll; eauto.
Qed.
Lemma run_sound fuel s : exists n, gsteps n s (run fuel s).
Proof.
  revert s; induction fuel as [|f IH]; intros s; simpl; [exists O; constructor|].
  destruct (next s) eqn:E; [|exists O; constructor]. destruct (IH s0) as [n H].
  exists (S n). econstructor; [apply next_sound; eauto|auto].
Qed.

(* results of the ranks *)
Definition results (ps : list (proc A)) : option (list A) :=
  map_opt (fun p => match p with Ret a => Some a | _ => None end) ps.

(* a concrete run that ends with all ranks returned is the only outcome *)
Lemma run_inevitable fuel s l : fst s <> [] -> results (fst (run fuel s)) = Some l ->
  inevitable s (run fuel s).
Proof.
  intros Hne H. destruct (run_sound fuel s) as [n G]. eapply inevitable_of_gsteps; [exact G|].
  intros g s' St. clear - H St. destruct (run fuel s) as [ps ch]. simpl in H.
  assert (forall p, In p ps -> exists a, p = Ret a) as R.
  { unfold results in H. clear - H. revert l H; induction ps as [|p ps IH]; intros l H; simpl in *; [tauto|].
    destruct p; try discriminate. simpl in H.
    destruct (map_opt _ ps) eqn:E; [|discriminate]. intros q [<-|Hq]; eauto. }
  inversion St as [g1 r p p' ps1 ps' ch0 ch' G1 L P|kind ps1 ms ks ch0 Hne1 AC]; subst.
  - unfold get in G1. destruct (r <? 0); [discriminate|]. apply nth_error_In in G1.
    destruct (R _ G1) as [a ->]. inversion L.
  - inversion AC as [|m k ps1 ms1 ks1 AC1]; subst; [contradiction|]. destruct (R (Coll kind m k)) as [a E]; [simpl; auto|discriminate].
Qed.

(* no rank can take a step *)
Fixpoint no_local (np r : Z) (ps : list (proc A)) (ch : chans) : bool :=
  match ps with
  | [] => true
  | p :: ps' => match p with WaitSend _ _ _ => false | _ => match lnext np r p ch with None => true | Some _ => false end end
                && no_local np (r + 1) ps' ch
  end.
Definition halted (s : state A) : bool :=
  no_local (zlen (fst s)) 0 (fst s) (snd s) &&
  match fst s with
  | Coll kind m k :: _ => match collect kind (fst s) with None => true | Some _ => false end
  | _ => true
  end.
Lemma lnext_complete np r p ch p' ch' g : lstep np r g p ch p' ch' ->
  (exists d t k, p = WaitSend d t k) \/ lnext np r p ch <> None.
Proof.
  intros H; inversion H; subst; simpl; eauto; right.
  - destruct (Z.leb_spec 0 d), (Z.ltb_spec d np); simpl; try lia; congruence.
  - destruct (Z.leb_spec 0 s), (Z.ltb_spec s np); simpl; try lia. rewrite H1. congruence.
Qed.
Lemma no_local_spec np r ps ch k p : no_local np r ps ch = true -> nth_error ps k = Some p ->
  (forall d t k, p <> WaitSend d t k) /\ lnext np (r + Z.of_nat k) p ch = None.
Proof.
  revert r k; induction ps as [|q ps IH]; intros r [|k]; cbn [no_local nth_error]; try discriminate; intros H E; apply andb_prop in H as [H1 H2].
  - inversion E; subst. replace (r + Z.of_nat 0) with r by lia. destruct p; try discriminate;
      (destruct (lnext np r _ ch); [discriminate|]; split; [congruence|auto]).
  - destruct (IH (r + 1) k H2 E) as [I1 I2]. split; [auto|]. now replace (r + Z.of_nat (S k)) with (r + 1 + Z.of_nat k) by lia.
Qed.
Lemma collect_complete kind ps ms ks : at_coll kind ps ms ks -> collect kind ps = Some (ms, ks).
Proof. induction 1; simpl; [auto|]. rewrite Z.eqb_refl, IHat_coll. reflexivity. Qed.
Lemma halted_stuck s : halted s = true -> stuck s.
Proof.
  intros H g s' St. apply andb_prop in H as [H1 H2].
  inversion St as [g1 r p p' ps1 ps' ch0 ch' G1 L P|kind ps1 ms ks ch0 Hne1 AC]; subst; simpl in *.
  - unfold get in G1. destruct (Z.ltb_spec r 0); [discriminate|].
    destruct (no_local_spec _ _ _ _ _ _ H1 G1) as [N1 N2].
    replace (0 + Z.of_nat (Z.to_nat r)) with r in N2 by lia.
    apply lnext_complete in L as [(d & t & k & ->)|L]; [eapply N1; eauto|contradiction].
  - destruct ps1 as [|p ps1]; [contradiction|]. assert (exists m k, p = Coll kind m k) as (m & k & ->) by (inversion AC; eauto).
    rewrite (collect_complete _ _ _ _ AC) in H2. discriminate.
Qed.
Lemma run_halts fuel s : halted (run fuel s) = true -> inevitable s (run fuel s).
Proof.
  intros H. destruct (run_sound fuel s) as [n G]. eapply inevitable_of_gsteps; [exact G|]. now apply halted_stuck.
Qed.
Lemma inevitable_unique (s f f' : state A) : inevitable s f -> inevitable s f' -> f = f'.
Proof.
  intros [n H] [n' H'].
  assert (exists s', steps n s s') as [s' Hs].
  { assert (forall k, (k <= n)%nat -> exists s', steps k s s') as X; [|apply X; lia].
    induction k as [|k IH]; intros Hk; [exists s; constructor|]. destruct IH as [s1 H1]; [lia|].
    destruct (H _ _ H1) as [[_ [s2 H2]]|[E _]]; [|lia]. exists s2. replace (S k) with (k + 1)%nat by lia.
    clear - H1 H2. induction H1; simpl; [econstructor; [exact H2|constructor]|]. econstructor; eauto. }
  assert (forall k s', steps k s s' -> (k <= n /\ k <= n')%nat) as B.
  { intros k s1 Hk. destruct (H _ _ Hk), (H' _ _ Hk); lia. }
  destruct (H _ _ Hs) as [[? _]|[_ <-]]; [lia|].
  destruct (H' _ _ Hs) as [[_ [s2 H2]]|[_ E]]; [|auto].
  exfalso. assert (steps (n + 1) s s2) as Hx.
  { clear - Hs H2. induction Hs; simpl; [econstructor; [exact H2|constructor]|]. econstructor; eauto. }
  apply B in Hx. lia.
Qed.
End Exec.
