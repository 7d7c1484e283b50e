From Coq Require Import QArith.QArith QArith.Qcanon Permutation.
From Verif Require Import Model.Base Model.Boundary Model.Layout Model.Access Model.Setup Model.Codec Model.MPI Model.Ghostswap Model.Stencil Model.Simulate Model.Dynamics Model.Stages Model.Program
  Spec.Box Spec.Access Spec.Bytes Spec.Decomp Spec.Schedule Spec.Stencil Spec.Program
  Proof.BaseL Proof.LayoutL Proof.AccessL Proof.CodecL Proof.SetupL Proof.MPIL Proof.HaloL Proof.StencilL Proof.StencilS Proof.StencilQ Proof.SimulateL Proof.StagesL Proof.ProgramL.
Local Open Scope Z_scope.

Section Ends.
Context (np : Z) (gs : list gaxis) (bs : list (Z * Z)) (gh B : Z).
Context (Hnp : 0 < np) (Hne : gs <> []) (Hgh : 1 <= gh) (B0 : 0 <= B).
Context (Lb : length bs = length gs) (Sa : Forall serial_axis (whole_lims gs bs)).
Context (HI : forall r ge, 0 <= r < np -> setup_mpi np gs gh r = Some ge -> cells (ge_axes ge) * B <= int_max).
Context (Hw : forall r ge, 0 <= r < np -> setup_mpi np gs gh r = Some ge ->
     Forall (fun a => a_x0 a < a_x1 a /\ gh <= a_x1 a - a_x0 a) (ge_axes ge)).
Notation w := (whole_lims gs bs).
Notation G0 := (fun r => match setup_mpi np gs gh r with Some ge => ge | None => dgeom end).
Notation G := (fun r => with_bounds set_bounds_axis bs (match setup_mpi np gs gh r with Some ge => ge | None => dgeom end)).

Lemma made r : 0 <= r < np -> setup_mpi np gs gh r = Some (G0 r).
Proof using All. exact (setup_G0 np gs bs gh B Hnp Hne Lb Sa HI Hw r). Qed.
Lemma bounds_same r ge : 0 <= r < np -> setup_mpi np gs gh r = Some ge ->
  ge = G0 r /\ cells (ge_axes (G r)) = cells (ge_axes ge) /\ (forall y, owns (G r) y <-> owns ge y) /\ (forall y, encode (ge_axes (G r)) y = encode (ge_axes ge) y).
Proof using All.
  intros Hr Eg. rewrite (made r Hr) in Eg. injection Eg as <-. destruct (dc_len _ _ _ _ (DC0 np gs bs gh B Hnp Hne Hgh Lb Sa HI Hw) r Hr) as (L & _). unfold with_bounds, owns. cbn [ge_axes].
  split; [auto|]. split; [apply cells_zip; lia|]. split.
  - intros y. rewrite !map_zip_axes by (auto; lia). reflexivity. - intros y. apply encode_zip. lia.
Qed.
(* reading an own node *)
Lemma read_own {X} (d : list X) r ge y : 0 <= r < np -> setup_mpi np gs gh r = Some ge -> owns ge y ->
  grid_read true (ge_axes ge) d y = get d (encode (ge_axes (G r)) y) /\ box w y /\ owns (G r) y.
Proof using All.
  intros Hr Eg Oy. destruct (bounds_same r ge Hr Eg) as (-> & _ & Go & Ge). assert (owns (G r) y) as Oy' by now apply Go. split; [|split; [|auto]].
  - rewrite Ge. destruct (dc_len _ _ _ _ (DC0 np gs bs gh B Hnp Hne Hgh Lb Sa HI Hw) r Hr) as (L & _). rewrite grid_read_eq; [now rewrite adjust_in|]. unfold owns in Oy. apply in_box_length in Oy as [H _]. rewrite map_length in H. congruence.
  - exact (owned_in_w np gs bs gh B Hnp Hne Hgh B0 Lb Sa HI Hw r y Hr Oy').
Qed.
Lemma read_whole {X} (D : list X) y : box w y -> grid_read false (lay 0 w) D y = get D (encode (lay 0 w) y).
Proof using All. intros By. rewrite read_idx by now apply local_len. now rewrite cbs_in. Qed.

Lemma start_state {T} (valid : T -> Prop) (D : Z -> list T) D0 : zlen D0 = cells (lay 0 w) ->
  (forall r ge, 0 <= r < np -> setup_mpi np gs gh r = Some ge -> zlen (D r) = cells (ge_axes ge) /\ Forall valid (D r) /\ forall y, owns ge y -> grid_read true (ge_axes ge) (D r) y = grid_read false (lay 0 w) D0 y) ->
  exists F, on_whole gs bs F D0 /\ held valid np G D /\ owned np gs bs gh F D.
Proof using All.
  intros L0 HD. destruct (some_node np gs bs gh B Hnp Hne Hgh B0 Lb Sa HI Hw) as [y0 By0].
  destruct (get_ex D0 (encode (lay 0 w) y0)) as [v0 _].
  { rewrite L0. pose proof (wf_lay 0 w (lims_le w Sa)) as W. apply (encode_bounds 0); [auto|]. apply (local_in_storage 0); [lia|auto|]. now rewrite map_x0_lay, map_x1_lay. }
  destruct (field_of np gs bs gh B Hnp Hne Hgh B0 Lb Sa HI Hw v0 D0 L0) as [F HF]. exists F. split; [auto|]. split.
  - intros r Hr. destruct (bounds_same r _ Hr (made r Hr)) as (_ & -> & _). destruct (HD r _ Hr (made r Hr)) as (? & ? & _). auto.
  - intros r y Hr Oy. change (owns (G r) y) in Oy. change (get (D r) (encode (ge_axes (G r)) y) = Some (F y)). destruct (bounds_same r _ Hr (made r Hr)) as (_ & _ & Go & _). pose proof Oy as Oy'. apply Go in Oy.
    destruct (read_own (D r) r _ y Hr (made r Hr) Oy) as (<- & By & _). destruct (HD r _ Hr (made r Hr)) as (_ & _ & Hy). rewrite Hy, read_whole by auto. now apply HF.
Qed.
Lemma end_state {T} (valid : T -> Prop) (D' : Z -> list T) F D0' : on_whole gs bs F D0' -> held valid np G D' -> owned np gs bs gh F D' ->
  forall r ge, 0 <= r < np -> setup_mpi np gs gh r = Some ge -> zlen (D' r) = cells (ge_axes ge) /\ Forall valid (D' r) /\
    forall y, owns ge y -> exists v, grid_read true (ge_axes ge) (D' r) y = Some v /\ grid_read false (lay 0 w) D0' y = Some v.
Proof using All.
  intros [L0 A] Hd O r ge Hr Eg. destruct (bounds_same r ge Hr Eg) as (-> & Ec & _). destruct (Hd r Hr) as [L V]. cbv beta in L, Ec. rewrite Ec in L. split; [auto|]. split; [auto|]. intros y Oy.
  destruct (read_own (D' r) r _ y Hr Eg Oy) as (-> & By & Oy'). exists (F y). split; [now apply O|]. rewrite read_whole by auto. now apply A.
Qed.
(* every node a rank owns is stored on it, and in the whole grid *)
Lemma own_stored {X} (d : list X) r ge y : 0 <= r < np -> setup_mpi np gs gh r = Some ge -> owns ge y -> zlen d = cells (ge_axes ge) -> exists v, grid_read true (ge_axes ge) d y = Some v.
Proof using All.
  intros Hr Eg Oy L. destruct (read_own d r ge y Hr Eg Oy) as (-> & _ & Oy'). destruct (bounds_same r ge Hr Eg) as (_ & Ec & _).
  destruct (lims_of np gs bs gh B Hnp Hne Hgh B0 Lb Sa HI Hw r Hr) as (ls & Ea & Ff & Lo & Ll). unfold owns in Oy'. cbv beta in Ea, Ec, Oy' |- *. rewrite Ea in *. apply get_ex.
  rewrite L, <- Ec. apply (encode_bounds gh); [now apply wf_lay|]. apply (local_in_storage gh); [lia|now apply wf_lay|auto].
Qed.
Lemma whole_stored {X} (d : list X) r ge y : 0 <= r < np -> setup_mpi np gs gh r = Some ge -> owns ge y -> zlen d = cells (lay 0 w) -> exists v, grid_read false (lay 0 w) d y = Some v.
Proof using All.
  intros Hr Eg Oy L. destruct (read_own d r ge y Hr Eg Oy) as (_ & By & _). rewrite read_whole by auto. apply get_ex. pose proof (wf_lay 0 w (lims_le w Sa)) as W.
  rewrite L. apply (encode_bounds 0); [auto|]. apply (local_in_storage 0); [lia|auto|]. now rewrite map_x0_lay, map_x1_lay.
Qed.
End Ends.

Theorem one_program {T} (c : codec T) (valid : T -> Prop) (R : T -> T -> Prop) step f np gs bs gh B (D : Z -> list T) (ns : Z -> list (nat * list T)) (D0 D0' : list T) ns0 :
  grids np gs bs gh B -> serialises c valid -> (forall v, valid v -> c_size c v <= B) -> (forall v, valid v -> R v v) ->
  (forall mpi g ls t old new, 0 <= g -> (mpi = false -> g = 0) -> lims_ok ls -> zlen new = cells (lay g ls) ->
    step mpi (lay g ls) t (old, new) = do new' <- for_cells mpi (lay g ls) (f mpi (lay g ls) t old) new; Some (new', old)) ->
  (forall t g1 ls i ls0 i0 (old old0 : list T) (a b : T), 0 <= g1 -> lims_ok ls -> lims_ok ls0 -> length ls = length gs -> length ls0 = length gs ->
    0 <= i < nodes (lay g1 ls) -> 0 <= i0 < nodes (lay 0 ls0) -> position (lay g1 ls) i = position (lay 0 ls0) i0 ->
    length (position (lay 0 ls0) i0) = length gs -> alike (lay g1 ls) old (lay 0 ls0) old0 (position (lay 0 ls0) i0) -> Forall valid old0 -> R a b -> valid a -> valid b -> f true (lay g1 ls) t old i a = f false (lay 0 ls0) t old0 i0 b) ->
  (forall t ls0 (old : list T) i (a v : T), lims_ok ls0 -> Forall valid old -> 0 <= i < nodes (lay 0 ls0) -> valid a -> f false (lay 0 ls0) t old i a = Some v -> valid v) ->
  zlen D0 = cells (whole gs bs) -> Forall valid D0 ->
  (forall r ge, 0 <= r < np -> setup_mpi np gs gh r = Some ge -> zlen (D r) = cells (ge_axes ge) /\ Forall valid (D r) /\ (forall y, owns ge y -> grid_read true (ge_axes ge) (D r) y = grid_read false (whole gs bs) D0 y) /\
    Forall2 (fun a b => fst a = fst b /\ zlen (snd a) = cells (ge_axes ge) /\ Forall valid (snd a) /\ forall y, owns ge y -> exists p q, grid_read true (ge_axes ge) (snd a) y = Some p /\ grid_read false (whole gs bs) (snd b) y = Some q /\ R p q) (ns r) ns0) ->
  Forall (fun b => zlen (snd b) = cells (whole gs bs) /\ Forall valid (snd b)) ns0 ->
  serial_calls step (whole gs bs) 0 ns0 D0 = Some D0' ->
  computes valid np gs bs gh (rank_program step c np gs bs gh D ns) D0'.
Proof.
  intros (Hnp & Hne & Hgh & B0 & Hbs & Hg) S HB Rr Hstep Hlocal Hkeep L0 V0 HD Hns E. destruct (whole_serial gs bs Hbs) as [Lb Sa]. rewrite whole_lay in * by auto.
  assert (forall r ge, 0 <= r < np -> setup_mpi np gs gh r = Some ge -> cells (ge_axes ge) * B <= int_max) as HI by (intros r ge Hr Eg; apply (Hg r ge Hr Eg)).
  assert (forall r ge, 0 <= r < np -> setup_mpi np gs gh r = Some ge -> Forall (fun a => a_x0 a < a_x1 a /\ gh <= a_x1 a - a_x0 a) (ge_axes ge)) as Hw by (intros r ge Hr Eg; apply (Hg r ge Hr Eg)).
  destruct (start_state np gs bs gh B Hnp Hne Hgh B0 Lb Sa HI Hw valid D D0 L0) as (F & WF & Hd & Od).
  { intros r ge Hr Eg. destruct (HD r ge Hr Eg) as (? & ? & ? & _). auto. }
  set (G := fun r => with_bounds set_bounds_axis bs (match setup_mpi np gs gh r with Some ge => ge | None => dgeom end)) in *.
  assert (calls_ok np gs bs gh valid R ns ns0) as Ok.
  { assert (forall r ge, 0 <= r < np -> setup_mpi np gs gh r = Some ge -> Forall2 (fun a b => fst a = fst b /\ zlen (snd a) = cells (ge_axes ge) /\ Forall valid (snd a) /\ forall y, owns ge y -> exists p q, grid_read true (ge_axes ge) (snd a) y = Some p /\ grid_read false (lay 0 (whole_lims gs bs)) (snd b) y = Some q /\ R p q) (ns r) ns0) as H
      by (intros r ge Hr Eg; apply (HD r ge Hr Eg)).
    clear - H Hns Hnp Hne Hgh B0 Lb Sa HI Hw. revert ns H. induction Hns as [|[n N] ns0 [LN VN] Hns IH]; intros ns H; cbn [calls_ok].
    - intros r Hr. specialize (H r _ Hr (made np gs bs gh B Hnp Hne Hgh B0 Lb Sa HI Hw r Hr)). now inversion H.
    - cbn [snd] in *. exists (fun r => snd (hd (O, []) (ns r))), (fun r => tl (ns r)).
      assert (forall r, 0 <= r < np -> exists u rest, ns r = (n, u) :: rest) as Hh.
      { intros r Hr. specialize (H r _ Hr (made np gs bs gh B Hnp Hne Hgh B0 Lb Sa HI Hw r Hr)). inversion H as [|[n' u] b' l l' P Q E1 E2]; subst. destruct P as [P _]. cbn [fst] in P. subst. eauto. }
      split; [|split; [|split; [|split; [auto|split; [auto|]]]]].
      + intros r Hr. destruct (Hh r Hr) as (u & rest & ->). reflexivity.
      + intros r Hr. destruct (bounds_same np gs bs gh B Hnp Hne Hgh B0 Lb Sa HI Hw r _ Hr (made np gs bs gh B Hnp Hne Hgh B0 Lb Sa HI Hw r Hr)) as (_ & -> & _).
        specialize (H r _ Hr (made np gs bs gh B Hnp Hne Hgh B0 Lb Sa HI Hw r Hr)). destruct (ns r) as [|[n' u] rest]; inversion H as [|? ? ? ? P Q]; subst. cbn [hd snd] in *. destruct P as (_ & ? & ? & _). auto.
      + intros r y Hr Oy. destruct (bounds_same np gs bs gh B Hnp Hne Hgh B0 Lb Sa HI Hw r _ Hr (made np gs bs gh B Hnp Hne Hgh B0 Lb Sa HI Hw r Hr)) as (_ & _ & Go & _). apply Go in Oy.
        specialize (H r _ Hr (made np gs bs gh B Hnp Hne Hgh B0 Lb Sa HI Hw r Hr)). destruct (ns r) as [|[n' u] rest]; inversion H as [|? ? ? ? P Q]; subst. cbn [hd snd] in *. destruct P as (_ & _ & _ & P).
        destruct (P y Oy) as (p & q & R1 & R2 & Rpq). exists p, q.
        destruct (read_own np gs bs gh B Hnp Hne Hgh B0 Lb Sa HI Hw u r _ y Hr (made np gs bs gh B Hnp Hne Hgh B0 Lb Sa HI Hw r Hr) Oy) as (<- & By & _).
        split; [auto|]. split; [|auto]. rewrite <- (read_whole np gs bs gh B Hnp Hne Hgh B0 Lb Sa HI Hw) by auto. exact R2.
      + apply IH. intros r ge Hr Eg. specialize (H r ge Hr Eg). destruct (ns r); inversion H; subst; auto. }
  destruct (one_calls np gs bs gh B Hnp Hne Hgh B0 Lb Sa HI Hw c valid R step f S HB Rr Hstep) with (ns0 := ns0) (t := 0) (F := F) (d := D) (D := D0) (D' := D0') (ns := ns) (ch := no_chans)
    as (F' & d' & k & ch' & A1 & A2 & A3 & A4 & A5 & A6); auto.
  { intros t ls i i0 old old0 a b Lo Ll Hi Hi0 Ep Lp Al Vo Rab Va Vb. apply Hlocal; auto; [lia|apply lims_le, Sa|now apply length_whole]. }
  { intros t old i a v Vo Hi Va Ev. eapply (Hkeep t (whole_lims gs bs) old i a v); eauto. apply lims_le, Sa. }
  { apply quiet_empty. }
  match goal with |- computes _ _ _ _ _ ?P _ => destruct (conclude np P d' k no_chans ch' Hnp A5) as (fin & F1 & F2) end.
  { erewrite ranks_ext; [exact A6|]. intros r Hr. unfold rank_program. rewrite (made np gs bs gh B Hnp Hne Hgh B0 Lb Sa HI Hw r Hr). reflexivity. }
  pose proof (end_state np gs bs gh B Hnp Hne Hgh B0 Lb Sa HI Hw valid d' F' D0' A1 A3 A4) as Y. split.
  - exists d'. split; [exists fin; auto|]. split.
    + intros r ge y Hr Eg Oy. rewrite whole_lay by auto. destruct (Y r ge Hr Eg) as (_ & _ & Z). now apply Z.
    + intros r ge Hr Eg. destruct (Y r ge Hr Eg) as (? & ? & _). auto.
  - split; [rewrite whole_lay by auto; apply A1|auto].
Qed.

Theorem two_program {T U} (c : codec T) (cu : codec U) (valid : T -> Prop) (uvalid : U -> Prop) one two f1 f2 np gs bs gh B (D : Z -> list T) (ns : Z -> list (nat * list T * list U)) (D0 D0' : list T) ns0 :
  grids np gs bs gh B -> serialises c valid -> (forall v, valid v -> c_size c v <= B) -> serialises cu uvalid -> (forall v, uvalid v -> c_size cu v <= B) ->
  (forall mpi g ls t old temp, 0 <= g -> (mpi = false -> g = 0) -> lims_ok ls -> zlen temp = cells (lay g ls) -> one mpi (lay g ls) t old temp = for_cells mpi (lay g ls) (f1 mpi (lay g ls) t old) temp) ->
  (forall mpi g ls t old temp new, 0 <= g -> (mpi = false -> g = 0) -> lims_ok ls -> zlen new = cells (lay g ls) -> two mpi (lay g ls) t old temp new = for_cells mpi (lay g ls) (f2 mpi (lay g ls) t old temp) new) ->
  (forall t g1 ls i ls0 i0 (old old0 : list T) (a b : U), 0 <= g1 -> lims_ok ls -> lims_ok ls0 -> length ls = length gs -> length ls0 = length gs ->
    0 <= i < nodes (lay g1 ls) -> 0 <= i0 < nodes (lay 0 ls0) -> position (lay g1 ls) i = position (lay 0 ls0) i0 ->
    length (position (lay 0 ls0) i0) = length gs -> alike (lay g1 ls) old (lay 0 ls0) old0 (position (lay 0 ls0) i0) -> Forall valid old0 -> uvalid a -> uvalid b -> f1 true (lay g1 ls) t old i a = f1 false (lay 0 ls0) t old0 i0 b) ->
  (forall t g1 ls i ls0 i0 (old old0 : list T) (temp temp0 : list U) (a b : T), 0 <= g1 -> lims_ok ls -> lims_ok ls0 -> length ls = length gs -> length ls0 = length gs ->
    0 <= i < nodes (lay g1 ls) -> 0 <= i0 < nodes (lay 0 ls0) -> position (lay g1 ls) i = position (lay 0 ls0) i0 ->
    length (position (lay 0 ls0) i0) = length gs -> alike (lay g1 ls) old (lay 0 ls0) old0 (position (lay 0 ls0) i0) -> alike (lay g1 ls) temp (lay 0 ls0) temp0 (position (lay 0 ls0) i0) -> Forall valid old0 ->
    valid a -> valid b -> f2 true (lay g1 ls) t old temp i a = f2 false (lay 0 ls0) t old0 temp0 i0 b) ->
  (forall t ls0 (old : list T) i (a v : U), lims_ok ls0 -> Forall valid old -> 0 <= i < nodes (lay 0 ls0) -> uvalid a -> f1 false (lay 0 ls0) t old i a = Some v -> uvalid v) ->
  (forall t ls0 (old : list T) (temp : list U) i (a v : T), lims_ok ls0 -> Forall valid old -> Forall uvalid temp -> 0 <= i < nodes (lay 0 ls0) -> valid a -> f2 false (lay 0 ls0) t old temp i a = Some v -> valid v) ->
  zlen D0 = cells (whole gs bs) -> Forall valid D0 ->
  (forall r ge, 0 <= r < np -> setup_mpi np gs gh r = Some ge -> zlen (D r) = cells (ge_axes ge) /\ Forall valid (D r) /\ (forall y, owns ge y -> grid_read true (ge_axes ge) (D r) y = grid_read false (whole gs bs) D0 y) /\
    Forall2 (fun a b => fst (fst a) = fst (fst b) /\ zlen (snd (fst a)) = cells (ge_axes ge) /\ Forall valid (snd (fst a)) /\ zlen (snd a) = cells (ge_axes ge) /\ Forall uvalid (snd a)) (ns r) ns0) ->
  Forall (fun b => zlen (snd (fst b)) = cells (whole gs bs) /\ Forall valid (snd (fst b)) /\ zlen (snd b) = cells (whole gs bs) /\ Forall uvalid (snd b)) ns0 ->
  serial_calls2 one two (whole gs bs) 0 ns0 D0 = Some D0' ->
  computes valid np gs bs gh (rank_program2 one two c cu np gs bs gh D ns) D0'.
Proof.
  intros (Hnp & Hne & Hgh & B0 & Hbs & Hg) S HB Su HBu Hone Htwo Hl1 Hl2 Hk1 Hk2 L0 V0 HD Hns E. destruct (whole_serial gs bs Hbs) as [Lb Sa]. rewrite whole_lay in * by auto.
  assert (forall r ge, 0 <= r < np -> setup_mpi np gs gh r = Some ge -> cells (ge_axes ge) * B <= int_max) as HI by (intros r ge Hr Eg; apply (Hg r ge Hr Eg)).
  assert (forall r ge, 0 <= r < np -> setup_mpi np gs gh r = Some ge -> Forall (fun a => a_x0 a < a_x1 a /\ gh <= a_x1 a - a_x0 a) (ge_axes ge)) as Hw by (intros r ge Hr Eg; apply (Hg r ge Hr Eg)).
  destruct (start_state np gs bs gh B Hnp Hne Hgh B0 Lb Sa HI Hw valid D D0 L0) as (F & WF & Hd & Od).
  { intros r ge Hr Eg. destruct (HD r ge Hr Eg) as (? & ? & ? & _). auto. }
  set (G := fun r => with_bounds set_bounds_axis bs (match setup_mpi np gs gh r with Some ge => ge | None => dgeom end)) in *.
  assert (calls_ok2 np gs bs gh valid uvalid ns ns0) as Ok.
  { assert (forall r ge, 0 <= r < np -> setup_mpi np gs gh r = Some ge ->
      Forall2 (fun a b => fst (fst a) = fst (fst b) /\ zlen (snd (fst a)) = cells (ge_axes ge) /\ Forall valid (snd (fst a)) /\ zlen (snd a) = cells (ge_axes ge) /\ Forall uvalid (snd a)) (ns r) ns0) as H
      by (intros r ge Hr Eg; apply (HD r ge Hr Eg)).
    clear - H Hns Hnp Hne Hgh B0 Lb Sa HI Hw. revert ns H. induction Hns as [|[[n N] N2] ns0 (LN & VN & LN2 & VN2) Hns IH]; intros ns H; cbn [calls_ok2].
    - intros r Hr. specialize (H r _ Hr (made np gs bs gh B Hnp Hne Hgh B0 Lb Sa HI Hw r Hr)). now inversion H.
    - cbn [fst snd] in *. exists (fun r => snd (fst (hd (O, [], []) (ns r)))), (fun r => snd (hd (O, [], []) (ns r))), (fun r => tl (ns r)).
      assert (forall r, 0 <= r < np -> exists u e rest, ns r = (n, u, e) :: rest) as Hh.
      { intros r Hr. specialize (H r _ Hr (made np gs bs gh B Hnp Hne Hgh B0 Lb Sa HI Hw r Hr)). inversion H as [|[[n' u] e] b' l l' P Q E1 E2]; subst. destruct P as [P _]. cbn [fst] in P. subst. eauto. }
      split; [|split; [|split; [|split; [auto|split; [auto|split; [auto|split; [auto|]]]]]]].
      + intros r Hr. destruct (Hh r Hr) as (u & e & rest & ->). reflexivity.
      + intros r Hr. destruct (bounds_same np gs bs gh B Hnp Hne Hgh B0 Lb Sa HI Hw r _ Hr (made np gs bs gh B Hnp Hne Hgh B0 Lb Sa HI Hw r Hr)) as (_ & -> & _).
        specialize (H r _ Hr (made np gs bs gh B Hnp Hne Hgh B0 Lb Sa HI Hw r Hr)). destruct (ns r) as [|[[n' u] e] rest]; inversion H as [|? ? ? ? P Q]; subst. cbn [hd fst snd] in *. destruct P as (_ & ? & ? & _). auto.
      + intros r Hr. destruct (bounds_same np gs bs gh B Hnp Hne Hgh B0 Lb Sa HI Hw r _ Hr (made np gs bs gh B Hnp Hne Hgh B0 Lb Sa HI Hw r Hr)) as (_ & -> & _).
        specialize (H r _ Hr (made np gs bs gh B Hnp Hne Hgh B0 Lb Sa HI Hw r Hr)). destruct (ns r) as [|[[n' u] e] rest]; inversion H as [|? ? ? ? P Q]; subst. cbn [hd fst snd] in *. destruct P as (_ & _ & _ & ? & ?). auto.
      + apply IH. intros r ge Hr Eg. specialize (H r ge Hr Eg). destruct (ns r); inversion H; subst; auto. }
  destruct (two_calls np gs bs gh B Hnp Hne Hgh B0 Lb Sa HI Hw c cu valid uvalid one two f1 f2 S HB Su HBu Hone Htwo) with (ns0 := ns0) (t := 0) (F := F) (d := D) (D := D0) (D' := D0') (ns := ns) (ch := no_chans)
    as (F' & d' & k & ch' & A1 & A2 & A3 & A4 & A5 & A6); auto.
  { intros t ls i i0 old old0 a b Lo Ll Hi Hi0 Ep Lp Al Vo Va Vb. apply Hl1; auto; [lia|apply lims_le, Sa|now apply length_whole]. }
  { intros t ls i i0 old old0 temp temp0 a b Lo Ll Hi Hi0 Ep Lp Al Al2 Vo Va Vb. apply Hl2; auto; [lia|apply lims_le, Sa|now apply length_whole]. }
  { intros t old i a v Vo Hi Va Ev. eapply (Hk1 t (whole_lims gs bs) old i a v); eauto. apply lims_le, Sa. }
  { intros t old temp i a v Vo Vt Hi Va Ev. eapply (Hk2 t (whole_lims gs bs) old temp i a v); eauto. apply lims_le, Sa. }
  { apply quiet_empty. }
  match goal with |- computes _ _ _ _ _ ?P _ => destruct (conclude np P d' k no_chans ch' Hnp A5) as (fin & F1 & F2) end.
  { erewrite ranks_ext; [exact A6|]. intros r Hr. unfold rank_program2. rewrite (made np gs bs gh B Hnp Hne Hgh B0 Lb Sa HI Hw r Hr). reflexivity. }
  pose proof (end_state np gs bs gh B Hnp Hne Hgh B0 Lb Sa HI Hw valid d' F' D0' A1 A3 A4) as Y. split.
  - exists d'. split; [exists fin; auto|]. split.
    + intros r ge y Hr Eg Oy. rewrite whole_lay by auto. destruct (Y r ge Hr Eg) as (_ & _ & Z). now apply Z.
    + intros r ge Hr Eg. destruct (Y r ge Hr Eg) as (? & ? & _). auto.
  - split; [rewrite whole_lay by auto; apply A1|auto].
Qed.
