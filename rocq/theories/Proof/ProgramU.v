From Coq Require Import QArith.QArith QArith.Qcanon Permutation.
From Verif Require Import Model.Base Model.Boundary Model.Layout Model.Access Model.Setup Model.Codec Model.MPI Model.Ghostswap Model.Stencil Model.Simulate Model.Dynamics Model.Stages Model.Program
  Spec.Box Spec.Access Spec.Bytes Spec.Decomp Spec.Schedule Spec.Stencil Spec.Program
  Proof.BaseL Proof.LayoutL Proof.AccessL Proof.StencilL Proof.SimulateL Proof.StagesL Proof.ProgramL Proof.ProgramF.
Local Open Scope Z_scope.

Lemma Forall2_of {A B C} (f : A -> C) (g : B -> C) (P : A -> Prop) (Q : B -> Prop) (R : A -> B -> Prop) l : forall l', map f l = map g l' -> Forall P l -> Forall Q l' -> (forall a b, f a = g b -> P a -> Q b -> R a b) -> Forall2 R l l'.
Proof. induction l as [|a l IH]; intros [|b l'] E FP FQ H; cbn in E; try discriminate; [constructor|]. inversion E. inversion FP; subst. inversion FQ; subst. constructor; auto. Qed.
Section Defined.
Context (np : Z) (gs : list gaxis) (bs : list (Z * Z)) (gh B : Z) (Gr : grids np gs bs gh B).
Lemma stored_pair {X} (d d0 : list X) r ge y : 0 <= r < np -> setup_mpi np gs gh r = Some ge -> owns ge y -> zlen d = cells (ge_axes ge) -> zlen d0 = cells (whole gs bs) ->
  exists p q, grid_read true (ge_axes ge) d y = Some p /\ grid_read false (whole gs bs) d0 y = Some q.
Proof using All.
  destruct Gr as (Hnp & Hne & Hgh & B0 & Hbs & Hg). destruct (whole_serial gs bs Hbs) as [Lb Sa]. rewrite whole_lay in * by auto.
  assert (forall r ge, 0 <= r < np -> setup_mpi np gs gh r = Some ge -> cells (ge_axes ge) * B <= int_max) as HI by (intros; eapply Hg; eauto).
  assert (forall r ge, 0 <= r < np -> setup_mpi np gs gh r = Some ge -> Forall (fun a => a_x0 a < a_x1 a /\ gh <= a_x1 a - a_x0 a) (ge_axes ge)) as Hw by (intros; eapply Hg; eauto).
  intros Hr Eg Oy L L0. destruct (own_stored np gs bs gh B Hnp Hne Hgh B0 Lb Sa HI Hw d r ge y Hr Eg Oy L) as [p Hp]. destruct (whole_stored np gs bs gh B Hnp Hne Hgh B0 Lb Sa HI Hw d0 r ge y Hr Eg Oy L0) as [q Hq]. eauto.
Qed.
End Defined.

(* what newGrid holds before the loop does not matter *)
Theorem one_any {T} (c : codec T) (valid : T -> Prop) step f np gs bs gh B (D : Z -> list T) (calls : Z -> list (nat * list T)) (D0 D0' : list T) calls0 :
  grids np gs bs gh B -> serialises c valid -> (forall v, valid v -> c_size c v <= B) ->
  (forall mpi g ls t old new, 0 <= g -> (mpi = false -> g = 0) -> lims_ok ls -> zlen new = cells (lay g ls) ->
    step mpi (lay g ls) t (old, new) = do new' <- for_cells mpi (lay g ls) (f mpi (lay g ls) t old) new; Some (new', old)) ->
  (forall t g1 ls i ls0 i0 (old old0 : list T) (a b : T), 0 <= g1 -> lims_ok ls -> lims_ok ls0 -> length ls = length gs -> length ls0 = length gs ->
    0 <= i < nodes (lay g1 ls) -> 0 <= i0 < nodes (lay 0 ls0) -> position (lay g1 ls) i = position (lay 0 ls0) i0 ->
    length (position (lay 0 ls0) i0) = length gs -> alike (lay g1 ls) old (lay 0 ls0) old0 (position (lay 0 ls0) i0) -> Forall valid old0 -> valid a -> valid b -> f true (lay g1 ls) t old i a = f false (lay 0 ls0) t old0 i0 b) ->
  (forall t ls0 (old : list T) i (a v : T), lims_ok ls0 -> Forall valid old -> 0 <= i < nodes (lay 0 ls0) -> valid a -> f false (lay 0 ls0) t old i a = Some v -> valid v) ->
  zlen D0 = cells (whole gs bs) -> Forall valid D0 ->
  (forall r ge, 0 <= r < np -> setup_mpi np gs gh r = Some ge -> zlen (D r) = cells (ge_axes ge) /\ Forall valid (D r) /\
    map fst (calls r) = map fst calls0 /\ Forall (fun a => zlen (snd a) = cells (ge_axes ge) /\ Forall valid (snd a)) (calls r)) ->
  same_field np gs bs gh D D0 -> Forall (fun b => zlen (snd b) = cells (whole gs bs) /\ Forall valid (snd b)) calls0 ->
  serial_calls step (whole gs bs) 0 calls0 D0 = Some D0' ->
  computes valid np gs bs gh (rank_program step c np gs bs gh D calls) D0'.
Proof.
  intros Gr S HB Hstep Hl Hk L0 V0 HD Sf Hc E.
  apply (one_program c valid any step f np gs bs gh B D calls D0 D0' calls0); auto.
  - intros v _. exact I.
  - intros r ge Hr Eg. destruct (HD r ge Hr Eg) as (L & V & Em & Fc). split; [auto|]. split; [auto|]. split.
    + intros y Oy. destruct (Sf r ge y Hr Eg Oy) as (v & -> & ->). reflexivity.
    + eapply Forall2_of; [exact Em|exact Fc|exact Hc|]. intros [n a] [n0 b] En [La Va] [Lb' Vb]. cbn [fst snd] in *. split; [auto|]. split; [auto|]. split; [auto|]. intros y Oy.
      destruct (stored_pair np gs bs gh B Gr a b r ge y Hr Eg Oy La Lb') as (p & q & ? & ?). exists p, q. split; [auto|]. split; [auto|exact I].
Qed.
(* newGrid consists of objects that the constructor leaves in the state e *)
Theorem one_fresh {T} (e : T) (c : codec T) (valid : T -> Prop) step f np gs bs gh B (D : Z -> list T) (calls : Z -> list (nat * list T)) (D0 D0' : list T) ns :
  grids np gs bs gh B -> serialises c valid -> (forall v, valid v -> c_size c v <= B) -> valid e ->
  (forall mpi g ls t old new, 0 <= g -> (mpi = false -> g = 0) -> lims_ok ls -> zlen new = cells (lay g ls) ->
    step mpi (lay g ls) t (old, new) = do new' <- for_cells mpi (lay g ls) (f mpi (lay g ls) t old) new; Some (new', old)) ->
  (forall t g1 ls i ls0 i0 (old old0 : list T) (a : T), 0 <= g1 -> lims_ok ls -> lims_ok ls0 -> length ls = length gs -> length ls0 = length gs ->
    0 <= i < nodes (lay g1 ls) -> 0 <= i0 < nodes (lay 0 ls0) -> position (lay g1 ls) i = position (lay 0 ls0) i0 ->
    length (position (lay 0 ls0) i0) = length gs -> alike (lay g1 ls) old (lay 0 ls0) old0 (position (lay 0 ls0) i0) -> f true (lay g1 ls) t old i a = f false (lay 0 ls0) t old0 i0 a) ->
  (forall t ls0 (old : list T) i (a v : T), lims_ok ls0 -> Forall valid old -> 0 <= i < nodes (lay 0 ls0) -> valid a -> f false (lay 0 ls0) t old i a = Some v -> valid v) ->
  zlen D0 = cells (whole gs bs) -> Forall valid D0 ->
  (forall r ge, 0 <= r < np -> setup_mpi np gs gh r = Some ge -> zlen (D r) = cells (ge_axes ge) /\ Forall valid (D r) /\ calls r = map (fun n => (n, repeat e (Z.to_nat (cells (ge_axes ge))))) ns) ->
  same_field np gs bs gh D D0 ->
  serial_calls step (whole gs bs) 0 (map (fun n => (n, repeat e (Z.to_nat (cells (whole gs bs))))) ns) D0 = Some D0' ->
  computes valid np gs bs gh (rank_program step c np gs bs gh D calls) D0'.
Proof.
  intros Gr S HB Ve Hstep Hl Hk L0 V0 HD Sf E. set (calls0 := map (fun n => (n, repeat e (Z.to_nat (cells (whole gs bs))))) ns) in *.
  pose proof (zlen_nonneg D0) as P0. rewrite L0 in P0.
  assert (forall k, 0 <= k -> zlen (repeat e (Z.to_nat k)) = k) as Lr by (intros; unfold zlen; rewrite repeat_length; lia).
  assert (forall k, Forall valid (repeat e k)) as Vr by (intros k; apply Forall_forall; intros v Hv; apply repeat_spec in Hv; now subst).
  apply (one_program c valid (fun a b => a = b) step f np gs bs gh B D calls D0 D0' calls0); auto.
  - intros t g1 ls i ls0 i0 old old0 a b ? ? ? ? ? ? ? ? ? ? ? -> ? ?. apply Hl; auto.
  - intros r ge Hr Eg. destruct (HD r ge Hr Eg) as (L & V & ->). pose proof (zlen_nonneg (D r)) as Pr. rewrite L in Pr. split; [auto|]. split; [auto|]. split.
    + intros y Oy. destruct (Sf r ge y Hr Eg Oy) as (v & -> & ->). reflexivity.
    + subst calls0. clear E HD. induction ns as [|n ns IH]; cbn [map]; constructor; [|auto]. cbn [fst snd]. split; [auto|]. split; [auto|]. split; [auto|]. intros y Oy.
      destruct (stored_pair np gs bs gh B Gr (repeat e (Z.to_nat (cells (ge_axes ge)))) (repeat e (Z.to_nat (cells (whole gs bs)))) r ge y Hr Eg Oy) as (p & q & Rp & Rq); auto.
      exists p, q. split; [auto|]. split; [auto|].
      assert (forall mpi axs k v, grid_read mpi axs (repeat e k) y = Some v -> v = e) as Re.
      { intros mpi axs k v Ev. unfold grid_read in Ev. match type of Ev with (do _ <- ?x; _) = _ => destruct x end; cbn [bind] in Ev; [|discriminate]. apply get_In in Ev. now apply repeat_spec in Ev. }
      now rewrite (Re _ _ _ _ Rp), (Re _ _ _ _ Rq).
  - subst calls0. apply Forall_forall. intros a Ha. apply in_map_iff in Ha as (n & <- & _). cbn [snd]. auto.
Qed.
