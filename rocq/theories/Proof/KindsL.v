(* Lemmas for C24: type lines of the built-in types. *)
From Coq Require Import String.
From Verif Require Import Model.Base Model.Text Model.Boundary Model.Layout Model.Access Model.Setup Model.Codec Model.File Model.Types Spec.Bytes Spec.Access Spec.File Spec.Types Spec.Kinds
  Proof.BaseL Proof.TextL Proof.CodecL Proof.LayoutL Proof.TypesL.
Local Open Scope string_scope.
Local Open Scope list_scope.
Local Open Scope Z_scope.

Lemma name_text k e : grid_name k e = type_text k e.
Proof. destruct k, e; reflexivity. Qed.
Lemma last_colon_at u t i cur : Forall (fun b => b <> 58) t -> last_colon (u ++ 58 :: t) i cur = Some (i + zlen u).
Proof.
  intros F. revert i cur. induction u as [|b u IH]; intros i cur.
  - cbn [app last_colon]. change (58 =? 58) with true. cbn iota. rewrite Z.add_0_r. generalize (i + 1) as j. induction F as [|b t N F IF]; intros j; [reflexivity|]. cbn [last_colon]. destruct (Z.eqb_spec b 58); [contradiction|]. apply IF.
  - cbn [app last_colon]. rewrite IH, zlen_cons. f_equal. lia.
Qed.
Lemma last_colon_low s i cur q : last_colon s i cur = Some q -> cur = Some q \/ i <= q < i + zlen s.
Proof.
  revert i cur. induction s as [|b s IH]; intros i cur H; [left; exact H|]. cbn [last_colon] in H. rewrite zlen_cons. pose proof (zlen_nonneg s). destruct (IH _ _ H) as [E|L]; [|right; lia].
  destruct (b =? 58); [injection E as <-; right; lia|left; exact E].
Qed.
Lemma word_plain e : Forall (fun b => b <> 58) (bytes (word e)).
Proof. destruct e; vm_compute; repeat constructor; discriminate. Qed.
Lemma alias_exact k e type al : scalar_alias type = Some al -> al = type_text k e -> k = KScalar /\ exists u, zlen u <= 8 /\ type = u ++ 58 :: bytes (word e).
Proof.
  unfold scalar_alias. intros A E. destruct (last_colon (firstn 9 type) 0 None) as [p|] eqn:L; [|discriminate]. cbn [bind] in A. assert (bytes "grid:scalar" ++ skipn (Z.to_nat p) type = type_text k e) as A' by (rewrite <- E; congruence). clear A. rename A' into A.
  assert (k = KScalar) as ->.
  { destruct k; [|reflexivity|..]; exfalso; destruct e; vm_compute in A; discriminate A. }
  split; [reflexivity|]. exists (firstn (Z.to_nat p) type). destruct (last_colon_low _ _ _ _ L) as [C|[P0 P]]; [discriminate|]. unfold zlen in *. rewrite firstn_length in *. split; [lia|].
  rewrite <- (firstn_skipn (Z.to_nat p) type) at 1. f_equal. change (type_text KScalar e) with (bytes "grid:scalar" ++ 58 :: bytes (word e)) in A. now apply app_inv_head in A.
Qed.
Lemma alias_found e u : zlen u <= 8 -> scalar_alias (u ++ 58 :: bytes (word e)) = Some (type_text KScalar e).
Proof.
  intros L. unfold scalar_alias. unfold zlen in L. rewrite firstn_app, firstn_all2 by lia. destruct (9 - length u)%nat as [|m] eqn:M; [lia|]. cbn [firstn].
  rewrite last_colon_at. 2:{ apply Forall_forall. intros b I. pose proof (word_plain e) as F. rewrite Forall_forall in F. apply F. rewrite <- (firstn_skipn m (bytes (word e))). apply in_or_app. now left. }
  cbn [bind]. unfold zlen. replace (Z.to_nat (0 + Z.of_nat (length u))) with (length u) by lia. rewrite skipn_app, skipn_all, Nat.sub_diag. reflexivity.
Qed.

Definition kinds : list kind := [KPlain; KScalar; KVector; KSparse].
Definition elems : list elem := [EBool; EChar; EUChar; EInt; EUInt; ELong; EULong; EShort; EUShort; EFloat; EDouble; ELDouble].
Lemma elem_dec (a b : elem) : {a = b} + {a <> b}.
Proof. decide equality. Defined.
Lemma kind_dec (a b : kind) : {a = b} + {a <> b}.
Proof. decide equality. Defined.
Definition text_eqb (u v : list byte) : bool := if list_eq_dec Z.eq_dec u v then true else false.
Lemma texts_differ : forallb (fun k => forallb (fun e => forallb (fun k' => forallb (fun e' =>
  implb (text_eqb (type_text k e) (type_text k' e')) ((if kind_dec k k' then true else false) && (if elem_dec e e' then true else false))) elems) kinds) elems) kinds = true.
Proof. vm_compute. reflexivity. Qed.
Lemma type_text_inj k e k' e' : type_text k e = type_text k' e' -> k = k' /\ e = e'.
Proof.
  intros E. pose proof texts_differ as X. rewrite forallb_forall in X. specialize (X k ltac:(destruct k; cbn; tauto)). rewrite forallb_forall in X. specialize (X e ltac:(destruct e; cbn; tauto)).
  rewrite forallb_forall in X. specialize (X k' ltac:(destruct k'; cbn; tauto)). rewrite forallb_forall in X. specialize (X e' ltac:(destruct e'; cbn; tauto)).
  unfold text_eqb in X. destruct (list_eq_dec Z.eq_dec (type_text k e) (type_text k' e')); [|contradiction]. destruct (kind_dec k k'), (elem_dec e e'); try discriminate X. now split.
Qed.
Lemma reads_matches k e k' e' : reads k e (type_text k' e') <-> matches k e k' e'.
Proof.
  unfold reads, matches. split.
  - intros [E | (-> & u & L & E)]; [apply type_text_inj in E; tauto|]. pose proof (alias_found e u L) as A. rewrite <- E in A. destruct k'.
    + change (scalar_alias (type_text KPlain e')) with (scalar_alias (bytes "grid" ++ 58 :: bytes (word e'))) in A. rewrite alias_found in A by (vm_compute; discriminate). assert (type_text KScalar e' = type_text KScalar e) as Q by congruence.
      apply type_text_inj in Q. tauto.
    + exfalso. destruct e, e'; vm_compute in A; discriminate A.
    + exfalso. destruct e, e'; vm_compute in A; discriminate A.
    + exfalso. destruct e, e'; vm_compute in A; discriminate A.
  - intros [-> [-> | [-> ->]]]; [now left|]. right. split; [reflexivity|]. exists (bytes "grid"). split; [vm_compute; discriminate|reflexivity].
Qed.
