From Coq Require Import QArith.QArith QArith.Qcanon.
From Verif Require Import Model.Base Model.Anisotropy Spec.Anisotropy.
Local Open Scope Z_scope.

(* a table holds nothing but computed values and zeros *)
Definition faithful (f : Z -> Z -> Qc) (t : table) : Prop := Forall (fun e => snd e = 0%Qc \/ snd e = f (fst (fst e)) (snd (fst e))) t.
Lemma at_key_ok a b e : at_key a b e = true -> fst e = (a, b).
Proof. unfold at_key. destruct e as [[x y] v]. cbn. intros H. apply andb_prop in H as [H1 H2]. apply Z.eqb_eq in H1, H2. now subst. Qed.
Lemma entry_ok f t a b : faithful f t -> let (v, t') := entry t a b in (v = 0%Qc \/ v = f a b) /\ faithful f t'.
Proof.
  intros F. unfold entry. destruct (find _ _) as [e|] eqn:E; [|split; [auto|constructor; auto]]. split; [|auto].
  apply find_some in E as [I K]. apply at_key_ok in K. unfold faithful in F. rewrite Forall_forall in F. specialize (F e I). now rewrite K in F.
Qed.
Lemma store_ok f t a b : faithful f t -> faithful f (store t a b (f a b)).
Proof. intros F. constructor; [cbn; auto|]. unfold faithful in *. rewrite Forall_forall in *. intros e He. apply filter_In in He as [He _]. auto. Qed.
Lemma lookup_ok f t i j : faithful f t -> fst (lookup f t i j) = ordered f i j /\ faithful f (snd (lookup f t i j)).
Proof.
  intros F. unfold lookup, ordered. destruct (Z.eqb_spec i j); [auto|].
  replace (if i <? j then i else j) with (Z.min i j) by (destruct (Z.ltb_spec i j); lia). replace (if i >? j then i else j) with (Z.max i j) by (rewrite Z.gtb_ltb; destruct (Z.ltb_spec j i); lia).
  pose proof (entry_ok f t (Z.min i j) (Z.max i j) F) as H. destruct (entry _ _ _) as [v t']. destruct H as [V F']. destruct (Qc_eq_dec v 0) as [E|N]; cbn [fst snd]; [split; [auto|now apply store_ok]|]. split; [|auto]. now destruct V.
Qed.
Lemma asks_ok e m qs t : faithful e (energy_table t) -> faithful m (mobility_table t) -> fst (asks e m t qs) = map (answer e m) qs.
Proof.
  revert t. induction qs as [|q qs IH]; intros t Fe Fm; [reflexivity|]. cbn [asks map]. destruct q as [i j|i j]; cbn [ask answer].
  - pose proof (lookup_ok e (energy_table t) i j Fe) as [V F']. destruct (lookup _ _ _ _) as [v t']. cbn [fst snd] in *. specialize (IH (mkTables t' (mobility_table t)) F' Fm). destruct (asks _ _ _ qs). cbn [fst] in *. congruence.
  - pose proof (lookup_ok m (mobility_table t) i j Fm) as [V F']. destruct (lookup _ _ _ _) as [v t']. cbn [fst snd] in *. specialize (IH (mkTables (energy_table t) t') Fe F'). destruct (asks _ _ _ qs). cbn [fst] in *. congruence.
Qed.
