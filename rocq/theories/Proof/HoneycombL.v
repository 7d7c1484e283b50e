From Verif Require Import Model.Base Model.Tessellate Model.Seedswap Proof.BaseL.
From Coq Require Import FinFun.

Lemma stride_count s e a : 0 < a -> forall i, 0 <= i -> (i < Z.quot (e - s + a - 1) a <-> s + i * a < e).
Proof.
  intros Ha i Hi. destruct (Z_lt_le_dec (e - s + a - 1) 0) as [H|H].
  - assert (Z.quot (e - s + a - 1) a <= 0). { rewrite <- (Z.quot_0_l a) by lia. apply Z.quot_le_mono; lia. } split; intros; nia.
  - rewrite Z.quot_div_nonneg by lia. pose proof (Z.div_mod (e - s + a - 1) a ltac:(lia)) as D. pose proof (Z.mod_pos_bound (e - s + a - 1) a Ha). set (q := (e - s + a - 1) / a) in *. set (m := (e - s + a - 1) mod a) in *. clearbody q m. split; intros; nia.
Qed.
Lemma stride_in s e a y : 0 < a -> In y (stride s e a) <-> exists i, 0 <= i /\ y = s + i * a /\ y < e.
Proof.
  intros Ha. unfold stride. rewrite in_map_iff. split.
  - intros (i & <- & Hi). apply in_zrange in Hi. exists i. split; [lia|]. split; [reflexivity|]. apply stride_count; lia.
  - intros (i & Hi & -> & L). exists i. split; [reflexivity|]. apply in_zrange. split; [lia|]. now apply stride_count.
Qed.
Lemma zrange_nodup a b : NoDup (zrange a b).
Proof. unfold zrange. apply Injective_map_NoDup; [intros x y; lia|apply seq_NoDup]. Qed.
Lemma stride_nodup s e a : 0 < a -> NoDup (stride s e a).
Proof. intros Ha. unfold stride. apply Injective_map_NoDup; [intros x y; nia|apply zrange_nodup]. Qed.
Lemma stride_nth s e a : forall j y, nth_error (stride s e a) j = Some y -> y = s + Z.of_nat j * a.
Proof.
  intros j y E. unfold stride in E. rewrite nth_error_map in E. destruct (nth_error (zrange 0 _) j) as [i|] eqn:Ei; [|discriminate]. simpl in E. injection E as <-.
  assert (j < length (zrange 0 (Z.quot (e - s + a - 1) a)))%nat as L by (apply nth_error_Some; congruence). rewrite length_zrange in L.
  rewrite nth_error_zrange in Ei by lia. injection Ei as <-. reflexivity.
Qed.

Definition shift (a : Z) (o : bool) : Z := if o then Z.quot a 2 else 0.
Lemma comb_in a fx x1 ys : 0 < a -> forall o p, In p (comb_rows a fx x1 o ys) <->
  exists j y i, nth_error ys j = Some y /\ 0 <= i /\ p = [fx + shift a (xorb o (Nat.odd j)) + i * a; y; 0] /\ fx + shift a (xorb o (Nat.odd j)) + i * a < x1.
Proof.
  intros Ha. induction ys as [|y ys IH]; intros o p; cbn [comb_rows].
  - split; [intros []|]. intros ([|j] & ? & ? & E & _); discriminate.
  - assert (Z.quot ((if o then 1 else 0) * a) 2 = shift a o) as -> by (destruct o; unfold shift; [f_equal; lia|reflexivity]).
    rewrite in_app_iff, in_map_iff, IH. split.
    + intros [(x & <- & Hx)|(j & y' & i & E & Hi & -> & L)].
      * apply stride_in in Hx as (i & Hi & -> & L); [|auto]. exists 0%nat, y, i. rewrite xorb_false_r. auto.
      * exists (S j), y', i. rewrite Nat.odd_succ, <- Nat.negb_odd, <- negb_xorb_r, negb_xorb_l. auto.
    + intros ([|j] & y' & i & E & Hi & -> & L).
      * left. simpl in E. injection E as <-. rewrite xorb_false_r in *. eexists. split; [reflexivity|]. apply stride_in; eauto.
      * right. exists j, y', i. rewrite Nat.odd_succ, <- Nat.negb_odd, <- negb_xorb_r, negb_xorb_l in L |- *. auto.
Qed.
Lemma comb_nodup a fx x1 ys : 0 < a -> NoDup ys -> forall o, NoDup (comb_rows a fx x1 o ys).
Proof.
  intros Ha F. induction F as [|y ys Ny _ IH]; intros o; cbn [comb_rows]; [constructor|].
  assert (forall l m : list seed, NoDup l -> NoDup m -> (forall p, In p l -> ~ In p m) -> NoDup (l ++ m)) as App.
  { clear. induction l as [|p l IH]; intros m H1 H2 H3; [auto|]. inversion H1; subst. simpl. constructor; [|apply IH; auto; intros q Hq; apply H3; now right].
    rewrite in_app_iff. intros [I|I]; [auto|]. apply (H3 p); [now left|auto]. }
  apply App; [apply Injective_map_NoDup; [intros u v E; now inversion E|now apply stride_nodup]|apply IH|].
  intros p Hp Hq. apply in_map_iff in Hp as (x & <- & _). apply comb_in in Hq as (j & y' & i & E & _ & Ep & _); [|auto]. injection Ep as _ ->. apply nth_error_In in E. auto.
Qed.

Definition first_shifted (x0 a : Z) : bool := 0 <? Z.rem (x0 + a) (Z.quot a 2).
Theorem honeycomb_points x0 x1 y0 y1 a : 2 <= a -> exists l, honeycomb x0 x1 y0 y1 a = Some l /\ NoDup l /\
  forall p, In p l <-> exists i j, 0 <= i /\ 0 <= j /\ p = [Z.rem (x0 + a) a + shift a (xorb (first_shifted x0 a) (Z.odd j)) + i * a; Z.rem (y0 + a) a + j * a; 0] /\
    Z.rem (x0 + a) a + shift a (xorb (first_shifted x0 a) (Z.odd j)) + i * a < x1 /\ Z.rem (y0 + a) a + j * a < y1.
Proof.
  intros Ha. unfold honeycomb. assert (2 <=? a = true) as -> by (apply Z.leb_le; lia). cbn [guard bind]. eexists. split; [reflexivity|]. split; [apply comb_nodup; [lia|apply stride_nodup; lia]|].
  intros p. fold (first_shifted x0 a). rewrite comb_in by lia. assert (forall j : nat, Nat.odd j = Z.odd (Z.of_nat j)) as O.
  { intros j. induction j as [|j IH]; [reflexivity|]. rewrite Nat.odd_succ, <- Nat.negb_odd, IH, Nat2Z.inj_succ, Z.odd_succ, <- Z.negb_odd. reflexivity. }
  split.
  - intros (j & y & i & E & Hi & -> & L). pose proof (stride_nth _ _ _ _ _ E) as Ey. exists i, (Z.of_nat j). rewrite <- O. split; [auto|]. split; [lia|]. rewrite <- Ey. split; [auto|]. split; [auto|].
    apply nth_error_In in E. apply stride_in in E as (? & _ & _ & ?); [auto|lia].
  - intros (i & j & Hi & Hj & -> & L1 & L2). exists (Z.to_nat j), (Z.rem (y0 + a) a + j * a), i. rewrite O, Z2Nat.id by lia. split; [|auto].
    unfold stride. rewrite nth_error_map. assert (j < Z.quot (y1 - Z.rem (y0 + a) a + a - 1) a) as Lj by (apply stride_count; lia). rewrite nth_error_zrange by lia. simpl. do 2 f_equal. lia.
Qed.
