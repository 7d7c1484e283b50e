(* C118: integers as text. *)
From Coq Require Import String.
From Verif Require Import Model.Base Model.Text Model.Ghostswap Model.Driver Spec.Bytes Spec.Decimal Spec.Driver Proof.BaseL Proof.TextL Proof.DriverL Proof.DecimalL.
Local Open Scope list_scope.
Local Open Scope Z_scope.

(* The text of an integer is its decimal numeral, without zeros in front and with - if it is negative; there is no other such text *)
Theorem C118_text : forall n s, s = show_int n <-> decimal s n.
Proof. intros n s. split; [intros -> ; apply show_decimal|]. intros D. exact (decimal_unique _ _ _ D (show_decimal n)). Qed.
Print Assumptions C118_text.

(* different numbers have different texts, and a text stands for one number *)
Theorem C118_injective : forall m n, show_int m = show_int n -> m = n.
Proof. exact show_int_inj. Qed.
Print Assumptions C118_injective.

(* a number of k digits is one from 10^(k-1) to 10^k - 1; an int has at most eleven characters *)
Theorem C118_length : forall n, (0 < n -> forall k, zlen (show_int n) = k <-> 0 < k /\ 10 ^ (k - 1) <= n < 10 ^ k) /\ (an_int n -> 1 <= zlen (show_int n) <= 11).
Proof.
  assert (forall n, 0 < n -> 0 < zlen (show_int n) /\ 10 ^ (zlen (show_int n) - 1) <= n < 10 ^ zlen (show_int n)) as X.
  { intros n Hn. destruct (show_decimal n) as [[_ N]|[C _]]; [|lia]. pose proof (numeral_low _ _ N) as [[_ C]|L]; [lia|]. split; [|exact L]. destruct N as (Ne & _). destruct (show_int n); [contradiction|]. unfold zlen. cbn [length]. lia. }
  assert (forall n k, 0 < n -> 0 < k -> 10 ^ (k - 1) <= n < 10 ^ k -> zlen (show_int n) = k) as Y.
  { intros n k Hn Hk B. destruct (X n Hn) as [P B']. assert (k - 1 < zlen (show_int n)) by (apply (Z.pow_lt_mono_r_iff 10); lia). assert (zlen (show_int n) - 1 < k) by (apply (Z.pow_lt_mono_r_iff 10); lia). lia. }
  assert (forall d m, numeral_of d m -> m <= 2 ^ 31 -> 1 <= zlen d <= 10) as W.
  { intros d m N L. assert (1 <= zlen d) as P by (destruct N as (Ne & _); destruct d; [contradiction|]; unfold zlen; cbn [length]; lia). split; [exact P|].
    destruct (numeral_low d m N) as [[-> _]|B]; [unfold zlen; cbn [length]; lia|]. assert (zlen d - 1 < 10); [|lia]. apply (Z.pow_lt_mono_r_iff 10); [lia|lia|]. change (10 ^ 10) with 10000000000. lia. }
  intros n. split.
  - intros Hn k. split; [intros <-; now apply X|]. intros [Hk B]. now apply Y.
  - intros I. unfold an_int in I. destruct (show_decimal n) as [[H N] | [H (d & -> & N)]].
    + specialize (W _ _ N ltac:(lia)). lia.
    + specialize (W _ _ N ltac:(lia)). rewrite zlen_cons. unfold byte in *. lia.
Qed.
Print Assumptions C118_length.

(* Reading an int from a stream: it succeeds exactly if the stream goes on with blanks, a sign or none, and digits whose number is an int; it takes all digits
   there are.  Zeros in front do not matter *)
Theorem C118_read : forall s n rest, read_int s = Some (n, rest) <->
  exists blanks g k d, s = blanks ++ g ++ d ++ rest /\ Forall blank blanks /\ sign g k /\ d <> [] /\ Forall digit d /\ ends rest /\ n = k * place_value d /\ an_int n.
Proof.
  intros s n rest. split.
  - intros H. unfold read_int in H. destruct (skip_split s) as (ws & E & F & _). destruct (sign_split (skip_space s)) as (g & k & G).
    destruct (match skip_space s with b :: t => _ | [] => _ end) as [neg t]. destruct G as (Eg & Sg & V). pose proof (span_split is_digit t) as P. destruct (span is_digit t) as [ds r]. destruct P as (Et & Fd & Nr).
    destruct ds as [|b ds]; [discriminate|]. rewrite V in H. destruct ((-2147483648 <=? k * digits_val (b :: ds)) && (k * digits_val (b :: ds) <? 2147483648)) eqn:R; [|discriminate]. injection H as <- <-.
    apply andb_prop in R as [R1 R2]. apply Z.leb_le in R1. apply Z.ltb_lt in R2.
    exists ws, g, k, (b :: ds). split; [rewrite E at 1; rewrite Eg, Et; reflexivity|]. split; [exact F|]. split; [exact Sg|]. split; [discriminate|]. split; [now apply digits_are|]. split; [now apply ends_is|].
    rewrite value_places in *. split; [reflexivity|]. unfold an_int. change (2 ^ 31) with 2147483648. lia.
  - intros (ws & g & k & d & -> & F & Sg & Ne & Fd & En & -> & I). unfold read_int. rewrite skip_space_app by now apply spaces_are. destruct d as [|b d]; [contradiction|]. inversion Fd as [|? ? Hb Fd']; subst. cbn [app].
    rewrite (sign_start g k b (d ++ rest) Sg Hb). rewrite (sign_apply g k b (d ++ rest) Sg Hb).
    change (b :: d ++ rest) with ((b :: d) ++ rest). rewrite (span_app is_digit (b :: d) rest) by (now apply digits_are || now apply ends_is). rewrite (sign_value g k _ Sg), value_places.
    unfold an_int in I. change (2 ^ 31) with 2147483648 in I. destruct (Z.leb_spec (-2147483648) (k * place_value (b :: d))); [|lia]. destruct (Z.ltb_spec (k * place_value (b :: d)) 2147483648); [|lia]. reflexivity.
Qed.
Print Assumptions C118_read.

(* so what was written is read, whatever blanks are before it and whatever but a digit is after it *)
Theorem C118_round_trip : forall blanks n rest, Forall blank blanks -> an_int n -> ends rest -> read_int (blanks ++ show_int n ++ rest) = Some (n, rest).
Proof.
  intros ws n rest F I E. apply C118_read. destruct (show_decimal n) as [[H N] | [H (d & -> & N)]]; destruct N as (Ne & Fd & _ & V).
  - exists ws, [], 1, (show_int n). repeat split; auto; try constructor; try apply I. lia.
  - exists ws, [45], (-1), d. repeat split; auto; try constructor; try apply I. lia.
Qed.
Print Assumptions C118_round_trip.

(* numbers filled up with zeros to the same length are sorted like the numbers *)
Theorem C118_sorted : forall a b p q, 0 <= a < b -> Z.of_nat p + zlen (show_int a) = Z.of_nat q + zlen (show_int b) ->
  forall u v, lex_lt (repeat 48 p ++ show_int a ++ u) (repeat 48 q ++ show_int b ++ v).
Proof.
  intros a b p q H L u v. rewrite !app_assoc. destruct (show_int_nonneg a ltac:(lia)) as (Fa & Va & _). destruct (show_int_nonneg b ltac:(lia)) as (Fb & Vb & _).
  apply lex_digits; [|apply Forall_app; split; [apply Forall_forall; intros x I; apply repeat_spec in I; now subst|assumption]..|].
  - unfold zlen in *. rewrite !app_length, !repeat_length. lia.
  - rewrite !digits_zeros. lia.
Qed.
Print Assumptions C118_sorted.

Example C118_case : show_int (-2147483648) = bytes "-2147483648" /\ show_int 0 = bytes "0" /\ show_int 1060 = bytes "1060" /\ decimal (bytes "1060") 1060 /\ an_int (-2147483648) /\
  read_int (bytes "  +007 8") = Some (7, bytes " 8") /\ read_int (bytes " - 7") = None /\ read_int (bytes "2147483648") = None.
Proof.
  split; [reflexivity|]. split; [reflexivity|]. split; [reflexivity|]. split; [apply C118_text; reflexivity|]. split; [unfold an_int; lia|]. repeat split.
Qed.
