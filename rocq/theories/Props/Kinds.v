(* C24 for the built-in types: which files a grid reads, exactly. *)
From Coq Require Import String.
From Verif Require Import Model.Base Model.Text Model.Boundary Model.Layout Model.Access Model.Setup Model.Codec Model.File Model.Types Spec.Bytes Spec.Access Spec.File Spec.Types Spec.Kinds
  Proof.BaseL Proof.TextL Proof.CodecL Proof.LayoutL Proof.TypesL Proof.KindsL Props.File.
Local Open Scope string_scope.
Local Open Scope list_scope.
Local Open Scope Z_scope.

(* Every file with a first line is either refused at once, or its first line is one the grid reads, and then all goes on as with the grid's own type *)
Theorem C24_first_line : forall T (c : codec T) fresh D (dparse : list byte -> option D) raw uncompress setup dim k e (type rest : list byte), Forall (fun b => b <> 10) type ->
  (reads k e type -> input c fresh dparse raw uncompress setup (grid_name k e) dim (type ++ 10 :: rest) = input c fresh dparse raw uncompress setup (grid_name k e) dim (type_text k e ++ 10 :: rest)) /\
  (~ reads k e type -> input c fresh dparse raw uncompress setup (grid_name k e) dim (type ++ 10 :: rest) = Exit (if existsb (Z.eqb 58) (firstn 9 type) then -2 else 134)).
Proof.
  intros T c fresh D dparse raw uncompress setup dim k e type rest Nl. split.
  - intros [-> | (-> & u & L & ->)]; [reflexivity|]. unfold input. f_equal. unfold read_header. rewrite !getline_line; [|rewrite <- name_text; apply grid_name_line|exact Nl]. rewrite alias_found, name_text by exact L.
    destruct (scalar_alias (type_text KScalar e)) as [al|] eqn:A; [|destruct e; discriminate A].
    destruct (list_eq_dec Z.eq_dec (type_text KScalar e) (type_text KScalar e)); [|contradiction]. cbn [negb]. rewrite andb_false_r. reflexivity.
  - intros N. unfold input, read_header. rewrite getline_line, name_text by exact Nl.
    assert (scalar_alias type = None <-> existsb (Z.eqb 58) (firstn 9 type) = false) as X.
    { unfold scalar_alias. assert (forall s i cur, last_colon s i cur = None <-> cur = None /\ existsb (Z.eqb 58) s = false) as Y.
      { induction s as [|b s IH]; intros i cur; cbn [last_colon existsb]; [tauto|]. rewrite IH, (Z.eqb_sym 58 b). destruct (b =? 58); cbn [orb]; intuition congruence. }
      specialize (Y (firstn 9 type) 0 None). destruct (last_colon (firstn 9 type) 0 None); cbn [bind]; intuition congruence. }
    destruct (scalar_alias type) as [al|] eqn:A.
    + destruct (existsb (Z.eqb 58) (firstn 9 type)) eqn:B; [|destruct X as [_ X]; now discriminate X].
      destruct (list_eq_dec Z.eq_dec type (type_text k e)) as [E|_]; [exfalso; apply N; left; exact E|]. destruct (list_eq_dec Z.eq_dec al (type_text k e)) as [E|_]; [exfalso; apply N; right; exact (alias_exact _ _ _ _ A E)|]. reflexivity.
    + destruct X as [X _]. rewrite X by reflexivity. reflexivity.
Qed.
Print Assumptions C24_first_line.

(* Files of the built-in types: a grid reads files of its own type, and a grid of scalars those of plain numbers of the same type; all others end with -2 *)
Theorem C24_table : forall T (c : codec T) fresh D (dparse : list byte -> option D) raw uncompress setup dim k e k' e' rest,
  (matches k e k' e' -> input c fresh dparse raw uncompress setup (grid_name k e) dim (type_text k' e' ++ 10 :: rest) = input c fresh dparse raw uncompress setup (grid_name k e) dim (type_text k e ++ 10 :: rest)) /\
  (~ matches k e k' e' -> input c fresh dparse raw uncompress setup (grid_name k e) dim (type_text k' e' ++ 10 :: rest) = Exit (-2)).
Proof.
  intros T c fresh D dparse raw uncompress setup dim k e k' e' rest. destruct (C24_first_line T c fresh D dparse raw uncompress setup dim k e (type_text k' e') rest) as [Y N]; [rewrite <- name_text; apply grid_name_line|].
  rewrite reads_matches in Y, N. split; [exact Y|]. intros M. rewrite (N M). destruct k', e'; reflexivity.
Qed.
Print Assumptions C24_table.

(* Every file the library writes for a grid of a built-in type begins with the line of that type *)
Theorem C24_written : forall T (c : codec T) D (dshow : D -> list byte) raw compress k e fields axs dx data file,
  output_serial c dshow raw compress (grid_name k e) fields axs dx data = Some file -> exists rest, file = type_text k e ++ 10 :: rest.
Proof.
  intros T c D dshow raw compress k e fields axs dx data file O. unfold output_serial in O. destruct (write_buffer c raw compress axs data) as [b|]; [|discriminate]. cbn [bind] in O. assert (forall a b : list byte, Some a = Some b -> b = a) as X by congruence. apply X in O. rewrite O.
  unfold header. rewrite name_text, <- app_assoc. eexists. reflexivity.
Qed.
Print Assumptions C24_written.

Example C24_table_case : matches KScalar EInt KPlain EInt /\ ~ matches KPlain EInt KScalar EInt /\ ~ matches KScalar EInt KPlain EUInt /\ reads KScalar EInt (bytes "junk:int") /\
  ~ reads KScalar EInt (bytes "more junk:int") /\
  read_header ex_parse (grid_name KScalar EInt) 1 (type_text KPlain EInt ++ 10 :: show_int 1 ++ 10 :: show_int 1 ++ 10 :: bytes "0 2" ++ 10 :: bytes "3" ++ [10]) = Done (1, [mkG 0 2], [3], []).
Proof.
  unfold matches. split; [tauto|]. split; [intuition congruence|]. split; [intuition congruence|]. split; [right; split; [reflexivity|]; exists (bytes "junk"); split; [vm_compute; discriminate|reflexivity]|].
  split; [|vm_compute; reflexivity]. intros [E | (_ & u & L & E)]; [vm_compute in E; discriminate E|]. pose proof (alias_found EInt u L) as A. rewrite <- E in A. vm_compute in A. discriminate A.
Qed.
