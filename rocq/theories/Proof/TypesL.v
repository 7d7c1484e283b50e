From Coq Require Import String.
From Verif Require Import Model.Base Model.Text Model.Boundary Model.Layout Model.Setup Model.Codec Model.Region Model.File Model.Types
  Spec.Box Spec.Access Spec.Decomp Spec.Bytes Spec.File Spec.Types Proof.BaseL Proof.TextL Proof.CodecL Proof.FileL Proof.CheckpointL.
Local Open Scope list_scope.
Local Open Scope Z_scope.

Lemma eqb_refl_l (u : list byte) : (if list_eq_dec Z.eq_dec u u then true else false) = true.
Proof. now destruct (list_eq_dec Z.eq_dec u u). Qed.

Lemma getline_line (u rest : list byte) : Forall (fun b => b <> 10) u -> getline (u ++ 10 :: rest) = (u, rest).
Proof.
  intros H. unfold getline.
  assert (span (fun b => negb (b =? 10)) (u ++ 10 :: rest) = (u, 10 :: rest)) as ->; [|reflexivity].
  induction H as [|b u Hb H IH]; [reflexivity|]. cbn [app span].
  replace (b =? 10) with false by (symmetry; now apply Z.eqb_neq). cbn [negb]. now rewrite IH.
Qed.

Lemma grid_name_line k e : Forall (fun b => b <> 10) (grid_name k e).
Proof. destruct k, e; vm_compute; repeat constructor; discriminate. Qed.
Lemma grid_name_good k e : good_name (grid_name k e).
Proof. split; [unfold grid_name; eauto|apply grid_name_line]. Qed.

(* the class whose files the class k, e accepts *)
Definition accepts (k : kind) (e : elem) (k' : kind) (e' : elem) : bool :=
  (if list_eq_dec Z.eq_dec (grid_name k' e') (grid_name k e) then true else false) ||
  match scalar_alias (grid_name k' e') with
  | Some a => if list_eq_dec Z.eq_dec a (grid_name k e) then true else false
  | None => false
  end.

Section Read.
Context {T : Type} (c : codec T) (fresh : Z -> T) {D : Type} (dparse : list byte -> option D) (raw : bool)
  (uncompress : list byte -> Z -> option (list byte)).

(* a file of the type k', e' is read by the classes that accept it in the same way, and not at all by the others *)
Lemma header_accepts k1 e1 k2 e2 k e dim rest :
  accepts k1 e1 k e = true -> accepts k2 e2 k e = true ->
  read_header dparse (grid_name k1 e1) dim (grid_name k e ++ 10 :: rest) = read_header dparse (grid_name k2 e2) dim (grid_name k e ++ 10 :: rest).
Proof.
  unfold accepts, read_header. intros A1 A2. rewrite (getline_line _ _ (grid_name_line k e)).
  destruct (scalar_alias (grid_name k e)) as [al|]; [|reflexivity].
  destruct (list_eq_dec Z.eq_dec (grid_name k e) (grid_name k1 e1)), (list_eq_dec Z.eq_dec al (grid_name k1 e1)),
    (list_eq_dec Z.eq_dec (grid_name k e) (grid_name k2 e2)), (list_eq_dec Z.eq_dec al (grid_name k2 e2)); try discriminate; reflexivity.
Qed.
Lemma header_rejects k1 e1 k e dim rest :
  accepts k1 e1 k e = false -> read_header dparse (grid_name k1 e1) dim (grid_name k e ++ 10 :: rest) = Exit (-2).
Proof.
  unfold accepts, read_header. intros A1. rewrite (getline_line _ _ (grid_name_line k e)).
  assert (exists al, scalar_alias (grid_name k e) = Some al) as (al & E) by (destruct k, e; eexists; vm_compute; reflexivity).
  rewrite E in *.
  destruct (list_eq_dec Z.eq_dec (grid_name k e) (grid_name k1 e1)); [discriminate|].
  destruct (list_eq_dec Z.eq_dec al (grid_name k1 e1)); [discriminate|]. reflexivity.
Qed.
End Read.

Section OpenL.
Context {T : Type} (cod : kind -> elem -> codec T) (fresh : kind -> elem -> Z -> T).
Context {D : Type} (dparse : list byte -> option D) (raw : bool) (uncompress : list byte -> Z -> option (list byte)).
Notation open := (open_grid cod fresh dparse raw uncompress).

Lemma open_rejects p k e rest ke : skip_space rest <> [] ->
  pick p (grid_name k e) = Done ke -> accepts (fst ke) (snd ke) k e = false ->
  open p (grid_name k e ++ 10 :: rest) = Exit (-1) \/ open p (grid_name k e ++ 10 :: rest) = Exit (-2).
Proof.
  intros Nb P A. destruct ke as [k1 e1]. unfold open_grid. rewrite (getline_line _ _ (grid_name_line k e)), P. cbn [obind].
  assert (exists dim s, read_dim rest = Done (dim, s)) as (dim & s0 & ->) by (unfold read_dim; destruct (read_int rest) as [[dim s]|]; [eauto|]; destruct (skip_space rest); [congruence|eauto]). cbn [obind].
  destruct ((dim <? 1) || (dim >? 3)); [now left|right].
  unfold input_serial, input. cbn [fst snd] in A. now rewrite (header_rejects dparse k1 e1 k e _ rest A).
Qed.
End OpenL.

Lemma pick_table p k e : pick p (grid_name k e) = 
  match p, e with
  | Xyz, EBool => Exit (-1)
  | _, _ => Done (match k with
                  | KVector => KVector | KSparse => KSparse
                  | _ => match p with Vti | Pvd => KScalar | _ => KPlain end
                  end, match e with ELDouble => ELong | _ => e end)
  end.
Proof. destruct p, k, e; vm_compute; reflexivity. Qed.

Lemma supported_pick p k e : supported p k e -> pick p (grid_name k e) = Done (opened_as p k, e) /\ accepts (opened_as p k) e k e = true.
Proof. intros (A & B & C). rewrite pick_table.
  destruct p, k, e; try congruence; try (now destruct (B eq_refl)); try (now destruct (C eq_refl)); split; vm_compute; reflexivity.
Qed.
Lemma unsupported_pick p k e : p <> Pvd -> ~ supported p k e ->
  pick p (grid_name k e) = Exit (-1) \/ exists k' e', pick p (grid_name k e) = Done (k', e') /\ accepts k' e' k e = false.
Proof.
  intros N H. rewrite pick_table.
  destruct p, k, e; try congruence; try (exfalso; apply H; unfold supported; repeat split; intros; (congruence || (left; reflexivity) || (right; reflexivity)); fail); (left; reflexivity) || (right; eexists _, _; split; [reflexivity|vm_compute; reflexivity]).
Qed.

Local Opaque grid_name.
Section Trip.
Context {T : Type} (cod : kind -> elem -> codec T) (fresh : kind -> elem -> Z -> T) (valid : kind -> elem -> T -> Prop).
Context {D : Type} (dshow : D -> list byte) (dparse : list byte -> option D) (raw : bool).
Context (compress : list byte -> list byte) (uncompress : list byte -> Z -> option (list byte)).

Lemma open_supported p k e name fields (axs : list axis) dx data : 
  serialises (cod k e) (valid k e) -> lossless compress uncompress -> cod KScalar e = cod KPlain e ->
  supported p k e -> name = grid_name k e ->
  int_range fields -> 1 <= zlen axs <= 3 ->
  wf_axes 0 axs -> Forall (fun a => a_x0 a = a_g0 a /\ a_x1 a = a_g1 a /\ a_g0 a < a_g1 a) axs ->
  Forall (fun a => int_range (a_g0 a) /\ int_range (a_g1 a) /\ int_range (a_b0 a) /\ int_range (a_b1 a)) axs ->
  length dx = length axs -> Forall (exact_text dshow dparse) dx ->
  zlen data = cells axs -> Forall (valid k e) data -> recognisable (cod k e) raw compress axs data ->
  exists file ld,
    output_serial (cod k e) dshow raw compress name fields axs dx data = Some file /\
    open_grid cod fresh dparse raw uncompress p file = Done (opened_as p k, e, ld) /\
    ld_fields ld = fields /\ ld_dx ld = dx /\ lo_axes (ld_local ld) = axs /\ lo_data (ld_local ld) = data.
Proof.
  intros Se Lo Cs Su -> Hf Hd W F Fi Lx Fx Ld Fv Rec.
  assert (int_range (zlen axs)) as Hz by (unfold int_range; split; [lia|]; eapply Z.le_lt_trans; [apply Hd|reflexivity]).
  assert (axs <> []) as Ne by (intros ->; destruct Hd as [Hd _]; now vm_compute in Hd).
  destruct (serial_round_trip (cod k e) (valid k e) (fresh (opened_as p k) e) raw compress uncompress dshow dparse Se Lo (grid_name k e) fields axs dx data
              (grid_name_good k e) Hf Hz Ne W F Fi Lx Fx Ld Fv Rec) as (file & ld & O & I & E1 & E2 & E3 & E4).
  exists file, ld. split; [exact O|]. split; [|auto].
  destruct (supported_pick p k e Su) as [P A].
  unfold output_serial in O. destruct (write_buffer (cod k e) raw compress axs data) as [blk|]; [|discriminate]. cbn [bind] in O. injection O as <-.
  unfold header in *. rewrite <- !app_assoc in *. cbn [app] in *.
  unfold open_grid. rewrite (getline_line _ _ (grid_name_line k e)), P. cbn [obind].
  set (gs := map (fun a => mkG (a_g0 a) (a_g1 a)) axs) in *.
  assert (zlen gs = zlen axs) as Eg by (unfold gs, zlen; now rewrite map_length).
  rewrite Eg in *.
  unfold read_dim at 1.
  match goal with |- context [read_int (show_int (zlen axs) ++ 10 :: ?r)] =>
    pose proof (read_show [] (zlen axs) (10 :: r) (Forall_nil _) Hz ltac:(now vm_compute)) as R; cbn [app] in R; rewrite R end. cbn [obind].
  replace (zlen axs <? 1) with false by (symmetry; apply Z.ltb_ge; lia). 
  replace (zlen axs >? 3) with false by (symmetry; rewrite Z.gtb_ltb; apply Z.ltb_ge; lia). cbn [orb].
  replace (Z.to_nat (zlen axs)) with (length axs) by (unfold zlen; lia).
  assert (cod (opened_as p k) e = cod k e) as -> by (destruct p, k; cbn; auto).
  unfold input_serial, input in *.
  match goal with |- context [read_header _ _ _ (grid_name k e ++ 10 :: ?r)] => rewrite (header_accepts dparse (opened_as p k) e k e k e (length axs) r A) end.
  - rewrite I. reflexivity.
  - unfold accepts. now rewrite eqb_refl_l.
Qed.

Lemma open_unsupported p k e rest : skip_space rest <> [] -> p <> Pvd -> ~ supported p k e -> exists code, open_grid cod fresh dparse raw uncompress p (grid_name k e ++ 10 :: rest) = Exit code.
Proof.
  intros Nb N H. destruct (unsupported_pick p k e N H) as [E|(k' & e' & E & A)].
  - exists (-1). unfold open_grid. now rewrite (getline_line _ _ (grid_name_line k e)), E.
  - destruct (open_rejects cod fresh dparse raw uncompress p k e rest (k', e') Nb E A) as [X|X]; eauto.
Qed.
End Trip.
Lemma show_not_blank n rest : skip_space (show_int n ++ rest) <> [].
Proof.
  destruct (Z.ltb_spec n 0) as [L|L].
  - unfold show_int. apply Z.ltb_lt in L. rewrite L. discriminate.
  - destruct (TextL.show_int_nonneg n L) as (F & _ & Ne). destruct (show_int n) as [|b t]; [congruence|]. inversion F as [|x y Hb]; subst. cbn [app skip_space].
    replace (is_space b) with false; [discriminate|]. symmetry. unfold is_digit in Hb. unfold is_space. lia.
Qed.
Lemma output_name {T} (c : codec T) {D} (dshow : D -> list byte) raw compress name fields axs dx data file :
  output_serial c dshow raw compress name fields axs dx data = Some file -> exists rest, file = name ++ 10 :: rest /\ skip_space rest <> [].
Proof.
  unfold output_serial. destruct (write_buffer _ _ _ _ _) as [blk|]; [|discriminate]. cbn [bind]. intros O. injection O as <-.
  unfold header. rewrite <- app_assoc. cbn [app]. eexists. split; [reflexivity|]. rewrite <- app_assoc. apply show_not_blank.
Qed.
