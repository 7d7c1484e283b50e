(* A diffusion program with too large a time step: its values grow without bound. *)
From Coq Require Import QArith.QArith QArith.Qcanon Lqa.
From Verif Require Import Model.Base Spec.Stencil Spec.Couple Proof.BaseL Proof.StencilL Proof.StencilM Proof.GradientL.
Local Open Scope Z_scope.

Definition a3 : Qc := Q2Qc (3 # 10).
Definition q4 : Qc := Q2Qc (4 # 1).
(* one step of the plane without edges *)
Definition plane (W : Z -> Z -> Qc) (x y : Z) : Qc := (W x y + a3 * (W (x + 1)%Z y + W (x - 1)%Z y + W x (y + 1)%Z + W x (y - 1)%Z - q4 * W x y))%Qc.
(* the sheet, continued beyond its edges *)
Section Sheet.
Context (L : Z) (HL : 1 <= L).
Definition cl (x : Z) : Z := Z.max 0 (Z.min x (L - 1)).
Definition E (k : nat) (x y : Z) : Qc := sheet L k (cl x) (cl y).
Lemma cl_in x : 0 <= x < L -> cl x = x. Proof. unfold cl. lia. Qed.
Lemma E_step k x y : 0 <= x < L -> 0 <= y < L -> E (S k) x y = plane (E k) x y.
Proof.
  intros Hx Hy. unfold E, plane. rewrite (cl_in x), (cl_in y) by auto. cbn [sheet]. fold a3 q4.
  assert (cl (x + 1) = Z.min (x + 1) (L - 1)) as -> by (unfold cl; lia). assert (cl (y + 1) = Z.min (y + 1) (L - 1)) as -> by (unfold cl; lia).
  assert (cl (x - 1) = Z.max (x - 1) 0) as -> by (unfold cl; lia). assert (cl (y - 1) = Z.max (y - 1) 0) as -> by (unfold cl; lia). ring.
Qed.
(* mixed differences *)
Definition W (k : nat) (x y : Z) : Qc := (E k x y - E k (x - 1)%Z y - E k x (y - 1)%Z + E k (x - 1)%Z (y - 1)%Z)%Qc.
Definition inner (x : Z) : Prop := 1 <= x <= L - 1.
Lemma W_out_x k x y : ~ inner x -> W k x y = 0%Qc.
Proof. intros H. unfold W, E. assert (cl (x - 1) = cl x) as -> by (unfold cl, inner in *; lia). ring. Qed.
Lemma W_out_y k x y : ~ inner y -> W k x y = 0%Qc.
Proof. intros H. unfold W, E. assert (cl (y - 1) = cl y) as -> by (unfold cl, inner in *; lia). ring. Qed.
Lemma W_step k x y : inner x -> inner y -> W (S k) x y = plane (W k) x y.
Proof.
  intros Hx Hy. unfold inner in *. unfold W at 1. rewrite !E_step by lia. unfold plane, W. replace (x + 1 - 1) with (x - 1 + 1) by lia. replace (y + 1 - 1) with (y - 1 + 1) by lia.
  replace (x - 1 + 1) with x by lia. replace (y - 1 + 1) with y by lia. ring.
Qed.
Definition mid : Z := L / 2.
Lemma W_start x y : 2 <= L -> inner x -> inner y -> W 0 x y = if (x =? mid) && (y =? mid) then 1%Qc else 0%Qc.
Proof.
  intros H2 Hx Hy. unfold W, E, inner in *. rewrite !cl_in by lia. cbn [sheet]. fold mid.
  destruct (Z.eqb_spec x mid), (Z.eqb_spec y mid), (Z.ltb_spec x mid), (Z.ltb_spec y mid), (Z.ltb_spec (x - 1) mid), (Z.ltb_spec (y - 1) mid); cbn [andb]; try lia; ring.
Qed.

(* sums over the inner nodes *)
Definition sum (A : Z -> Qc) : Qc := sumQ (map A (zrange 1 L)).
Definition inn (A B : Z -> Z -> Qc) : Qc := sum (fun x => sum (fun y => A x y * B x y)%Qc).
Lemma sum_ext A B : (forall x, inner x -> A x = B x) -> sum A = sum B.
Proof. intros H. apply sumQ_ext. intros x Hx. apply in_zrange in Hx. apply H. unfold inner. lia. Qed.
Lemma sum_add A B : sum (fun x => A x + B x)%Qc = (sum A + sum B)%Qc. Proof. apply sumQ_add. Qed.
Lemma sum_mul k A : sum (fun x => k * A x)%Qc = (k * sum A)%Qc. Proof. apply sumQ_mul. Qed.
Lemma sum_shift A : A 1 = 0%Qc -> A L = 0%Qc -> sum (fun x => A (x + 1)) = sum A.
Proof.
  intros H1 HL'. unfold sum. destruct (Z.eq_dec L 1) as [->|]; [reflexivity|].
  assert (map (fun x => A (x + 1)) (zrange 1 L) = map A (zrange 2 (L + 1))) as ->.
  { unfold zrange. rewrite !map_map. replace (L + 1 - 2) with (L - 1) by lia. apply map_ext. intros i. f_equal. lia. }
  rewrite (zrange_cons 1 L), (zrange_snoc 2 L) by lia. change (1 + 1) with 2. rewrite map_app, sumQ_app. cbn [map sumQ]. rewrite H1, HL'. ring.
Qed.
Definition zero_out (A : Z -> Z -> Qc) : Prop := forall x y, ~ inner x \/ ~ inner y -> A x y = 0%Qc.
Lemma W_zero k : zero_out (W k). Proof. intros x y [H|H]; [now apply W_out_x|now apply W_out_y]. Qed.
Lemma inn_ext A B A' B' : (forall x y, inner x -> inner y -> A x y = A' x y) -> (forall x y, inner x -> inner y -> B x y = B' x y) -> inn A B = inn A' B'.
Proof. intros HA HB. apply sum_ext. intros x Hx. apply sum_ext. intros y Hy. now rewrite HA, HB by auto. Qed.
Lemma inn_comm A B : inn A B = inn B A.
Proof. apply sum_ext. intros x Hx. apply sum_ext. intros y Hy. ring. Qed.
Lemma inn_shift_x A B : zero_out A -> zero_out B -> inn A (fun x y => B (x + 1)%Z y) = inn (fun x y => A (x - 1)%Z y) B.
Proof.
  intros HA HB. unfold inn. rewrite <- (sum_shift (fun x => sum (fun y => A (x - 1)%Z y * B x y)%Qc)).
  - apply sum_ext. intros x Hx. apply sum_ext. intros y Hy. now replace (x + 1 - 1) with x by lia.
  - transitivity (sum (fun _ => 0 * 0)%Qc); [|rewrite sum_mul; ring]. apply sum_ext. intros y Hy. rewrite HA by (unfold inner; lia). ring.
  - transitivity (sum (fun _ => 0 * 0)%Qc); [|rewrite sum_mul; ring]. apply sum_ext. intros y Hy. rewrite HB by (unfold inner; lia). ring.
Qed.
Lemma inn_shift_y A B : zero_out A -> zero_out B -> inn A (fun x y => B x (y + 1)%Z) = inn (fun x y => A x (y - 1)%Z) B.
Proof.
  intros HA HB. apply sum_ext. intros x Hx. rewrite <- (sum_shift (fun y => A x (y - 1)%Z * B x y)%Qc).
  - apply sum_ext. intros y Hy. now replace (y + 1 - 1) with y by lia.
  - rewrite HA by (unfold inner; lia). ring.
  - rewrite HB by (unfold inner; lia). ring.
Qed.
Lemma inn_add A B C : inn A (fun x y => B x y + C x y)%Qc = (inn A B + inn A C)%Qc.
Proof. unfold inn. rewrite <- sum_add. apply sum_ext. intros x _. rewrite <- sum_add. apply sum_ext. intros y _. ring. Qed.
Lemma inn_mul A B k : inn A (fun x y => k * B x y)%Qc = (k * inn A B)%Qc.
Proof. unfold inn. rewrite <- sum_mul. apply sum_ext. intros x _. rewrite <- sum_mul. apply sum_ext. intros y _. ring. Qed.
Lemma inn_plane A B : inn A (plane B) =
  ((1 - a3 * q4) * inn A B + a3 * (inn A (fun x y => B (x + 1)%Z y) + inn A (fun x y => B (x - 1)%Z y) + (inn A (fun x y => B x (y + 1)%Z) + inn A (fun x y => B x (y - 1)%Z))))%Qc.
Proof.
  rewrite <- !inn_add, <- !inn_mul, <- inn_add. apply inn_ext; [reflexivity|]. intros x y _ _. unfold plane. ring.
Qed.
Lemma plane_sym A B : zero_out A -> zero_out B -> inn A (plane B) = inn (plane A) B.
Proof.
  intros HA HB. rewrite (inn_comm (plane A) B), !inn_plane, (inn_comm B A).
  assert (inn A (fun x y => B (x + 1)%Z y) = inn B (fun x y => A (x - 1)%Z y)) as -> by (rewrite (inn_shift_x A B HA HB); apply inn_comm).
  assert (inn A (fun x y => B x (y + 1)%Z) = inn B (fun x y => A x (y - 1)%Z)) as -> by (rewrite (inn_shift_y A B HA HB); apply inn_comm).
  assert (inn B (fun x y => A (x + 1)%Z y) = inn A (fun x y => B (x - 1)%Z y)) as -> by (rewrite (inn_shift_x B A HB HA); apply inn_comm).
  assert (inn B (fun x y => A x (y + 1)%Z) = inn A (fun x y => B x (y - 1)%Z)) as -> by (rewrite (inn_shift_y B A HB HA); apply inn_comm).
  ring.
Qed.
Lemma inn_W i j : inn (W (S i)) (W j) = inn (W i) (W (S j)).
Proof.
  transitivity (inn (plane (W i)) (W j)); [apply inn_ext; [intros; now apply W_step|auto]|]. rewrite <- plane_sym by apply W_zero. apply inn_ext; [auto|]. intros. symmetry. now apply W_step.
Qed.
Definition N (k : nat) : Qc := inn (W k) (W k).
Lemma sum_nonneg A : (forall x, inner x -> (0 <= A x)%Qc) -> (0 <= sum A)%Qc.
Proof.
  intros H. unfold sum. assert (Forall inner (zrange 1 L)) as F by (apply Forall_forall; intros x Hx; apply in_zrange in Hx; unfold inner; lia). induction F as [|x l Hx _ IH]; [discriminate|]. cbn [map sumQ].
  replace 0%Qc with (0 + 0)%Qc by reflexivity. apply Qcplus_le_compat; auto.
Qed.
Lemma sq_nonneg (v : Qc) : (0 <= v * v)%Qc.
Proof. unfold Qcle. rewrite this_mul. change (this 0%Qc) with 0%Q. generalize (this v). intros q. unfold Qle. cbn. pose proof (Z.square_nonneg (Qnum q)). nia. Qed.
Lemma N_nonneg k : (0 <= N k)%Qc.
Proof. apply sum_nonneg. intros x _. apply sum_nonneg. intros y _. apply sq_nonneg. Qed.
(* growth goes on *)
Lemma N_growth r k : (0 <= r)%Qc -> (r * N k <= N (S k))%Qc -> (r * N (S k) <= N (S (S k)))%Qc.
Proof.
  intros Hr H. assert (0 <= N (S (S k)) - (r + r) * N (S k) + r * r * N k)%Qc as G.
  { apply Qcle_trans with (inn (fun x y => W (S (S k)) x y + - r * W k x y)%Qc (fun x y => W (S (S k)) x y + - r * W k x y)%Qc).
    - apply sum_nonneg. intros x _. apply sum_nonneg. intros y _. apply sq_nonneg.
    - rewrite inn_add, inn_mul. set (D := fun x y => _). rewrite (inn_comm D (W (S (S k)))), (inn_comm D (W k)). unfold D. rewrite !inn_add, !inn_mul. rewrite (inn_comm (W (S (S k))) (W k)), <- (inn_W k (S k)). unfold N.
      match goal with |- (?u <= ?v)%Qc => replace u with v; [apply Qcle_refl|ring] end. }
  assert (r * (r * N k) <= r * N (S k))%Qc as K by (rewrite !(Qcmult_comm r (_ * _)), (Qcmult_comm r (N (S k))); now apply Qcmult_le_compat_r).
  set (p := N (S (S k))) in *. set (q := N (S k)) in *. set (o := N k) in *. clearbody p q o.
  unfold Qcle in *. rewrite this_add, this_sub, !this_mul, this_add in G. rewrite !this_mul in K. rewrite this_mul. change (this 0%Qc) with 0%Q in *. lra.
Qed.
Lemma N_mid k : 2 <= L -> N k = W (k + k) mid mid.
Proof.
  intros H2. assert (forall i j, inn (W i) (W j) = inn (W 0) (W (i + j))) as G.
  { induction i as [|i IH]; intros j; [reflexivity|]. rewrite inn_W, IH. now rewrite Nat.add_succ_comm. }
  unfold N. rewrite G. set (V := W (k + k)). assert (inner mid) as Hm by (unfold inner, mid; pose proof (Z.div_mod L 2 ltac:(lia)); pose proof (Z.mod_pos_bound L 2 ltac:(lia)); lia).
  assert (forall F, sum (fun x => (if x =? mid then 1 else 0) * F x)%Qc = F mid) as S1.
  { intros F. unfold sum. unfold inner in Hm. rewrite (zrange_app 1 mid L), (zrange_cons mid L), map_app, sumQ_app by lia. cbn [map sumQ]. rewrite Z.eqb_refl.
    assert (forall l, ~ In mid l -> sumQ (map (fun x => (if x =? mid then 1 else 0) * F x)%Qc l) = 0%Qc) as Z0.
    { induction l as [|x l IH]; intros Hn; [reflexivity|]. cbn [map sumQ]. rewrite IH by (intros Hi; apply Hn; now right). destruct (Z.eqb_spec x mid) as [->|]; [exfalso; apply Hn; now left|]. ring. }
    rewrite !Z0 by (rewrite in_zrange; lia). ring. }
  transitivity (sum (fun x => (if x =? mid then 1 else 0) * V x mid)%Qc); [|apply (S1 (fun x => V x mid))].
  apply sum_ext. intros x Hx. transitivity (sum (fun y => (if y =? mid then 1 else 0) * ((if x =? mid then 1 else 0) * V x y))%Qc); [|apply (S1 (fun y => (if x =? mid then 1 else 0) * V x y)%Qc)].
  apply sum_ext. intros y Hy. rewrite W_start by auto. destruct (x =? mid), (y =? mid); cbn [andb]; ring.
Qed.

(* the middle, step by step *)
Fixpoint rel (lo hi : Z) (k : nat) (x y : Z) : Qc :=
  match k with
  | O => if (x =? 0) && (y =? 0) then 1%Qc else 0%Qc
  | S k' => if (lo <=? x) && (x <=? hi) && (lo <=? y) && (y <=? hi) then plane (rel lo hi k') x y else 0%Qc
  end.
Lemma W_rel k x y : 2 <= L -> W k (mid + x) (mid + y) = rel (1 - mid) (L - 1 - mid) k x y.
Proof.
  intros H2. assert (inner mid) as Hm by (unfold inner, mid; pose proof (Z.div_mod L 2 ltac:(lia)); pose proof (Z.mod_pos_bound L 2 ltac:(lia)); lia). unfold inner in Hm. revert x y. induction k as [|k IH]; intros x y; cbn [rel].
  - destruct (Z.eqb_spec x 0) as [->|Nx]; [destruct (Z.eqb_spec y 0) as [->|Ny]|]; cbn [andb].
    + rewrite !Z.add_0_r, W_start by (unfold inner; lia). now rewrite Z.eqb_refl.
    + destruct (Z_le_dec 1 (mid + y)), (Z_le_dec (mid + y) (L - 1)); try (apply W_out_y; unfold inner; lia). rewrite W_start by (unfold inner; lia). destruct (Z.eqb_spec (mid + y) mid); [lia|]. now rewrite andb_false_r.
    + destruct (Z_le_dec 1 (mid + x)), (Z_le_dec (mid + x) (L - 1)); try (apply W_out_x; unfold inner; lia). destruct (Z_le_dec 1 (mid + y)), (Z_le_dec (mid + y) (L - 1)); try (apply W_out_y; unfold inner; lia).
      rewrite W_start by (unfold inner; lia). destruct (Z.eqb_spec (mid + x) mid); [lia|]. reflexivity.
  - destruct (Z.leb_spec (1 - mid) x); cbn [andb]; [|apply W_out_x; unfold inner; lia]. destruct (Z.leb_spec x (L - 1 - mid)); cbn [andb]; [|apply W_out_x; unfold inner; lia].
    destruct (Z.leb_spec (1 - mid) y); cbn [andb]; [|apply W_out_y; unfold inner; lia]. destruct (Z.leb_spec y (L - 1 - mid)); cbn [andb]; [|apply W_out_y; unfold inner; lia].
    rewrite W_step by (unfold inner; lia). unfold plane. rewrite <- !IH. replace (mid + x + 1) with (mid + (x + 1)) by lia. replace (mid + x - 1) with (mid + (x - 1)) by lia. replace (mid + y + 1) with (mid + (y + 1)) by lia. replace (mid + y - 1) with (mid + (y - 1)) by lia. reflexivity.
Qed.
End Sheet.

Lemma rel_far lo hi k x y : Z.of_nat k < Z.abs x + Z.abs y -> rel lo hi k x y = 0%Qc.
Proof.
  revert x y. induction k as [|k IH]; intros x y H; cbn [rel].
  - destruct (Z.eqb_spec x 0), (Z.eqb_spec y 0); cbn [andb]; try reflexivity. lia.
  - destruct (_ && _); [|reflexivity]. unfold plane. rewrite !IH by lia. ring.
Qed.
Lemma rel_free lo hi k x y : lo <= -3 -> 3 <= hi -> Z.abs x + Z.abs y + Z.of_nat k <= 6 -> rel lo hi k x y = rel (-3) 3 k x y.
Proof.
  intros Hlo Hhi. revert x y. induction k as [|k IH]; intros x y H; [reflexivity|].
  destruct (Z_lt_dec (Z.of_nat (S k)) (Z.abs x + Z.abs y)) as [F|F]; [now rewrite !rel_far by auto|]. cbn [rel].
  destruct (Z.leb_spec lo x), (Z.leb_spec x hi), (Z.leb_spec lo y), (Z.leb_spec y hi); try lia. destruct (Z.leb_spec (-3) x), (Z.leb_spec x 3), (Z.leb_spec (-3) y), (Z.leb_spec y 3); try lia.
  cbn [andb]. unfold plane. now rewrite !IH by lia.
Qed.
Definition rho : Qc := Q2Qc (101 # 100).
(* six steps *)
Definition good (lo hi : Z) : bool :=
  let n2 := rel lo hi 4 0 0 in let n3 := rel lo hi 6 0 0 in
  Qle_bool (rho * n2)%Qc n3 && Qle_bool (34 # 100) n2.
Lemma good_all : good (-1) 1 = true /\ good (-1) 2 = true /\ good (-2) 2 = true /\ good (-2) 3 = true /\ good (-3) 3 = true.
Proof. repeat split; vm_compute; reflexivity. Qed.
Lemma mid_good L : 4 <= L -> good (1 - mid L) (L - 1 - mid L) = true.
Proof.
  intros H. assert (8 <= L /\ 1 - mid L <= -3 /\ 3 <= L - 1 - mid L \/ L = 4 \/ L = 5 \/ L = 6 \/ L = 7) as K.
  { unfold mid. pose proof (Z.div_mod L 2 ltac:(lia)) as D. pose proof (Z.mod_pos_bound L 2 ltac:(lia)) as D'. lia. }
  destruct good_all as (G4 & G5 & G6 & G7 & G8). destruct K as [(_ & A & B)|[->|[->|[->| ->]]]];
    [|change (mid 4) with 2; exact G4|change (mid 5) with 2; exact G5|change (mid 6) with 3; exact G6|change (mid 7) with 3; exact G7].
  unfold good in *. rewrite (rel_free _ _ 4), (rel_free _ _ 6) by (exact A || exact B || (cbn; discriminate)). exact G8.
Qed.
Lemma rho_pos : (0 <= rho)%Qc. Proof. discriminate. Qed.
Lemma N_two L : 4 <= L -> (rho * N L 2 <= N L 3)%Qc /\ (Q2Qc (34 # 100) <= N L 2)%Qc.
Proof.
  intros H. pose proof (mid_good L H) as G. rewrite !N_mid by lia. rewrite <- (Z.add_0_r (mid L)), !W_rel by lia. unfold good in G. apply andb_prop in G as [G1 G2].
  apply Qle_bool_iff in G1, G2. split; [exact G1|]. unfold Qcle. cbn [this Q2Qc]. rewrite Qred_correct. exact G2.
Qed.
Lemma N_geometric L k : 4 <= L -> (power rho k * N L 2 <= N L (2 + k))%Qc.
Proof.
  intros H. destruct (N_two L H) as [B _]. assert (forall k, (rho * N L (2 + k) <= N L (S (2 + k)))%Qc) as G by (induction k0 as [|k0 IH]; [exact B|]; apply N_growth; [lia|apply rho_pos|exact IH]).
  induction k as [|k IH]; [cbn [power]; rewrite Qcmult_1_l; apply Qcle_refl|]. rewrite Nat.add_succ_r. apply Qcle_trans with (2 := G k). cbn [power]. rewrite <- Qcmult_assoc, !(Qcmult_comm rho). apply Qcmult_le_compat_r; [exact IH|apply rho_pos].
Qed.
(* a large sum has a large term *)
Lemma sumQ_bound (A : Z -> Qc) l B : (forall x, In x l -> (A x <= B)%Qc) -> (sumQ (map A l) <= Qc_of (zlen l) * B)%Qc.
Proof.
  induction l as [|x l IH]; intros H; [change (zlen (@nil Z)) with 0; rewrite Qc_of_0, Qcmult_0_l; apply Qcle_refl|]. cbn [map sumQ]. rewrite zlen_cons, Qc_of_add, Qc_of_1. replace ((1 + Qc_of (zlen l)) * B)%Qc with (B + Qc_of (zlen l) * B)%Qc by ring.
  apply Qcplus_le_compat; [apply H; now left|apply IH; intros y Hy; apply H; now right].
Qed.
Lemma four_squares (a b c d v : Qc) : (a * a <= v)%Qc -> (b * b <= v)%Qc -> (c * c <= v)%Qc -> (d * d <= v)%Qc -> ((a - b - c + d) * (a - b - c + d) <= Q2Qc (16 # 1) * v)%Qc.
Proof.
  intros A B C D. assert (forall p q : Qc, (0 <= (p - q) * (p - q))%Qc) as S by (intros; apply sq_nonneg).
  assert (forall p q : Qc, (0 <= (p + q) * (p + q))%Qc) as S' by (intros; apply sq_nonneg).
  pose proof (S' a b) as P1. pose proof (S' a c) as P2. pose proof (S a d) as P3. pose proof (S b c) as P4. pose proof (S' b d) as P5. pose proof (S' c d) as P6.
  unfold Qcle in *. repeat (rewrite ?this_add, ?this_sub, ?this_mul in P1). repeat (rewrite ?this_add, ?this_sub, ?this_mul in P2). repeat (rewrite ?this_add, ?this_sub, ?this_mul in P3). repeat (rewrite ?this_add, ?this_sub, ?this_mul in P4). repeat (rewrite ?this_add, ?this_sub, ?this_mul in P5). repeat (rewrite ?this_add, ?this_sub, ?this_mul in P6).
  repeat (rewrite ?this_add, ?this_sub, ?this_mul). rewrite this_mul in A, B, C, D. change (this (Q2Qc (16 # 1))) with (16 # 1)%Q. change (this 0%Qc) with 0%Q in *.
  generalize dependent (this a). generalize dependent (this b). generalize dependent (this c). generalize dependent (this d). generalize dependent (this v). clear. intros. nra.
Qed.
Lemma of_pos s : 0 < s -> (0 < Qc_of s)%Qc.
Proof. intros H. unfold Qclt. assert (this (Qc_of s) == inject_Z s)%Q as -> by apply Qred_correct. change (this 0) with (inject_Z 0). now rewrite <- Zlt_Qlt. Qed.
Lemma of_ratio a b p q : 0 < b -> a * Zpos q < p * b -> (Qc_of a / Qc_of b < Q2Qc (p # q))%Qc.
Proof.
  intros Hb H. unfold Qclt, Qcdiv, Qc_of. rewrite this_mul, this_inv. cbn [this Q2Qc]. rewrite !Qred_correct. apply Qlt_shift_div_r; [unfold Qlt, inject_Z; cbn [Qnum Qden]; lia|]. unfold Qlt, Qmult, inject_Z. cbn [Qnum Qden]. rewrite Pos.mul_1_r. lia.
Qed.
Lemma sheet_large L k : 4 <= L -> exists x y, 0 <= x < L /\ 0 <= y < L /\ (power rho k <= Qc_of (48 * (L * L)) * (sheet L (2 + k) x y * sheet L (2 + k) x y))%Qc.
Proof.
  intros H. set (n := (2 + k)%nat). 
  assert (forall l m B, (exists x y, In x l /\ In y m /\ (B < sheet L n x y * sheet L n x y)%Qc) \/ (forall x y, In x l -> In y m -> (sheet L n x y * sheet L n x y <= B)%Qc)) as Dec.
  { intros l m B. induction l as [|x l IH]; [right; intros ? ? []|]. destruct IH as [(x' & y & A1 & A2 & A3)|IH]; [left; exists x', y; split; [now right|auto]|].
    assert ((exists y, In y m /\ (B < sheet L n x y * sheet L n x y)%Qc) \/ (forall y, In y m -> (sheet L n x y * sheet L n x y <= B)%Qc)) as [(y & A1 & A2)|R].
    { induction m as [|y m IHm]; [right; intros ? []|]. destruct IHm as [(y' & A1 & A2)|R]; [intros x' y' Hx' Hy'; apply IH; [auto|now right]|left; exists y'; split; [now right|auto]|].
      destruct (Qclt_le_dec B (sheet L n x y * sheet L n x y)) as [G|G]; [left; exists y; split; [now left|auto]|]. right. intros y' [->|Hy]; auto. }
    - left. exists x, y. split; [now left|auto].
    - right. intros x' y [->|Hx] Hy; auto. }
  set (c := Qc_of (48 * (L * L))). set (B := (power rho k / c)%Qc).
  assert (0 < c)%Qc as Hc by (unfold c; apply of_pos; nia). assert (c <> 0)%Qc as Nc by (intros E0; rewrite E0 in Hc; discriminate).
  destruct (Dec (zrange 0 L) (zrange 0 L) B) as [(x & y & A1 & A2 & A3)|All].
  - apply in_zrange in A1, A2. exists x, y. repeat split; try lia. apply Qclt_le_weak. apply (Qcmult_lt_compat_r _ _ c Hc) in A3. unfold B in A3. replace (power rho k / c * c)%Qc with (power rho k) in A3 by (field; auto). rewrite (Qcmult_comm c). exact A3.
  - exfalso. assert (N L n <= Qc_of (L - 1) * (Qc_of (L - 1) * (Q2Qc (16 # 1) * B)))%Qc as Up.
    { unfold N, inn, sum. replace (Qc_of (L - 1)) with (Qc_of (zlen (zrange 1 L))) by (f_equal; rewrite zlen_zrange by lia; lia).
      apply sumQ_bound. intros x Hx. apply in_zrange in Hx. apply sumQ_bound. intros y Hy. apply in_zrange in Hy. unfold W, SheetL.E. rewrite !cl_in by lia. apply four_squares; apply All; apply in_zrange; lia. }
    pose proof (N_geometric L k H) as Lo. destruct (N_two L H) as [_ N2]. fold n in Lo. pose proof (Qcle_trans _ _ _ Lo Up) as K. clear Lo Up All Dec.
    assert (0 < power rho k)%Qc as Pp by (clear; induction k as [|k IH]; [reflexivity|]; cbn [power]; rewrite <- (Qcmult_0_l (power rho k)); apply Qcmult_lt_compat_r; [exact IH|reflexivity]).
    assert (power rho k * Q2Qc (34 # 100) <= power rho k * N L 2)%Qc as K1 by (rewrite !(Qcmult_comm (power rho k)); apply Qcmult_le_compat_r; [exact N2|now apply Qclt_le_weak]).
    pose proof (Qcle_trans _ _ _ K1 K) as K2. clear K K1 N2.
    assert (Qc_of (L - 1) * (Qc_of (L - 1) * (Q2Qc (16 # 1) * B)) = power rho k * (Qc_of (16 * ((L - 1) * (L - 1))) / c))%Qc as Eq.
    { unfold B. assert (Qc_of (16 * ((L - 1) * (L - 1))) = Q2Qc (16 # 1) * (Qc_of (L - 1) * Qc_of (L - 1)))%Qc as ->; [|field; auto]. apply Qc_is_canon. rewrite !this_mul. unfold Qc_of. cbn [this Q2Qc]. rewrite !Qred_correct, !inject_Z_mult. reflexivity. }
    rewrite Eq in K2. assert (Qc_of (16 * ((L - 1) * (L - 1))) / c < Q2Qc (34 # 100))%Qc as Sm.
    { apply of_ratio; nia. }
    rewrite !(Qcmult_comm (power rho k)) in K2. apply (Qcmult_lt_compat_r _ _ _ Pp) in Sm. exact (Qclt_not_le _ _ Sm K2).
Qed.
