(* C94: the two-dimensional diffusion program of the beginners' examples. *)
From Coq Require Import QArith.QArith QArith.Qcanon Lqa.
From Verif Require Import Model.Base Model.Boundary Model.Layout Model.Access Model.Stencil Model.Couple Spec.Stencil Spec.Couple
  Proof.BaseL Proof.StencilL Proof.StencilS Proof.StencilM Proof.SheetL Proof.SheetM.
Local Open Scope list_scope.

(* MMSPDiffusion2D prints the values of the sheet after as many steps as it makes iterations, whatever the memory held. *)
Theorem C94_sheet : forall L k m1 m2, 1 <= L -> zlen m1 = L * L -> zlen m2 = L * L ->
  sheet_program L k m1 m2 = Some (map (fun x => map (sheet L k x) (zrange 0 L)) (zrange 0 L)).
Proof.
  intros L k m1 m2 H L1 L2. unfold sheet_program. rewrite fill_sheet by auto. cbn [bind]. destruct (sheet_run L H k 0 (field L (fun _ _ => 1%Qc))) as (v & _ & E); [rewrite field_len by auto; now apply cells2|].
  fold a3. rewrite E. cbn [bind fst]. rewrite Nat.add_0_r. now apply print2.
Qed.
Print Assumptions C94_sheet.

(* The values do not stay between 0 and 1, nor between any other bounds: for every sheet of 4 by 4 nodes or more and every number B, from some number of iterations on
   every output contains a value whose square is above B.  The factor of the program is 3/10; C59 proves the bounds for factors up to 1/4. *)
Theorem C94_bounds_refuted : forall L (B : Qc), 4 <= L -> exists K, forall k m1 m2, (K <= k)%nat -> zlen m1 = L * L -> zlen m2 = L * L ->
  exists out row v, sheet_program L k m1 m2 = Some out /\ In row out /\ In v row /\ (B < v * v)%Qc.
Proof.
  intros L B H. set (c := Qc_of (48 * (L * L))). assert (0 < c)%Qc as Hc by (apply of_pos; nia). destruct (archimedes (Q2Qc (100 # 1) * (c * B))%Qc) as (n & Hn). exists (2 + n)%nat. intros k m1 m2 Hk L1 L2.
  rewrite C94_sheet by (auto; lia). destruct (sheet_large L (k - 2) H) as (x & y & Hx & Hy & G). replace (2 + (k - 2))%nat with k in G by lia. fold c in G.
  eexists _, (map (sheet L k x) (zrange 0 L)), (sheet L k x y). split; [reflexivity|]. split; [apply in_map_iff; exists x; split; [auto|apply in_zrange; lia]|]. split; [apply in_map, in_zrange; lia|].
  apply Qcnot_le_lt. intros Bad. assert (Qc_of (Z.of_nat n) <= Qc_of (Z.of_nat (k - 2)))%Qc as Mono.
  { unfold Qcle, Qc_of. cbn [this Q2Qc]. rewrite !Qred_correct, <- Zle_Qle. lia. }
  pose proof (rho_bernoulli (k - 2)) as R. assert (c * (sheet L k x y * sheet L k x y) <= c * B)%Qc as Q1 by (rewrite !(Qcmult_comm c); apply Qcmult_le_compat_r; [exact Bad|now apply Qclt_le_weak]).
  clear Bad Hc. set (s := (c * (sheet L k x y * sheet L k x y))%Qc) in *. set (t := (c * B)%Qc) in *. set (p := power rho (k - 2)) in *. set (a := Qc_of (Z.of_nat n)) in *. set (b := Qc_of (Z.of_nat (k - 2))) in *. clearbody s t p a b.
  unfold Qcle in *. rewrite this_add, this_mul in R. rewrite this_mul in Hn. change (this (Q2Qc (1 # 100))) with (1 # 100)%Q in R. change (this 1%Qc) with 1%Q in R. change (this (Q2Qc (100 # 1))) with (100 # 1)%Q in Hn. lra.
Qed.
Print Assumptions C94_bounds_refuted.

(* The growth is exponential: after k + 2 iterations some value v has 48 L^2 v^2 >= 1.01^k. *)
Theorem C94_growth : forall L k m1 m2, 4 <= L -> zlen m1 = L * L -> zlen m2 = L * L ->
  exists out row v, sheet_program L (2 + k) m1 m2 = Some out /\ In row out /\ In v row /\ (power (Q2Qc (101 # 100)) k <= Qc_of (48 * (L * L)) * (v * v))%Qc.
Proof.
  intros L k m1 m2 H L1 L2. rewrite C94_sheet by (auto; lia). destruct (sheet_large L k H) as (x & y & Hx & Hy & G).
  eexists _, (map (sheet L (2 + k) x) (zrange 0 L)), (sheet L (2 + k) x y). split; [reflexivity|]. split; [apply in_map_iff; exists x; split; [auto|apply in_zrange; lia]|]. split; [apply in_map, in_zrange; lia|exact G].
Qed.
Print Assumptions C94_growth.

(* two iterations on 4 by 4 nodes *)
Example C94_case :
  option_map (map (map this)) (sheet_program 4 2 (repeat (Qc_of 5) 16) (repeat (Qc_of 6) 16)) =
  Some [[41 # 50; 29 # 50; 33 # 100; 9 # 100]; [29 # 50; 13 # 25; 3 # 20; 9 # 100]; [33 # 100; 3 # 20; 9 # 50; 0]; [9 # 100; 9 # 100; 0; 0]]%Q.
Proof. vm_compute. reflexivity. Qed.
