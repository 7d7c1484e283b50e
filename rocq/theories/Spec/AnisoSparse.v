(* The multiphase-field equation of a set of fields that meet at a node. *)
From Coq Require Import QArith.QArith QArith.Qcanon.
From Verif Require Import Model.Base Model.Layout Model.Access Spec.Stencil Spec.Evolve.
Local Open Scope Z_scope.

Section Equation.
(* gradient and barrier coefficients of a pair of fields, coefficient of the triple term, mobility of a pair *)
Context (gradient barrier : Z -> Z -> Qc) (triple : Qc) (mobility : Z -> Z -> Qc).
(* the fields and their Laplacians at the node, the fields that meet there *)
Context (phi lap : Z -> Qc) (fields : list Z).

Definition others (ks : list Z) (k : Z) : list Z := filter (fun j => negb (j =? k)) ks.
(* the variational derivative with respect to field k *)
Definition force (k : Z) : Qc :=
  (sumQ (map (fun j => gradient k j * lap j + barrier k j * phi j) (others fields k)) +
   triple / Qc_of 2 * sumQ (map (fun i => sumQ (map (fun j => phi i * phi j) (others (others fields k) i))) (others fields k)))%Qc.
(* the rate of change of field k *)
Definition speed (k : Z) : Qc := (- sumQ (map (fun j => mobility k j * (force k - force j)) (others fields k)))%Qc.
(* the value of field k after a time dt, cut off at 0 and 1 *)
Definition clamp (v : Qc) : Qc := if Qclt_le_dec v 0 then 0%Qc else if Qclt_le_dec 1 v then 1%Qc else v.
Definition target (dt : Qc) (k : Z) : Qc := clamp (phi k + dt * (Qc_of 2 / Qc_of (zlen fields)) * speed k)%Qc.
End Equation.
(* a mobility that is zero for field 0 *)
Definition pin (pinned : bool) (mobility : Z -> Z -> Qc) (i j : Z) : Qc := if pinned && ((i =? 0) || (j =? 0)) then 0%Qc else mobility i j.
Definition symmetric (f : Z -> Z -> Qc) : Prop := forall i j, f i j = f j i.

(* What is stored for field k when the cell held stale values before: values of at most 1e-8 are not stored, and what was there stays *)
Definition kept (fields : list Z) (value stale : Z -> Qc) (k : Z) : Qc :=
  if in_dec Z.eq_dec k fields then if Qclt_le_dec (Q2Qc (1 # 100000000)) (value k) then value k else stale k else stale k.
(* divided by the sum over the fields that meet; 0 when that sum is 0 *)
Definition projected (fields : list Z) (v : Z -> Qc) (k : Z) : Qc :=
  let sum := sumQ (map v fields) in if Qc_eq_dec sum 0 then 0%Qc else (v k / sum)%Qc.

(* l is the cell that a step computes at node x from the field F when the cell held stale before *)
Definition follows (dt : Qc) (gradient barrier : Z -> Z -> Qc) (triple : Qc) (mobility : Z -> Z -> Qc) (dx : list Qc)
    (F : list Z -> list (Z * Qc)) (x : list Z) (stale l : list (Z * Qc)) : Prop :=
  exists ks, NoDup ks /\ (forall k, In k ks <-> near F x k) /\
    (zlen ks < 2 -> l = F x) /\
    (2 <= zlen ks ->
      let value := target gradient barrier triple mobility (at_index (F x)) (field_laplacian F dx x) ks dt in
      (forall k, at_index l k = projected ks (kept ks value (at_index stale)) k) /\
      (forall k, In k (map fst l) <-> In k (map fst stale) \/ In k ks /\ (Q2Qc (1 # 100000000) < value k)%Qc)).

(* grids of sparse cells: every cell lists an index at most once *)
Definition tidy (o : list (option (Z * Qc))) : Prop := exists l, o = map Some l /\ NoDup (map fst l).
Definition stored (o : list (option (Z * Qc))) : list (Z * Qc) := flat_map (fun c => match c with Some it => [it] | None => [] end) o.
(* the fields stored at coordinates y of a serial grid, beyond the sides through the boundary conditions *)
Definition fields_of (ls : list limits) (data : list (list (option (Z * Qc)))) (y : list Z) : list (Z * Qc) :=
  stored (match grid_read false (lay 0 ls) data y with Some o => o | None => [] end).
Definition total (l : list (Z * Qc)) : Qc := sumQ (map snd l).
Definition nonneg (l : list (Z * Qc)) : Prop := Forall (fun it => 0 <= snd it)%Qc l.
Definition indices (N : Z) (l : list (Z * Qc)) : Prop := Forall (fun it => 0 <= fst it < N) l.
(* a grid of non-negative fields numbered from 0 to N-1 *)
Definition sound (N : Z) (ls : list limits) (data : list (list (option (Z * Qc)))) : Prop :=
  zlen data = cells (lay 0 ls) /\ Forall (fun o => tidy o /\ nonneg (stored o) /\ indices N (stored o)) data.
(* whose sum is at least one at every node *)
Definition full (data : list (list (option (Z * Qc)))) : Prop := Forall (fun o => 1 <= total (stored o))%Qc data.
