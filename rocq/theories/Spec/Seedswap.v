From Coq Require Import QArith Qcanon.
From Verif Require Import Model.Base Model.Setup Model.Tessellate.
Local Open Scope Z_scope.

(* the lists of seeds of all ranks, with those of rank r twice *)
Definition doubled (local : Z -> list seed) (np r : Z) : list (list seed) := map (fun i => (if i =? r then local i else []) ++ local i) (zrange 0 np).

(* a row of a seed file: one number between 0 and 1, inclusive, for each axis *)
Definition unit_row (n : nat) (l : list Qc) : Prop := length l = n /\ Forall (fun x => (0 <= x)%Qc /\ (x <= 1)%Qc) l.

(* coordinate c of the axis g after it has been written and read *)
Definition fallen (g : gaxis) (c : Z) : Z := if (c <=? 0) || (c =? gx_0 g) then c else c - 1.
Fixpoint fallen_seed (gs : list gaxis) (s : list Z) : list Z :=
  match gs, s with
  | g :: gs', c :: s' => fallen g c :: fallen_seed gs' s'
  | _, _ => map (fun _ => 0) s
  end.
