(* Monte Carlo grain growth in a temperature gradient: examples/coarsening/grain_growth/anisotropic/Monte_Carlo/graingrowth.cpp,
   which differs from isotropic/Monte_Carlo/graingrowth.cpp (Model/Spin.v) in lines 263-266 only.
   Doubles are modelled by rational numbers with exact arithmetic; exp is the function ex, RAND_MAX the number top. *)
From Coq Require Import QArith.QArith QArith.Qcanon.
From Verif Require Import Model.Base Model.Layout Model.Access Model.Spin Model.Evolve.
Local Open Scope Z_scope.

Section Gradient.
Context (ex : Qc -> Qc) (top : Z) (axs : list axis).
Definition of_int (z : Z) : Qc := Q2Qc (inject_Z z).

(* graingrowth.cpp:265: T = 673.0 + 50.0 / (g1(mcGrid, 0) - g0(mcGrid, 0)) * (x[0] - g0(mcGrid, 0)) *)
Definition temperature (x : list Z) : Qc :=
  match axs, x with
  | a :: _, c :: _ => (of_int 673 + of_int 50 / of_int (a_g1 a - a_g0 a) * of_int (c - a_g0 a))%Qc
  | _, _ => 0%Qc
  end.
(* graingrowth.cpp:263-266: Q = 1.0e5, R = 8.314; exp(-Q / R / T) / exp(-Q / R / 723.0) *)
Definition selection_probability (x : list Z) : Qc :=
  let q := of_int 100000 in let r := Q2Qc (8314 # 1000) in
  (ex (- q / r / temperature x) / ex (- q / r / of_int 723))%Qc.
(* graingrowth.cpp:268-269: double rd = double(rand()) / double(RAND_MAX); if (rd > site_selection_probability) continue; *)
Definition selected (x : list Z) (rd : Z) : bool := negb (qgt (of_int rd / of_int top)%Qc (selection_probability x)).
(* graingrowth.cpp:63-376 *)
Definition gradient_update (hot : Z -> Z -> bool) := growth_update axs hot selected.
End Gradient.
