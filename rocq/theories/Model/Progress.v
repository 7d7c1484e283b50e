(* include/MMSP.utility.cpp:138-178: print_progress *)
From Verif Require Import Model.Base Model.MPI Model.Ghostswap.
Local Open Scope Z_scope.

(* what is printed: "No. <iterations>: <time> [", "• ", "•] <duration>" and end of line.  The times are left out *)
Inductive printed := Header (iterations : Z) | Dot | Footer.
(* iters is the static variable iterations; the result is what is printed and the new value of iters.
   None: 20*step overflows, or the remainder by zero *)
Definition print_progress (step steps iters : Z) : option (list printed * Z) :=
  if step =? 0 then Some ([Header (iters + 1)], iters + 1)
  else if step =? steps - 1 then Some ([Footer], iters)
  else
    do _ <- guard (20 * step <=? int_max);
    do _ <- guard (negb (steps =? 0));
    Some (if Z.rem (20 * step) steps =? 0 then [Dot] else [], iters).
(* :149-156: for (int step=0; step<steps; step++) print_progress(step, steps); what is printed by the whole loop *)
Definition progress (steps iters : Z) : option (list printed * Z) :=
  fold_opt (fun st step => do (l, n) <- print_progress step steps (snd st); Some (fst st ++ l, n)) (zrange 0 steps) ([], iters).
