(* The multigrid Poisson solver, examples/differential_equations/elliptic/Poisson/poisson.cpp and multigrid.hpp.  Serial build.
   Doubles are modelled by rational numbers with exact arithmetic; a division by zero is undefined here.  smooth, defect, coarsen and refine
   have one overload for each dimension; where these differ only in the number of axes they are modelled once.
   Not modelled: generate, the method "injection" of coarsen, which is never used. *)
From Coq Require Import QArith.QArith QArith.Qcanon.
From Verif Require Import Model.Base Model.Layout Model.Access Model.Stencil Model.Evolve.
Local Open Scope Z_scope.

(* for (int x=lo; x<hi; x+=step): the values of x; None: the loop does not end.  Overflow of x+step is not modelled. *)
Definition loop (lo step hi : Z) : option (list Z) :=
  if lo <? hi then
    do _ <- guard (0 <? step);
    Some (map (fun k => lo + k * step) (zrange 0 ((hi - lo + step - 1) / step)))
  else Some [].
(* nested loops, the first outermost *)
Fixpoint nest (rs : list (list Z)) : list (list Z) :=
  match rs with [] => [[]] | r :: rs => flat_map (fun x => map (cons x) (nest rs)) r end.

Definition int_max : Z := 2 ^ 31 - 1.
Definition num (a b : Z) : Qc := (q_of a / q_of b)%Qc.

Section Poisson.
(* junk: what a new array contains *)
Context (axs : list axis) (dx : list Qc) (junk : list Qc).
(* u[x][y]... *)
Definition rd (u : list Qc) (x : list Z) : option Qc := grid_read_chain false axs u x.
Definition wr (u : list Qc) (x : list Z) (v : Qc) : option (list Qc) := do p <- addr_chain false axs 0 0 x; put u p v.
(* u[x+k][y], u[x][y+k], ... *)
Definition rd_at (u : list Qc) (x : list Z) (i k : Z) : option Qc := do c <- get x i; do y <- put x i (c + k); rd u y.
(* for all x in xs: u[x] = e(u,x) *)
Definition assign (xs : list (list Z)) (e : list Qc -> list Z -> option Qc) (u : list Qc) : option (list Qc) :=
  fold_opt (fun u x => do v <- e u x; wr u x v) xs u.
(* the loops over the inner nodes of the grid with stride s *)
Definition inner (s : Z) : option (list (list Z)) := do rs <- map_opt (fun a => loop s s (a_x1 a - 1)) axs; Some (nest rs).

(* poisson.cpp:14-103: dx2, dy2, ... *)
Definition squares (s : Z) : list Qc := map (fun h => (q_of s * h) * (q_of s * h))%Qc dx.
(* w and wx, wy, ... *)
Definition weights (s : Z) : option (Qc * list Qc) :=
  do rs <- map_opt recip (squares s);
  do w <- recip (fold_left (fun a r => a + c2 * r)%Qc rs 0%Qc);
  Some (w, map (fun r => w * r)%Qc rs).
(* -w*f[x]+wx*(u[x-s]+u[x+s])+... *)
Definition relaxed (s : Z) (f : list Qc) (wt : Qc * list Qc) (u : list Qc) (x : list Z) : option Qc :=
  do fx <- rd f x;
  fold_opt (fun acc i =>
    do wi <- get (snd wt) i;
    do l <- rd_at u x i (- s);
    do r <- rd_at u x i s;
    Some (acc + wi * (l + r))%Qc) (zrange 0 (zlen axs)) (- fst wt * fx)%Qc.
(* the two colours: (x+y)%2==0, then ==1 in one and two dimensions, !=0 in three *)
Definition first_colour (x : list Z) : bool := Z.rem (sumZ x) 2 =? 0.
Definition second_colour (x : list Z) : bool :=
  if (length axs <? 3)%nat then Z.rem (sumZ x) 2 =? 1 else negb (Z.rem (sumZ x) 2 =? 0).
Definition relax_sweep (s : Z) (f : list Qc) (wt : Qc * list Qc) (xs : list (list Z)) (u : list Qc) : option (list Qc) :=
  do u <- assign (filter first_colour xs) (relaxed s f wt) u;
  assign (filter second_colour xs) (relaxed s f wt) u.
Definition smooth (s : Z) (iterations : Z) (u f : list Qc) : option (list Qc) :=
  do wt <- weights s;
  fold_opt (fun u _ => do xs <- inner s; relax_sweep s f wt xs u) (zrange 0 iterations) u.

(* poisson.cpp:105-194 *)
Definition defect_at (s : Z) (u f : list Qc) (rs : list Qc) (x : list Z) : option Qc :=
  do fx <- rd f x;
  fold_opt (fun acc i =>
    do wi <- get rs i;
    do l <- rd_at u x i (- s);
    do c <- rd u x;
    do r <- rd_at u x i s;
    Some (acc - wi * (l - c2 * c + r))%Qc) (zrange 0 (zlen axs)) fx.
(* the nodes on the sides that are set to zero *)
Definition sides (s : Z) : option (list (list Z)) :=
  do rs <- map_opt (fun a => loop s s (a_x1 a - 1)) axs;
  match axs, rs with
  | [ax], [rx] => Some (flat_map (fun _ => [[0]; [a_x1 ax - 1]]) rx)
  | [ax; ay], [rx; ry] => Some (flat_map (fun x => [[x; 0]; [x; a_x1 ay - 1]]) rx ++ flat_map (fun y => [[0; y]; [a_x1 ax - 1; y]]) ry)
  | [ax; ay; az], [rx; ry; rz] =>
      Some (flat_map (fun x => flat_map (fun y => [[x; y; 0]; [x; y; a_x1 az - 1]]) ry) rx ++
            flat_map (fun y => flat_map (fun z => [[0; y; z]; [a_x1 ax - 1; y; z]]) rz) ry ++
            flat_map (fun z => flat_map (fun x => [[x; 0; z]; [x; a_x1 ay - 1; z]]) rx) rz)
  | _, _ => Some []
  end.
Definition defect (s : Z) (u f d : list Qc) : option (list Qc) :=
  do rs <- map_opt recip (squares s);
  do xs <- inner s;
  do d <- assign xs (fun _ x => defect_at s u f rs x) d;
  do ys <- sides s;
  assign ys (fun _ _ => Some 0%Qc) d.

(* a sum of c*(u[x+s*o1]+u[x+s*o2]+...) *)
Definition rd_off (s : Z) (u : list Qc) (x o : list Z) : option Qc := rd u (map (fun p => fst p + s * snd p) (combine x o)).
Definition combination (s : Z) (l : list (Qc * list (list Z))) (u : list Qc) (x : list Z) : option Qc :=
  fold_opt (fun acc g => do vs <- map_opt (rd_off s u x) (snd g); Some (acc + fst g * fold_left Qcplus vs 0)%Qc) l 0%Qc.
(* multigrid.hpp:12-54, full weighting *)
Definition full2 : list (Qc * list (list Z)) :=
  [(num 1 4, [[0; 0]]); (num 1 8, [[1; 0]; [-1; 0]; [0; 1]; [0; -1]]); (num 1 16, [[1; 1]; [-1; 1]; [1; -1]; [-1; -1]])].
Definition full3 : list (Qc * list (list Z)) :=
  [(num 1 8, [[0; 0; 0]]);
   (num 1 16, [[1; 0; 0]; [-1; 0; 0]; [0; 1; 0]; [0; -1; 0]; [0; 0; 1]; [0; 0; -1]]);
   (num 1 32, [[1; 1; 0]; [-1; 1; 0]; [0; 1; 1]; [0; -1; 1]; [1; 0; 1]; [1; 0; -1]]);
   (num 1 32, [[1; -1; 0]; [-1; -1; 0]; [0; 1; -1]; [0; -1; -1]; [-1; 0; 1]; [-1; 0; -1]]);
   (num 1 64, [[1; 1; 1]; [1; 1; -1]; [1; -1; 1]; [-1; 1; 1]]);
   (num 1 64, [[1; -1; -1]; [-1; 1; -1]; [-1; -1; 1]; [-1; -1; -1]])].
Definition coarsen (s : Z) (u : list Qc) : option (list Qc) :=
  match axs with
  | [_; _] => do rs <- map_opt (fun a => loop (2 * s) (2 * s) (a_x1 a - 1)) axs; assign (nest rs) (combination s full2) u
  | [_; _; _] => do rs <- map_opt (fun a => loop (2 * s) (2 * s) (a_x1 a - 1)) axs; assign (nest rs) (combination s full3) u
  | _ => Some u
  end.

(* multigrid.hpp:56-154: along axis i *)
Definition midpoint (s i : Z) (u : list Qc) (x : list Z) : option Qc :=
  do r <- rd_at u x i s;
  do l <- rd_at u x i (- s);
  Some (num 1 2 * (r + l))%Qc.
Definition cubic (s i : Z) (u : list Qc) (x : list Z) : option Qc :=
  do c <- get x i;
  do a <- get axs i;
  let at_ k := rd_at u x i (k * s) in
  if c =? s then
    do p <- at_ (-1); do q <- at_ 3; do r <- at_ 1; do t <- at_ 5;
    Some (num 5 16 * (p - q) + num 15 16 * r + num 1 16 * t)%Qc
  else if c =? a_x1 a - 1 - s then
    do t <- at_ (-5); do r <- at_ (-1); do p <- at_ 1; do q <- at_ (-3);
    Some (num 1 16 * t + num 15 16 * r + num 5 16 * (p - q))%Qc
  else
    do p <- at_ (-1); do r <- at_ 1; do q <- at_ (-3); do t <- at_ 3;
    Some (num 9 16 * (p + r) - num 1 16 * (q + t))%Qc.
(* the loops of the pass along axis i: stride s along the axes before, odd multiples along i, stride 2s along the axes after *)
Definition between (s i : Z) : option (list (list Z)) :=
  do rs <- map_opt (fun j =>
      do a <- get axs j;
      let hi := a_x1 a - 1 in
      if j <? i then loop s s hi else if j =? i then loop s (2 * s) hi else loop (2 * s) (2 * s) hi) (zrange 0 (zlen axs));
  Some (nest rs).
Definition refine (method : Z -> Z -> list Qc -> list Z -> option Qc) (s : Z) (u : list Qc) : option (list Qc) :=
  match axs with
  | [_] => Some u
  | _ => fold_opt (fun u i => do xs <- between s i; assign xs (method s i) u) (zrange 0 (zlen axs)) u
  end.

(* v = 0;  u += v: include/MMSP.grid.cpp:340-359 *)
Definition zeros : list Qc := repeat 0%Qc (Z.to_nat (cells axs)).
Definition add (u v : list Qc) : list Qc := map (fun p => fst p + snd p)%Qc (combine u v).

(* multigrid.hpp:156-195; levels bounds the depth of the recursion: stride 2^30 is undefined, since 2*s+1 overflows *)
Fixpoint MG (levels : nat) (gamma nu1 nu2 : Z) (s : Z) (u f : list Qc) : option (list Qc) :=
  match levels with
  | O => None
  | S levels =>
      do _ <- guard (2 * s + 1 <=? int_max);
      if existsb (fun a => 2 * s + 1 =? a_x1 a) axs then smooth s 40 u f
      else
        do u <- smooth s nu1 u f;
        do d <- defect s u f junk;
        do d <- coarsen s d;
        do v <- fold_opt (fun v _ => MG levels gamma nu1 nu2 (2 * s) v d) (zrange 0 gamma) zeros;
        do v <- refine midpoint s v;
        smooth s nu2 (add u v) f
  end.
Definition mg : Z -> Z -> Z -> Z -> list Qc -> list Qc -> option (list Qc) := MG 32.

(* multigrid.hpp:197-213: for (s=s/2; s>0; s/=2); fuel: at most s rounds *)
Fixpoint finer (fuel : nat) (gamma nu1 nu2 : Z) (s : Z) (u f : list Qc) : option (list Qc) :=
  if 0 <? s then
    match fuel with
    | O => None
    | S fuel =>
        do u <- refine cubic s u;
        do u <- mg gamma nu1 nu2 s u f;
        finer fuel gamma nu1 nu2 (Z.quot s 2) u f
    end
  else Some u.
Definition coarsest : option Z :=
  match axs with
  | [] => None
  | a :: rest => Some (fold_left (fun s a => if Z.quot (a_x1 a - 1) 4 <? s then Z.quot (a_x1 a - 1) 4 else s) rest (Z.quot (a_x1 a - 1) 4))
  end.
Definition FMG (gamma nu1 nu2 : Z) (u f : list Qc) : option (list Qc) :=
  do s <- coarsest;
  do u <- smooth s 40 u f;
  finer (Z.to_nat s) gamma nu1 nu2 (Z.quot s 2) u f.

(* poisson.cpp:240-252: update; f is the grid, u a new one.  swap(multiGrid,u): the result is u *)
Definition update (f : list Qc) : option (list Qc) :=
  do u <- fold_opt (fun u n => grid_write_int false axs u n 0%Qc) (zrange 0 (nodes axs)) junk;
  FMG 1 2 2 u f.
End Poisson.
