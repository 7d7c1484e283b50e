(* utility/mmsp2topo.cpp: what the program prints on the screen about the grains found by Model/Topo.v.
   Modelled: the counters, the average volume and centre and the span of the centres.  Floats are modelled by rational numbers with
   exact arithmetic, as in Model/Topo.v.  Not modelled: the average radius (a square or cubic root of the average volume), the rounding
   of the numbers to the digits printed, the times. *)
From Coq Require Import QArith.QArith QArith.Qcanon.
From Verif Require Import Model.Base Model.Num Model.Layout Model.Sparse Model.Evolve Model.Stencil Model.Topology Model.Tessellate Model.Topo.
Local Open Scope Z_scope.

(* algorithms/topology/point.hpp:16-25: p[i]: every index other than 1 and 2 names the first coordinate *)
Definition pindex {T} (p : list T) (i : Z) : option T := get p (if i =? 1 then 1 else if i =? 2 then 2 else 0).
(* point.hpp:16-20: p[i] = v *)
Definition pset {T} (p : list T) (i : Z) (v : T) : list T := set_nth (Z.to_nat (if i =? 1 then 1 else if i =? 2 then 2 else 0)) p v.
(* point.hpp:27-32: operator+= *)
Definition padd (p q : list Qc) : list Qc := map (fun '(a, b) => a + b)%Qc (combine p q).
(* point.hpp:47-54: operator/=; None: division by zero, which gives a value that is not a number *)
Definition pdiv (p : list Qc) (n : Z) : option (list Qc) := do r <- recip (q_of n); Some (map (fun a => a * r)%Qc p).

Section Report.
(* scale: the spacings of the grid (:136, :189) *)
Context (axs : list axis) (data : list (sobj Qc)) (scale : list Qc).

(* :244-245 *)
Definition cell_volume : Qc := fold_left Qcmult scale 1%Qc.
(* :231-246: the grains, exclusions[177], BulkGrains and the sum of the volumes *)
Definition weigh_grains (m : grains) : grains * Z * Z * Qc :=
  fold_left (fun '(done, small, bulk, sum) it =>
    if excluded (snd it) then (done ++ [it], small, bulk, sum)
    else if qgt 1%Qc (volume (snd it)) then (done ++ [(fst it, set_exclusion true (snd it))], small + 1, bulk, sum)
    else (done ++ [it], small, bulk + 1, (sum + cell_volume * volume (snd it))%Qc)) m ([], 0, 0, 0%Qc).
(* :247: average_volume /= BulkGrains *)
Definition average (sum : Qc) (n : Z) : option Qc := do r <- recip (q_of n); Some (sum * r)%Qc.

(* :268, :269: int = float; outside the range of int the conversion is undefined *)
Definition to_int (q : Qc) : option Z :=
  let z := truncZ q in do _ <- guard ((- 2147483648 <=? z) && (z <=? 2147483647)); Some z.
(* :267-270: one pass of the loop over the axes; an int compared with a float is converted *)
Definition widen (center : list Qc) (box : list Z * list Z) (d : Z) : option (list Z * list Z) :=
  let (lo, hi) := box in
  do c <- pindex center d; do l <- pindex lo d; do h <- pindex hi d;
  if qgt (q_of l) c then do n <- to_int c; Some (pset lo d n, hi)
  else if qgt c (q_of h) then do n <- to_int c; Some (lo, pset hi d n)
  else Some (lo, hi).
(* :257-272: BulkGrains, the sum of the centres, min and max.  The centre of an excluded grain is computed but not used *)
Definition centres (m : grains) : option (Z * list Qc * (list Z * list Z)) :=
  let lo := [1000; 1000; if dimension axs =? 3 then 1000 else 0] in
  fold_opt (fun '(bulk, sum, box) it =>
    if excluded (snd it) then Some (bulk, sum, box)
    else
      do center <- get_centroid (snd it);
      do box <- fold_opt (widen center) (zrange 0 (dimension axs)) box;
      Some (bulk + 1, padd sum center, box)) m (0, [0%Qc; 0%Qc; 0%Qc], (lo, [0; 0; 0])).

(* :295-335: exclusions[244] and exclusions[262]; the same loop as analyse *)
Definition count_exclusions (m : grains) : option (Z * Z) :=
  fold_opt (fun '(no_faces, no_edges) it =>
    do r <- compute_topology (dimension axs) (snd it);
    let '(g, stats) := r in
    do s0 <- get stats 0;
    let no_faces := if (s0 =? -1) && negb (excluded g) then no_faces + 1 else no_faces in
    let g := if s0 =? -1 then set_exclusion true g else g in
    let no_edges := if (num_edges g =? 0) && negb (excluded g) then no_edges + 1 else no_edges in
    Some (no_faces, no_edges)) m (0, 0).

(* :360: fabs((6 - 12. / numFaces()) - getPbar<3>()) > 0.01; None: a grain without faces, for which the quotient is infinite *)
Definition breaks_smith (g : grain) : option bool :=
  do r <- recip (q_of (num_faces g));
  do b <- get_pbar 3 g;
  let x := (q_of 6 - q_of 12 * r - snd b)%Qc in
  let a := if qgt 0%Qc x then (- x)%Qc else x in
  Some (qgt a (q_of 1 / q_of 100)%Qc).
(* :346, :352-364: euler_error (counted, never printed), smith_error and plateau_error *)
Definition violations (m : grains) : option (Z * Z * Z) :=
  fold_opt (fun '(euler, smith, plateau) it =>
    let g := snd it in
    if excluded g then Some (euler, smith, plateau)
    else
      let plateau := if is_plateaunic (dimension axs) g then plateau else plateau + 1 in
      if dimension axs =? 2 then Some (if get_euler g =? 1 then euler else euler + 1, smith, plateau)
      else
        do b <- breaks_smith g;
        Some (if get_euler g =? 2 then euler else euler + 1, if b then smith + 1 else smith, plateau)) m (0, 0, 0).

(* what is printed at :273-275 and :380-388; exclusions[138] and exclusions[202] are set to 0 at :109 and :111 and never changed *)
Record report := mkReport {
  r_bulk : Z; r_surface : Z; r_volume : option Qc; r_centre : option (list Qc); r_min : list Z; r_max : list Z;
  r_smith : Z; r_smith_of : Z; r_plateau : Z; r_plateau_of : Z;
  r_boundary : Z; r_zero_volume : Z; r_zone : Z; r_zero_faces : Z; r_zero_edges : Z }.
(* :229-388; the table is written before the last lines are printed *)
Definition screen : option report :=
  do r <- scan axs data;
  let '(m, small, n, sum) := weigh_grains (fst r) in
  do c <- centres m;
  let '(bulk, total, (lo, hi)) := c in
  do e <- count_exclusions m;
  do a <- analyse axs m;
  let '(m', maxp, maxN) := a in
  do _ <- table axs m' maxp maxN;
  do v <- violations m';
  let '(_, smith, plateau) := v in
  Some (mkReport bulk (zlen m - bulk) (average sum n) (pdiv total bulk) lo hi smith bulk plateau (zlen m) 0 small 0 (fst e) (snd e)).
End Report.
