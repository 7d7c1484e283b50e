From Coq Require Import QArith Qcanon.
From Verif Require Import Model.Base Model.Boundary Model.Layout Model.Access Model.Setup Model.Num Model.Sparse Model.Codec Model.MPI Model.Ghostswap Model.Tessellate Model.Digits.
Local Open Scope Z_scope.

(* algorithms/generators.cpp: seed exchange, seed files, honeycombs. *)

(* :410-448: seedswap(seeds) on rank [id], MPI build; seeds[id] = [local], the other lists are empty (:460-461, :478; :524-525, :542; :556-557, :566).
   The lists are filled by seeds_from_buffer, :60-72, which appends, so that seeds[id] gets its own seeds again.
   [k] continues with seeds[0..np-1]; seeds[np] stays empty.  Simplification: messages on standard output are left out. *)
Definition gen_seedswap {A} (id : Z) (local : list seed) (k : list (list seed) -> proc A) : proc A :=
  lift (seeds_to_buffer local) (fun send =>
  lift (guard (zlen send <=? int_max)) (fun _ =>
  barrier (
  Coll 3 (pd_enc pod_int (zlen send)) (fun ms =>
  let sizes := map (pd_dec pod_int) ms in
  lift (guard (sumZ sizes <=? int_max)) (fun _ =>
  barrier (
  Coll 4 (arr_enc pod_int send) (fun bs =>
  lift (guard (if list_eq_dec Z.eq_dec (map zlen bs) (map (Z.mul 4) sizes) then true else false)) (fun _ =>
  let block := concat (map (fun b => arr_dec pod_int (Z.to_nat (zlen b / 4)) b) bs) in
  lift (map_opt (fun i => do n <- get sizes i; do got <- seeds_from_buffer block (sumZ (firstn (Z.to_nat i) sizes)) n;
                          Some ((if i =? id then local else []) ++ got)) (zrange 0 (zlen sizes))) (fun seeds =>
  barrier (
  Coll 5 (pd_enc pod_int 1) (fun _ => k seeds))))))))))).

Section Tessellate.
Context {T : Type} (N : num T) (one : T).
(* :576-601: tessellate(grid, nseeds), MPI build, after the seeds [local] have been drawn (:468-476, where g0[d] + randInt(g1[d]-g0[d]-1) is
   what seeds_from_prng of Model/Tessellate computes).  exact_voronoi is that of tessellate.hpp. *)
Definition gen_tessellate (id : Z) (axs : list axis) (local : list seed) (data : list (sobj T)) : proc (list (list seed) * list (sobj T)) :=
  gen_seedswap id local (fun seeds => lift (exact_voronoi N one true axs (seeds ++ [[]]) data) (fun data => barrier (Ret (seeds, data)))).
End Tessellate.

(* :494: double(c-g0)/(g1-g0) written with six digits after the point ("%.6f"), as the number the text stands for.  Doubles are rationals. *)
Definition fixed6 (q : Qc) : Qc := decimal (Digits.nearest (q * decimal 1 6)) (-6).
Definition Zq (z : Z) : Qc := Q2Qc (inject_Z z).
Definition written (g : gaxis) (c : Z) : Qc := fixed6 (Zq (c - gx_0 g) / Zq (glen g)).
(* :481-502: seeds_to_file: the numbers of the file after the dimension, each followed by a tab, each line by a newline *)
Definition gen_seeds_to_file (gs : list gaxis) (seeds : list (list seed)) : option (list Qc) :=
  do rows <- map_opt (fun s => map_opt (fun k => do g <- get gs k; do c <- get s k; Some (written g c)) (zrange 0 (zlen gs))) (concat seeds);
  Some (concat rows).

(* a stream of numbers: those still to be read, whether good() holds, and the last number read (None: s is not initialised).
   A number that ends the file sets eofbit; when white space follows it ([trail]), good() still holds.  An extraction that finds no number fails
   and leaves s as it was. *)
Record numbers := mkNums { left_ : list Qc; good_ : bool; last_ : option Qc }.
Definition next_number (trail : bool) (st : numbers) : numbers :=
  if good_ st then
    match left_ st with
    | q :: t => mkNums t (match t with [] => trail | _ => true end) (Some q)
    | [] => mkNums [] false (last_ st)
    end
  else st.
(* :530-538: one seed; None = Abort, or s used before it is initialised.  g0[d]+(g1[d]-g0[d]-1)*s is a double, truncated. *)
Definition read_coord (g : gaxis) (s : Qc) : Z := truncZ (Zq (gx_0 g) + Zq (glen g - 1) * s)%Qc.
Fixpoint read_seed (trail : bool) (gs : list gaxis) (st : numbers) : option (list Z * numbers) :=
  match gs with
  | [] => Some ([], st)
  | g :: gs' =>
      let st := next_number trail st in
      do s <- last_ st;
      do _ <- guard (if Qclt_le_dec (Q2Qc (10001 # 10000)) s then false else true);
      do r <- read_seed trail gs' st;
      Some (read_coord g s :: fst r, snd r)
  end.
(* :529-543: while(input.good()); at most [fuel] turns *)
Fixpoint read_seeds (fuel : nat) (trail : bool) (axs : list axis) (st : numbers) : option (list seed) :=
  match fuel with
  | O => None
  | S f =>
      if good_ st then
        do r <- read_seed trail (map (fun a => mkG (a_g0 a) (a_g1 a)) axs) st;
        let s := fst r ++ repeat 0 (3 - length axs) in
        do b <- is_local axs s;
        do t <- read_seeds f trail axs (snd r);
        Some (if b then s :: t else t)
      else Some []
  end.
(* :504-545: seeds_from_file up to seedswap: seeds[id].  The dimension has been read (:519) and is that of the grid; it is followed by a
   newline, so good() holds at first. *)
Definition gen_seeds_from_file (trail : bool) (axs : list axis) (file : list Qc) : option (list seed) :=
  read_seeds (S (S (length file))) trail axs (mkNums file true None).

(* start, start+a, ... below stop, a > 0 *)
Definition stride (start stop a : Z) : list Z := map (fun i => start + i * a) (zrange 0 (Z.quot (stop - start + a - 1) a)).
(* :547-574: honeycomb_seeds on the block x0..x1, up to seedswap: seeds[id].  None: division by zero for a/2 = 0.  Simplification: a negative a,
   for which the loops run down, is None as well. *)
Fixpoint comb_rows (a fx : Z) (x1 : Z) (offset : bool) (ys : list Z) : list seed :=
  match ys with
  | [] => []
  | y :: t => map (fun x => [x; y; 0]) (stride (fx + Z.quot ((if offset then 1 else 0) * a) 2) x1 a) ++ comb_rows a fx x1 (negb offset) t
  end.
Definition honeycomb (x0 x1 y0 y1 a : Z) : option (list seed) :=
  do _ <- guard (2 <=? a);
  let offset := 0 <? Z.rem (x0 + a) (Z.quot a 2) in
  Some (comb_rows a (Z.rem (x0 + a) a) x1 offset (stride (Z.rem (y0 + a) a) y1 a)).
