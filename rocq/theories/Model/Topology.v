(* Grain topology: class Grain of algorithms/topology/topology.hpp and topology.cpp.  Floats are modelled by rational numbers
   with exact arithmetic, id_type (unsigned short) by Z: no operation on identifiers other than comparison occurs.
   printCSV is not modelled. *)
From Coq Require Import QArith.QArith QArith.Qcanon.
From Verif Require Import Model.Base Model.Evolve Model.Stencil.

(* std::set<K> with the order lt: its elements in increasing order *)
Fixpoint oinsert {K} (lt : K -> K -> bool) (x : K) (l : list K) : list K :=
  match l with
  | [] => [x]
  | y :: r => if lt x y then x :: l else if lt y x then y :: oinsert lt x r else l
  end.
(* std::map<K,V>: the reference returned by m[x], updated with f *)
Fixpoint oupdate {K V} (lt : K -> K -> bool) (d : V) (f : V -> V) (x : K) (l : list (K * V)) : list (K * V) :=
  match l with
  | [] => [(x, f d)]
  | (y, v) :: r =>
      if lt x y then (x, f d) :: l else if lt y x then (y, v) :: oupdate lt d f x r else (y, f v) :: r
  end.
(* operator< of std::set: lexicographic *)
Fixpoint lexlt (a b : list Z) : bool :=
  match a, b with
  | _, [] => false
  | [], _ :: _ => true
  | x :: a', y :: b' => if x <? y then true else if y <? x then false else lexlt a' b'
  end.
Definition same_set (a b : list Z) : bool := if list_eq_dec Z.eq_dec a b then true else false.
Notation idset := (list Z) (only parsing).

(* topology.hpp:107-117; topo_check is never used.  Points are lists of three coordinates. *)
Record grain := mkGrain {
  me : Z; excluded : bool; face_check : bool; vert_check : bool;
  centroid : list Qc; volume : Qc;
  faces : idset; pvector : list Z; vertices : list idset; edges : list (idset * list (list Z)) }.

Definition set_checks (g : grain) f v := mkGrain (me g) (excluded g) f v (centroid g) (volume g) (faces g) (pvector g) (vertices g) (edges g).
Definition set_body (g : grain) c v := mkGrain (me g) (excluded g) (face_check g) (vert_check g) c v (faces g) (pvector g) (vertices g) (edges g).
Definition set_topo (g : grain) fs ps vs es := mkGrain (me g) (excluded g) (face_check g) (vert_check g) (centroid g) (volume g) fs ps vs es.

(* topology.cpp:8-15 *)
Definition grain_new (i : Z) : grain := mkGrain i false false false [0%Qc; 0%Qc; 0%Qc] 0%Qc [] [] [] [].
(* topology.hpp:37-39: division by a zero volume gives a value that is not a number *)
Definition get_centroid (g : grain) : option (list Qc) := do r <- recip (volume g); Some (map (fun c => c * r)%Qc (centroid g)).
(* topology.hpp:40-54; the sizes are below 2^31 *)
Definition num_edges (g : grain) : Z := zlen (edges g).
Definition num_faces (g : grain) : Z := zlen (faces g).
Definition num_verts (g : grain) : Z := zlen (vertices g).
Definition get_euler (g : grain) : Z := zlen (vertices g) + zlen (faces g) - zlen (edges g).
(* topology.hpp:58-62 *)
Definition is_plateaunic (dim : Z) (g : grain) : bool :=
  if dim =? 2 then zlen (vertices g) =? zlen (edges g)
  else zlen (edges g) =? (3 * zlen (faces g) - 6) mod 18446744073709551616.

(* topology.hpp:77-80 *)
Definition add_mass (v : Qc) (p : list Qc) (g : grain) : grain :=
  set_body g (map (fun '(c, x) => c + v * x)%Qc (combine (centroid g) p)) (volume g + v)%Qc.
(* topology.hpp:81-86 *)
Definition set_exclusion (b : bool) (g : grain) : grain :=
  mkGrain (me g) b (face_check g) (vert_check g) (centroid g) (volume g) (faces g) (pvector g) (vertices g) (edges g).
(* topology.hpp:87-89 *)
Definition update_edges (e : idset) (p : list Z) (g : grain) : grain :=
  set_topo g (faces g) (pvector g) (vertices g) (oupdate lexlt [] (fun ps => ps ++ [p]) e (edges g)).
(* topology.hpp:90-92 *)
Definition update_vertices (v : idset) (g : grain) : grain :=
  set_topo g (faces g) (pvector g) (oinsert lexlt v (vertices g)) (edges g).
(* topology.hpp:93-95 *)
Definition add_neighbor (i : Z) (g : grain) : grain :=
  set_topo g (oinsert Z.ltb i (faces g)) (pvector g) (vertices g) (edges g).

Definition has_edge (g : grain) (e : idset) : bool := existsb (fun it => same_set (fst it) e) (edges g).
Definition idset_of (l : list Z) : idset := fold_left (fun s x => oinsert Z.ltb x s) l [].

(* topology.cpp:79-112; None: the second element of a set with fewer than two elements, or the assertion *)
Definition infer_vertices (dim : Z) (g : grain) : option (grain * Z) :=
  let g := set_checks g (face_check g) true in
  if dim =? 2 then
    if num_edges g <? 2 then Some (g, -1) else Some (g, num_verts g)
  else if num_edges g <? 3 then Some (g, -1)
  else if num_faces g <? 3 then Some (g, 0)
  else
    do vs <- fold_opt (fun vs eit =>
        do a <- get (fst eit) 0;
        do b <- get (fst eit) 1;
        do _ <- guard (negb (a =? b));
        fold_opt (fun vs c =>
          if (c =? a) || (c =? b) then Some vs
          else
            let pair_a := oinsert Z.ltb c (oinsert Z.ltb a []) in
            let pair_b := oinsert Z.ltb c (oinsert Z.ltb b []) in
            if has_edge g pair_a && has_edge g pair_b
            then Some (oinsert lexlt (idset_of [a; b; c]) vs) else Some vs) (faces g) vs) (edges g) [];
    let g := set_topo g (faces g) (pvector g) vs (edges g) in
    Some (g, num_verts g).

(* topology.cpp:125-130, 176-181: ++p for every element of every edge equal to the face *)
Definition side_count (es : list (idset * list (list Z))) (f : Z) : Z :=
  fold_left (fun p eit => fold_left (fun p s => if s =? f then p + 1 else p) (fst eit) p) es 0.

(* topology.cpp:121-157: one pass of the loop over the faces, h = the faces before fitr, t = those from fitr on.  The edge that
   contains the face is erased.  Removing the first face decrements the begin iterator, which is undefined. *)
Fixpoint faces_pass (h t : list Z) (es : list (idset * list (list Z))) (clean : bool) (ans : Z) : option (list Z * list (idset * list (list Z)) * bool * Z) :=
  match t with
  | [] => Some (h, es, clean, ans)
  | f :: r =>
      if side_count es f =? 1 then
        do _ <- guard (negb (zlen h =? 0));
        faces_pass h r (filter (fun eit => negb (existsb (Z.eqb f) (fst eit))) es) false (ans + 1)
      else faces_pass (h ++ [f]) r es clean ans
  end.
(* while (face_check == false) *)
Fixpoint faces_loop (fuel : nat) (g : grain) (ans : Z) : option (grain * Z) :=
  if face_check g then Some (g, ans)
  else
    match fuel with
    | O => None
    | S fuel' =>
        do r <- faces_pass [] (faces g) (edges g) true ans;
        let '(fs, es, clean, ans) := r in
        faces_loop fuel' (set_topo (set_checks g clean (vert_check g && clean)) fs (pvector g) (vertices g) es) ans
    end.
(* topology.cpp:115-158; a pass that does not end the loop removes a face *)
Definition check_faces (dim : Z) (g : grain) : option (grain * Z) :=
  let g := set_checks g true (vert_check g) in
  if dim =? 2 then Some (g, 0) else faces_loop (S (length (faces g))) g 0.

(* topology.cpp:182-183 *)
Definition bump (pvec : list Z) (p : Z) : list Z :=
  let pvec := pvec ++ repeat 0 (Z.to_nat (p + 1 - zlen pvec)) in
  match get pvec p with Some n => set_nth (Z.to_nat p) pvec (n + 1) | None => pvec end.

(* topology.cpp:161-187: makePvector(pvector); None: the assertion, or pvec[1] beyond the end *)
Definition make_pvector (dim : Z) (g : grain) : option (grain * Z) :=
  do g <- (if face_check g then Some g else do r <- check_faces dim g; Some (fst r));
  do g <- (if vert_check g then Some g else do r <- infer_vertices dim g; Some (fst r));
  let put_p pvec := set_topo g (faces g) pvec (vertices g) (edges g) in
  if dim =? 2 then Some (put_p [0; 0; num_edges g], 3)
  else if num_edges g =? 0 then Some (put_p [0], 0)
  else
    let pvec := fold_left (fun pvec f => bump pvec (side_count (edges g) f)) (faces g) [0] in
    do n <- get pvec 1;
    do _ <- guard (n =? 0);
    Some (put_p pvec, zlen pvec).

(* topology.cpp:50-65 *)
Definition compute_topology (dim : Z) (g : grain) : option (grain * list Z) :=
  do r <- check_faces dim g; let '(g, a0) := r in
  do r <- infer_vertices dim g; let '(g, a1) := r in
  do r <- make_pvector dim g; let '(g, a2) := r in
  Some (g, [a0; a1; a2; num_faces g]).

(* topology.cpp:189-205; None also for a division by zero *)
Definition get_pbar (dim : Z) (g : grain) : option (grain * Qc) :=
  do g <- (if face_check g && vert_check g then Some g else do r <- check_faces dim g; Some (fst r));
  do g <- (if zlen (pvector g) =? 0 then do r <- make_pvector dim g; Some (fst r) else Some g);
  if dim =? 2 then Some (g, 0%Qc)
  else
    let '(count, answer, _) := fold_left (fun '(count, answer, i) n => (count + n, answer + n * i, i + 1)) (pvector g) (0, 0, 0) in
    do r <- recip (q_of count);
    Some (g, q_of answer * r)%Qc.

(* topology.cpp:23-35: the bounding box; the points are within 0..1000 *)
Definition bounding (pts : list (list Z)) (lo hi : list Z) : list Z * list Z :=
  fold_left (fun '(lo, hi) p => (map (fun '(a, b) => Z.min a b) (combine lo p), map (fun '(a, b) => Z.max a b) (combine hi p))) pts (lo, hi).
(* topology.cpp:42-43 *)
Definition fold_point (lo hi p : list Z) : list Z :=
  map (fun '(l, h, x) => if h - x <? x - l then x - h else x) (combine (combine lo hi) p).
(* topology.cpp:17-48: the coordinates beyond the dimension are not touched, which the bounds in lo, hi express; None: count is zero *)
Definition estimate_centroid (dim : Z) (g : grain) : option grain :=
  if num_edges g =? 0 then Some g
  else if (dim =? 3) && (num_faces g =? 0) then Some g
  else
    let pts := concat (map snd (edges g)) in
    let '(lo, hi) := bounding pts [1000; 1000; 1000] [0; 0; 0] in
    do r <- recip (q_of (zlen pts));
    let weight := (volume g * r)%Qc in
    Some (fold_left (fun g p =>
      let q := fold_point lo hi p in
      let q := firstn (Z.to_nat dim) q ++ skipn (Z.to_nat dim) p in
      add_mass weight (map q_of q) g) pts (set_body g [0%Qc; 0%Qc; 0%Qc] 0%Qc)).

(* calls of the public interface *)
Inductive act :=
| AMass (v : Qc) (p : list Qc)
| AExclude (b : bool)
| AEdge (e : idset) (p : list Z)
| AVertex (v : idset)
| ANeighbor (i : Z)
| ATopology (dim : Z)
| ACentroid (dim : Z).
Definition perform (g : grain) (a : act) : option grain :=
  match a with
  | AMass v p => Some (add_mass v p g)
  | AExclude b => Some (set_exclusion b g)
  | AEdge e p => Some (update_edges e p g)
  | AVertex v => Some (update_vertices v g)
  | ANeighbor i => Some (add_neighbor i g)
  | ATopology dim => do r <- compute_topology dim g; Some (fst r)
  | ACentroid dim => estimate_centroid dim g
  end.
Definition grain_after (i : Z) (h : list act) : option grain := fold_opt perform h (grain_new i).
