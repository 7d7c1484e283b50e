(* Monte Carlo examples, serial build: examples/statistical_mechanics/Ising/ising.cpp, .../Potts/potts.cpp and
   examples/coarsening/grain_growth/isotropic/Monte_Carlo/graingrowth.cpp.
   rnd k is the k-th result of rand().  hot r dE stands for double(r)/RAND_MAX < exp(-dE/kT), which is not modelled.
   All energies are multiples of 1/2, exact in double, and are modelled by integers.  ghostswap and print_progress do not
   change the grid of a serial program and are left out. *)
From Verif Require Import Model.Base Model.Boundary Model.Layout Model.Access.
Local Open Scope Z_scope.

(* x[0] += i; x[1] += j; ... *)
Fixpoint vadd (x o : list Z) : list Z := match x, o with c :: x', d :: o' => (c + d) :: vadd x' o' | _, _ => x end.
(* the nested loops for (int i=-1; i<2; i++) for (int j=-1; j<2; j++) ... over d axes, the first one outermost *)
Fixpoint offsets (d : nat) : list (list Z) :=
  match d with O => [[]] | S d' => flat_map (fun i => map (cons i) (offsets d')) [-1; 0; 1] end.
(* !(i==0 && j==0 && k==0) *)
Definition nonzero (o : list Z) : bool := existsb (fun i => negb (i =? 0)) o.
(* int(a != b) *)
Definition differ (a b : Z) : Z := if a =? b then 0 else 1.

Section Attempts.
Context (axs : list axis) (hot : Z -> Z -> bool) (rnd : nat -> Z).

(* for every offset: spin = GRID(x + offset); sum += (spin!=spin2)-(spin!=spin1); *)
Definition change (offs : list (list Z)) (data : list Z) (x : list Z) (spin1 spin2 start : Z) : option Z :=
  fold_opt (fun sum o => do spin <- grid_read false axs data (vadd x o); Some (sum + (differ spin spin2 - differ spin spin1))) offs start.
(* if (dE<=0.0) ... else if (r<exp(-dE/kT)) *)
Definition accept (r dE : Z) : bool := (dE <=? 0) || hot r dE.
(* int gss = (dim==1)?nodes:int(sqrt(nodes)), the divisor of h%gss *)
Definition gss : Z := if zlen axs =? 1 then nodes axs else Z.sqrt (nodes axs).

(* ising.cpp:78-108: the loops for dim 1, 2 and 3 *)
Definition ising_offsets : list (list Z) := if (1 <=? zlen axs) && (zlen axs <=? 3) then offsets (length axs) else [].
(* ising.cpp:66-120: one pass of the h loop; J = 2.0, H = 1.0; the random numbers are used in the order site, r *)
Definition ising_attempt (st : list Z * nat) : option (list Z * nat) :=
  let (data, k) := st in
  do _ <- guard (negb (nodes axs =? 0));
  let p := Z.rem (rnd k) (nodes axs) in
  let x := position axs p in
  do spin1 <- grid_read_int false axs data p;
  let spin2 := - spin1 in
  do sum <- change ising_offsets data x spin1 spin2 (-1);
  let dE := - sum - (spin2 - spin1) in
  do data <- (if accept (rnd (S k)) dE then grid_write_int false axs data p spin2 else Some data);
  do _ <- guard (negb (gss =? 0));
  Some (data, S (S k)).
(* ising.cpp:62-122 *)
Definition ising_update (steps : Z) (st : list Z * nat) : option (list Z * nat) :=
  fold_opt (fun st _ => fold_opt (fun st _ => ising_attempt st) (zrange 0 (nodes axs)) st) (zrange 0 steps) st.

(* potts.cpp:78-109: the first of the two loops for dim == 2 moves along axis 0 only, the second is never reached; no loop for
   dim == 1 *)
Definition potts_offsets : list (list Z) :=
  if zlen axs =? 2 then map (fun i => [i; 0]) [-1; 0; 1] else if zlen axs =? 3 then offsets 3 else [].
(* potts.cpp:67-122: one pass of the h loop; Q = 20, J = 1.0; the random numbers are used in the order site, spin, r *)
Definition potts_attempt (st : list Z * nat) : option (list Z * nat) :=
  let (data, k) := st in
  do _ <- guard (negb (nodes axs =? 0));
  let p := Z.rem (rnd k) (nodes axs) in
  let x := position axs p in
  do spin1 <- grid_read_int false axs data p;
  let spin2 := Z.rem (rnd (S k)) 20 in
  do dE <- change potts_offsets data x spin1 spin2 (-1);
  do data <- (if accept (rnd (S (S k))) dE then grid_write_int false axs data p spin2 else Some data);
  do _ <- guard (negb (gss =? 0));
  Some (data, S (S (S k))).
(* potts.cpp:63-124 *)
Definition potts_update (steps : Z) (st : list Z * nat) : option (list Z * nat) :=
  fold_opt (fun st _ => fold_opt (fun st _ => potts_attempt st) (zrange 0 (nodes axs)) st) (zrange 0 steps) st.
End Attempts.

(* ---- Monte Carlo grain growth ---- *)
(* sel x rd is false when the random number rd leaves node x alone: rd > site_selection_probability.  The probability is 1.0 in
   isotropic/Monte_Carlo/graingrowth.cpp:262-265, and a function of x[0] in anisotropic/Monte_Carlo/graingrowth.cpp:263-269,
   the only other difference of the two programs (the lines cited below are those of the isotropic one) *)
Section Growth.
(* mpi: the parallel build *)
Context (mpi : bool) (axs : list axis) (hot : Z -> Z -> bool) (sel : list Z -> Z -> bool).

(* graingrowth.cpp:72-81: the number of cells of 2 x 2 (x 2) nodes along every axis; line 76 looks at x0 of axis 0 for all axes *)
Definition lattice_cells : list Z :=
  map (fun a => let len := a_x1 a - a_x0 a in
    if Z.rem (match axs with a0 :: _ => a_x0 a0 | [] => 0 end) 2 =? 0 then Z.quot len 2 + 1
    else 1 + (if Z.rem len 2 =? 0 then Z.quot len 2 else Z.quot len 2 + 1)) axs.
Definition num_lattice_cells : Z := prodZ lattice_cells.
(* graingrowth.cpp:88-93 *)
Definition first_cell_start : list Z := map (fun a => if Z.rem (a_x0 a) 2 =? 0 then a_x0 a else a_x0 a - 1) axs.
(* graingrowth.cpp:97-105 and 189-197: cell_coords_selected *)
Definition cell_coords (j : Z) : list Z :=
  match lattice_cells with
  | [_; c1] => [Z.quot j c1; Z.rem j c1]
  | [_; c1; c2] => [Z.quot (Z.quot j c2) c1; Z.rem (Z.quot j c2) c1; Z.rem j c2]
  | cs => map (fun _ => 0) cs
  end.
(* graingrowth.cpp:109-162 and 202-248: the increments of sublattice s *)
Definition sub_offset (s : Z) : list Z :=
  match axs with
  | [_; _] => [Z.quot s 2; Z.rem s 2]
  | [_; _; _] => [Z.quot s 4; Z.rem (Z.quot s 2) 2; Z.rem s 2]
  | _ => map (fun _ => 0) axs
  end.
(* graingrowth.cpp:198-248: the node of cell j in sublattice s *)
Definition site_of (s j : Z) : list Z := vadd (vadd first_cell_start (map (Z.mul 2) (cell_coords j))) (sub_offset s).
(* graingrowth.cpp:50-60: isOutsideDomain, with x[i] > x1 *)
Definition outside_loose (x : list Z) : bool := existsb (fun '(c, a) => (c <? a_x0 a) || (c >? a_x1 a)) (combine x axs).
(* graingrowth.cpp:250-256: the test in the sweep, with x[i] >= x1 *)
Definition outside (x : list Z) : bool := existsb (fun '(c, a) => (c <? a_x0 a) || (c >=? a_x1 a)) (combine x axs).
(* graingrowth.cpp:96-163: num_grids_to_flip[s] *)
Definition to_flip (s : Z) : Z := zlen (filter (fun j => negb (outside_loose (site_of s j))) (zrange 0 num_lattice_cells)).

(* graingrowth.cpp:273-309 and 321-354: the neighbours inside the global limits *)
Definition inside_global (r : list Z) : bool := forallb (fun '(c, a) => (a_g0 a <=? c) && (c <? a_g1 a)) (combine r axs).
Definition near_sites (x : list Z) : list (list Z) := filter inside_global (map (vadd x) (filter nonzero (offsets (length axs)))).
(* graingrowth.cpp:262-363: an attempt to change the spin of node x with the random numbers rd, rn, r: the new spin, and the
   number of random numbers used.  The model reads the spin also when the node is not selected.  dE is twice the dE of the
   code *)
Definition visit (data : list Z) (x : list Z) (rd rn r : Z) : option (Z * nat) :=
  do spin1 <- grid_read mpi axs data x;
  if negb (sel x rd) then Some (spin1, 1%nat) else
  do neighbors <- map_opt (grid_read mpi axs data) (near_sites x);
  if zlen (filter (Z.eqb spin1) neighbors) =? zlen neighbors then Some (spin1, 1%nat)
  else
    do spin2 <- get neighbors (Z.rem rn (zlen neighbors));
    if spin1 =? spin2 then Some (spin1, 2%nat)
    else
      do spins <- map_opt (grid_read mpi axs data) (near_sites x);
      let dE := fold_left (fun dE spin => dE + (differ spin spin2 - differ spin spin1)) spins 0 in
      Some (if accept hot r dE then spin2 else spin1, 3%nat).

(* graingrowth.cpp:187-364: one pass of the hh loop; the state is hh, the grid and the number of random numbers used.  The model
   writes the spin also when the code leaves it as it is *)
Definition pass (rnd : nat -> Z) (s : Z) (st : Z * list Z * nat) : option (Z * list Z * nat) :=
  let '(hh, data, k) := st in
  do _ <- guard (negb (num_lattice_cells =? 0));
  let x := site_of s (Z.rem (rnd k) num_lattice_cells) in
  if outside x then Some (hh - 1 + 1, data, S k)
  else
    do r <- visit data x (rnd (S k)) (rnd (S (S k))) (rnd (S (S (S k))));
    do data <- grid_write mpi axs data x (fst r);
    Some (hh + 1, data, (S k + snd r)%nat).
(* the hh loop, at most fuel passes: None means undefined behaviour, Some None that the loop is not over *)
Fixpoint sweep (fuel : nat) (rnd : nat -> Z) (s : Z) (st : Z * list Z * nat) : option (option (list Z)) :=
  let '(hh, data, k) := st in
  if hh <? to_flip s then
    match fuel with
    | O => Some None
    | S f => do st <- pass rnd s st; sweep f rnd s st
    end
  else Some (Some data).
(* graingrowth.cpp:174-176 *)
Definition num_sublattices : Z := if zlen axs =? 2 then 4 else if zlen axs =? 3 then 8 else 0.
End Growth.

(* graingrowth.cpp:171-371: srand(time(NULL)) starts a sequence for every step and sublattice; fuel bounds every sweep *)
Definition growth_update (axs : list axis) (hot : Z -> Z -> bool) (sel : list Z -> Z -> bool) (fuel : nat) (rnd : Z -> Z -> nat -> Z) (steps : Z) (data : list Z) : option (option (list Z)) :=
  fold_opt (fun st step =>
    fold_opt (fun st s => match st with None => Some None | Some data => sweep false axs hot sel fuel (rnd step s) s (0, data, 0%nat) end)
      (zrange 0 (num_sublattices axs)) st) (zrange 0 steps) (Some data).

(* the attempts of a sweep, or of the sweeps of several processes, in some order: node, and the random numbers used *)
Record attempt := mkAttempt { at_site : list Z; a_d : Z; a_n : Z; a_r : Z }.
(* graingrowth.cpp:262-363 *)
Definition attempt_at (axs : list axis) (hot : Z -> Z -> bool) (sel : list Z -> Z -> bool) (data : list Z) (a : attempt) : option (list Z) :=
  do r <- visit false axs hot sel data (at_site a) (a_d a) (a_n a) (a_r a); grid_write false axs data (at_site a) (fst r).
Definition attempts (axs : list axis) (hot : Z -> Z -> bool) (sel : list Z -> Z -> bool) (l : list attempt) (data : list Z) : option (list Z) :=
  fold_opt (attempt_at axs hot sel) l data.
