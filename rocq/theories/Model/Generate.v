(* The functions generate of the examples: the initial grids.  mpi says which build it is; in the MPI build axs is the part of one rank (see
   Model/Starts.v).  The number of dimensions and the sides of the grid are arguments (the programs use constants, such as 1024, 512 x 256,
   128 x 64 x 16).  rnd k is the k-th result of rand(), top is RAND_MAX.  A grid of numbers, or of vectors, is filled with whatever the
   memory held when it is made (include/MMSP.vector.cpp:136-140: data = new T[size]); cells of sparse type are empty.  Doubles are modelled
   by rational numbers with exact arithmetic.  Writing the file is not modelled here. *)
From Coq Require Import QArith.QArith QArith.Qcanon.
From Verif Require Import Model.Base Model.Num Model.Boundary Model.Layout Model.Access Model.Sparse Model.Stencil Model.Spin Model.Evolve Model.Dynamics Model.Zener.
Local Open Scope Z_scope.

Section Generate.
Context (mpi : bool) (axs : list axis) (rnd : nat -> Z) (top : Z).

(* Ising/ising.cpp:12-44: initGrid(i) = 2*(rand()%2)-1 *)
Definition ising_start (u : list Z) : option (list Z) := for_cells mpi axs (fun n _ => Some (2 * Z.rem (rnd (Z.to_nat n)) 2 - 1)) u.
(* Potts/potts.cpp:13-45: initGrid(i) = rand()%20 *)
Definition potts_start (u : list Z) : option (list Z) := for_cells mpi axs (fun n _ => Some (Z.rem (rnd (Z.to_nat n)) 20)) u.
(* grain_growth/isotropic/Monte_Carlo/graingrowth.cpp:18-48, anisotropic :19-49: rand() % 100 for dim 1, rand() % 20 otherwise *)
Definition growth_start (u : list Z) : option (list Z) :=
  for_cells mpi axs (fun n _ => Some (Z.rem (rnd (Z.to_nat n)) (if zlen axs =? 1 then 100 else 20))) u.
(* Heisenberg/heisenberg.cpp:13-60: direction a b is the vector computed from two random numbers, as in Model/Heisenberg.v.  The model
   replaces the vector of the cell, the program sets its three components *)
Definition heisenberg_start (direction : Z -> Z -> list Qc) (u : list (list Qc)) : option (list (list Qc)) :=
  for_cells mpi axs (fun n _ => Some (direction (rnd (2 * Z.to_nat n)%nat) (rnd (S (2 * Z.to_nat n))))) u.

Definition unit_random (n : Z) : Qc := (Q2Qc (inject_Z (rnd (Z.to_nat n))) / Q2Qc (inject_Z top))%Qc.
(* cahn-hilliard/explicit/cahn-hilliard.cpp:13-45, allen-cahn/allen-cahn.cpp:13-45: initGrid(i) = 1.0-2.0*double(rand())/double(RAND_MAX) *)
Definition noise_start (u : list Qc) : option (list Qc) := for_cells mpi axs (fun n _ => Some (1 - Q2Qc (2 # 1) * unit_random n)%Qc) u.
(* ostwald_ripening/isotropic/phase_field/ostwald.cpp:13-54: initGrid(n)[0] = r; initGrid(n)[1] = 1.0-r *)
Definition ostwald_start (u : list (list Qc)) : option (list (list Qc)) :=
  for_cells mpi axs (fun n c => let r := unit_random n in do c <- put c 0 r; put c 1 (1 - r)%Qc) u.

(* r = sqrt(pow(32-x[0]%64,2)+pow(32-x[1]%64,2)) for dim 2 and 3, 32-x[0]%64 for dim 1; r < 16.0 *)
Definition disc (x : list Z) : bool :=
  match x with
  | [a] => 32 - Z.rem a 64 <? 16
  | a :: b :: _ => (32 - Z.rem a 64) * (32 - Z.rem a 64) + (32 - Z.rem b 64) * (32 - Z.rem b 64) <? 16 * 16
  | [] => false
  end.
(* grain_growth/isotropic/sparsePF/graingrowth.cpp:20: r = 32-x[0] for dim 1 *)
Definition disc_sparse (x : list Z) : bool := match x with [a] => 32 - a <? 16 | _ => disc x end.
(* grain_growth/isotropic/phase_field/graingrowth.cpp:13-71 *)
Definition two_grains_start (u : list (list Qc)) : option (list (list Qc)) :=
  for_cells mpi axs (fun n c => if disc (position axs n) then do c <- put c 0 0%Qc; put c 1 1%Qc else do c <- put c 0 1%Qc; put c 1 0%Qc) u.
(* grain_growth/isotropic/sparsePF/graingrowth.cpp:13-56: set(initGrid(i),1) = 1.0 or set(initGrid(i),0) = 1.0 *)
Definition two_grains_sparse_start (u : list (sobj Qc)) : option (list (sobj Qc)) :=
  for_cells mpi axs (fun n c => sset_op num_Qc c (if disc_sparse (position axs n) then 1 else 0) (fun _ => 1%Qc)) u.

(* grain_growth/anisotropic/phase_field/graingrowth.cpp:24-31, :48-60, :78-90, and the same in sparsePF/graingrowth.cpp: the grain of a node *)
Definition brick (x : list Z) : Z :=
  match x with
  | [a] => let r := Z.rem a 128 in if r <? 32 then 3 else if r <? 64 then 2 else if r <? 96 then 1 else 0
  | [a; b] => if (Z.rem a 128 <? 32) || (Z.rem a 128 >? 96) then if Z.rem b 128 <? 64 then 2 else 3
              else if (Z.rem b 128 <? 32) || (Z.rem b 128 >? 96) then 1 else 0
  | a :: b :: _ => if (Z.rem a 64 <? 16) || (Z.rem a 64 >? 48) then if Z.rem b 64 <? 32 then 2 else 3
              else if (Z.rem b 64 <? 16) || (Z.rem b 64 >? 48) then 1 else 0
  | [] => 0
  end.
(* grain_growth/anisotropic/phase_field/graingrowth.cpp:14-92: for (int h=0; h<fields(initGrid); h++) initGrid(i)[h] = 0.0; 4 fields *)
Definition bricks_start (u : list (list Qc)) : option (list (list Qc)) :=
  for_cells mpi axs (fun n c => do c <- fold_opt (fun c h => put c h 0%Qc) (zrange 0 4) c; put c (brick (position axs n)) 1%Qc) u.
(* grain_growth/anisotropic/sparsePF/graingrowth.cpp:14-85 *)
Definition bricks_sparse_start (u : list (sobj Qc)) : option (list (sobj Qc)) :=
  for_cells mpi axs (fun n c => sset_op num_Qc c (brick (position axs n)) (fun _ => 1%Qc)) u.

(* zener.cpp of the six programs: nParticles draws of a node, and f for all nodes of the cube around it *)
Definition n_particles : Z := Z.max 50 (Z.quot (50 * 8192) (nodes axs)).
Definition stamp {T} (f : T -> option T) (u : list T) (j : Z) : option (list T) :=
  do _ <- guard (negb (nodes axs =? 0));
  let x := position axs (Z.rem (rnd (Z.to_nat j)) (nodes axs)) in
  fold_opt (fun u o => do c <- grid_read mpi axs u (vadd x o); do c <- f c; grid_write mpi axs u (vadd x o) c) (cube_offsets axs) u.
Definition stamps {T} (f : T -> option T) (u : list T) : option (list T) := fold_opt (stamp f) (zrange 0 n_particles) u.
(* zener_pinning/isotropic/Monte_Carlo/zener.cpp:13-87, anisotropic :14-88 *)
Definition zener_start (u : list Z) : option (list Z) :=
  do u <- for_cells mpi axs (fun n _ => Some (if disc (position axs n) then 2 else 1)) u;
  stamps (fun _ => Some 0) u.
(* zener_pinning/isotropic/sparsePF/zener.cpp:13-96, anisotropic :14-97 *)
Definition zener_sparse_start (u : list (sobj Qc)) : option (list (sobj Qc)) :=
  do u <- for_cells mpi axs (fun n c => sset_op num_Qc c (if disc (position axs n) then 2 else 1) (fun _ => 1%Qc)) u;
  stamps (fun c => do c <- sset_op num_Qc c 0 (fun _ => 1%Qc); do c <- sset_op num_Qc c 1 (fun _ => 0%Qc); sset_op num_Qc c 2 (fun _ => 0%Qc)) u.
(* zener_pinning/isotropic/phase_field/zener.cpp:13-102, anisotropic :14-103; 3 fields *)
Definition zener_dense_start (u : list (list Qc)) : option (list (list Qc)) :=
  do u <- for_cells mpi axs (fun n c => do c <- put c 0 0%Qc; do c <- put c 1 0%Qc; if disc (position axs n) then put c 2 1%Qc else put c 1 1%Qc) u;
  stamps (fun c => do c <- put c 0 1%Qc; do c <- put c 1 0%Qc; put c 2 0%Qc) u.

(* phase_transitions/model_A/model_A.cpp:41-72, model_B/model_B.cpp:41-72, spinodal/spinodal.cpp:41-72: initGrid(i) = 0.0 *)
Definition zero_start (u : list Qc) : option (list Qc) := for_cells mpi axs (fun _ _ => Some 0%Qc) u.
(* phase_transitions/solidification/anisotropic/solidification.cpp:21-48, two dimensions; L and the undercooling are arguments (128 and -0.5);
   int r = sqrt(...) is the integer part of the root; r <= 5 *)
Definition seed_start (L : Z) (undercooling : Qc) (u : list (list Qc)) : option (list (list Qc)) :=
  for_cells mpi axs (fun n c =>
    do c <- put c 1 undercooling;
    match position axs n with
    | [x; y] => let r := Z.sqrt ((x - Z.quot L 2) * (x - Z.quot L 2) + (y - Z.quot L 2) * (y - Z.quot L 2)) in put c 0 (if r <=? 5 then 1%Qc else 0%Qc)
    | _ => None
    end) u.
(* phase_transitions/cahn-hilliard/convex_splitting/cahn-hilliard.cpp:215-274: noise C0 + 0.25*r - 0.125 (dim 1, 3, and dim 2 with VANILLA),
   or any other values for field 0 (comp n, the cosine of dim 2); then field 1 is full_dfdc(c) - K*field_laplacian(initGrid, x, 0) *)
Definition split_noise (C0 : Qc) (n : Z) : Qc := (C0 + Q2Qc (1 # 4) * unit_random n - Q2Qc (1 # 8))%Qc.
Definition split_first (comp : Z -> Qc) (u : list (list Qc)) : option (list (list Qc)) := for_cells mpi axs (fun n c => put c 0 (comp n)) u.
Definition split_second (dxs : list Qc) (dfdc : Qc -> Qc) (K : Qc) (u : list (list Qc)) : option (list (list Qc)) :=
  fold_opt (fun u n =>
    do l <- flaplacian mpi axs dxs u (position axs n) 0;
    do c <- grid_read_int mpi axs u n;
    do v <- get c 0;
    do c <- put c 1 (dfdc v - K * l)%Qc;
    grid_write_int mpi axs u n c) (zrange 0 (nodes axs)) u.
Definition split_start (dxs : list Qc) (dfdc : Qc -> Qc) (K : Qc) (comp : Z -> Qc) (u : list (list Qc)) : option (list (list Qc)) :=
  do u <- split_first comp u; split_second dxs dfdc K u.
End Generate.
(* convex_splitting/cahn-hilliard.cpp:72-76 (VANILLA) and :111-115: full_dfdc *)
Definition full_parametric (A B C0 Ca Cb c : Qc) : Qc :=
  (- A * (c - C0) + B * ((c - C0) * (c - C0) * (c - C0)) + Ca * ((c - Ca) * (c - Ca) * (c - Ca)) + Cb * ((c - Cb) * (c - Cb) * (c - Cb)))%Qc.
Definition full_vanilla (c : Qc) : Qc := (- c + c * c * c)%Qc.
