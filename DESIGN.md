# Formal model of MMSP (mesoscale/mmsp)

## 1. What is here

* `properties.jsonl` - the English properties (C01, C02, ...).
* `rocq/theories/Model/*.v` - the executable model, function by function. Every definition
  cites the file and lines of /repo it models and says where it simplifies. No proofs.
* `rocq/theories/Spec/*.v` - small specifications that do not mention the model.
* `rocq/theories/Proof/*.v` - lemmas.
* `rocq/theories/Props/*.v` - the property theorems only, each with a short proof, each followed by
  `Print Assumptions` and by an `Example` showing that its hypotheses are met by a non-trivial case.
* `MANIFEST.json` - property -> theorem names; `seeded/LOG.jsonl` - mutation experiments.
  How to read a line of the log: `first_failures` is what Coq rejected (one entry per file, as Coq stops at the first error of a
  file); `theorems_failed` are the property theorems and examples among these; `theorems_not_rebuilt` are theorems of the named
  property that were not checked, because a lemma they use or something earlier in their file was rejected. In most lines only a
  lemma was rejected: then the edit does not pass the build, but the line does not show that every theorem listed is false of the
  edited program. In two lines, so commented, the build was cut off by a time limit. (Up to 17 November the last two lists were one,
  called `theorems_failed`.) Lines with `rebuilt_only` come from builds of the files named there and what they need. A `counterexample`
  is an instance of a theorem of the named property that Coq proved false of the edited model (and true of the model here).

## 2. Modelling conventions

* `int` is `Z`. Overflow of `int` is not modelled (stated where a property would be affected), except in the
  byte codecs where the representable range is a hypothesis.
* C++ `/` and `%` are `Z.quot` and `Z.rem`.
* A `T data[n]` array is a `list T`. Out-of-bounds access, reading indeterminate values and failed `assert`s are
  distinct outcomes: `None` of an option-valued function. "Never undefined" is then part of
  every theorem that concludes `= Some ...`.
* Cell values: abstract type `T` where the code is a template; `double` is modelled by canonical rationals (`Qc`) or by
  an abstract number type, as said in each file (rounding is out of scope).
* Functions outside the rationals (`sqrt`, `exp` in a Metropolis test, zlib, the text form of a `double`) and sources of
  input (`rand()`, the Mersenne twister, the clock) are arguments of the model, so that the theorems hold for all of them,
  under stated laws where a law is needed.
* Byte codecs: a byte is a `Z` in 0..255; a POD type is a pair of functions with a round trip law (a record passed
  to the theorem, with concrete instances for `int` and `unsigned long`, little endian).
* MPI: a small-step semantics over all ranks with FIFO channels per (source, destination, tag), non-blocking sends,
  blocking receives, and barriers. Schedules are arbitrary; determinacy is proved for the semantics once.
* zlib: a pair of functions (Section variables, so hypotheses of the theorems) with `uncompress (compress x) = x`.
* Text streams: decimal printing/parsing of integers is modelled; printing of `float` spacing is an oracle.
* Dimensions: everything is generic in the number of dimensions (coordinates are lists), except tables written out for
  2 and 3 dimensions in the code.

## 3. Plan per property

| id | modelled | method |
|----|----------|--------|
| C01-C05 | `check_boundary`, strides of `setup`, `operator[]`, `operator()`, `position` | mixed-radix lemma by induction on the dimensions |
| C06-C10 | `setup` (factors, combinations, limits, neighbours, flags) | arithmetic, induction on dimensions; optimality by a fold invariant over the enumeration |
| C11 | POD, scalar, vector, sparse buffers | codec laws, stream-position form |
| C12 | region `buffer_size/to_buffer/from_buffer` | induction on dimensions over the nested loops |
| C13 | `grid::copy` | proof for fixed-size cells, `_refuted` for growing cells |
| C14 | `grid::swap` | direct |
| C15,C16 | `ghostswap` as an MPI program | canonical schedule + determinacy; coordinate argument per axis |
| C17,C18 | `ghostswap(sublattice)` | as C15 with parity classes; refutation on odd wrap |
| C19-C25 | `output`, `write_buffer`, `input`, `read` | codec laws, block intersection argument; refutations for size coincidence and barrier mismatch |
| C26-C29 | `sparse` | refinement to functions Z -> value + NoDup invariant over operation sequences |
| C30,C31 | `vector` | list lemmas; refutations for out-of-bounds reads |
| C32 | `global` as an MPI program | canonical schedule + determinacy |
| C33,C34 | `main` | loop invariant; string lemmas |
| C35-C38 | stencils | finite sums over Z boxes of reals |
| C39 | `grainsize` | counting lemmas |
| C40,C41 | `exact_voronoi`, seed buffers, exchange | argmin fold invariant |
| C42 | `interface_field_evolves` | reals |
| C43 | `Grain` | finite maps |
| C44 | `wrongendian` | list reversal; refutations (count truncated to one byte, item padding) |
| C45,C46 | converters | list lemmas; refutation for 3-D sPF2PF |
| C47-C49 | Monte Carlo examples | invariants over arbitrary random streams; commutation; refutation of termination |
| C50,C51 | `print_progress`; PNG scaling, slicing, contours of `mmsp2png` | arithmetic; fold invariants; index lemma for the row order |
| C52 | `mmsp2z` | format model; refutation for every file of the present format |
| C53-C57 | assignment, `append`, scaling, deep copy, `copy` with aliased arguments | store model of `vector`, `sparse`, `grid`; refutations |
| C58 | the argument parser of `main` | case analysis over all argument lists |
| C59 | explicit diffusion | discrete maximum principle, exact arithmetic |
| C60 | update + ghost exchange against the serial program | simulation over steps, using C15/C16 |
| C61,C62 | seeds and serial tessellation (`approximate_voronoi`, fast marching) | list lemmas; divergence argument |
| C63,C64 | sparse phase field update; grain volumes | fold invariants |
| C65 | the whole of `MTRand` but `randNorm` and clock seeding, on lists of words with bounds checks | loop invariant over `reload`, compared with the recurrence of MT19937 stated in `Spec/Random.v` |
| C66 | centroids of grains (`addMass`, `getCentroid`, `estimateCentroid`) | invariants over histories of calls; a grain away from the boundary refutes the estimate |
| C67 | model B and spinodal (`update` with noise), Ostwald ripening | the sum of the Laplacian of any field vanishes on closed grids; induction on steps |
| C68 | Allen-Cahn, isotropic dense grain growth and Zener | each step is a convex-like combination; explicit bound on dt; induction on steps |
| C69 | anisotropic dense multiphase step: interface set, driving forces, clamp, rescaling | the clamp keeps signs, the rescaling keeps the sum; a zero sum is impossible |
| C70 | Zener programs: Monte Carlo (both), dense (both), sparse (both) | invariants over steps; three programs refuted by witnesses |
| C71 | step loops of the explicit programs with their work arrays | a run is an iterate of a function of the field alone; solidification refuted for a class |
| C72 | solidification step and `update` with the reference copy | sums over the grid, telescoped over steps and calls |
| C73 | Monte Carlo Zener attempt | local cost difference equals the change of the total energy; induction over attempts |
| C74 | choice of the grid class from the first line of a file by `mmsp2png/vti/tsv/xyz` | finite case analysis over kinds and elements on top of the round trip C19; refutations for whole classes |
| C75 | `scalar/vector/sparse_field_to_vtk` | enumeration of the box; fold invariant for the index of the maximum |
| C76,C77 | `mmsp2tsv`, `mmsp2xyz` as text | splitting lemmas; positions enumerate the box in row-major order |
| C78 | `mmsp2pvd` on a disk of byte strings: command line, blocks read one by one, images by name | first matching argument; block round trip of C20; induction over the files |
| C79 | `mmsp2topo` from the grid as read to the fields of the table | the history of calls on each grain, computed from the fields at the nodes; invariant of the map of grains over the row-major visit; C43, C64 and C66 on that history |
| C80 | `update` of `convex_splitting/cahn-hilliard.cpp`: the sweeps, the residual and the loop over steps, with the order of each parallel loop as an argument | nodes of one colour have no common neighbours; a pass equals the simultaneous update of its colour; induction over iterations and steps; concrete orders for the refutations |
| C81 | the same, and the two discretised equations as the specification | the 2x2 system solved at a node is nonsingular; invariant of the loop for the residual; summation by parts and the Cauchy-Schwarz inequality |
| C82 | the equations and the free energy of the specification | summation by parts; monotonicity of the contractive part; convexity inequality of the splitting |
| C83 | `smooth`, `defect`, `coarsen`, `refine`, `MG` of the Poisson example, strides and loops included | a run on three inputs in a linear relation keeps the relation at every level; zero in, zero out; maximum principle for uniqueness |
| C84 | `smooth` | a relaxed value minus the solution is a weighted mean of the errors of the neighbours |
| C85 | `refine` with both methods, `coarsen` | induction over the passes: before the pass along axis i all nodes on the coarse lattice along the axes from i on are exact |
| C86 | `FMG`, `update`, with arbitrary contents of new arrays | linear relation through the levels; in one dimension, sweeps forget the even nodes; undefined recursion for other extents |
| C87 | `energy`, `mobility` of anisotropy.hpp with their static tables; the computed functions are arbitrary | every stored entry is the computed value, by induction on the requests |
| C88 | the Heisenberg update; random directions, exp and random numbers are arguments | invariant over attempts; the energy change through the symmetric neighbour sum; the spurious self term gives a cycle of two accepted attempts |
| C89 | the anisotropic sparse grain-growth and Zener updates; energies, mobilities and interface coefficients are arguments | loops over pairs and triples as sums over the fields that meet; antisymmetry of the rates gives the sum; induction on steps |
| C90 | the site selection of the anisotropic Monte Carlo example; the isotropic model now takes the selection rule as an argument | the temperature is affine; monotonicity of x -> -Q/(R x) and of the argument ex; the proofs of C47-C49 for every selection rule |
| C91 | the functions generate of the examples (Model/Generate.v): the loop that fills the grid, over any content of the memory, and the particles drawn afterwards | the loop sets every node (position numbers the nodes of the box in order); stamping is idempotent, so the result depends only on the set of nodes touched; runs by the theorems about the updates |
| C92 | the text of a spacing (Model/Digits.v): six significant digits as by `%.6g`, with or without exponent, trailing zeros removed; strtod; rounding to 53 binary digits | the exponent found is the decimal one, the six digits are the nearest integer in units of the sixth, the text of digits, fraction and exponent is parsed to their value in each of the three forms; a number within 1e-8 of six digits has those digits; C19 and C20 are then applied to the rounded spacings |
| C93 | the programs 1stDiffusion and MMSPDiffusion (Model/Couple.v) with the contents of the memory as arguments | both grids become tables of a function of the node; the step keeps the ends; monotonicity and the bounds by induction; the distance from the straight line is compared with x(n-x), of which one step takes away a half |
| C94 | the program MMSPDiffusion2D (Model/Couple.v): filling, iterations, printing | the mixed differences of the sheet obey the same step with zero edges and begin as a unit at the middle; their sum of squares N_k is the value at the middle after 2k steps because the step is symmetric; N_{k+1}/N_k never falls (Cauchy-Schwarz), and is above 1.01 for k = 2 by six steps of computation for lengths 4 to 7 and for all lengths from 8 on, where the edges are not reached |
| C95 | approximate_voronoi and propagate_distance of generators.cpp (Model/Generators.v) over the queue of Model/FastMarch.v | termination: twice the sum of the distances plus the length of the queue falls; labels: a voxel outside the queue has relaxed its neighbours, so an empty queue gives shortest paths; definedness: the heap order and all back pointers but the one of the popped top are invariant, and the box without one cell is connected, so the popped voxel's neighbours never precede the top |
| C96 | seedswap and tessellate of generators.cpp, MPI build (Model/Seedswap.v), over the MPI semantics | seven collective steps as for C40; the first nearest seed of pre++a++a++post is that of pre++a++post, moved by the length of a if it lies beyond a |
| C97 | seeds_to_file and seeds_from_file (Model/Seedswap.v), the file being the list of its numbers, the stream with good() and the last number read | induction over the rows; the rounded number n obeys 2L n = 2000000 k up to L, which decides the truncation when L(L-1) < 2000000 |
| C98 | honeycomb_seeds in two dimensions (Model/Seedswap.v) | membership in the strided loops; induction over the rows with the alternating flag |
| C99 | the main loop of MMSP.main.hpp in an MPI build: read a checkpoint, then turns of update and output (Model/Jobs.v), over the MPI semantics | sequential composition of programs that end inevitably; C25 for reading, the simulation of C60 for the steps, C21 for writing; induction over turns and over jobs |
| C100 | update() of the explicit Cahn-Hilliard, model B and spinodal examples in an MPI build (Model/Stages.v) with its two loops as arguments, over the MPI semantics | each loop keeps 'every rank holds its part of the serial field'; exchange between them by C11; instance for model B by C67, and the sum over ranks by the partition of nodes (C04) |
| C101 | update() of the two Monte Carlo grain growth examples in an MPI build (Model/McRanks.v): seed broadcast, sweep of a sublattice on the ranks' own nodes, barrier, coloured exchange | every rank's sweep is a list of attempts on a global field (a rank's neighbours are those of the whole domain); attempts of one sublattice at different nodes commute, so the lists of the ranks can be put one after the other; the coloured exchange (C17) brings every ghost cell up to date; induction over the sweeps |
| C102 | update() of the Ising, Potts, Heisenberg and Zener Monte Carlo examples in an MPI build (Model/SpinRanks.v): a trial as a function of a reader of the grid, the loops over steps and nodes, ghostswap after every gss-th visit | what a rank holds is its own field and the field of the last exchange (`sees`); a visit changes only the own field; the exchange (C15) makes the own fields the common one; induction over the exchanges. The hang: each rank's program makes a fixed number of collective calls, and two ranks with different numbers are never both finished, an invariant of every step |
| C103 | update() of the explicit phase-field examples in an MPI build as a sequence of calls (Model/Program.v): ghostswap, fresh newGrid with arbitrary memory, barrier of setup(), then per step the loop over nodes, swap, ghostswap; model B, explicit Cahn-Hilliard, spinodal and Ostwald ripening with a second grid exchanged between two loops | a loop is a pass in which every node's cell is read and written once; its function gives the same result on two grids that agree at the node and its neighbours (`alike`); by C15 the grids of the ranks agree with the serial grid after the exchange; induction over steps and calls with the serial run as the guide, a relation for what newGrid holds (anything for dense cells, equality on owned nodes for sparse ones) |
| C104 | update() of the convex-splitting Cahn-Hilliard example in an MPI build (Model/SplitRanks.v): ghostswap, copy, Allreduce of the number of nodes, per step two exchanges and the solver loop with an exchange after each colour and Allreduce of residual and norm; Abort(-1) ends a rank without a grid | the in-place pass over one colour is a pass reading former values (neighbours have the other colour or are the node itself), so it is alike on ranks and in serial; sums over owned nodes of all ranks are a permutation of the serial sum; then the solver loop, steps and calls by induction along the deterministic execution; refutation on an odd ring by evaluation |
| C105 | update() of the solidification example in an MPI build (Model/SolidRanks.v): two exchanges and the barriers of the constructors per call, per step the barrier of the flux grid, the loop for the flux, its exchange, the loop for phase, temperature and reference, the exchange of the new field | a loop that writes two grids at its own node is two passes over one grid each; each pass is alike on ranks and in serial; steps and calls by induction along the deterministic execution (as C103) |
| C106 | the loop of main() with any update() between the constructor from a file and output (Model/Runs.v); the update() of nine examples | each turn is a phase of the deterministic execution that ends with grids holding the serial field (C103, C105), output and input are those of C20 and C25; induction over turns and jobs as for C99 |
| C107 | Model/Options.v: the argument loops of mmsp2png and mmsp2xyz and the naming of the output; texts are lists of bytes, atof is an arbitrary function. | Each option's text does one change of the settings; induction over the arguments from the right gives what the last word about each setting is. Undefined behaviour is traced to one argument. |
| C108 | Model/Starts.v: generate() on one of several ranks, with the loops of Model/Generate.v in their MPI form, the barrier of the constructor, the exchange of the convex-splitting start, and output. exp and the directions of Heisenberg spins are functions given as arguments. | One loop over the ranks' nodes gives the field of one loop over the whole grid; merging the ranks' random sequences through the division of the domain gives the serial sequence. The exchange is that of C03; files and campaigns are composed with C106. Stamps in an MPI build stay in the rank's storage, which gives the particles exactly. |
| C109 | Model/Tools.v: the command lines of the twelve converters, the names of their results, when they open (and empty) the output, and the disk as a function from names to contents. What a converter makes of a file is a parameter. | The files of a run are base, digits, suffix (C34); the name of a result is base, digits and one common tail that differs from the suffix, so results are distinct and never a file of the run; induction over the list of files. The refutations are general in the names. |
| C110 | Model/McRuns.v: the update() of the Monte Carlo examples as one turn of a job of Model/Runs.v. | C101 strengthened: attempts, result and bound depend on the field only, not on the ghosts that ranks hold (Proof/McRanksF.v). By induction on the turns a serial program that makes exactly those attempts is constructed; the jobs are faithful to it, and C106 gives the files. Spins and energy by transitivity. |
| C111 | Model/SerialRun.v: a job of main() in the serial build (read, turns of update and output). | The serial geometry is that of one rank without ghosts, so C20's reading lemma applies; buffers depend on the values of owned nodes only, so one rank and the serial program write the same bytes. Campaigns by induction on the runs, with C106 for the parallel ones. |
| C112 | Model/Types.v (C74) on the files of C20. | The choice of class depends on the first two lines of the file, which all ranks' files share; the rest is C111's reading lemma. |
| C113 | Model/Endian.v (C44) on the files of C20; Spec/Moved.v: the numbers in a file of several ranks. | C20's reading lemma holds for the blocks in any order, since blocks are disjoint and their number does not change; C44 gives the blocks. |
| C114 | Model/Report.v: the counters, averages and spans that mmsp2topo prints, on the grains of Model/Topo.v, with the parts of point.hpp it uses. | The folds over the map of grains are counted over C79's list of grains; the faces, edges and corners are those of C79's reading of the grid; the span of centres is a fold whose order matters. |
| C115 | Model/File.v (input) and Model/Types.v (open_grid) on a proper beginning of a file; Spec/Cut.v says cut_short. | Every reader of the format is strict (it fails without all its bytes) or, for text, soft (it fails, gives the same, or has used up the file); composed over header, blocks and processes; the block that is incomplete has nodes, so some process that reads needs it. |
| C116 | Model/Vti2pvd.v: the script utility/vti2pvd, with mmsp2vti as in Model/Tools.v; the listing of ls and the order of the jobs are arguments. | The first occurrence of dat in u.dat is the ending unless u has one; jobs write different files and read none of them, so a fold over any permutation gives the same files. The names of a run of the driver (C109) are of that kind (C116_run). |
| C117 | Model/Filters.v: the command lines of mmsp2z, wrongendian and mmsp2topo and the order in which they look at the input and open the output, around Model/Mmsp2z.v and Model/Endian.v. | Case distinction over the run; C113 for what wrongendian writes; every schedule of threads is one of Model.Endian.written. |
| C118 | Model/Text.v: the text of integers and the reading of an int, as used by input, output and the driver. | Place values against the left fold; a numeral of k digits lies between powers of ten, hence is unique; the stream splits into blanks, sign, digits and rest. |
| C119 | Model/File.v: header, write_buffer and output; Model/Codec.v: the bytes of numbers and cells. | The bytes are spelt out with divisions by powers of 256; header and blocks against the file of C113_here, which comes from the executions of output. |
| C120 | Model/Stencil.v and Model/Dynamics.v: the explicit steps of the scalar programs. | Every step against a rule stated with the values read around a node and their second differences (Spec/Euler.v); the rule determines the new field. |
| later ids | see the comment at the head of each `Props` file | |

A property that is false of the code is kept as stated and answered by a theorem `Cxx_..._refuted`, whose statement is
the negation (a witness, or better: failure for every input of a class); the part that does hold is proved beside it.

## 4. Trusted base

* The kernel of Coq 8.16.1 (including `vm_compute`, used on closed terms in examples and refutations).
* Axioms: none. `Print Assumptions` follows every property theorem and answers "Closed under the global context" for
  all of them. (`vcheck` lists constants of `Coq.ssr.ssrunder.Under_rel`; they belong to the standard library's
  ssreflect plugin, which std++ loads, and no theorem here depends on them.)
* The model: that the definitions in `Model/` say what the C++ text cited beside them says. No extraction or
  translation tool is involved; the reading is by hand.
* The specifications in `Spec/` and the statements in `Props/`.

What the statements take as hypotheses about the outside world, visible in each theorem:

* zlib: `lossless` (decompression inverts compression, output bounded as `compressBound` promises).
* Text of a spacing: `exact_text` (a printed spacing is read back). C19, C20, C44 and C52 need it; default-precision printing
  does not satisfy it for every `double`. C92 says for which it does, and what is read back otherwise.
* MPI: the semantics of `Model/MPI.v` (order-preserving channels, sends that do not block, collective barrier and
  reductions). Messages lost or corrupted, and crashes of ranks, are not modelled.
* The machine is little endian with 4-byte `int` and 8-byte `unsigned long`.
* Programs are compiled with assertions (no `NDEBUG`).

## 5. What is modelled

| file | modelled | not modelled |
|------|----------|--------------|
| `include/MMSP.utility.h/.cpp` | `check_boundary`, `target` chain, buffers, `global`, `print_progress` | `Init`/`Finalize`, timers |
| `include/MMSP.grid.h/.cpp` | `setup`, access, `swap`, `copy`, assignment, constructors that copy, `ghostswap` (both), region buffers, input, output (plain, MPI-IO, block aligned), stencil operators | iterators over names, progress output, BGQ-only branches that differ in nothing but tuning |
| `include/MMSP.scalar.h`, `MMSP.vector.*`, `MMSP.sparse.*` | containers, arithmetic, buffers | stream output, `target` specialisations other than access |
| `include/MMSP.main.hpp` | argument handling, schedule, file names | the user's `initialize`/`update` except in the examples below |
| `include/MMSP.output.cpp` | PNG pictures, the points of VTK images | the XML writer of VTK |
| `algorithms/*` | `tessellate.hpp` (Voronoi, seeds, fast marching), `priority_queue.h`, `grainsize.hpp`, `evolvers.cpp`, topology, `MersenneTwister.h`, `generators.cpp` | the parallel part of approximate_voronoi, which no function calls |
| `utility/*` | converters MC/PF/sPF/vox, `wrongendian`, `mmsp2z`, `mmsp2png`, `mmsp2vti`, `mmsp2tsv`, `mmsp2xyz`, `mmsp2pvd` (index as a list of entries), the script `vti2pvd`, `mmsp2topo` (table as a list of rows, report as numbers) | text of the numbers in the table of `mmsp2topo` |
| `examples/*` | diffusion, Allen-Cahn, explicit and convex-splitting Cahn-Hilliard, the multigrid Poisson solver, Ising, Potts, isotropic and anisotropic Monte Carlo grain growth, sparse and dense phase-field grain growth, anisotropy.hpp, Heisenberg, model A and B, spinodal, Ostwald ripening, solidification, Zener pinning, the initial grids of these programs, and three of the beginners' diffusion programs | the other examples except as listed in the model |

### Where each file is modelled

For each file of the code, the files of `rocq/theories/Model` that cite it (the lines are cited at the definitions):

* `algorithms/MersenneTwister.h`: Random
* `algorithms/distancevoxel.h`: Generators
* `algorithms/evolvers.cpp`: AnisoSparse, Evolve
* `algorithms/generators.cpp`: Generators, Seedswap
* `algorithms/grainsize.hpp`: Grainsize
* `algorithms/priority_queue.h`: FastMarch, Generators
* `algorithms/tessellate.hpp`: FastMarch, Generators, Seedswap, Tessellate
* `algorithms/topology/point.hpp`: Report
* `algorithms/topology/topology.cpp`: Topo, Topology
* `algorithms/topology/topology.hpp`: Topology
* `examples/beginners_diffusion/1stDiffusion.cpp`: Couple
* `examples/beginners_diffusion/MMSPDiffusion.cpp`: Couple, Simulate
* `examples/beginners_diffusion/MMSPDiffusion2D.cpp`: Couple, Simulate, Stencil
* `examples/coarsening/grain_growth/anisotropic/Monte_Carlo/graingrowth.cpp`: Gradient
* `examples/coarsening/grain_growth/anisotropic/phase_field/graingrowth.cpp`: Dynamics
* `examples/coarsening/grain_growth/anisotropic/sparsePF/graingrowth.cpp`: AnisoSparse
* `examples/coarsening/grain_growth/isotropic/Monte_Carlo/graingrowth.cpp`: McRanks, McRuns, Spin
* `examples/coarsening/grain_growth/isotropic/phase_field/graingrowth.cpp`: Dynamics
* `examples/coarsening/grain_growth/isotropic/sparsePF/graingrowth.cpp`: Evolve
* `examples/coarsening/ostwald_ripening/isotropic/phase_field/ostwald.cpp`: Dynamics, Program, Stages
* `examples/coarsening/zener_pinning/anisotropic/Monte_Carlo/zener.cpp`: Generate, SpinRanks, Zener
* `examples/coarsening/zener_pinning/anisotropic/phase_field/zener.cpp`: Dynamics
* `examples/coarsening/zener_pinning/anisotropic/sparsePF/zener.cpp`: AnisoSparse
* `examples/coarsening/zener_pinning/isotropic/Monte_Carlo/zener.cpp`: SpinRanks, Zener
* `examples/coarsening/zener_pinning/isotropic/phase_field/zener.cpp`: Dynamics
* `examples/coarsening/zener_pinning/isotropic/sparsePF/zener.cpp`: Generate, Zener
* `examples/differential_equations/elliptic/Poisson/multigrid.hpp`: Multigrid
* `examples/differential_equations/elliptic/Poisson/poisson.cpp`: Multigrid, Starts
* `examples/phase_transitions/allen-cahn/allen-cahn.cpp`: Jobs, Program, Simulate, Stencil
* `examples/phase_transitions/cahn-hilliard/convex_splitting/cahn-hilliard.cpp`: Split, SplitRanks
* `examples/phase_transitions/cahn-hilliard/explicit/cahn-hilliard.cpp`: Stages, Stencil
* `examples/phase_transitions/model_A/model_A.cpp`: Dynamics
* `examples/phase_transitions/model_B/model_B.cpp`: Dynamics, Stages
* `examples/phase_transitions/solidification/anisotropic/solidification.cpp`: SolidRanks
* `examples/phase_transitions/spinodal/spinodal.cpp`: Dynamics, Stages
* `examples/statistical_mechanics/Heisenberg/heisenberg.cpp`: Heisenberg, SpinRanks
* `examples/statistical_mechanics/Ising/ising.cpp`: Spin, SpinRanks
* `examples/statistical_mechanics/Potts/potts.cpp`: Spin, SpinRanks
* `anisotropy.hpp` of six examples (one text): Anisotropy
* `generate` of all examples: Generate, Starts
* `include/MMSP.grid.cpp`: Access, Colour, Convert, Digits, Evolve, File, Ghostswap, Gpfs, Gridobj, Jobs, Layout, Multigrid, Program, Region, Setup, Simulate, SolidRanks, SplitRanks, Stages, Starts, Stencil
* `include/MMSP.grid.h`: Gridobj, Layout, Types
* `include/MMSP.main.hpp`: Driver, Jobs, McRuns, Runs, SerialRun, Starts
* `include/MMSP.output.cpp`: Image, Vtk
* `include/MMSP.scalar.h`: Codec, Types
* `include/MMSP.sparse.cpp`: Codec, Grainsize, Sparse
* `include/MMSP.sparse.h`: Codec, Grainsize, Types
* `include/MMSP.utility.cpp`: Boundary, Global, Progress
* `include/MMSP.utility.h`: Access, Boundary, Codec, Layout, Num, Types
* `include/MMSP.vector.cpp`: Codec, Generate, Vector
* `include/MMSP.vector.h`: Types, Vector
* `utility/MC2PF.cpp`: Convert, Tools
* `utility/MC2sPF.cpp`: Convert
* `utility/MC2vox.cpp`: Convert, Tools
* `utility/PF2MC.cpp`: Convert
* `utility/PF2sPF.cpp`: Convert
* `utility/mmsp2png.cpp`: Image, Options, Table, Tools, Types
* `utility/mmsp2pvd.cpp`: Pvd, Types, Vtk
* `utility/mmsp2topo.cpp`: Filters, Report, Topo
* `utility/mmsp2tsv.cpp`: Table, Tools, Types
* `utility/mmsp2vti.cpp`: Tools, Types, Vtk
* `utility/mmsp2xyz.cpp`: Options, Table, Tools, Types
* `utility/mmsp2z.cpp`: Filters, Mmsp2z
* `utility/sPF2MC.cpp`: Convert
* `utility/sPF2PF.cpp`: Convert
* `utility/vox2MC.cpp`: Convert
* `utility/vti2pvd`: Vti2pvd
* `utility/wrongendian.cpp`: Endian, Filters

No file of the model belongs to the headers of the examples and of `evolvers`, `generators` and `output`, which declare names and
constants only, to `include/MMSP.hpp`, which includes the others, and to the tests (`test/*`, `algorithms/topology/point_test.cpp`).
