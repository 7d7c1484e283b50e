{"id": "C01", "title": "In-range coordinates are never altered", "statement": "Accessing a grid at a coordinate inside the local domain addresses the cell of exactly that coordinate, whatever boundary conditions are set; two different in-range coordinates never address the same cell, and every such cell lies inside the allocated storage.", "quantifier": "every dimension, every local box, ghost width, every pair of boundary conditions per axis, every in-range coordinate", "why_tests_cant": "the coordinate/box/boundary-type product is unbounded; aliasing of two cells is a for-all-pairs claim", "anchors": ["include/MMSP.utility.cpp:check_boundary", "include/MMSP.grid.cpp:grid::operator()(vector)", "include/MMSP.grid.cpp:grid::setup"]}
{"id": "C02", "title": "One-fold boundary handling", "statement": "In a serial build, a coordinate at most one domain length outside is folded according to the boundary type of the side it left: periodic -> the coordinate congruent modulo the domain length, mirror -> its reflection about the edge cell, Neumann/Dirichlet -> the edge cell; the result is in range, so the access is within storage.", "quantifier": "every axis, every domain, every coordinate within the stated distance, every boundary type except parallel", "why_tests_cant": "unbounded coordinates and domains", "anchors": ["include/MMSP.utility.cpp:check_boundary"]}
{"id": "C03", "title": "Any coordinate is safe to access", "statement": "Accessing a serial grid at any integer coordinate addresses an allocated cell (claim a user may assume from 'periodic').", "quantifier": "every coordinate", "why_tests_cant": "tests use stencil neighbours only; the failure needs a far coordinate", "anchors": ["include/MMSP.utility.cpp:check_boundary", "include/MMSP.grid.cpp:grid::operator()(vector)"]}
{"id": "C04", "title": "Parallel stencil access stays inside the block plus its ghosts", "statement": "In a parallel build every access at most `ghosts` cells outside the local block addresses an allocated cell, for every boundary type (provided the block is wide enough for a mirror fold); for periodic and parallel sides it is the ghost cell of precisely that coordinate.", "quantifier": "every rank, block, ghost width, boundary type and coordinate in the halo", "why_tests_cant": "depends on all combinations of decomposition and boundary type", "anchors": ["include/MMSP.utility.cpp:check_boundary", "include/MMSP.grid.cpp:grid::operator()(vector)"]}
{"id": "C05", "title": "All subscript forms agree and enumerate the grid", "statement": "g[x][y]..., g(vector) and g(i) with x=position(g,i) denote the same cell; i -> position(g,i) is a bijection from 0..nodes-1 onto the local domain in row-major order; g(i) never touches ghost cells.", "quantifier": "every dimension, box, ghost width, index", "why_tests_cant": "bijectivity over all sizes", "anchors": ["include/MMSP.utility.h:target::operator[]", "include/MMSP.grid.cpp:grid::operator[]", "include/MMSP.grid.cpp:grid::operator()(int)", "include/MMSP.grid.cpp:grid::position"]}
{"id": "C06", "title": "The decomposition partitions the global domain", "statement": "For any number of processes every global coordinate belongs to the local domain of exactly one rank, and no rank's domain extends outside the global one.", "quantifier": "every process count np>=1, every dimension, every global box (including more processes than cells)", "why_tests_cant": "all np and sizes; remainder handling", "anchors": ["include/MMSP.grid.cpp:grid::setup"]}
{"id": "C07", "title": "Processor grid is a valid factorisation with minimal ghost area", "statement": "The processor counts chosen per axis multiply to the number of processes, and no other factorisation of the process count has a smaller ghost area sum_j area_j*(1+p_j).", "quantifier": "every np>=1, dimension, global box", "why_tests_cant": "optimality over all factorisations of all np", "anchors": ["include/MMSP.grid.cpp:grid::setup"]}
{"id": "C08", "title": "Load balance", "statement": "Along each axis the lengths of any two ranks' blocks differ by at most one cell; a block is empty only if the axis has more processes than cells.", "quantifier": "every np, box, pair of ranks", "why_tests_cant": "all sizes", "anchors": ["include/MMSP.grid.cpp:grid::setup"]}
{"id": "C09", "title": "Neighbours are mutual and geometrically adjacent", "statement": "The upper neighbour of a rank on an axis has that rank as its lower neighbour and vice versa; the upper neighbour's block begins where this one's ends (periodically) and has identical extents on the other axes.", "quantifier": "every np, box, rank, axis", "why_tests_cant": "all np; wrap-around cases", "anchors": ["include/MMSP.grid.cpp:grid::setup"]}
{"id": "C10", "title": "Internal faces are flagged parallel, external ones keep the default", "statement": "After construction a side of the local block is flagged `parallel` exactly when it is not on the global boundary, otherwise periodic.", "quantifier": "every np, box, rank, axis", "why_tests_cant": "all np", "anchors": ["include/MMSP.grid.cpp:grid::setup"]}
{"id": "C11", "title": "Element serialisation round-trips at any stream position", "statement": "For every cell type (plain value, scalar, vector, sparse) reading back what was written yields an equal value, consumes exactly the bytes written, and both equal buffer_size; hence sequences of cells decode unambiguously.", "quantifier": "every value of every cell type, every following byte string", "why_tests_cant": "all lengths and values", "anchors": ["include/MMSP.utility.h:to_buffer", "include/MMSP.vector.cpp:to_buffer", "include/MMSP.sparse.cpp:to_buffer", "include/MMSP.scalar.h"]}
{"id": "C12", "title": "Region serialisation round-trips and touches nothing else", "statement": "Packing a rectangular region of a grid and unpacking it into an equally shaped region of another grid copies exactly those cells, cell by cell, leaves every other cell unchanged, never leaves the storage, and produces/consumes exactly buffer_size bytes.", "quantifier": "every dimension, grid, region, pair of equally shaped regions, cell type", "why_tests_cant": "all shapes; frame condition", "anchors": ["include/MMSP.grid.cpp:grid::buffer_size", "include/MMSP.grid.cpp:grid::to_buffer", "include/MMSP.grid.cpp:grid::from_buffer"]}
{"id": "C13", "title": "Deep copy of a grid", "statement": "GRID1.copy(GRID2) makes GRID1 equal to GRID2 in every property and every cell, without writing outside allocated memory.", "quantifier": "every pair of distinct grids whose cells are plain, scalar, or vectors with one element per field", "why_tests_cant": "cell sizes vary at run time for sparse data", "anchors": ["include/MMSP.grid.cpp:grid::copy"]}
{"id": "C14", "title": "swap exchanges two grids completely", "statement": "After swap(A,B) every property and every cell of A is what B had and vice versa; two swaps are the identity.", "quantifier": "every pair of grids", "why_tests_cant": "every field, every grid", "anchors": ["include/MMSP.grid.cpp:grid::swap"]}
{"id": "C15", "title": "Ghost exchange delivers the owner's values everywhere", "statement": "After ghostswap every cell of every rank's storage, including edge and corner ghosts, holds the value owned by the rank owning the periodic image of that coordinate; locally owned cells are unchanged.", "quantifier": "every process count, dimension, box, ghost width not exceeding the smallest block, every cell contents", "why_tests_cant": "all topologies; corner propagation", "anchors": ["include/MMSP.grid.cpp:grid::ghostswap"]}
{"id": "C16", "title": "Ghost exchange neither deadlocks nor races", "statement": "Under every interleaving of the ranks and every message delay ghostswap terminates on all ranks and always gives the same result.", "quantifier": "every schedule", "why_tests_cant": "schedules cannot be enumerated", "anchors": ["include/MMSP.grid.cpp:grid::ghostswap"]}
{"id": "C17", "title": "Coloured ghost exchange", "statement": "ghostswap(sublattice) refreshes every ghost cell of the named sublattice (parity class) with the owner's value and leaves all other cells unchanged.", "quantifier": "every decomposition with even axis lengths, ghost width one, 2 or 3 dimensions, every sublattice", "why_tests_cant": "all decompositions and parities", "anchors": ["include/MMSP.grid.cpp:grid::ghostswap(int)"]}
{"id": "C18", "title": "Coloured ghost exchange on odd lengths", "statement": "The same holds when a global axis length is odd.", "quantifier": "every decomposition", "why_tests_cant": "needs odd wrap", "anchors": ["include/MMSP.grid.cpp:grid::ghostswap(int)"]}
{"id": "C19", "title": "Serial checkpoint round trip", "statement": "Writing a grid to a file and constructing a grid from that file gives the same field count, bounds, spacing (if its text form is exact), boundary conditions and values.", "quantifier": "every serial grid of every cell type", "why_tests_cant": "all grids", "anchors": ["include/MMSP.grid.cpp:grid::output", "include/MMSP.grid.cpp:grid::write_buffer", "include/MMSP.grid.cpp:grid::input", "include/MMSP.grid.cpp:grid::read"]}
{"id": "C20", "title": "Checkpoints are portable across process counts", "statement": "A file written by any number of ranks and read by any other number gives every rank exactly the values of its own block, and global boundary conditions survive.", "quantifier": "every pair of process counts, every box, every contents", "why_tests_cant": "the product of decompositions", "anchors": ["include/MMSP.grid.cpp:grid::output", "include/MMSP.grid.cpp:grid::read", "include/MMSP.grid.cpp:grid::setup"]}
{"id": "C21", "title": "Parallel file writes tile the file", "statement": "In the standard parallel output path the byte ranges written by the ranks are pairwise disjoint, contiguous, and the resulting file is header, block count, then the blocks in rank order, regardless of the order in which the writes happen.", "quantifier": "every number of ranks, block sizes, write order", "why_tests_cant": "write orders", "anchors": ["include/MMSP.grid.cpp:grid::output"]}
{"id": "C22", "title": "Block-aligned parallel output writes the same file", "statement": "In the block-aligned (BGQ/GPFS) output path the aggregated writes reproduce the concatenation of the ranks' data.", "quantifier": "every number of ranks, data sizes, filesystem block size", "why_tests_cant": "all size distributions", "anchors": ["include/MMSP.grid.cpp:grid::output"]}
{"id": "C23", "title": "A compressed block is always recognised as compressed", "statement": "A block written with compression is always decompressed on reading.", "quantifier": "every data contents / compressor output length", "why_tests_cant": "requires the exact length coincidence", "anchors": ["include/MMSP.grid.cpp:grid::write_buffer", "include/MMSP.grid.cpp:grid::read"]}
{"id": "C24", "title": "Wrong files are rejected before the grid is built", "statement": "input stops with an error when the type line or dimension do not match the grid's, and accepts the legacy alias 'grid:T' for scalar grids. Of the files of all built-in types a grid reads exactly those of its own type and, if it is a grid of scalars, those of plain numbers of the same type.", "quantifier": "every header", "why_tests_cant": "all header strings", "anchors": ["include/MMSP.grid.cpp:grid::input"]}
{"id": "C25", "title": "Parallel restart does not hang", "statement": "Reading a checkpoint in parallel terminates on every rank whatever number of ranks wrote it.", "quantifier": "every pair of process counts", "why_tests_cant": "needs particular pair and real MPI", "anchors": ["include/MMSP.grid.cpp:grid::read", "include/MMSP.grid.cpp:grid::setup"]}
{"id": "C26", "title": "sparse is a finite map", "statement": "A sparse value obtained from the empty one by any sequence of operations holds at most one entry per index; set then read returns the value written, other indices are unaffected, absent indices read zero.", "quantifier": "every operation sequence, index, value", "why_tests_cant": "all histories", "anchors": ["include/MMSP.sparse.cpp:set", "include/MMSP.sparse.cpp:operator[]"]}
{"id": "C27", "title": "sparse arithmetic is pointwise", "statement": "+,-,+=,-=,*,*=, min and max on sparse values act index by index with absent entries read as zero, also when both operands are the same object.", "quantifier": "every pair of sparse values, every index", "why_tests_cant": "all values", "anchors": ["include/MMSP.sparse.cpp:operator+=", "include/MMSP.sparse.cpp:max"]}
{"id": "C28", "title": "sparse equality", "statement": "operator== holds exactly when both store the same indices with the same values, irrespective of insertion order.", "quantifier": "every pair of sparse values reachable by the API", "why_tests_cant": "all values", "anchors": ["include/MMSP.sparse.cpp:operator=="]}
{"id": "C29", "title": "grain_id selects a maximal field", "statement": "grain_id returns an index whose value is the largest stored (the earliest stored among ties) whenever some value exceeds -1.", "quantifier": "every sparse value", "why_tests_cant": "all values", "anchors": ["include/MMSP.sparse.cpp:grain_id"]}
{"id": "C30", "title": "vector container laws", "statement": "resize keeps the common prefix; fill, assignment, copy and swap between different objects make equal/exchanged contents and change no other object; == compares contents; none of these operations reads or writes outside the vector's storage.", "quantifier": "every vector, length, value", "why_tests_cant": "memory errors are silent", "anchors": ["include/MMSP.vector.cpp:resize", "include/MMSP.vector.cpp:operator=", "include/MMSP.vector.cpp:swap", "include/MMSP.vector.cpp:operator=="]}
{"id": "C31", "title": "vector arithmetic is pointwise and dot product bilinear", "statement": "+,-,+=,-=,*,*=, min and max act component by component on vectors of equal length (also when both operands are the same object); the dot product is the sum of products, symmetric and linear.", "quantifier": "every pair of vectors of equal length", "why_tests_cant": "all lengths", "anchors": ["include/MMSP.vector.h:operator+", "include/MMSP.vector.h:operator*"]}
{"id": "C32", "title": "Global reduction", "statement": "global(value,op) returns on every rank the sum, minimum or maximum of the values of all ranks, under every schedule.", "quantifier": "every number of ranks, values, schedule", "why_tests_cant": "schedules and rank counts", "anchors": ["include/MMSP.utility.cpp:global"]}
{"id": "C33", "title": "Driver output schedule", "statement": "The driver performs update in chunks of `increment` starting at the step encoded in the input file name, and writes one file per chunk, numbered by the step reached; it terminates when increment>0.", "quantifier": "every steps, increment, starting step", "why_tests_cant": "all combinations", "anchors": ["include/MMSP.main.hpp:main"]}
{"id": "C34", "title": "Output file names are ordered", "statement": "File names generated in one run all have equal length and sort lexicographically in step order, and a run restarted from one of them resumes at its step. The names are the one given with the step, filled up with zeros to the digits of the last step, put before the extension or, without one, at the end; a number that stands before the extension is replaced, any other part of the name is kept.", "quantifier": "every base name, suffix, steps, increment", "why_tests_cant": "all combinations", "anchors": ["include/MMSP.main.hpp:main"]}
{"id": "C35", "title": "Discrete Laplacian: exactness and linearity", "statement": "laplacian is the sum over the axes of second central differences: zero on a constant, zero on an affine function except next to an edge across which it has a slope, exact on quadratics, linear in the field; the versions for vectors and single fields apply it field by field.", "quantifier": "every dimension, spacing, field", "why_tests_cant": "all fields", "anchors": ["include/MMSP.grid.h:laplacian", "include/MMSP.grid.cpp:laplacian"]}
{"id": "C36", "title": "Discrete Laplacian conserves mass", "statement": "With periodic boundaries (or Neumann boundaries) the sum of laplacian over the domain is zero, so explicit diffusion steps conserve the total for any number of steps.", "quantifier": "every dimension, box, spacing, field, number of steps", "why_tests_cant": "all fields and step counts", "anchors": ["include/MMSP.grid.cpp:laplacian", "include/MMSP.utility.cpp:check_boundary", "examples/beginners_diffusion/MMSPDiffusion2D.cpp:main", "examples/phase_transitions/cahn-hilliard/explicit/cahn-hilliard.cpp:update"]}
{"id": "C37", "title": "Gradient and divergence", "statement": "gradient is the list of central first differences: exact on affine fields, and component i sums to zero over a domain periodic along axis i; divergence of a scalar grid is the sum of the gradient's components; divergence of a grid of vectors is the sum over the axes i of the derivative along i of field i.", "quantifier": "every dimension, spacing, field", "why_tests_cant": "all fields", "anchors": ["include/MMSP.grid.cpp:gradient", "include/MMSP.grid.cpp:divergence"]}
{"id": "C38", "title": "Vector divergence stays in bounds", "statement": "divergence of a vector-valued grid never indexes outside its result.", "quantifier": "every number of fields and dimension", "why_tests_cant": "needs fields>dim", "anchors": ["include/MMSP.grid.cpp:divergence"]}
{"id": "C39", "title": "Grain-size statistics account for every node", "statement": "The per-grain counts sum to the number of (non-empty) nodes, each count is the number of nodes whose dominant field is that grain, and in parallel the reported counts are global.", "quantifier": "every grid, number of ranks", "why_tests_cant": "all grids", "anchors": ["algorithms/grainsize.hpp:grainsize"]}
{"id": "C40", "title": "Exact Voronoi assigns the nearest seed", "statement": "exact_voronoi gives each node the index of a seed at minimal squared distance, taking the lowest index among ties.", "quantifier": "every seed list, grid, node", "why_tests_cant": "all seed sets", "anchors": ["algorithms/tessellate.hpp:exact_voronoi"]}
{"id": "C41", "title": "Seed exchange round-trips", "statement": "Packing a seed list into an integer buffer and unpacking yields the same list in order; after the exchange every rank holds the same lists.", "quantifier": "every seed list, number of ranks", "why_tests_cant": "all lists", "anchors": ["algorithms/tessellate.hpp:seeds_to_buffer", "algorithms/tessellate.hpp:seeds_from_buffer", "algorithms/tessellate.hpp:tessellate"]}
{"id": "C42", "title": "Sparse phase-field evolver keeps the Gibbs simplex", "statement": "After interface_field_evolves every node's fields are non-negative and sum to one when any survive; single-field nodes without neighbours of other phases are unchanged.", "quantifier": "every grid, energies, mobilities, time step", "why_tests_cant": "all fields", "anchors": ["algorithms/evolvers.cpp:interface_field_evolves"]}
{"id": "C43", "title": "Topology bookkeeping", "statement": "The p-vector entries sum to the number of faces; the Euler number equals V-E+F; consistency check of faces removes inconsistent faces.", "quantifier": "every set of edges", "why_tests_cant": "all topologies", "anchors": ["algorithms/topology/topology.cpp:makePvector", "algorithms/topology/topology.cpp:checkFaces", "algorithms/topology/topology.hpp:getEuler"]}
{"id": "C44", "title": "Endianness conversion is an involution", "statement": "Swapping a value, buffer, or block of cells twice restores it and converting a file from the other endianness yields the natively written one.", "quantifier": "every byte string of every cell type", "why_tests_cant": "all lengths", "anchors": ["utility/wrongendian.cpp:swap_endian", "utility/wrongendian.cpp:swap_buffer", "utility/wrongendian.cpp:swap_block_kernel"]}
{"id": "C45", "title": "Grid converters are faithful", "statement": "MC->PF->MC, MC->sPF->MC and sPF->PF->sPF conversions restore the data (thresholded entries aside) in every dimension.", "quantifier": "every grid with non-negative grain numbers", "why_tests_cant": "all grids", "anchors": ["utility/MC2PF.cpp", "utility/PF2MC.cpp", "utility/MC2sPF.cpp", "utility/sPF2MC.cpp", "utility/sPF2PF.cpp", "utility/PF2sPF.cpp"]}
{"id": "C46", "title": "Voxel text round trip", "statement": "MC2vox followed by vox2MC restores a grid.", "quantifier": "every 3-D integer grid", "why_tests_cant": "all grids", "anchors": ["utility/MC2vox.cpp", "utility/vox2MC.cpp"]}
{"id": "C47", "title": "Monte Carlo sweeps are well defined", "statement": "In the Ising/Potts/grain-growth examples spins remain in the allowed set after any number of steps for any random sequence; each accepted non-positive-energy flip never raises the energy.", "quantifier": "every random sequence, grid, number of steps", "why_tests_cant": "all random histories", "anchors": ["examples/statistical_mechanics/Ising/ising.cpp:update", "examples/statistical_mechanics/Potts/potts.cpp:update", "examples/coarsening/grain_growth/isotropic/Monte_Carlo/graingrowth.cpp:update"]}
{"id": "C48", "title": "Sublattice colouring makes updates independent", "statement": "Two distinct sites of the same sublattice are never within the neighbourhood of one another, so updates within one sublattice commute and any order (hence any rank interleaving) gives the same grid.", "quantifier": "every grid, update rule of radius one, order of sites", "why_tests_cant": "all orders", "anchors": ["examples/coarsening/grain_growth/isotropic/Monte_Carlo/graingrowth.cpp:update"]}
{"id": "C49", "title": "Monte Carlo grain growth terminates", "statement": "Each grain-growth sweep attempts a bounded number of sites and terminates for every domain.", "quantifier": "every domain, random sequence", "why_tests_cant": "needs degenerate domains", "anchors": ["examples/coarsening/grain_growth/isotropic/Monte_Carlo/graingrowth.cpp:update"]}
{"id": "C50", "title": "Progress bar", "statement": "For any number of steps print_progress prints one header, one footer and a number of marks independent of the number of steps beyond 20.", "quantifier": "every step count", "why_tests_cant": "all step counts", "anchors": ["include/MMSP.utility.cpp:print_progress"]}
{"id": "C51", "title": "Image scaling", "statement": "PNG intensities lie in 0..255, the minimum maps to 0 and the maximum to 255, and each pixel corresponds to one node.", "quantifier": "every grid and zoom range", "why_tests_cant": "all grids", "anchors": ["include/MMSP.output.cpp"]}
{"id": "C52", "title": "Compression utility preserves readability", "statement": "A file converted by mmsp2z can be read back to the same grid.", "quantifier": "every file", "why_tests_cant": "format drift", "anchors": ["utility/mmsp2z.cpp"]}
{"id": "C53", "title": "Self-assignment is harmless", "statement": "x = x leaves a vector or sparse value unchanged.", "quantifier": "every vector and sparse value", "why_tests_cant": "reading freed and reallocated memory often yields the old bytes, so a test passes by luck", "anchors": ["include/MMSP.vector.cpp:operator=", "include/MMSP.sparse.cpp:operator=", "include/MMSP.sparse.cpp:copy"]}
{"id": "C54", "title": "append adds at the end", "statement": "append(value) and append(vector) extend a vector by the given elements without touching memory outside its arrays.", "quantifier": "every vector, value", "why_tests_cant": "an out-of-bounds read is silent and its result is overwritten", "anchors": ["include/MMSP.vector.cpp:append"]}
{"id": "C55", "title": "Scaling by an element of the scaled value", "statement": "x *= x[i] multiplies every element by the value x[i] had before.", "quantifier": "every vector and sparse value, index", "why_tests_cant": "depends on aliasing of a reference argument", "anchors": ["include/MMSP.vector.h:operator*=", "include/MMSP.sparse.cpp:operator*="]}
{"id": "C56", "title": "Deep copy of a grid with sparse cells", "statement": "GRID1.copy(GRID2) also works for sparse cells with entries.", "quantifier": "every sparse grid with a non-empty first cell", "why_tests_cant": "the write past the buffer is silent", "anchors": ["include/MMSP.grid.cpp:grid::copy", "include/MMSP.sparse.cpp:to_buffer"]}
{"id": "C57", "title": "Direction of the free function copy", "statement": "copy(G1,G2) sets G1 from G2, as copy(x,y) does for every other type.", "quantifier": "every pair of distinct grids with plain cells", "why_tests_cant": "holds for all contents or none; a test with equal grids passes", "anchors": ["include/MMSP.grid.h:copy"]}
{"id": "C58", "title": "Malformed command lines are rejected", "statement": "Every command line is either rejected with a message or has one of the forms of the help message, and its numbers are those given; no command line leads to undefined behaviour.", "quantifier": "every list of arguments", "why_tests_cant": "the number of argument lists is infinite", "anchors": ["include/MMSP.main.hpp:main"]}
{"id": "C59", "title": "Explicit diffusion creates no new extrema", "statement": "When the diffusion factor k satisfies k * sum_i 2/dx(i)^2 <= 1, every value computed by the explicit diffusion program stays between the smallest and the largest initial value, whatever the number of iterations and the boundary conditions; the example's own factor obeys this bound.", "quantifier": "every dimension, box, spacing, boundary condition, initial field, factor within the bound, number of iterations", "why_tests_cant": "all fields and iteration counts", "anchors": ["examples/beginners_diffusion/MMSPDiffusion2D.cpp:main", "include/MMSP.grid.cpp:laplacian"]}
{"id": "C60", "title": "A simulation gives the same field for every number of processes", "statement": "A program that repeatedly computes each node from the values of its star (the node and its nearest neighbours), swaps the two grids and exchanges ghosts computes, on any number of processes and in any schedule, exactly the field the one-process program computes; it never deadlocks. The diffusion examples are such programs.", "quantifier": "every cell type, every rule, every number of steps, dimension, box, boundary conditions, ghost width, number of processes and MPI schedule", "why_tests_cant": "schedules, process counts, boxes and rules are unbounded", "anchors": ["examples/beginners_diffusion/MMSPDiffusion.cpp:main", "examples/beginners_diffusion/MMSPDiffusion2D.cpp:main", "include/MMSP.grid.cpp:ghostswap", "include/MMSP.grid.cpp:laplacian"]}
{"id": "C61", "title": "Seeds read from a file or drawn at random are all used, once, and lie in the domain", "statement": "A seed file of coordinates in [0,1) gives, for each line, the cell containing that point; in a parallel run every seed is kept by exactly one rank, so the tessellation labels each node with a seed of the file nearest to it on any number of ranks. Randomly drawn seeds lie inside the domain.", "quantifier": "every seed file, domain, number of ranks, decomposition, sequence of random numbers", "why_tests_cant": "all files, domains and process counts", "anchors": ["algorithms/tessellate.hpp:seeds_from_file", "algorithms/tessellate.hpp:seeds_from_prng", "algorithms/tessellate.hpp:tessellate"]}
{"id": "C62", "title": "Serial tessellation terminates", "statement": "In a serial build, tessellating a 2-D or 3-D grid from at least one seed returns, leaving every node labelled by a seed.", "quantifier": "every domain, seed list", "why_tests_cant": "termination on all inputs cannot be observed by running tests; a hang is only seen as a time-out", "anchors": ["algorithms/tessellate.hpp:propagate_distance", "algorithms/tessellate.hpp:approximate_voronoi", "algorithms/priority_queue.h"]}
{"id": "C63", "title": "Sparse phase-field update depends on the previous field only", "statement": "One step of the sparse grain-growth example gives every node the new values of the fields stored around it that exceed the cut-off, computed from the previous field; a field that has been removed everywhere does not come back.", "quantifier": "every field, dimension, spacing, number of steps", "why_tests_cant": "all fields; the fault shows only when a field drops below the cut-off", "anchors": ["examples/coarsening/grain_growth/isotropic/sparsePF/graingrowth.cpp:update", "include/MMSP.grid.cpp:laplacian"]}
{"id": "C64", "title": "Grain volume is conserved", "statement": "The volume of a grain equals the mass added to it; estimating its centroid and computing its topology do not change it.", "quantifier": "every history of calls of the Grain interface", "why_tests_cant": "all histories", "anchors": ["algorithms/topology/topology.cpp:estimateCentroid", "algorithms/topology/topology.hpp:addMass"]}
{"id": "C65", "title": "Random numbers are MT19937", "statement": "A generator seeded with a number delivers exactly the MT19937 sequence of that seed, however many numbers are drawn and whatever the object held before; seeded with a non-empty array it delivers the sequence of init_by_array of the reference implementation, which depends only on the low 32 bits of the elements. Every draw is a 32-bit number, randInt(n) is in [0,n] without bias, and the real-valued functions stay in their documented intervals. Saving and loading, copying, and writing and reading the state continue the sequence where it was.", "quantifier": "every seed, every non-empty seed array, every number of draws, every n below 2^32", "why_tests_cant": "the sequence is compared with its recurrence for every seed and position, not for a few published values", "anchors": ["algorithms/MersenneTwister.h:initialize", "algorithms/MersenneTwister.h:reload", "algorithms/MersenneTwister.h:seed", "algorithms/MersenneTwister.h:randInt", "algorithms/MersenneTwister.h:save", "algorithms/MersenneTwister.h:load", "algorithms/MersenneTwister.h:operator<<"]}
{"id": "C66", "title": "Grain centroids", "statement": "The centroid of a grain is the mass-weighted mean of the points given to it; the centroid estimated from its edges is the mean of the points of its edges and lies within their box.", "quantifier": "every history of calls of the Grain interface", "why_tests_cant": "all histories and all sets of points", "anchors": ["algorithms/topology/topology.hpp:addMass", "algorithms/topology/topology.hpp:getCentroid", "algorithms/topology/topology.cpp:estimateCentroid"]}
{"id": "C67", "title": "Phase separation conserves composition", "statement": "In the model B, spinodal decomposition and Ostwald ripening programs the total of the composition field is the same after any number of steps, whatever the random numbers drawn, on grids whose sides are periodic or let nothing through.", "quantifier": "every grid shape, initial field, set of constants, noise sequence and number of steps", "why_tests_cant": "all fields, noise sequences and run lengths", "anchors": ["examples/phase_transitions/model_B/model_B.cpp:update", "examples/phase_transitions/spinodal/spinodal.cpp:update", "examples/coarsening/ostwald_ripening/isotropic/phase_field/ostwald.cpp:update"]}
{"id": "C68", "title": "Order parameters stay between the wells", "statement": "Starting from values between the minima of the double well, the Allen-Cahn program never leaves that interval, and the isotropic grain-growth and Zener phase-field programs keep every phase field in [0,1], provided the time step meets an explicit bound, which the constants of the examples do.", "quantifier": "every grid, boundary condition, initial field in range, time step below the bound, number of steps", "why_tests_cant": "all initial fields and run lengths", "anchors": ["examples/phase_transitions/allen-cahn/allen-cahn.cpp:update", "examples/coarsening/grain_growth/isotropic/phase_field/graingrowth.cpp:update", "examples/coarsening/zener_pinning/isotropic/phase_field/zener.cpp:update"]}
{"id": "C69", "title": "Phase fractions stay phase fractions", "statement": "In the anisotropic dense multiphase programs the fields of every node stay non-negative with sum 1, whatever the energies, mobilities, time step and number of steps, and no step divides by zero or reads outside the grid.", "quantifier": "every grid, number of fields, initial state on the simplex, energy, mobility, time step, number of steps", "why_tests_cant": "all inputs and run lengths", "anchors": ["examples/coarsening/grain_growth/anisotropic/phase_field/graingrowth.cpp:update", "examples/coarsening/zener_pinning/anisotropic/phase_field/zener.cpp:update"]}
{"id": "C70", "title": "Pinning particles do not move", "statement": "In the Zener pinning programs the particles, field 0 or spin 0, are the same after any number of steps, and no particle appears or disappears.", "quantifier": "every grid, placement of particles, energy and mobility, sequence of random numbers, number of steps", "why_tests_cant": "all placements, random sequences and run lengths", "anchors": ["examples/coarsening/zener_pinning/isotropic/Monte_Carlo/zener.cpp:update", "examples/coarsening/zener_pinning/anisotropic/Monte_Carlo/zener.cpp:update", "examples/coarsening/zener_pinning/isotropic/phase_field/zener.cpp:update", "examples/coarsening/zener_pinning/anisotropic/phase_field/zener.cpp:update", "examples/coarsening/zener_pinning/isotropic/sparsePF/zener.cpp:update"]}
{"id": "C71", "title": "A run can be cut in two", "statement": "Running n steps, keeping only the field as a checkpoint does, and running m more steps gives the field of n+m steps in one run, whatever the work arrays hold.", "quantifier": "every field, every split of every run, every content of the work arrays", "why_tests_cant": "all splits and states", "anchors": ["examples/beginners_diffusion/MMSPDiffusion2D.cpp:main", "examples/phase_transitions/allen-cahn/allen-cahn.cpp:update", "examples/phase_transitions/cahn-hilliard/explicit/cahn-hilliard.cpp:update", "examples/phase_transitions/model_A/model_A.cpp:update", "examples/phase_transitions/model_B/model_B.cpp:update", "examples/coarsening/ostwald_ripening/isotropic/phase_field/ostwald.cpp:update", "examples/coarsening/grain_growth/isotropic/phase_field/graingrowth.cpp:update", "examples/coarsening/grain_growth/anisotropic/phase_field/graingrowth.cpp:update", "examples/phase_transitions/solidification/anisotropic/solidification.cpp:update"]}
{"id": "C72", "title": "Heat balance of solidification", "statement": "In the solidification program the rise of the total temperature equals the rise of the total solid fraction, the latent heat released.", "quantifier": "every closed grid, initial field, anisotropy, driving force, number of steps and of calls", "why_tests_cant": "all fields and run lengths", "anchors": ["examples/phase_transitions/solidification/anisotropic/solidification.cpp:update"]}
{"id": "C73", "title": "Grain boundaries with particles follow the Metropolis rule", "statement": "In the Monte Carlo Zener programs every attempt draws a node and a spin from its neighbourhood and changes the spin exactly if the test accepts the change of the total boundary energy; without thermal fluctuations the boundary energy never rises.", "quantifier": "every periodic grid in one to three dimensions, spins, symmetric energy, random sequence, number of steps", "why_tests_cant": "all states and random sequences", "anchors": ["examples/coarsening/zener_pinning/isotropic/Monte_Carlo/zener.cpp:update", "examples/coarsening/zener_pinning/anisotropic/Monte_Carlo/zener.cpp:update"]}
{"id": "C74", "title": "Converters open what the library writes", "statement": "Each of mmsp2png, mmsp2vti, mmsp2tsv and mmsp2xyz opens every grid file the library writes, recognises its kind (plain, scalar, vector, sparse) and element type, and gets the fields, limits, spacing, boundary conditions and data that were written.", "quantifier": "every kind and element type, every dimension from one to three, every grid content", "why_tests_cant": "all grids of all types", "anchors": ["utility/mmsp2png.cpp:main", "utility/mmsp2vti.cpp:main", "utility/mmsp2tsv.cpp:main", "utility/mmsp2xyz.cpp:main", "include/MMSP.grid.cpp:input"]}
{"id": "C75", "title": "VTK images show every node once", "statement": "A VTK image has the limits and the spacing of the grid and one point for each node with the value of that node: for scalars the value or magnitude, for vectors all fields, the magnitude, the index of the greatest field or one field, likewise for sparse objects.", "quantifier": "every grid of every dimension, content and option", "why_tests_cant": "all grids", "anchors": ["include/MMSP.output.cpp:scalar_field_to_vtk", "include/MMSP.output.cpp:vector_field_to_vtk", "include/MMSP.output.cpp:sparse_field_to_vtk"]}
{"id": "C76", "title": "Tables list every node once", "statement": "The file written by mmsp2tsv, cut at newlines and tabs, has one row for each node in row-major order, with the Cartesian coordinates of the node followed by its value, its fields, or its indices and values.", "quantifier": "every grid of one to three dimensions and every content", "why_tests_cant": "all grids", "anchors": ["utility/mmsp2tsv.cpp:convert_scalars", "utility/mmsp2tsv.cpp:convert_vectors", "utility/mmsp2tsv.cpp:convert_sparses"]}
{"id": "C77", "title": "Point clouds are the contours", "statement": "The file written by mmsp2xyz lists exactly the nodes whose value is within the given relative tolerance of one of the given levels, each once, with three coordinates and on request the gradient.", "quantifier": "every grid of one to three dimensions, content, tolerance and set of levels", "why_tests_cant": "all grids and contours", "anchors": ["utility/mmsp2xyz.cpp:main", "utility/mmsp2xyz.cpp:convert_scalars", "utility/mmsp2xyz.cpp:convert_vectors", "utility/mmsp2xyz.cpp:convert_sparses"]}
{"id": "C78", "title": "Time series of images list every file once, in order", "statement": "mmsp2pvd, given options, then a name for the index (or none) and then data files, writes an index with one entry per data file, in the order of the command line, with timesteps 0, 1, 2, ...; each entry names an image that shows the grid of that file, if the names without extension differ. It does not hold when the name of the index comes last, as in the usage message (the index is then empty), when two names differ only after the last dot (the second file is not drawn), when a file was written by several ranks (the image shows the last block only), for the spacing of the grid (always 1), and for long double (read as long).", "quantifier": "every option, every list of files of every supported type, dimension, size and contents, every set of files on disk", "why_tests_cant": "the number, names and contents of the files and the words of the command line are unbounded", "anchors": ["utility/mmsp2pvd.cpp:main"]}
{"id": "C79", "title": "The grain table reports the microstructure stored in the file", "statement": "mmsp2topo visits every node of the grid once and writes a table in two parts, each in increasing order of identifiers. In space the first part has one line for exactly the stored grains of volume at least 1 with enough corners, edges and faces; the line holds the identifier, the centre of mass, the sum of the grain's field over the nodes, the numbers of corners, faces and edges read off the neighbourhoods of the grain's nodes, the Euler characteristic, the number of faces with 2, 3, ... edges and the neighbours. The second part has one line for exactly the stored grains with faces of volume below 1, with the volume, the number of faces, the neighbours and a centre estimated from the nodes on the edges. Every line has one field per title, and there are as many columns as the grains need. The table is written exactly if no face of a stored grain has a single edge, no grain of the second part has volume 0 and the centres written are in the range of int. In the plane the lines have more fields than the titles, the program reads past the end of its map when a node is surrounded by two grains that come later in the file, and the table is otherwise written under the same conditions on volumes and centres. The lower end of the reported span of the phase is the least value; the upper end can be 0 whatever the values, and identifiers from 65536 on are confused with others.", "quantifier": "every plane or volume of sparse fields, every box, every assignment of values to the nodes", "why_tests_cant": "the size of the grid, the shapes of the grains and the number of fields stored at a node are unbounded, and the result depends on the order in which grains are met", "anchors": ["utility/mmsp2topo.cpp:main", "utility/mmsp2topo.cpp:check_neighbors", "algorithms/topology/topology.cpp:printCSV", "algorithms/topology/topology.cpp:computeTopology"]}
{"id": "C80", "title": "The threaded Cahn-Hilliard solver gives the same result under every schedule", "statement": "The result of the semi-implicit Cahn-Hilliard update after any number of steps, including whether it gives up, does not depend on the order in which the threads execute the iterations of its parallel loops, and no access is out of bounds, on grids without negative coordinates whose periodic axes have an even number of nodes. On grids with an odd periodic extent or with negative coordinates the result of a sweep depends on the order.", "quantifier": "every grid of that kind, every state, every number of steps, every order of the iterations in every loop, every energy with a nonnegative coefficient, every relaxation factor and tolerance", "why_tests_cant": "the number of schedules is factorial in the number of nodes, and a test sees one of them", "anchors": ["examples/phase_transitions/cahn-hilliard/convex_splitting/cahn-hilliard.cpp:update"]}
{"id": "C81", "title": "A step of the Cahn-Hilliard solver that is accepted satisfies the equations and keeps the solute", "statement": "The states that a sweep of the solver leaves as they are are exactly the solutions of the two discretised equations; a step that does not give up returns a state whose residual is within the tolerance relative to the right-hand side; the amount of solute then changes by no more than that residual allows, and not at all when the equations are solved exactly.", "quantifier": "every grid, state, first guess, schedule, time step, relaxation factor, tolerance below one and iteration limit", "why_tests_cant": "the iterates, and the step in which the loop stops, depend on all values of the grid", "anchors": ["examples/phase_transitions/cahn-hilliard/convex_splitting/cahn-hilliard.cpp:update", "examples/phase_transitions/cahn-hilliard/convex_splitting/cahn-hilliard.cpp:nonlinear_coeff", "examples/phase_transitions/cahn-hilliard/convex_splitting/cahn-hilliard.cpp:fringe_laplacian"]}
{"id": "C82", "title": "The convex splitting is uniquely solvable and never raises the free energy", "statement": "The equations of a step of the semi-implicit Cahn-Hilliard solver have at most one solution, so the converged result does not depend on the first guess, the relaxation factor or the order of the sweeps; and the discrete free energy of the solution plus the dissipation of the step is no more than the free energy before the step, for every time step.", "quantifier": "every periodic or insulated grid in any number of dimensions, every state, every spacing and every time step", "why_tests_cant": "unconditional stability is a statement about all time steps and all states", "anchors": ["examples/phase_transitions/cahn-hilliard/convex_splitting/cahn-hilliard.cpp:contractive_dfdc", "examples/phase_transitions/cahn-hilliard/convex_splitting/cahn-hilliard.cpp:expansive_dfdc", "examples/phase_transitions/cahn-hilliard/convex_splitting/cahn-hilliard.cpp:energydensity"]}
{"id": "C83", "title": "The multigrid cycle leaves solutions of the discrete Poisson equation as they are", "statement": "A grid that solves the discretised Poisson equation is returned unchanged by any number of smoothing sweeps and by a whole multigrid cycle, whatever the numbers of sweeps and of recursive cycles and whatever newly allocated arrays contain; conversely a grid that one sweep leaves unchanged is a solution, and solutions with the same boundary values are equal. A cycle never touches memory outside its grids and never changes the values on the boundary.", "quantifier": "every grid in one, two and three dimensions whose extents suit the number of levels, every spacing, every right-hand side, every content of uninitialised memory", "why_tests_cant": "the fixed points of the recursion depend on all levels and all values at once", "anchors": ["examples/differential_equations/elliptic/Poisson/multigrid.hpp:MG", "examples/differential_equations/elliptic/Poisson/poisson.cpp:smooth", "examples/differential_equations/elliptic/Poisson/poisson.cpp:defect"]}
{"id": "C84", "title": "Smoothing never increases the largest error", "statement": "If every value of a grid lies within given bounds of an exact solution of the discretised Poisson equation, so does every value after any number of smoothing sweeps, and the values on the boundary are kept.", "quantifier": "every grid, stride, spacing, right-hand side, starting values, number of sweeps and pair of bounds", "why_tests_cant": "a bound for all starting values and numbers of sweeps", "anchors": ["examples/differential_equations/elliptic/Poisson/poisson.cpp:smooth"]}
{"id": "C85", "title": "Interpolation and restriction between levels are exact for polynomials of their degree", "statement": "In two and more dimensions the linear interpolation to the finer level reproduces every function of degree one along each axis, the cubic interpolation, including its formulas next to the boundary, every function of degree three along each axis, and the full-weighting restriction every function of degree one along each axis. In one dimension neither interpolation changes anything, so the property fails there.", "quantifier": "every grid whose extents suit the stride, every such function", "why_tests_cant": "the passes along the axes must compose for all functions and all extents", "anchors": ["examples/differential_equations/elliptic/Poisson/multigrid.hpp:refine", "examples/differential_equations/elliptic/Poisson/multigrid.hpp:coarsen"]}
{"id": "C86", "title": "The full multigrid update is a well-defined linear solver", "statement": "On grids whose smallest extent is 2^k+1 with the other extents multiples of 2^k plus one, the update returns, gives zero on the boundary, depends linearly on the right-hand side and not on uninitialised memory, and a cycle acts on the error independently of the right-hand side. In one dimension the coarse levels have no effect: the result is that of four sweeps, and is zero at nodes where the solution is not. With other extents the update does not return.", "quantifier": "every grid of that kind in one, two and three dimensions, every spacing, right-hand side and content of uninitialised memory; for the failures, every grid with extents of the stated kind", "why_tests_cant": "linearity and definedness concern all right-hand sides and all extents", "anchors": ["examples/differential_equations/elliptic/Poisson/poisson.cpp:update", "examples/differential_equations/elliptic/Poisson/multigrid.hpp:FMG"]}
{"id": "C87", "title": "Remembered boundary energies and mobilities are the computed ones", "statement": "Whatever boundary energies and mobilities a program asks for, in whatever order and however often, every answer is the value computed for that pair of grains with the smaller number first, zero for a grain and itself, whatever was asked before. Both functions are symmetric.", "quantifier": "every sequence of requests, every pair of functions that compute the values", "why_tests_cant": "the answer depends on a table that grows with the history of requests", "anchors": ["examples/coarsening/grain_growth/anisotropic/sparsePF/anisotropy.hpp:energy", "examples/coarsening/grain_growth/anisotropic/sparsePF/anisotropy.hpp:mobility"]}
{"id": "C88", "title": "The Heisenberg example follows the Metropolis rule and keeps spins at unit length", "statement": "The update never reads or writes outside the grid and keeps every spin a vector of length one. Every attempt turns one spin into a random direction and is accepted according to the change of the energy of the lattice.", "quantifier": "every periodic grid, spin configuration, number of steps and sequence of random numbers", "why_tests_cant": "the rule must hold for every configuration and every random number", "anchors": ["examples/statistical_mechanics/Heisenberg/heisenberg.cpp:update"]}
{"id": "C89", "title": "The anisotropic sparse programs solve the multiphase-field equation and keep the fields on the simplex", "statement": "Each step of the anisotropic sparse grain-growth and Zener programs gives every node the solution of the multiphase-field equation, with triple terms and the energy and mobility of each pair, for the fields stored there and at its neighbours, cut off at 0 and 1 and divided by their sum. In every run no field is negative, the fields that meet at a node add up to one, and particles never appear where there were none.", "quantifier": "every grid, boundary condition, spacing, symmetric energy and mobility, content of both grids and number of steps", "why_tests_cant": "an invariant over all field contents and numbers of steps", "anchors": ["examples/coarsening/grain_growth/anisotropic/sparsePF/graingrowth.cpp:update", "examples/coarsening/zener_pinning/anisotropic/sparsePF/zener.cpp:update"]}
{"id": "C90", "title": "Monte Carlo grain growth in a temperature gradient", "statement": "In the anisotropic Monte Carlo example the temperature of a node depends on its first coordinate only: 673 at the low end of the whole domain, rising by the same amount from node to node, below 723 everywhere. The chance that a node is attempted lies strictly between 0 and 1 and rises with that coordinate, so a random number that lets a node be attempted does so for every node further along. A node that is not attempted keeps its spin; the update as a whole has the properties C47 to C49 claim for isotropic growth.", "quantifier": "every domain of two or three dimensions, spins, random sequence, acceptance rule, number of steps, RAND_MAX and increasing positive function in the place of exp", "why_tests_cant": "ranges over all random sequences and all positions", "anchors": ["examples/coarsening/grain_growth/anisotropic/Monte_Carlo/graingrowth.cpp:update"]}
{"id": "C91", "title": "The initial grids of the examples", "statement": "The initial grid that an example writes is determined by the random numbers drawn, whatever the memory held before. Ising spins are 1 or -1, Potts and grain-growth spins lie in the range of the program, noise lies between -1 and 1, Heisenberg spins are unit vectors, phase fractions are not negative and add up to 1, every node of a grain-growth grid belongs to exactly one grain of the documented pattern, and with particles exactly the drawn nodes and their neighbours (through the periodic boundary) are particles. A run that begins with such a grid keeps what the update programs promise at every step.", "quantifier": "every grid size, content of the memory, random sequence, number of steps", "why_tests_cant": "ranges over all random sequences and all contents of uninitialised memory; a test sees one of each, and fresh pages are usually zero", "anchors": ["examples/statistical_mechanics/Ising/ising.cpp:generate", "examples/statistical_mechanics/Potts/potts.cpp:generate", "examples/coarsening/grain_growth/anisotropic/phase_field/graingrowth.cpp:generate", "examples/coarsening/zener_pinning/isotropic/phase_field/zener.cpp:generate", "examples/coarsening/zener_pinning/isotropic/Monte_Carlo/zener.cpp:generate", "include/MMSP.vector.cpp:resize"]}
{"id": "C92", "title": "Spacings in checkpoint files", "statement": "A grid spacing is written to a checkpoint as a decimal number of six significant digits. Reading the file back changes a spacing by at most five parts in a million, restores it exactly if and only if it is the double next to a number of six digits, and a restored grid is written as the same file again, so that the spacings do not drift over any number of restarts. Nothing else in the file is rounded.", "quantifier": "every positive spacing from 1e-300 to 1e300, every grid content, number of writing and reading ranks, and rounding of decimal numbers to doubles that is accurate to one part in 1e8", "why_tests_cant": "ranges over all doubles; the spacings used in tests and examples (1.0, 0.5, 0.025) are just those that survive", "anchors": ["include/MMSP.grid.cpp:output", "include/MMSP.grid.cpp:input"]}
{"id": "C93", "title": "One-dimensional diffusion couples", "statement": "The program 1stDiffusion prints the bar with fixed ends after the number of iterations asked for: the profile starts with 1, ends with 0, never rises, stays between 0 and 1, and approaches the straight line by a factor of at least 1-2/(nx-1)^2 per iteration, whatever the coefficient and spacing. MMSPDiffusion, written with the operators of the library, prints the same values.", "quantifier": "every length, number of iterations, diffusion coefficient and spacing other than 0, and every content of the memory", "why_tests_cant": "lengths, iterations and coefficients are typed in by the user; the convergence is a limit", "anchors": ["examples/beginners_diffusion/1stDiffusion.cpp:main", "examples/beginners_diffusion/MMSPDiffusion.cpp:main"]}
{"id": "C94", "title": "The two-dimensional diffusion program", "statement": "The program MMSPDiffusion2D prints the values of a sheet with mirrored edges after the number of iterations asked for, and these values, which begin as 0 and 1, stay between 0 and 1.", "quantifier": "every length, number of iterations and content of the memory", "why_tests_cant": "boundedness concerns every number of iterations; the growth is five per cent per iteration at most and not visible in short runs", "anchors": ["examples/beginners_diffusion/MMSPDiffusion2D.cpp:main"]}
{"id": "C95", "title": "The older fast-marching tessellation", "statement": "The approximate tessellation of algorithms/generators.cpp, run on one process, ends, without undefined behaviour, and then every node of the domain carries exactly one grain label, the number of a seed nearest to it.", "quantifier": "every domain of two or three dimensions, every list of seeds in it, every value type of the grid", "why_tests_cant": "termination and the absence of stale queue positions depend on the order in which the queue returns equal distances, for every placement of the seeds", "anchors": ["algorithms/generators.cpp:approximate_voronoi", "algorithms/generators.cpp:propagate_distance", "algorithms/priority_queue.h:PriorityQueue", "algorithms/distancevoxel.h:DistanceVoxel"]}
{"id": "C96", "title": "The older tessellation on several ranks", "statement": "The tessellation of algorithms/generators.cpp in an MPI build ends; every node then carries a single label, the number of the seed nearest to it, and this number does not depend on the rank: one grain has one label on all ranks, and different grains have different labels.", "quantifier": "every number of ranks, decomposition, schedule, boundary conditions and choice of seeds on each rank", "why_tests_cant": "schedules, decompositions and seed sets are unbounded; the numbering errors need a grain that spans two ranks", "anchors": ["algorithms/generators.cpp:seedswap", "algorithms/generators.cpp:seeds_from_buffer", "algorithms/generators.cpp:tessellate", "algorithms/generators.cpp:exact_voronoi"]}
{"id": "C97", "title": "Seed files of the older tessellation", "statement": "Seeds written with seeds_to_file and read with seeds_from_file come back; a file of normalised coordinates gives one seed in the domain per row.", "quantifier": "every domain, every list of seeds, every file of numbers between 0 and 1", "why_tests_cant": "the rounding to six digits and the truncation must be right for every coordinate and every length", "anchors": ["algorithms/generators.cpp:seeds_to_file", "algorithms/generators.cpp:seeds_from_file"]}
{"id": "C98", "title": "Honeycomb seeds", "statement": "honeycomb_seeds makes the points of a lattice with rows a apart and every other row moved by half of a that lie in the domain, each once, whatever the number of ranks.", "quantifier": "every domain, spacing and decomposition", "why_tests_cant": "an exact set of points for every size, spacing and origin", "anchors": ["algorithms/generators.cpp:honeycomb_seeds"]}
{"id": "C99", "title": "A campaign of parallel jobs equals one serial run", "statement": "A simulation that is run as any number of jobs, each started from the last checkpoint of the job before, with its own number of ranks, number of outputs and steps between outputs, ends; every checkpoint it writes holds the field that one serial run without interruption has after the same total number of steps.", "quantifier": "every sequence of jobs, number of ranks per job, schedule of every job, order in which the file system carries out the writes, content of uninitialised memory, field type with sound serialisation, update rule over the nearest neighbours, boundary conditions and box", "why_tests_cant": "schedules, decompositions, write orders and the number of jobs are unbounded, and errors show only in combinations of them", "anchors": ["include/MMSP.main.hpp:main", "include/MMSP.grid.cpp:ghostswap", "include/MMSP.grid.cpp:output", "include/MMSP.grid.cpp:input", "include/MMSP.grid.cpp:swap", "examples/phase_transitions/allen-cahn/allen-cahn.cpp:update"]}
{"id": "C100", "title": "Simulations in two stages do not depend on the number of processes, and conserve the composition over all of them", "statement": "A simulation that in each step fills a work grid from the field, exchanges its ghosts, and then computes the new field from the field and the work grid ends under every schedule with the field of the serial program, whatever the number of processes. For the conserved models (model B with any noise, spinodal decomposition, explicit Cahn-Hilliard), on grids with periodic and no-flux sides, the composition summed over the nodes of all processes is the same at the end as at the beginning.", "quantifier": "every pair of local rules, field type and work type with sound serialisation, number of processes, schedule, domain, boundary condition, number of ghost layers, number of steps, initial field, content of uninitialised memory, and random numbers", "why_tests_cant": "A missing or early exchange of the work grid shows only in nodes next to the border of a process and only under some schedules; a test has one number of processes, one domain and one schedule, and compares sums up to rounding.", "anchors": ["examples/phase_transitions/cahn-hilliard/explicit/cahn-hilliard.cpp:update", "examples/phase_transitions/model_B/model_B.cpp:update", "examples/phase_transitions/spinodal/spinodal.cpp:update", "include/MMSP.grid.cpp:grid::ghostswap", "include/MMSP.grid.cpp:laplacian"]}
{"id": "C101", "title": "Parallel Monte Carlo grain growth is a sequence of single-node attempts of one process", "statement": "On a domain with even sides, with at least two nodes of every process along every axis, the parallel Monte Carlo grain growth of the isotropic and anisotropic examples ends under every schedule whenever the random numbers pick every cell again and again. Its result is that of one process that makes the attempts of all processes one after the other, each with the current spins of the neighbours in the whole domain. Every process attempts only nodes of its own, in every sweep as many as it has counted, all with random numbers that follow from the clock of process 0. No spin appears that was not there at the start, at temperature zero the energy of the whole domain never rises, and all ghost cells are up to date at the end.", "quantifier": "every number of processes, schedule, domain of two or three dimensions, initial spins, temperature, selection of nodes, random number generator, clocks of the processes and number of steps", "why_tests_cant": "Whether two processes ever change neighbouring nodes at the same time, or read a stale ghost cell, depends on the position of the borders, on parities and on the random numbers; a run with stale ghosts still looks like grain growth, and no test compares a random parallel run with a serial order of its attempts.", "anchors": ["examples/coarsening/grain_growth/isotropic/Monte_Carlo/graingrowth.cpp:update", "examples/coarsening/grain_growth/anisotropic/Monte_Carlo/graingrowth.cpp:update", "include/MMSP.grid.cpp:grid::ghostswap", "include/MMSP.grid.cpp:grid::ghostswap(const int sublattice)"]}
{"id": "C102", "title": "Parallel Ising, Potts, Heisenberg and Zener Monte Carlo runs end, and behave like one process", "statement": "The parallel Monte Carlo examples that visit nodes at random (Ising, Potts, Heisenberg, Zener pinning) end under every schedule and every division of the domain. Between two exchanges of ghost cells every process makes trials only at nodes of its own, each decided by its own nodes as they are and all other nodes as they were at the last exchange; an exchange makes the values of all processes common. At temperature zero the energy never rises, as with one process.", "quantifier": "every number of processes, schedule, domain, initial values, temperature, random number sequences of the processes and number of steps", "why_tests_cant": "Whether all processes exchange equally often depends on the number of nodes of each, which varies with the number of processes: a test with one division of one domain says nothing of the others, and a run that hangs on another machine size has no wrong output to look at. Stale ghost cells still give plausible random configurations.", "anchors": ["examples/statistical_mechanics/Ising/ising.cpp:update", "examples/statistical_mechanics/Potts/potts.cpp:update", "examples/statistical_mechanics/Heisenberg/heisenberg.cpp:update", "examples/coarsening/zener_pinning/isotropic/Monte_Carlo/zener.cpp:update", "examples/coarsening/zener_pinning/anisotropic/Monte_Carlo/zener.cpp:update", "include/MMSP.grid.cpp:grid::ghostswap"]}
{"id": "C103", "title": "The explicit phase-field examples compute the same field on any number of processes", "statement": "Any sequence of calls of update() of the Allen-Cahn, model A and model B (with the same noise at each node), explicit Cahn-Hilliard, spinodal, grain growth and Zener pinning phase-field examples (isotropic and anisotropic; vector cells, and sparse cells except one), and Ostwald ripening, run on several processes, ends under every schedule and leaves on every node exactly the value the serial program leaves there, whenever the serial program is well defined; what the memory of the work grids held does not matter. The exception is the isotropic sparse Zener example, whose result depends on the number of processes.", "quantifier": "every number of processes, division, dimension, boundary condition of the serial kind, ghost width of at least one, initial field, parameters, number of calls, numbers of steps, content of fresh memory and schedule", "why_tests_cant": "A missing or misplaced exchange, a stale work grid, or a cell left from two steps before shows only at the internal boundaries of some division, after some number of steps, and stays small and plausible. Comparing one run with another on one machine covers one division, one size and one schedule.", "anchors": ["examples/phase_transitions/allen-cahn/allen-cahn.cpp:update", "examples/phase_transitions/model_A/model_A.cpp:update", "examples/phase_transitions/spinodal/spinodal.cpp:update", "examples/phase_transitions/cahn-hilliard/explicit/cahn-hilliard.cpp:update", "examples/phase_transitions/model_B/model_B.cpp:update", "examples/coarsening/grain_growth/isotropic/phase_field/graingrowth.cpp:update", "examples/coarsening/grain_growth/anisotropic/phase_field/graingrowth.cpp:update", "examples/coarsening/grain_growth/isotropic/sparsePF/graingrowth.cpp:update", "examples/coarsening/grain_growth/anisotropic/sparsePF/graingrowth.cpp:update", "examples/coarsening/zener_pinning/isotropic/phase_field/zener.cpp:update", "examples/coarsening/zener_pinning/anisotropic/phase_field/zener.cpp:update", "examples/coarsening/zener_pinning/isotropic/sparsePF/zener.cpp:update", "examples/coarsening/zener_pinning/anisotropic/sparsePF/zener.cpp:update", "examples/coarsening/ostwald_ripening/isotropic/phase_field/ostwald.cpp:update", "include/MMSP.grid.cpp:grid::grid(const grid&)"]}
{"id": "C104", "title": "The semi-implicit Cahn-Hilliard example computes the same field on any number of processes", "statement": "Any sequence of calls of update() of the convex-splitting Cahn-Hilliard example on a grid with nonnegative coordinates and an even number of nodes along each periodic axis either ends, under every interleaving of the processes and in every division of the grid, with the field that the serial build computes with any number of threads, or stops with Abort(-1) on all processes exactly when the serial build does; in particular all processes make the same number of iterations and none waits for another for ever.", "quantifier": "all numbers of processes, grids, divisions, initial fields, sequences of calls, numbers of steps, interleavings of the processes and orders of the serial threads, iteration limits, tolerances and square roots", "why_tests_cant": "The solver updates the field in place, exchanges it between the colours and decides on the number of iterations from sums over all processes; a wrong colour at one side of one division, or processes that decide differently, show only for particular grids and interleavings.", "anchors": ["examples/phase_transitions/cahn-hilliard/convex_splitting/cahn-hilliard.cpp:update", "examples/phase_transitions/cahn-hilliard/convex_splitting/cahn-hilliard.cpp:fringe_laplacian", "examples/phase_transitions/cahn-hilliard/convex_splitting/cahn-hilliard.cpp:field_laplacian", "include/MMSP.grid.cpp:ghostswap"]}
{"id": "C105", "title": "The solidification example computes the same field on any number of processes", "statement": "Any sequence of calls of update() of the solidification example, under every interleaving of the processes and in every division of the grid, ends with the phase and temperature that the serial build computes; the contents of newly allocated grids and the private reference grid of each process do not show.", "quantifier": "all numbers of processes, grids, divisions, initial fields, sequences of calls, numbers of steps, anisotropies, driving forces and interleavings", "why_tests_cant": "A missing exchange of the flux or of the new field, or a collective call that only the first call makes, shows only for particular divisions, numbers of calls and interleavings.", "anchors": ["examples/phase_transitions/solidification/anisotropic/solidification.cpp:update", "include/MMSP.grid.cpp:ghostswap", "include/MMSP.grid.hpp:grid"]}
{"id": "C106", "title": "A phase-field simulation carried out as a series of parallel jobs gives what one serial run gives", "statement": "A series of jobs, each of which reads the last file of the one before on its own number of processes and alternates calls of update() with output, can be carried out, and whatever the interleavings of the processes and the order in which the file system carries out their writes, every file written is a file of the field that the serial build has at the same point of one uninterrupted run. This holds of every update() that gives the field of the serial build on any number of processes, which the Allen-Cahn, model A and B, isotropic and anisotropic grain growth and Zener pinning (dense and sparse), Ostwald ripening and solidification examples do.", "quantifier": "all series of jobs, numbers of processes, numbers of outputs, increments, grids, fields, compressed or raw builds, interleavings and orders of writes", "why_tests_cant": "A value lost or changed between update(), ghostswap, output and the constructor from a file shows only for particular divisions and restarts on other numbers of processes; tests run a program once.", "anchors": ["include/MMSP.main.hpp:main", "include/MMSP.grid.cpp:output", "include/MMSP.grid.cpp:input", "include/MMSP.grid.cpp:ghostswap", "examples/phase_transitions/allen-cahn/allen-cahn.cpp:update"]}
{"id": "C107", "title": "Command lines of mmsp2png and mmsp2xyz", "statement": "Whatever options are given to mmsp2png or mmsp2xyz, in whatever order and however often, the program does what its help message says each of them means: the last file names count, the last zoom, slice and contour field count, the named fields and contour levels accumulate, excluding wins over selecting and selecting over the plain magnitude. The output gets the given name, or else that of the input with the extension replaced. The input file is never overwritten, and no command line makes the program misbehave rather than stop with an error status.", "quantifier": "every sequence of command-line arguments of either program, of any length; every reading of numerals as numbers", "why_tests_cant": "The options combine freely, repeat and depend on their order; the arguments are arbitrary texts. Tests try a few command lines.", "anchors": ["utility/mmsp2png.cpp:main", "utility/mmsp2xyz.cpp:main"]}
{"id": "C108", "title": "Example grids made by several processes", "statement": "mpirun -np k program --example fills the distributed grid with the field that the serial program fills its grid with, when every node gets the same random numbers, whatever the memory of the new grids held, on any number of processes and in every execution; the file it writes is a checkpoint of that field, and a series of parallel jobs that starts from it ends with what the serial program ends with. Particles of the pinning examples are the same as in the serial program.", "quantifier": "every number of processes that divides the domain usably, every domain and ghost width, every sequence of random numbers of every process, every content of uninitialised memory, every schedule of the processes and the file system, every series of jobs", "why_tests_cant": "The random sequences, the memory contents, the divisions and the schedules are unbounded; a test compares a few runs and cannot tell a wrong field from other random numbers.", "anchors": ["include/MMSP.main.hpp:main", "include/MMSP.grid.cpp:grid::setup", "include/MMSP.utility.cpp:check_boundary", "examples/coarsening/zener_pinning/isotropic/Monte_Carlo/zener.cpp:generate", "examples/phase_transitions/cahn-hilliard/convex_splitting/cahn-hilliard.cpp:generate", "examples/phase_transitions/model_A/model_A.cpp:generate"]}
{"id": "C109", "title": "Converting the files of a run one by one", "statement": "Running one of the converters (mmsp2vti, mmsp2tsv, mmsp2png, mmsp2xyz, MC2PF and its relatives) on every file that a simulation wrote, without naming the results, leaves every file of the run as it was and makes one result per file, each under a name of its own made from that of its file and ending as the format requires. A result that is named gets that name, and the input stays. No command line makes a converter misbehave.", "quantifier": "every converter, every choice of its options, every run of the driver (output name, number of steps, increment), every contents of the files and of the disk, every list of arguments", "why_tests_cant": "Names, numbers of steps and options are unbounded; a test converts a few files with well-chosen names.", "anchors": ["utility/mmsp2vti.cpp:main", "utility/mmsp2tsv.cpp:main", "utility/mmsp2png.cpp:main", "utility/mmsp2xyz.cpp:main", "utility/MC2PF.cpp:main", "utility/MC2vox.cpp:main", "include/MMSP.main.hpp:main"]}
{"id": "C110", "title": "Monte Carlo simulations run as a series of parallel jobs", "statement": "A Monte Carlo grain growth simulation on a periodic domain with even sides may be carried out as a series of parallel jobs on any numbers of processes, each job continuing from the last file of the one before. Every job ends under every schedule. Whatever the schedules, the last file, like every file in between, holds a grid that a single process would have reached by the same single-node attempts made one after the other; it has no spin that the first file has not, and at temperature zero no more energy.", "quantifier": "every grid of spins, every list of jobs (ranks, turns, steps, clocks), every generator of random numbers that reaches every cell, every temperature, every schedule of the ranks and of the file writes, every decomposition with two nodes or more per rank and axis", "why_tests_cant": "The schedules, the random numbers and the histories of jobs are unbounded; one run shows one of them.", "anchors": ["examples/coarsening/grain_growth/isotropic/Monte_Carlo/graingrowth.cpp:update", "examples/coarsening/grain_growth/anisotropic/Monte_Carlo/graingrowth.cpp:update", "include/MMSP.main.hpp:main", "include/MMSP.output.cpp:output", "include/MMSP.grid.cpp:input"]}
{"id": "C111", "title": "Serial and parallel programs continue each other's runs", "statement": "A file written by any number of processes can be read by the serial program, which finds in it the whole grid with its field, boundary conditions and spacing; the serial program writes, byte for byte, the file that a parallel program on one process writes. A simulation may therefore be carried out as a series of runs of the serial and of the parallel program in any order, each continuing from the last file of the one before: it ends under every schedule, and the last file shows what a single serial run has.", "quantifier": "every field of valid cells, every domain and boundary conditions the serial program supports, every list of runs (serial or on any usable number of ranks, with any number of turns), every update() that computes in parallel what it computes serially, every schedule of the ranks and of the file writes, compressed and uncompressed builds", "why_tests_cant": "The fields, domains, numbers of processes, schedules and orders of the runs are unbounded.", "anchors": ["include/MMSP.main.hpp:main", "include/MMSP.grid.cpp:input", "include/MMSP.grid.cpp:read", "include/MMSP.grid.cpp:output", "include/MMSP.grid.cpp:write_buffer"]}
{"id": "C112", "title": "Picture and table programs open files of every number of processes and cannot tell them apart", "statement": "mmsp2png, mmsp2vti, mmsp2tsv and mmsp2xyz open every file of a data type they support and of one to three dimensions, whatever number of processes wrote it and with whatever number of ghosts: they find the kind and element of the data, the fields, the spacing, the limits and boundary conditions of the whole grid and the value of every node. Files of the same field written by different numbers of processes give the same grid, and so the same pictures and tables. A data type they do not support they refuse, whoever wrote the file. After a campaign of serial and parallel runs, they have what one serial run would have left.", "quantifier": "every supported (and every unsupported) data type, every field of valid cells, every domain of one to three dimensions and its boundary conditions, every number of ranks and of ghosts, every campaign and schedule, compressed and uncompressed builds", "why_tests_cant": "The data types, fields, domains and numbers of processes are unbounded, and each program contains one branch per type.", "anchors": ["utility/mmsp2png.cpp:main", "utility/mmsp2vti.cpp:main", "utility/mmsp2tsv.cpp:main", "utility/mmsp2xyz.cpp:main", "include/MMSP.grid.cpp:input", "include/MMSP.grid.cpp:read"]}
{"id": "C113", "title": "Simulations move between machines of different byte order", "statement": "A file that any number of processes write on a machine of the other byte order, compressed or not, is converted by wrongendian, with any number of threads and in every schedule of them, into the file that as many processes write here, up to the order of the blocks (exactly that file with one thread or one process). The order of the blocks does not matter: the serial program, the picture and table programs, and any number of processes that could read the file written here find the same fields, spacing, boundary conditions and values in it; processes that could not (because they meet different numbers of blocks) do not get to the end with it either.", "quantifier": "every type wrongendian supports (vectors and sparse objects of at most 255 elements), every domain of one to three dimensions, field, boundary conditions, number of writing and reading processes and of ghosts, every number of threads and order in which they write, every compression that zlib's contract allows", "why_tests_cant": "The order of the blocks depends on the scheduling of the converter's threads; fields, numbers of processes and threads are unbounded, and tests do not run on machines of two byte orders.", "anchors": ["utility/wrongendian.cpp:main", "include/MMSP.grid.cpp:input", "include/MMSP.grid.cpp:read", "include/MMSP.grid.cpp:output", "include/MMSP.grid.cpp:write_buffer"]}
{"id": "C114", "title": "What mmsp2topo reports on the screen", "statement": "When mmsp2topo gets as far as printing its report on a microstructure, the bulk grains it counts are the grains whose field sums to at least 1 over the nodes, and the surface grains all others that occur in the file (they are counted again as grains of zero volume, wherever they lie); the average volume and centre are the sums over the bulk grains divided by their number; the counts of boundary grains, grains in the exclusion zone and grains without faces are 0, and the count of grains without edges is right. In space the grains said to violate Plateau's law are the bulk grains with edges and E <> 3F - 6, those differing from Smith's formula are those of them with 200 |3F - 6 - E| > F, so both counts agree as long as no grain has 200 faces. On every axis the lower end of the span of centres is the least of 1000 and the centres, cut to whole numbers. The upper end is not the greatest: a centre that lowers the minimum is not compared with the maximum, so that 0 is reported when the centres come in falling order, for example for a single grain.", "quantifier": "every sparse grid of two or three dimensions with identifiers below 65536, every field and spacing for which the program reaches the report", "why_tests_cant": "Microstructures are unbounded; the counters depend on every grain's set of neighbours, edges and corners and the span on the order of the grains.", "anchors": ["utility/mmsp2topo.cpp:main", "algorithms/topology/point.hpp:Point", "algorithms/topology/topology.cpp:isPlateaunic", "algorithms/topology/topology.cpp:getPbar"]}
{"id": "C115", "title": "A file that was cut short is refused", "statement": "Opening what is left of a checkpoint when its last bytes are missing (a full disk, a job stopped while writing, a broken copy) ends with an error. What holds: no proper beginning of a file that any number of processes wrote is ever taken for a grid, neither by a serial program, nor by all processes of a parallel one (at least one of them does not get its part), nor by mmsp2png, mmsp2vti, mmsp2tsv and mmsp2xyz. What does not hold: there is an error only while the first line is incomplete; as soon as the line with the type is there, nothing checks the reads, and the behaviour is undefined (the program goes on with memory that was never written).", "quantifier": "every checkpoint of one to three dimensions that any number of processes, each with nodes, wrote, compressed or not; every proper beginning of it; every number of processes and ghosts that read it", "why_tests_cant": "A file can be cut at any byte and tests would have to try every byte of every file, on every number of processes.", "anchors": ["include/MMSP.grid.cpp:grid::input", "include/MMSP.grid.cpp:grid::read", "utility/mmsp2vti.cpp:main", "utility/mmsp2png.cpp:main"]}
{"id": "C116", "title": "vti2pvd makes an index of pictures of all data files of a directory", "statement": "The script leaves for every data file u.dat of the directory its picture u.vti, and an index named after the oldest file that lists all pictures in the order of age at the times 0, 1, 2, ...; no other file changes, in whatever order the parallel jobs are done, and running it again changes nothing. This holds if dat occurs in the names only as the ending and every file can be converted and has no picture yet. Otherwise: a picture that is there is kept and listed even if the data are newer; for a name with dat before the ending (data.dat) the index lists a file that does not exist (vtia.dat); a file whose conversion fails is listed all the same and the script reports success; with .dat in the middle of the oldest name the index is itself named as a data file.", "quantifier": "every set of data files, every contents and conversion of them, every order of age and every order of the parallel jobs, every state of the other files", "why_tests_cant": "Directories, names and job orders are unbounded; whether the index names existing files depends on every character of every name.", "anchors": ["utility/vti2pvd", "utility/mmsp2vti.cpp:main"]}
{"id": "C117", "title": "Files that mmsp2z, wrongendian and mmsp2topo read and write", "statement": "Given the names of an input and another output, mmsp2z, wrongendian and mmsp2topo leave every file but the output as it was however they end (unless the behaviour is undefined), and when they end well the output holds what they make of the input: for wrongendian and a file that any number of processes wrote on a machine of the other byte order, with any number of threads, scheduled in any way, the file those processes would write here up to the order of the blocks. mmsp2topo writes only when all went well, also over its own input; wrongendian does not touch the output if the input is no grid. What does not hold: mmsp2z and wrongendian destroy the file when input and output are the same; mmsp2z empties the output before it looks at the input, so that a bad input costs the former output, and wrongendian does so for 0 threads; --help alone is refused; mmsp2topo ends by an exception on a short first line.", "quantifier": "every command line, every contents of all files, every schedule of the threads", "why_tests_cant": "Names, files and thread schedules are unbounded, and what is lost on errors depends on the moment at which the output is opened.", "anchors": ["utility/mmsp2z.cpp:main", "utility/wrongendian.cpp:main", "utility/mmsp2topo.cpp:main"]}
{"id": "C118", "title": "Integers in headers and file names are decimal numerals", "statement": "Every integer the library and its programs write as text (dimensions and extents in the header of a grid file, steps in file names, times in an index) is its decimal numeral: digits of the right value without zeros in front, with a minus sign if it is negative; different integers have different texts, and an int takes at most eleven characters. Reading an int succeeds exactly if the stream goes on with blanks, an optional sign and digits whose number is an int, takes all the digits, and gives that number; so an int that was written is read back with any blanks before it and anything but a digit after it. Non-negative numbers filled up with zeros to the same length are sorted as text like the numbers.", "quantifier": "every integer, every stream, every number of zeros", "why_tests_cant": "A wrong digit, a lost sign or a wrong end may show for a few numbers or streams only.", "anchors": ["include/MMSP.grid.cpp:output", "include/MMSP.grid.cpp:input", "include/MMSP.main.hpp:main"]}
{"id": "C119", "title": "The layout of a grid file", "statement": "A grid file is, byte by byte: a line with the type of the grid, a line with the dimension, one with the number of fields, one per axis with its first node and its end, one per axis with the spacing, all numbers in decimal; the number of blocks as a four-byte integer; and for each process in turn the limits of its part along each axis, the boundary conditions along each axis, the size of its data in memory and in the file as eight-byte integers, and the data, compressed unless the program was built without compression. The data are the cells of the part, the last coordinate running fastest, each cell being its number, or the length and the numbers of a vector, or the number of items and the index and value of each item of a sparse cell. Integers are stored with the lowest byte first.", "quantifier": "every kind of cell, number of processes, domain, field and compression", "why_tests_cant": "Programs that read files they wrote themselves cannot tell a change of the layout made on both sides; other readers and old files can, for any shape and number of processes.", "anchors": ["include/MMSP.grid.cpp:output", "include/MMSP.grid.cpp:write_buffer", "include/MMSP.grid.cpp:to_buffer", "include/MMSP.vector.cpp:to_buffer", "include/MMSP.sparse.cpp:to_buffer"]}
{"id": "C120", "title": "The explicit phase-field programs make Euler steps of their equations", "statement": "One step of the Allen-Cahn program gives every node phi - dt M (-r phi + u phi^3 - K lap), where phi is the value before the step and lap is the sum over the axes of the second differences of the values read around the node; model A adds the number drawn for the node inside the bracket; the diffusion program gives c + k lap; model B, spinodal decomposition and the explicit Cahn-Hilliard program first compute the potential -r phi + u phi^3 - K lap (plus the number drawn) at every node and then add k, respectively dt M, times the sum of the second differences of the potential. The values before the step are kept in the other grid, and the pointwise rule determines the new field.", "quantifier": "every number of axes and size of a serial grid, all boundary conditions of serial axes, all nonzero spacings, all parameters, all fields and numbers drawn, every node", "why_tests_cant": "the grids, the fields and the parameters are unbounded; a wrong factor, sign or neighbour shows only for some fields and can keep totals and bounds", "anchors": ["examples/phase_transitions/allen-cahn/allen-cahn.cpp:update", "examples/phase_transitions/model_A/model_A.cpp:update", "examples/phase_transitions/model_B/model_B.cpp:update", "examples/phase_transitions/spinodal/spinodal.cpp:update", "examples/phase_transitions/cahn-hilliard/explicit/cahn-hilliard.cpp:update", "examples/beginners_diffusion/MMSPDiffusion2D.cpp:main", "include/MMSP.grid.cpp:laplacian"]}
