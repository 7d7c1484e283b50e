{
 "claims": [
  {
   "property": "C01",
   "status": "proved",
   "theorems": [
    "C01_inrange_access",
    "C01_bc_independent"
   ],
   "note": ""
  },
  {
   "property": "C02",
   "status": "proved",
   "theorems": [
    "C02_one_fold"
   ],
   "note": ""
  },
  {
   "property": "C03",
   "status": "proved",
   "theorems": [
    "C03_any_coordinate_refuted",
    "C03_mirror_single_cell_refuted"
   ],
   "note": "The property is false of the code; the theorems exhibit counterexamples (refutation)."
  },
  {
   "property": "C04",
   "status": "proved",
   "theorems": [
    "C04_halo_access",
    "C04_storage_injective"
   ],
   "note": ""
  },
  {
   "property": "C05",
   "status": "proved",
   "theorems": [
    "C05_chain_is_vector",
    "C05_index_is_position",
    "C05_position_into",
    "C05_position_onto",
    "C05_position_row_major",
    "C05_layout_wf"
   ],
   "note": ""
  },
  {
   "property": "C06",
   "status": "proved",
   "theorems": [
    "C06_partition",
    "C06_inside"
   ],
   "note": ""
  },
  {
   "property": "C07",
   "status": "proved",
   "theorems": [
    "C07_procgrid_optimal"
   ],
   "note": ""
  },
  {
   "property": "C08",
   "status": "proved",
   "theorems": [
    "C08_balanced",
    "C08_nonempty_refuted"
   ],
   "note": "Balance proved; that no rank is ever empty is refuted separately (5 ranks on a 4x4 box)."
  },
  {
   "property": "C09",
   "status": "proved",
   "theorems": [
    "C09_neighbours"
   ],
   "note": ""
  },
  {
   "property": "C10",
   "status": "proved",
   "theorems": [
    "C10_flags"
   ],
   "note": ""
  },
  {
   "property": "C11",
   "status": "proved",
   "theorems": [
    "C11_plain",
    "C11_int",
    "C11_uint",
    "C11_opaque",
    "C11_vector",
    "C11_sparse",
    "C11_sequence"
   ],
   "note": ""
  },
  {
   "property": "C12",
   "status": "proved",
   "theorems": [
    "C12_region",
    "C12_region_stride2"
   ],
   "note": ""
  },
  {
   "property": "C13",
   "status": "proved",
   "theorems": [
    "C13_copy_plain",
    "C13_copy_vectors"
   ],
   "note": ""
  },
  {
   "property": "C14",
   "status": "proved",
   "theorems": [
    "C14_swap",
    "C14_twice"
   ],
   "note": ""
  },
  {
   "property": "C15",
   "status": "proved",
   "theorems": [
    "C15_ghost_values",
    "C15_wide_ghosts_refuted"
   ],
   "note": "Proved when no block is narrower than the ghost width; without that condition the claim is false (C15_wide_ghosts_refuted)."
  },
  {
   "property": "C16",
   "status": "proved",
   "theorems": [
    "C16_no_deadlock_no_race"
   ],
   "note": ""
  },
  {
   "property": "C17",
   "status": "proved",
   "theorems": [
    "C17_sublattice_exchange",
    "C17_two_ghost_layers_refuted"
   ],
   "note": "Ghost width one, as stated; with two layers it is false (C17_two_ghost_layers_refuted)."
  },
  {
   "property": "C18",
   "status": "proved",
   "theorems": [
    "C18_odd_lengths_refuted"
   ],
   "note": "False of the code: refuted by a concrete run."
  },
  {
   "property": "C19",
   "status": "proved",
   "theorems": [
    "C19_serial_round_trip"
   ],
   "note": "Any codec that serialises its cells; zlib and the text form of doubles are parameters (lossless, exact_text)."
  },
  {
   "property": "C20",
   "status": "proved",
   "theorems": [
    "C20_portable"
   ],
   "note": "Local part of reading (header, setup, blocks); the whole parallel read with ghost exchange is in C25_read_ends_iff."
  },
  {
   "property": "C21",
   "status": "proved",
   "theorems": [
    "C21_writes_tile"
   ],
   "note": "Writes may be split and interleaved in any way within each of the two phases separated by MPI_File_sync."
  },
  {
   "property": "C22",
   "status": "partial",
   "theorems": [
    "C22_aligned_partial",
    "C22_exact_boundary_refuted",
    "C22_large_first_rank_refuted"
   ],
   "note": "Proved when every part boundary falls strictly inside the data of a distinct rank other than 0: all schedules end and the file is header ++ data. Refuted otherwise, for every block size with two ranks: a boundary that coincides with the end of rank 0's data (MPI_Wait on an uninitialised request) and data of rank 0 spanning more than two blocks (unsigned wrap-around, failed assertion)."
  },
  {
   "property": "C23",
   "status": "proved",
   "theorems": [
    "C23_refuted"
   ],
   "note": "False: cells 1000,0,0 of an int grid compress to exactly their own length with zlib level 9; the reader then takes the compressed bytes for the data. C19/C20 assume the lengths differ."
  },
  {
   "property": "C24",
   "status": "proved",
   "theorems": [
    "C24_wrong_type_rejected",
    "C24_wrong_dimension_rejected",
    "C24_alias_accepted",
    "C24_strict_alias_refuted",
    "C24_first_line",
    "C24_table",
    "C24_written"
   ],
   "note": "Wrong type and dimension rejected, alias accepted. C24_first_line gives for the built-in types, every first line and every setup (serial or of a rank) the exit code or the lines that are read; the alias test also accepts up to eight other characters before the colon (C24_strict_alias_refuted). C24_table is the table of all pairs of built-in types."
  },
  {
   "property": "C25",
   "status": "proved",
   "theorems": [
    "C25_read_ends_iff",
    "C25_same_ranks",
    "C25_refuted"
   ],
   "note": "False as stated: the read ends iff every reader meets the same number of written blocks (C25_read_ends_iff); 2 writers and 3 readers hang (C25_refuted)."
  },
  {
   "property": "C26",
   "status": "proved",
   "theorems": [
    "C26_finite_map",
    "C26_read",
    "C26_set_then_read",
    "C26_assign"
   ],
   "note": ""
  },
  {
   "property": "C27",
   "status": "proved",
   "theorems": [
    "C27_plus",
    "C27_minus",
    "C27_times",
    "C27_max",
    "C27_min",
    "C27_add_to",
    "C27_sub_to",
    "C27_scale"
   ],
   "note": ""
  },
  {
   "property": "C28",
   "status": "proved",
   "theorems": [
    "C28_equality"
   ],
   "note": ""
  },
  {
   "property": "C29",
   "status": "proved",
   "theorems": [
    "C29_grain_id"
   ],
   "note": ""
  },
  {
   "property": "C30",
   "status": "proved",
   "theorems": [
    "C30_resize",
    "C30_fill",
    "C30_set_all",
    "C30_assign",
    "C30_copy",
    "C30_swap",
    "C30_equality"
   ],
   "note": ""
  },
  {
   "property": "C31",
   "status": "proved",
   "theorems": [
    "C31_pointwise",
    "C31_in_place",
    "C31_scalar",
    "C31_scale",
    "C31_dot",
    "C31_dot_symmetric",
    "C31_dot_additive",
    "C31_dot_homogeneous",
    "C31_shorter_operand_refuted"
   ],
   "note": "With a shorter right operand the operators stop on an assertion (C31_shorter_operand_refuted). Linearity in exact arithmetic (ring_laws)."
  },
  {
   "property": "C32",
   "status": "proved",
   "theorems": [
    "C32_sum",
    "C32_integer_sum",
    "C32_min",
    "C32_max",
    "C32_vector_sum",
    "C32_unknown_operation"
   ],
   "note": "Arithmetic of the value type is a parameter (num); machine-integer overflow of intermediate sums is not modelled."
  },
  {
   "property": "C33",
   "status": "proved",
   "theorems": [
    "C33_accepted",
    "C33_schedule",
    "C33_zero_increment_refuted",
    "C33_input_step_refuted"
   ],
   "note": "Schedule proved for every positive increment and every output name. Refuted: increment 0 is accepted and the program does not end; the starting step is taken from the output name, so the step in the input name is ignored when an output name is given."
  },
  {
   "property": "C34",
   "status": "proved",
   "theorems": [
    "C34_order",
    "C34_names",
    "C34_restart",
    "C34_no_extension_refuted",
    "C34_dotted_path_refuted",
    "C34_overshoot_refuted"
   ],
   "note": "Order proved as long as no step reached has more digits than the number of steps; restart proved for names stem.number.ext without other dots. Refuted: names without extension, dots elsewhere in the path, last step with more digits than the number of steps."
  },
  {
   "property": "C35",
   "status": "proved",
   "theorems": [
    "C35_sparse_formula",
    "C35_serial_star",
    "C35_formula",
    "C35_vector_formula",
    "C35_constant",
    "C35_affine",
    "C35_quadratic",
    "C35_linear"
   ],
   "note": "Exact rational arithmetic: rounding is not modelled. Formula, linearity and quadratics in both builds wherever the stencil is defined; constants, affine functions and definedness on every serial grid."
  },
  {
   "property": "C36",
   "status": "proved",
   "theorems": [
    "C36_sum",
    "C36_diffusion",
    "C36_cahn_hilliard"
   ],
   "note": "Exact rational arithmetic. Periodic axes and axes with Neumann or Dirichlet sides (which the library treats alike); mirror sides do not conserve (C36_mirror_case). For the diffusion and Cahn-Hilliard examples, any number of steps."
  },
  {
   "property": "C37",
   "status": "proved",
   "theorems": [
    "C37_gradient_formula",
    "C37_field_gradient",
    "C37_gradient_affine",
    "C37_gradient_sum",
    "C37_vector_divergence",
    "C37_vector_divergence_refuted"
   ],
   "note": "Exact rational arithmetic. The scalar claims hold; the vector divergence computes, in component j, the sum over all axes of the derivatives of field j, which is not the divergence (C37_vector_divergence_refuted)."
  },
  {
   "property": "C38",
   "status": "partial",
   "theorems": [
    "C38_bounds_partial",
    "C38_refuted"
   ],
   "note": "False as stated: in bounds if and only if there are no more fields than dimensions (C38_bounds_partial); refuted otherwise."
  },
  {
   "property": "C39",
   "status": "proved",
   "theorems": [
    "C39_integer_grains",
    "C39_vector_grains",
    "C39_sparse_grains",
    "C39_sparse_negative_refuted"
   ],
   "note": "Proved for the three versions of the function, any dimension and number of ranks, every schedule. The sparse version requires that a node with items has a positive value; without that the node is counted for grain 0 (refuted case)."
  },
  {
   "property": "C40",
   "status": "proved",
   "theorems": [
    "C40_nearest_seed",
    "C40_periodic_refuted",
    "C40_no_seed"
   ],
   "note": "Proved for the MPI build (exact_voronoi exists only there): any number of ranks, decomposition, boundary conditions, schedule. C40_periodic_refuted: distances are not taken across periodic sides. C40_no_seed: without seeds every node gets label -1."
  },
  {
   "property": "C41",
   "status": "proved",
   "theorems": [
    "C41_pack_unpack",
    "C41_all_ranks_hold_all_seeds"
   ],
   "note": "Pack/unpack at any offset and the complete exchange under every schedule. Condition: three times the number of seeds fits an int."
  },
  {
   "property": "C42",
   "status": "partial",
   "theorems": [
    "C42_rule",
    "C42_every_step",
    "C42_projection",
    "C42_simplex",
    "C42_stale_refuted"
   ],
   "note": "Exact arithmetic. For empty destination cells, as in the first step, proved in full on every domain. For all steps of serial grids: the equation with whatever the destination held before (C42_rule), non-negative fields and totals of at least one (C42_every_step), fields that meet at a node add up to one (C42_projection). That the total is one in later steps is refuted: the destination still holds the values of the step before last and is never emptied."
  },
  {
   "property": "C43",
   "status": "partial",
   "theorems": [
    "C43_pvector",
    "C43_vertices",
    "C43_check_faces_noop",
    "C43_single_edge_refuted",
    "C43_plane"
   ],
   "note": "p-vector, face count, Euler number, vertices and mean edge number proved for every history of calls. The face check is refuted: its loop is never entered, so inconsistent faces stay, and a face with one edge makes computeTopology stop at an assertion. In two dimensions the p-vector holds the number of edges."
  },
  {
   "property": "C44",
   "status": "partial",
   "theorems": [
    "C44_blocks",
    "C44_native",
    "C44_twice",
    "C44_long_vector_refuted",
    "C44_sparse_double_refuted",
    "C44_long_double_refuted",
    "C44_char_refuted",
    "C44_involution_refuted"
   ],
   "note": "utility/wrongendian.cpp. C44_blocks: converting a file of the other byte order (any number of blocks, compressed or not, any number of threads, any write order of the threads) gives the native header and the native blocks in some order, for the supported types with at most 255 elements per cell. C44_native: for a program without MPI the result is byte for byte what the library's output writes. C44_twice: value, buffer, cells of scalar grids. Refuted: vectors longer than 255, sparse grids of 8-byte values (padding), long double, char grids, and converting back (the tool only converts to the native order)."
  },
  {
   "property": "C45",
   "status": "partial",
   "theorems": [
    "C45_MC_PF_MC",
    "C45_MC_sPF_MC",
    "C45_sPF_PF_sPF",
    "C45_three_dimensions_refuted",
    "C45_negative_refuted",
    "C45_spacing_refuted"
   ],
   "note": "Proved for MC->PF->MC (non-negative ids) and MC->sPF->MC (any ids) in every dimension, and for sPF->PF->sPF in every dimension but three. Refuted: sPF2PF makes a 2-D grid from a 3-D one (undefined behaviour or lost axis); a negative id makes MC2PF write out of bounds; no converter keeps the spacing. Serial build; values are rationals."
  },
  {
   "property": "C46",
   "status": "partial",
   "theorems": [
    "C46_round_trip",
    "C46_round_trip_at_zero",
    "C46_origin_spacing_refuted"
   ],
   "note": "The integers of every node come back for every 3-D grid with int sizes and values, with the limits when they start at zero. Refuted for other origins (moved to zero) and for the spacing (reset to one)."
  },
  {
   "property": "C47",
   "status": "partial",
   "theorems": [
    "C47_ising_spins",
    "C47_potts_spins",
    "C47_ising_metropolis",
    "C47_ising_descends",
    "C47_ising_ferromagnet_refuted",
    "C47_potts_metropolis",
    "C47_potts_descends",
    "C47_potts_two_dim_refuted",
    "C47_potts_one_dim_refuted",
    "C47_growth_spins",
    "C47_growth_descends"
   ],
   "note": "Serial build; exp test is an argument (hot), rand() a sequence. Spins stay in the allowed set for any boundary conditions and steps (Ising, Potts, grain growth). Metropolis rule and descent at zero temperature: Ising with respect to the antiferromagnet, Potts in 3-D, grain growth in 2-D and 3-D. Refuted: Ising with respect to the ferromagnet announced in its notes (wrong sign), Potts in 1-D (no neighbours counted) and 2-D (only one axis counted)."
  },
  {
   "property": "C48",
   "status": "proved",
   "theorems": [
    "C48_apart",
    "C48_partition",
    "C48_any_order",
    "C48_pass"
   ],
   "note": "2-D and 3-D, every box of any origin. C48_apart, C48_partition (each node in exactly one sublattice cell), C48_any_order (any two interleavings with the same attempts per node give the same grid), C48_pass (the loop makes such attempts)."
  },
  {
   "property": "C49",
   "status": "partial",
   "theorems": [
    "C49_terminates",
    "C49_thin_refuted",
    "C49_unfair_refuted"
   ],
   "note": "Terminates for all boxes with sides of two nodes or more and fair random numbers; attempts bounded by the number of cells. Refuted: a side of one node starting at an even coordinate never terminates for any random numbers; no bound without fairness."
  },
  {
   "property": "C50",
   "status": "partial",
   "theorems": [
    "C50_bar_partial",
    "C50_twenty",
    "C50_count_refuted",
    "C50_footer_refuted",
    "C50_overflow_refuted"
   ],
   "note": "Proved: called for 0..steps-1 the bar prints its header once, its dots in order and its footer once, with the exact number of dots for every number of steps (gcd(20,steps)-1, or steps-2 when steps divides 20). Refuted: the number of dots depends on the number of steps, a single step has no footer, and 20*step overflows for long runs."
  },
  {
   "property": "C51",
   "status": "partial",
   "theorems": [
    "C51_image",
    "C51_one_to_one",
    "C51_value",
    "C51_contour",
    "C51_field_contour",
    "C51_contour_refuted",
    "C51_zoom_partial",
    "C51_zoom_refuted",
    "C51_zoom_image_refuted",
    "C51_constant_refuted",
    "C51_default_slice",
    "C51_level_refuted",
    "C51_midpoint_refuted",
    "C51_exclude_refuted"
   ],
   "note": "Proved for every grid of one to three dimensions, kind of cell, slice in the grid and zoom range with zoomin < zoomax: the scale runs between the extremes of data and zoom limits, every pixel is the intensity 0..255 of its node (minimum 0, maximum 255), pixels and nodes of the slice correspond one to one, the numbers shown and the contours are as documented. Refuted: contours of lines and planes of scalars have no effect; --zoom misses the minimum at the first node; constant data on an empty scale; --slice without level and default slice of a shifted grid give no picture; --exclude of one field of sparse data scales by squares."
  },
  {
   "property": "C52",
   "status": "partial",
   "theorems": [
    "C52_old_format_partial",
    "C52_refuted",
    "C52_output_refuted",
    "C52_library_refuted"
   ],
   "note": "Refuted for the format the library writes: for every grid the utility aborts or reads past the end, since the first pair of boundary conditions is taken for the block size. Proved: old files without boundary conditions are converted to the compressed variant of that format with recoverable data, which the library does not read either."
  },
  {
   "property": "C53",
   "status": "proved",
   "theorems": [
    "C53_sparse_self_assignment_refuted",
    "C53_vector_self_assignment_refuted"
   ],
   "note": "False of the code: refuted."
  },
  {
   "property": "C54",
   "status": "proved",
   "theorems": [
    "C54_append_refuted",
    "C54_append_vector_refuted"
   ],
   "note": "False of the code: refuted."
  },
  {
   "property": "C55",
   "status": "proved",
   "theorems": [
    "C55_sparse_scale_aliased_refuted",
    "C55_vector_scale_aliased_refuted"
   ],
   "note": "False of the code: refuted."
  },
  {
   "property": "C56",
   "status": "proved",
   "theorems": [
    "C56_copy_sparse_refuted"
   ],
   "note": "False of the code: refuted."
  },
  {
   "property": "C57",
   "status": "proved",
   "theorems": [
    "C57_free_copy_refuted"
   ],
   "note": "False of the code: refuted."
  },
  {
   "property": "C58",
   "status": "partial",
   "theorems": [
    "C58_defined_partial",
    "C58_accepted",
    "C58_missing_steps_refuted"
   ],
   "note": "Proved for all argument lists whose numerals fit in int, except for two arguments of which the second is not a number, where argv[3] (null) is dereferenced (refuted). A fourth argument after infile steps increment is accepted and ignored."
  },
  {
   "property": "C59",
   "status": "proved",
   "theorems": [
    "C59_maximum_principle",
    "C59_example_factor_refuted"
   ],
   "note": "Exact rational arithmetic, serial build. The principle holds for every factor within the bound; the example's factor 0.3 exceeds it in two dimensions (C59_example_factor_refuted)."
  },
  {
   "property": "C60",
   "status": "proved",
   "theorems": [
    "C60_parallel_equals_serial",
    "C60_unconditional_bounds_refuted",
    "C60_stale_ghosts_refuted"
   ],
   "note": "C60_parallel_equals_serial: for any serialisable cell type and any rule on the star, every schedule ends and every rank's nodes equal the serial field. The claim about the shipped examples is false: C60_unconditional_bounds_refuted (MMSPDiffusion2D.cpp sets b0/b1 on inner sides too) and C60_stale_ghosts_refuted (MMSPDiffusion.cpp exchanges the superseded grid)."
  },
  {
   "property": "C61",
   "status": "proved",
   "theorems": [
    "C61_file_seeds_partitioned",
    "C61_file_tessellation",
    "C61_edge_seed_lost_refuted",
    "C61_random_seeds_in_domain"
   ],
   "note": "Doubles are rationals, the text of the file is not modelled. C61_edge_seed_lost_refuted: a coordinate of exactly 1 is dropped by every rank."
  },
  {
   "property": "C62",
   "status": "proved",
   "theorems": [
    "C62_never_returns",
    "C62_terminates_refuted"
   ],
   "note": "Refuted in the strongest form: C62_never_returns shows that no run with a seed returns (distances below INT_MAX), because the loop counters of propagate_distance are changed by check_boundary; C62_terminates_refuted gives a run that is provably still going after any number of iterations, without undefined behaviour."
  },
  {
   "property": "C63",
   "status": "partial",
   "theorems": [
    "C63_every_step",
    "C63_growth_rule",
    "C63_field_returns_refuted"
   ],
   "note": "Exact arithmetic. The rule is proved for every step and every content of the second grid (C63_every_step); that removed fields do not come back holds for empty destination cells, as in the first step, and is refuted for later steps."
  },
  {
   "property": "C64",
   "status": "proved",
   "theorems": [
    "C64_volume"
   ],
   "note": "Exact arithmetic."
  },
  {
   "property": "C65",
   "status": "proved",
   "theorems": [
    "C65_sequence",
    "C65_sequence_exists",
    "C65_array_seed",
    "C65_array_exists",
    "C65_array_low_bits",
    "C65_empty_array_refuted",
    "C65_output",
    "C65_tempering_injective",
    "C65_at_most",
    "C65_unbiased",
    "C65_reals",
    "C65_save_restore"
   ],
   "note": "Reals are exact rationals; the values are exact in double except rand(), which rounds. randNorm and seeding from the clock are not modelled. An empty seed array is read out of bounds (refuted)."
  },
  {
   "property": "C66",
   "status": "partial",
   "theorems": [
    "C66_centroid",
    "C66_estimate",
    "C66_estimate_refuted"
   ],
   "note": "Weighted mean proved; the estimate is characterised exactly, and refuted as lying in the box of the points: coordinates nearer to the upper side of the grain's own box are always counted from there."
  },
  {
   "property": "C67",
   "status": "proved",
   "theorems": [
    "C67_model_B",
    "C67_ostwald"
   ],
   "note": "exact arithmetic; sides periodic, Neumann or Dirichlet. C67_mirror_case shows that mirror sides do not conserve."
  },
  {
   "property": "C68",
   "status": "proved",
   "theorems": [
    "C68_allen_cahn",
    "C68_grains"
   ],
   "note": "exact arithmetic; C68_case checks the bounds for the constants of the examples, C68_large_step_case shows that a bound is needed."
  },
  {
   "property": "C69",
   "status": "proved",
   "theorems": [
    "C69_simplex"
   ],
   "note": "exact arithmetic; energies, mobilities and eps are arbitrary functions."
  },
  {
   "property": "C70",
   "status": "partial",
   "theorems": [
    "C70_sparse_anisotropic_refuted",
    "C70_dense",
    "C70_monte_carlo",
    "C70_anisotropic_refuted",
    "C70_sparse_refuted"
   ],
   "note": "proved for both Monte Carlo programs and the isotropic dense program; false of the anisotropic dense and sparse programs (rescaling moves particles, C70_anisotropic_refuted, C70_sparse_anisotropic_refuted) and of the isotropic sparse program (its test looks at the node number, C70_sparse_refuted)."
  },
  {
   "property": "C71",
   "status": "partial",
   "theorems": [
    "C71_diffusion",
    "C71_allen_cahn",
    "C71_cahn_hilliard",
    "C71_model_A",
    "C71_model_B",
    "C71_ostwald",
    "C71_grains",
    "C71_multiphase",
    "C71_solidification_refuted"
   ],
   "note": "proved for all explicit programs modelled; false of the solidification program on a whole class of states (C71_solidification_refuted): update resets refGrid in every call."
  },
  {
   "property": "C72",
   "status": "partial",
   "theorems": [
    "C72_balance",
    "C72_enthalpy_refuted"
   ],
   "note": "proved in the form that holds of the code: the latent heat of the last step of every call is lost (C72_balance); the plain claim is false on a whole class of states (C72_enthalpy_refuted)."
  },
  {
   "property": "C73",
   "status": "proved",
   "theorems": [
    "C73_metropolis",
    "C73_isotropic",
    "C73_anisotropic"
   ],
   "note": "the two tests of the random number (exp) are arguments; energies are exact rationals."
  },
  {
   "property": "C74",
   "status": "partial",
   "theorems": [
    "C74_opens_partial",
    "C74_long_double_refuted",
    "C74_scalar_refuted"
   ],
   "note": "proved for the supported kinds and elements; refuted for whole classes: long double is opened by none of them (the test for long comes first), MMSP::scalar grids not by mmsp2png, mmsp2tsv and mmsp2xyz. mmsp2pvd reads files itself (see the model of it)."
  },
  {
   "property": "C75",
   "status": "partial",
   "theorems": [
    "C75_scalar",
    "C75_vector",
    "C75_sparse",
    "C75_max_magnitude_refuted",
    "C75_empty_sparse_refuted"
   ],
   "note": "proved for all three kinds; refuted: --max shows the greatest value, not the greatest magnitude as its comment says, and is undefined for empty sparse objects. The XML writer is not modelled."
  },
  {
   "property": "C76",
   "status": "partial",
   "theorems": [
    "C76_scalar_table",
    "C76_vector_table",
    "C76_sparse_table",
    "C76_char_refuted"
   ],
   "note": "proved for every text form of numbers without tabs and newlines; refuted for grids of char and unsigned char, whose cells are written as characters."
  },
  {
   "property": "C77",
   "status": "partial",
   "theorems": [
    "C77_scalar_points",
    "C77_vector_points",
    "C77_sparse_points",
    "C77_zero_level_refuted",
    "C77_tolerance_refuted"
   ],
   "note": "proved for levels other than 0; refuted: the contour of level 0 is empty, and the first character of --contol= is lost."
  },
  {
   "property": "C78",
   "status": "partial",
   "theorems": [
    "C78_series",
    "C78_output_last_refuted",
    "C78_same_name_refuted",
    "C78_blocks_refuted",
    "C78_spacing_refuted",
    "C78_long_double_refuted"
   ],
   "note": "C78_series proves the order, the names and the images for files of one block and spacing 1, for any image function; the remaining cases of the English claim are refuted for whole classes: index named last (C78_output_last_refuted), equal stems (C78_same_name_refuted), several blocks (C78_blocks_refuted), spacing (C78_spacing_refuted), long double (C78_long_double_refuted). The XML text of the index is not modelled; what the image function computes is C75."
  },
  {
   "property": "C79",
   "status": "proved",
   "theorems": [
    "C79_space_written",
    "C79_space",
    "C79_plane_written",
    "C79_plane",
    "C79_plane_fields_refuted",
    "C79_plane_order",
    "C79_space_order",
    "C79_span_low",
    "C79_span_high_refuted",
    "C79_plane_order_refuted",
    "C79_identifier_refuted",
    "C79_single_edge_refuted"
   ],
   "note": "C79_space_written and C79_plane_written say exactly when a table is written; C79_space and C79_plane determine it, both parts and the number of columns, from the stored fields. The theorems named _refuted show the limits that the statement names: one field per title in the plane, visiting a plane in general, the upper end of the span, identifiers from 2^16 on, three grains that meet along one line in space (C79_single_edge_refuted: no table). In the plane three grains that meet once have two vertices each (C79_plane_case)."
  },
  {
   "property": "C80",
   "status": "proved",
   "theorems": [
    "C80_schedule",
    "C80_odd_refuted",
    "C80_negative_refuted"
   ],
   "note": "C80_schedule, for the whole update. Iterations are taken to be atomic; two iterations of one colour touch disjoint data (Proof/SplitP.v), so this is no restriction on the grids of the theorem. C80_odd_refuted and C80_negative_refuted: three nodes on a ring, and nodes -2 to 1."
  },
  {
   "property": "C81",
   "status": "proved",
   "theorems": [
    "C81_fixed_points",
    "C81_accepted",
    "C81_solute",
    "C81_solute_exact"
   ],
   "note": "C81_fixed_points, C81_accepted, C81_solute, C81_solute_exact. The square root is a parameter; C81_solute assumes it correct up to a factor."
  },
  {
   "property": "C82",
   "status": "partial",
   "theorems": [
    "C82_unique",
    "C82_energy",
    "C82_energy_parametric_partial",
    "C82_energy_parametric_refuted"
   ],
   "note": "C82_unique for both energies; C82_energy for the vanilla energy without restriction. For the parametric energy it is proved for concentrations of at least -0.3 (C82_energy_parametric_partial) and refuted in general (C82_energy_parametric_refuted): the expansive part of that energy is not concave below, and on a ring of six nodes an exactly solved step with a large dt raises the energy."
  },
  {
   "property": "C83",
   "status": "proved",
   "theorems": [
    "C83_fixed",
    "C83_converse",
    "C83_unique",
    "C83_boundary"
   ],
   "note": "C83_fixed, C83_converse, C83_unique (discrete maximum principle), C83_boundary. Doubles are rationals with exact arithmetic."
  },
  {
   "property": "C84",
   "status": "proved",
   "theorems": [
    "C84_error"
   ],
   "note": "C84_error, at any stride."
  },
  {
   "property": "C85",
   "status": "partial",
   "theorems": [
    "C85_linear",
    "C85_cubic",
    "C85_restriction",
    "C85_line_refuted"
   ],
   "note": "C85_linear, C85_cubic, C85_restriction. C85_line_refuted: the one-dimensional overloads do nothing, for every one-dimensional grid."
  },
  {
   "property": "C86",
   "status": "partial",
   "theorems": [
    "C86_update",
    "C86_junk",
    "C86_error",
    "C86_line_refuted",
    "C86_line_far_refuted",
    "C86_sizes_refuted",
    "C86_small_refuted"
   ],
   "note": "C86_update, C86_junk, C86_error. C86_line_refuted and C86_line_far_refuted: one dimension. C86_sizes_refuted, C86_small_refuted: extents none of which is 2^k+1, or one of which is below 5. Convergence rates are not addressed."
  },
  {
   "property": "C87",
   "status": "proved",
   "theorems": [
    "C87_answers",
    "C87_boundary",
    "C87_history"
   ],
   "note": "The functions that compute the values are arbitrary; double arithmetic is exact."
  },
  {
   "property": "C88",
   "status": "partial",
   "theorems": [
    "C88_unit",
    "C88_rule_partial",
    "C88_round_refuted",
    "C88_energy_refuted",
    "C88_ferromagnet_refuted"
   ],
   "note": "Unit length and definedness are proved for every grid. The acceptance rule is proved with a spurious term, the product of the old and the new spin (the loop over neighbours does not skip the node itself), and the full rule is refuted: no function of the grid is lowered by every accepted attempt at temperature zero, and the sign of the coupling is that of an antiferromagnet, not of a ferromagnet."
  },
  {
   "property": "C89",
   "status": "partial",
   "theorems": [
    "C89_rule",
    "C89_every_step",
    "C89_projection",
    "C89_stale_refuted",
    "C89_particles"
   ],
   "note": "Exact arithmetic; sqrt and acos enter as arbitrary symmetric coefficients; serial grids. Proved for all steps: the equation, signs, sums of the fields that meet at a node, and that the total never falls below one. That the total of all stored fields is one is proved for the first step and refuted for later ones: the cell written to still holds the step before last (C89_stale_refuted)."
  },
  {
   "property": "C90",
   "status": "proved",
   "theorems": [
    "C90_temperature",
    "C90_selection",
    "C90_attempt",
    "C90_update"
   ],
   "note": "Exact arithmetic; exp is an argument, used only as a positive increasing function. C47 (grain growth), C48 and C49 are now proved for every selection rule, hence for both programs."
  },
  {
   "property": "C91",
   "status": "partial",
   "theorems": [
    "C91_directions",
    "C91_heisenberg_run",
    "C91_poisson",
    "C91_spins",
    "C91_noise",
    "C91_two_grains",
    "C91_four_grains",
    "C91_particles",
    "C91_particles_sparse",
    "C91_particles_dense_partial",
    "C91_particles_dense_refuted",
    "C91_spin_runs",
    "C91_zener_run",
    "C91_phase_runs",
    "C91_sparse_runs",
    "C91_potential",
    "C91_consistent",
    "C91_amplitude",
    "C91_seed",
    "C91_zero"
   ],
   "note": "Proved for the Ising, Potts, Monte Carlo grain growth, explicit and semi-implicit Cahn-Hilliard, Allen-Cahn, Ostwald, solidification (seed: distance below 6), model A, model B and spinodal starts, dense and sparse grains, and particles in the Monte Carlo and sparse Zener programs, with runs for Ising, Potts, Zener Monte Carlo, Allen-Cahn, dense and sparse grains. Refuted for the dense Zener programs (C91_particles_dense_refuted): field 2 is never set outside the discs and particles, so it takes any value the memory held. The directions of the Heisenberg program and the right-hand side of the Poisson program are determined up to the functions cos, sin, acos and exp, of which only cos^2 + sin^2 = 1 is used (C91_directions, C91_heisenberg_run, C91_poisson)."
  },
  {
   "property": "C92",
   "status": "proved",
   "theorems": [
    "C92_text",
    "C92_once",
    "C92_exact",
    "C92_rounding",
    "C92_exact_refuted",
    "C92_signs",
    "C92_signed_rounding",
    "C92_serial",
    "C92_parallel"
   ],
   "note": "Proved for the text that the default stream settings produce (%.6g) and for strtod with rounding to 53 binary digits (C92_rounding) or any rounding at least that accurate in the eighth digit. The exactness that C19 and C20 assume of the spacings is characterised by C92_exact; C92_exact_refuted gives the spacings (1/3, for example) that are not restored. C92_signs: negative spacings; whole files are stated for positive ones. Subnormal and infinite spacings are left out."
  },
  {
   "property": "C93",
   "status": "partial",
   "theorems": [
    "C93_first",
    "C93_profile",
    "C93_converges",
    "C93_second",
    "C93_last_step_refuted",
    "C93_ranks_refuted"
   ],
   "note": "The claims about 1stDiffusion are proved. MMSPDiffusion prints what 1stDiffusion prints after one iteration less (C93_second), so it does not print the state of the last iteration (C93_last_step_refuted), and on several ranks it is undefined on every rank that begins beyond node 1 (C93_ranks_refuted). Doubles are rational numbers; the input dialogue is not modelled."
  },
  {
   "property": "C94",
   "status": "partial",
   "theorems": [
    "C94_sheet",
    "C94_bounds_refuted",
    "C94_growth"
   ],
   "note": "The values printed are proved to be those of the sheet (C94_sheet). That they stay between 0 and 1 is refuted for every length from 4 on: they exceed every bound from some iteration on (C94_bounds_refuted), and exponentially (C94_growth), because the factor 0.3 is above 1/4 (C59 proves the bounds up to there). Exact arithmetic: with doubles the growth ends in overflow."
  },
  {
   "property": "C95",
   "status": "partial",
   "theorems": [
    "C95_fast_march",
    "C95_ends",
    "C95_labels",
    "C95_euclid_refuted",
    "C95_periodic_refuted",
    "C95_strip_refuted",
    "C95_neighbours_refuted"
   ],
   "note": "Proved: the loop ends for all seeds (C95_ends); with at least two cells along each axis and seeds of which no two are neighbours there is no undefined behaviour, and every node gets a seed nearest in the Manhattan metric (C95_fast_march); whenever there is a result, it is this one (C95_labels). Nearest in the Euclidean metric is refuted (C95_euclid_refuted), so is nearest on the torus (C95_periodic_refuted), and on a strip one cell wide the program is undefined (C95_strip_refuted). With neighbouring seeds the program can be undefined too (C95_neighbours_refuted: four seeds on a 6 x 6 grid). Serial build only."
  },
  {
   "property": "C96",
   "status": "partial",
   "theorems": [
    "C96_labels",
    "C96_labels_refuted"
   ],
   "note": "Proved: the end of the program on every schedule and the exact label of every node (C96_labels). Each rank holds its own seeds twice, so the numbers depend on the rank: refuted for every grain that reaches from its seed's rank to a lower rank with seeds (C96_labels_refuted). Random numbers are arguments; messages on standard output are left out."
  },
  {
   "property": "C97",
   "status": "partial",
   "theorems": [
    "C97_read",
    "C97_ranks",
    "C97_round_trip_refuted",
    "C97_fallen",
    "C97_empty_refuted"
   ],
   "note": "Proved: what a file gives (C97_read). The round trip is refuted for every nonempty list of seeds: one seed more comes back (C97_round_trip_refuted) and positive coordinates are one less (C97_fallen, exact up to 1414 cells along an axis); an empty list leads to the use of an uninitialised number (C97_empty_refuted). C97_ranks: several ranks together keep the seeds that one process keeps. The text is modelled as the list of its numbers and whether white space follows the last; doubles are rationals."
  },
  {
   "property": "C98",
   "status": "partial",
   "theorems": [
    "C98_lattice",
    "C98_ranks_refuted",
    "C98_negative_refuted"
   ],
   "note": "Proved for one process, a domain that begins at the origin and an even spacing (C98_lattice). Refuted: that each seed comes from one rank (C98_ranks_refuted) and that the lattice covers domains that begin below -a (C98_negative_refuted). Spacings below 2 are None in the model (1 and 0 divide by zero)."
  },
  {
   "property": "C99",
   "status": "proved",
   "theorems": [
    "C99_job",
    "C99_campaign",
    "C99_raw_builds"
   ],
   "note": "C99_job: one job, every schedule; C99_campaign: any number of jobs, existence and correctness of what they lead to; C99_raw_builds: in RAW builds the condition on what can be written follows from a bound on sizes. Conditions: successive numbers of ranks suit each other (evenly, see C25), every rank has cells and at least as many as ghost layers, blocks are smaller than int_max bytes and recognisable (see C21, C23). Updates are those with one ghostswap per step (Allen-Cahn form). Serialisation, compression and the text of spacings are arguments with their contracts."
  },
  {
   "property": "C100",
   "status": "proved",
   "theorems": [
    "C100_parallel_equals_serial",
    "C100_model_B",
    "C100_conserves"
   ],
   "note": "C100_parallel_equals_serial: any two rules; C100_model_B: the loops of model B as written, against model_B_step of C67; C100_conserves: the total over all ranks. Arithmetic is exact (rationals), so sums and Laplacians do not depend on order. Random numbers are a function of step and node, that is, the statement compares runs that draw the same numbers. Conditions on ranks as for C60."
  },
  {
   "property": "C101",
   "status": "proved",
   "theorems": [
    "C101_serial_order",
    "C101_gradient",
    "C101_every_node",
    "C101_thin_refuted",
    "C101_odd_refuted"
   ],
   "note": "C101_serial_order for any selection of nodes that is the same on all processes, which C101_gradient shows for the temperature gradient. The conditions in the statement are needed: C101_thin_refuted (a process one node wide never ends a sweep) and C101_odd_refuted (an odd side makes the exchange of a sublattice fail, C18). exp and rand are arguments; spins are integers in any sound serialisation."
  },
  {
   "property": "C102",
   "status": "partial",
   "theorems": [
    "C102_rounds_partial",
    "C102_ising",
    "C102_potts",
    "C102_heisenberg",
    "C102_zener",
    "C102_once",
    "C102_hang",
    "C102_hang_refuted",
    "C102_descent_refuted"
   ],
   "note": "C102_rounds_partial proves the rounds and the end of the run for any trial that looks at the nodes around it, when all processes exchange equally often in a step; C102_ising, C102_potts, C102_heisenberg and C102_zener show that the trials of the examples are such, and are the attempts of the serial programs on one process. C102_once: the Zener programs, and all in one dimension, exchange once in a step, so they end on every division. Otherwise the end is false: C102_hang (two processes with different numbers of exchanges never finish) and C102_hang_refuted (the domains the examples generate, on 3 and on 7 processes). C102_descent_refuted: on two processes the energy rises at temperature zero, as two adjacent nodes turn between exchanges. exp, rand, cos and sin are arguments."
  },
  {
   "property": "C103",
   "status": "proved",
   "theorems": [
    "C103_allen_cahn",
    "C103_model_A",
    "C103_dense",
    "C103_multiphase",
    "C103_grow",
    "C103_aniso",
    "C103_ostwald",
    "C103_model_B",
    "C103_zener_grow_refuted"
   ],
   "note": "One theorem for each program (C103_allen_cahn, _model_A, _dense, _multiphase, _grow, _aniso, _ostwald): if the sequence of calls is defined in the serial build, every execution on np ranks ends and each rank holds the serial values on the nodes it owns. C103_dense and C103_multiphase cover grain growth and, with pinned, Zener pinning. In the sparse programs newGrid starts with empty cells, as the constructor leaves them, and cells keep what they held two steps before, which the theorems follow. C103_zener_grow_refuted: the sparse isotropic Zener program compares the number of the node with 0 (zener.cpp:153), so every rank freezes its own first node and the result differs from the serial one. Doubles are exact rationals; energies, mobilities and the square root in the anisotropic programs are arguments. C103_model_B covers model B, the explicit Cahn-Hilliard program (noise 0) and the spinodal program (r = u = K = 1), which exchange the potential between two loops. The conclusions also say that the serial grid and the grids of the ranks keep their sizes and hold valid values only (computes, Spec/Program.v)."
  },
  {
   "property": "C104",
   "status": "proved",
   "theorems": [
    "C104_convex_splitting",
    "C104_odd_refuted"
   ],
   "note": "C104_convex_splitting: for every number of processes the program ends in every execution, with the field of the serial build (for any schedule of its threads, C80) or with Abort on all ranks when the serial build aborts; the serial run is never undefined. The pass over one colour on a rank reads only former values, because a neighbour has the other colour (also through boundary conditions), and the three MPI_Allreduce sums equal the serial sums in exact arithmetic. C104_odd_refuted: with 3 nodes around a periodic axis two processes compute another field than one. Real processes add doubles in another order than the serial loop; that rounding is outside the model."
  },
  {
   "property": "C105",
   "status": "proved",
   "theorems": [
    "C105_solidification"
   ],
   "note": "C105_solidification: for every number of processes the program ends in every execution with the field of the serial build. The flux grid is made anew with a barrier in every step, exchanged after its loop; refGrid is static, made with a barrier in the first call only, set again in each call and never exchanged. The loop writes newGrid and refGrid at its own node only, so it is two passes. flux and melt stand for the anisotropy (atan2, tan) and the driving force (atan); arithmetic is exact."
  },
  {
   "property": "C106",
   "status": "proved",
   "theorems": [
    "C106_job",
    "C106_campaign",
    "C106_allen_cahn",
    "C106_model_A",
    "C106_model_B",
    "C106_dense",
    "C106_multiphase",
    "C106_ostwald",
    "C106_grow",
    "C106_aniso",
    "C106_solidification",
    "C106_raw_builds"
   ],
   "note": "C106_job and C106_campaign are C99 for any update() that is faithful (gives, from the same field, the field of the serial build in every execution); C106_allen_cahn, _model_A, _model_B, _dense, _multiphase, _ostwald, _grow, _aniso and _solidification show that the examples are. As in C25 successive numbers of processes must divide the grid so that every process reads equally many blocks, and as in C21 and C23 blocks must be recognisable and smaller than int_max bytes; C106_raw_builds gives the latter for builds without compression. The random numbers of a step are taken to be the same for a node whichever process has it. Increments divide the steps left, as in C99."
  },
  {
   "property": "C107",
   "status": "partial",
   "theorems": [
    "C107_options",
    "C107_documented_partial",
    "C107_documented_refuted",
    "C107_short_tolerance_refuted",
    "C107_zoom_refuted",
    "C107_contour_refuted",
    "C107_defined",
    "C107_name",
    "C107_input_kept",
    "C107_name_refuted",
    "C107_two_files_refuted",
    "C107_input_refuted",
    "C107_unknown_refuted",
    "C107_axis_refuted"
   ],
   "note": "Exact settings for all sequences of well-formed options; all arguments without the listed malformed numbers are accepted or refused without undefined behaviour; the output never has the name of the input, for all argument lists. Refuted: the first character after --contol= is lost, --contol=c, --zoom=a and --contour= are undefined behaviour, a dot in a directory name cuts the output name, misspelt options and a second file without the extension become the input, an unknown axis is accepted after a known one."
  },
  {
   "property": "C108",
   "status": "partial",
   "theorems": [
    "C108_ising",
    "C108_potts",
    "C108_growth",
    "C108_heisenberg",
    "C108_noise",
    "C108_ostwald",
    "C108_zero",
    "C108_poisson",
    "C108_two_grains",
    "C108_bricks",
    "C108_two_grains_sparse",
    "C108_bricks_sparse",
    "C108_seed",
    "C108_split",
    "C108_split_noise",
    "C108_file",
    "C108_campaign",
    "C108_particles",
    "C108_particles_sparse",
    "C108_particles_dense",
    "C108_more_particles",
    "C108_particles_refuted"
   ],
   "note": "Proved for all starts that set each node from its position or from its own random numbers, for the convex-splitting start with its exchange of ghost cells, for the file and for campaigns. For the particles: exactly what the ranks make, each its own within its own nodes. Refuted: particles do not cross the sides of a rank's block, even with one process on a periodic grid, and every rank draws as many as the serial program draws in all."
  },
  {
   "property": "C109",
   "status": "partial",
   "theorems": [
    "C109_series",
    "C109_no_extension_refuted",
    "C109_tsv_refuted",
    "C109_own_ending_refuted",
    "C109_vox_refuted",
    "C109_given_name",
    "C109_defined",
    "C109_option_alone_refuted",
    "C109_option_last_refuted"
   ],
   "note": "Proved for all converters but MC2vox and every run whose output name has an extension other than that of the results (mmsp2tsv, mmsp2png and mmsp2xyz: also without extension). Refuted: without an extension all results of mmsp2vti and of the grid converters get one name; mmsp2tsv empties a grid file that ends in .tsv; MC2vox uses the ending of MC2PF; mmsp2vti with an option and no file is undefined behaviour, and an option after the file is taken for the name of the result."
  },
  {
   "property": "C110",
   "status": "proved",
   "theorems": [
    "C110_job",
    "C110_campaign"
   ],
   "note": "For uncompressed and compressed builds, subject to what C25 (numbers of ranks that suit each other), C21 and C23 (what can be written) require. That even sides and two nodes per rank are needed is C101. Sweeps are bounded by a number of attempts that may be as large as one likes; that some bound is enough is part of the claim."
  },
  {
   "property": "C111",
   "status": "proved",
   "theorems": [
    "C111_serial_reads",
    "C111_serial_writes",
    "C111_writes_alone",
    "C111_run",
    "C111_same_program",
    "C111_campaign"
   ],
   "note": "Subject, for the parallel runs, to what C25 (numbers of ranks that suit each other) and C21 and C23 (what can be written) require; the serial program reads files of every number of ranks. C111_same_program: the update() of every program of C106 qualifies."
  },
  {
   "property": "C112",
   "status": "proved",
   "theorems": [
    "C112_opens",
    "C112_same",
    "C112_refuses",
    "C112_campaign"
   ],
   "note": "Which types are supported is C74's finding (not long double; MMSP::scalar only by mmsp2vti). mmsp2pvd reads the blocks itself and is not included."
  },
  {
   "property": "C113",
   "status": "proved",
   "theorems": [
    "C113_here",
    "C113_converts",
    "C113_serial",
    "C113_opens",
    "C113_parallel"
   ],
   "note": "C113_here shows that the description of files by numbers (Spec/Moved.v) gives, for this machine's byte order, the bytes that the library writes. Types and sizes outside the hypotheses are refuted in C44."
  },
  {
   "property": "C114",
   "status": "partial",
   "theorems": [
    "C114_counts",
    "C114_averages",
    "C114_low",
    "C114_high",
    "C114_high_refuted",
    "C114_rules",
    "C114_plane_rules"
   ],
   "note": "C114_high_refuted: the upper end of the span is wrong in general; C114_high gives a case in which it bounds the centres of all grains but the first. Everything else in the statement is proved. Averages over no bulk grain are divisions by zero (no value). Floats are exact rationals."
  },
  {
   "property": "C115",
   "status": "partial",
   "theorems": [
    "C115_serial",
    "C115_parallel",
    "C115_tools",
    "C115_undefined",
    "C115_rejected_refuted"
   ],
   "note": "C115_rejected_refuted: of every file, the part without its last byte is not refused, and C115_undefined says that no part with a complete type line is. C115_serial, C115_parallel and C115_tools: it is never taken for a grid. A read at the end of the file is undefined behaviour in the model (the bytes not read are never written), a text number at the end of the file likewise. A number in the text header that loses its last digits is read as a shorter number; the theorem covers this since the file then ends."
  },
  {
   "property": "C116",
   "status": "partial",
   "theorems": [
    "C116_index",
    "C116_again",
    "C116_current_refuted",
    "C116_listed_refuted",
    "C116_failure_refuted",
    "C116_index_name_refuted",
    "C116_run"
   ],
   "note": "C116_index, C116_again and C116_run (the files of a driver run) for names with dat only as the ending; the rest of the promise is refuted (C116_current_refuted, C116_listed_refuted, C116_failure_refuted, C116_index_name_refuted). Jobs that run at the same time are taken one after the other in any order; names have no blanks or shell characters; GNU parallel is installed."
  },
  {
   "property": "C117",
   "status": "partial",
   "theorems": [
    "C117_compress",
    "C117_compress_stdin",
    "C117_in_place_refuted",
    "C117_failure_refuted",
    "C117_moved",
    "C117_swap_files",
    "C117_swap_in_place_refuted",
    "C117_no_threads_refuted",
    "C117_table",
    "C117_short_type_refuted",
    "C117_help_refuted"
   ],
   "note": "Proved: C117_compress, C117_compress_stdin, C117_moved (with C113), C117_swap_files, C117_table. Refuted: C117_in_place_refuted, C117_swap_in_place_refuted, C117_failure_refuted, C117_no_threads_refuted, C117_help_refuted, C117_short_type_refuted. Every file can be opened for writing, two texts are the same file only if they are equal; the contents of the table are a parameter here (C79)."
  },
  {
   "property": "C118",
   "status": "proved",
   "theorems": [
    "C118_text",
    "C118_injective",
    "C118_length",
    "C118_read",
    "C118_round_trip",
    "C118_sorted"
   ],
   "note": "The text of an int is what operator<< and sprintf with %d give in the C locale, and reading is operator>> with the format flags of a new stream; these belong to the standard library and are modelled by their specification. The other theorems write numbers with this text (show_int), which C118_text pins down without it."
  },
  {
   "property": "C119",
   "status": "proved",
   "theorems": [
    "C119_format",
    "C119_header",
    "C119_cells",
    "C119_injective",
    "C119_numbers"
   ],
   "note": "For a little-endian machine with four-byte int and eight-byte unsigned long, as in the rest of the model. The spacings are lines with the text of a double, an argument of the model (C92 gives its digits). The processes must be able to write the field (checkpoint, Spec/Jobs.v); a serial file is that of one process by C111."
  },
  {
   "property": "C120",
   "status": "proved",
   "theorems": [
    "C120_allen_cahn",
    "C120_model_A",
    "C120_diffusion",
    "C120_model_B",
    "C120_cahn_hilliard",
    "C120_determined"
   ],
   "note": "Exact arithmetic on rationals; one process without ghost cells. The step is iterated by the programs (C36, C67, C68); the values around a node are those that reading the grid there gives (star, Spec/Stencil.v), boundary conditions included."
  }
 ]
}