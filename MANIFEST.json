{
 "claims": [
  {
   "property": "C01",
   "status": "proved",
   "theorems": [
    "C01_block_partition",
    "C01_block_owner_lookup",
    "C01_block_no_overflow"
   ],
   "note": "exact partition, owner lookup, balanced sizes, no int overflow"
  },
  {
   "property": "C02",
   "status": "proved",
   "theorems": [
    "C02_domain_owner",
    "C02_domain_box",
    "C02_domain_total"
   ],
   "note": "unique owner, box sizes, total"
  },
  {
   "property": "C03",
   "status": "proved",
   "theorems": [
    "C03_band_partition"
   ],
   "note": "includes npband > Nstates"
  },
  {
   "property": "C04",
   "status": "proved",
   "theorems": [
    "C04_every_state_assigned_once",
    "C04_lambda_layout",
    "C04_idle_rank_has_no_kpoints_refuted"
   ],
   "note": "whole spin/k-point/band assignment from raw inputs (Nspin in {1,2}); a refuted side claim: ranks outside every spin group are told they have k-points"
  },
  {
   "property": "C05",
   "status": "proved",
   "theorems": [
    "C05_redistribution_correct",
    "C05_empty_block_refuted"
   ],
   "note": "for process grids with at most as many processes as nodes per direction; the empty-block case (more processes than nodes) is refuted with a witness"
  },
  {
   "property": "C06",
   "status": "proved",
   "theorems": [
    "C06_partner_lists_match",
    "C06_message_lengths_match",
    "C06_pack_stays_in_buffer"
   ],
   "note": "partner lists, message lengths, buffer bounds"
  },
  {
   "property": "C07",
   "status": "proved",
   "theorems": [
    "C07_ndgrid_enumerates",
    "C07_ndgrid_empty_range_refuted"
   ],
   "note": "every bound with lo<=hi; an empty range is refuted with a witness"
  },
  {
   "property": "C08",
   "status": "proved",
   "theorems": [
    "C08_halo_correct",
    "C08_counts_match",
    "C08_scratch_large_enough",
    "C08_more_processes_than_nodes_refuted"
   ],
   "note": "end-to-end exchange incl. extensions wider than a neighbour block, matching of repeated neighbours, scratch array sizes; division by zero for more processes than nodes shown as refuted side claim"
  },
  {
   "property": "C09",
   "status": "proved",
   "theorems": [
    "C09_bp_to_dp",
    "C09_dp_to_bp",
    "C09_round_trip"
   ],
   "note": "all np>=1, Ns>=1, ld>=Nd>=0; both directions and round trip"
  },
  {
   "property": "C10",
   "status": "proved",
   "theorems": [
    "C10_side_by_side_to_stacked",
    "C10_stacked_to_side_by_side",
    "C10_inverse",
    "C10_no_columns_refuted"
   ],
   "note": "for nrow, ncol >= 1 and byte sizes in int range; ncol = 0 refuted (overlapping memcpy on degenerate layout)"
  },
  {
   "property": "C11",
   "status": "proved",
   "theorems": [
    "C11_subgrid_copy",
    "C11_block_copy"
   ],
   "note": "sub-grid and block copies"
  },
  {
   "property": "C12",
   "status": "proved",
   "theorems": [
    "C12_factor_complete",
    "C12_sorted_factor",
    "C12_count_fits_short",
    "C12_large_int_overflow_refuted"
   ],
   "note": "all 1 <= num <= 46340^2; larger int values overflow dvsr*dvsr (refuted side claim); short counter bounded via d(n)^3 <= 1536n/35"
  },
  {
   "property": "C13",
   "status": "proved",
   "theorems": [
    "C13_grid_usable",
    "C13_min_size_1d",
    "C13_min_size_2d",
    "C13_min_size_3d_refuted",
    "C13_zero_min_size_refuted"
   ],
   "note": "positivity and product bound for any rounding; minimum size proved in 1-D and 2-D (exact norms) and refuted in 3-D by a witness"
  },
  {
   "property": "C14",
   "status": "proved",
   "theorems": [
    "C14_two_way_split",
    "C14_three_way_split",
    "C14_three_way_split_fock",
    "C14_fock_small_mesh_refuted",
    "C14_four_way_split"
   ],
   "note": "two-way split is moreover optimal; preconditions: products within int range; exact-exchange split divides by zero on meshes thinner than minsize (refuted)"
  },
  {
   "property": "C15",
   "status": "proved",
   "theorems": [
    "C15_dense_grid_exact"
   ],
   "note": "exact product and orientation, any rounding"
  },
  {
   "property": "C16",
   "status": "proved",
   "theorems": [
    "C16_chunks_equal_whole",
    "C16_chunk_size",
    "C16_empty_refuted"
   ],
   "note": "count >= 1; count = 0 refuted"
  },
  {
   "property": "C17",
   "status": "proved",
   "theorems": [
    "C17_overrun_exact",
    "C17_same_object",
    "C17_canonical",
    "C17_output_bounded",
    "C17_overrun_refuted",
    "C17_blank_path_refuted",
    "C17_combine"
   ],
   "note": "Same object (kind and component list from every working directory), canonical form, output bound, joining of directory and file name; the memory-safety clause is false exactly for \".\" or \"..\" followed by two or more \"/..\" (C17_overrun_exact, C17_overrun_refuted) and an all-blank path becomes the root (C17_blank_path_refuted)."
  },
  {
   "property": "C18",
   "status": "proved",
   "theorems": [
    "C18_keyword_equality",
    "C18_same_pointer",
    "C18_antisymmetric",
    "C18_lowercase"
   ],
   "note": "Exact for NUL-terminated buffers; no read past a terminator; C locale tolower."
  },
  {
   "property": "C19",
   "status": "proved",
   "theorems": [
    "C19_binary_search",
    "C19_binary_search_safe",
    "C19_sorted_evaluation",
    "C19_unsorted_evaluation",
    "C19_uniform_evaluation",
    "C19_nodes",
    "C19_right_end_refuted",
    "C19_beyond_table_refuted",
    "C19_left_of_uniform_table_refuted"
   ],
   "note": "Binary search fully; evaluation for every query strictly below the right end. The right end point itself (part of the claim) reads one element past the tables: C19_right_end_refuted; queries beyond the table leave a sorted abscissa in the non-uniform variant (C19_beyond_table_refuted) and queries left of a uniform table read before it."
  },
  {
   "property": "C20",
   "status": "proved",
   "theorems": [
    "C20_every_equation",
    "C20_only_solution",
    "C20_exit_exactly_on_small_pivot",
    "C20_spline_slopes",
    "C20_two_nodes_refuted",
    "C20_runs",
    "C20_three_nodes",
    "C20_cubics"
   ],
   "note": "Over an arbitrary field, with the pivot test as an abstract predicate true at zero. Also uniqueness, exact exit condition, and that getYD_gen yields a C2 not-a-knot spline; two-node tables read X[2] (C20_two_nodes_refuted). Over the reals with the threshold 1e-50: no vanishing pivot for four or more nodes (C20_runs), always an error for three (C20_three_nodes), cubics reproduced (C20_cubics)."
  },
  {
   "property": "C21",
   "status": "proved",
   "theorems": [
    "C21_magnitude",
    "C21_huge_values",
    "C21_huge_refuted"
   ],
   "note": "Holds below 1024^9 bytes; above it the printed size is 1024 times too small and the error exit is unreachable (C21_huge_values, C21_huge_refuted). Exact division; decimal rounding of the printout not modelled."
  },
  {
   "property": "C22",
   "status": "proved",
   "theorems": [
    "C22_array_of_eleven",
    "C22_array_of_ten",
    "C22_eleven_numbers_refuted"
   ],
   "note": "Safe exactly up to ten numbers with the arrays of 10 the callers pass; eleven numbers overrun the array (C22_eleven_numbers_refuted). sscanf is an arbitrary scanner that consumes at least one character per success."
  },
  {
   "property": "C23",
   "status": "proved",
   "theorems": [
    "C23_root_or_error",
    "C23_close_to_true_root"
   ],
   "note": "Exact rational arithmetic, arbitrary constraint; rounding and NaN constraint values are outside the model. Both Calculate_FermiLevel variants share this body."
  },
  {
   "property": "C24",
   "status": "proved",
   "theorems": [
    "C24_fermi_dirac_range",
    "C24_fermi_dirac_decreasing",
    "C24_gaussian",
    "C24_constraint_increasing",
    "C24_fermi_level_unique",
    "C24_electron_count",
    "C24_fermi_level_exists",
    "C24_float_refuted"
   ],
   "note": "Over the reals; also existence (iff) and the Gaussian smearing for any strictly increasing erf. Strict bounds fail in binary64 (C24_float_refuted)."
  },
  {
   "property": "C25",
   "status": "proved",
   "theorems": [
    "C25_complete_read",
    "C25_closed_reported",
    "C25_short_reported_exactly",
    "C25_short_read_refuted",
    "C25_error_refuted"
   ],
   "note": "Complete transfers in arbitrary pieces, and the exact condition under which a short one is reported. The claim itself is false for connections that end or fail in the middle: C25_short_read_refuted, C25_error_refuted."
  },
  {
   "property": "C26",
   "status": "proved",
   "theorems": [
    "C26_replies_follow_history",
    "C26_bounded",
    "C26_closed_ends_normally",
    "C26_header_recognised",
    "C26_force_reply_code",
    "C26_complete_writes_succeed",
    "C26_failed_write_reported",
    "C26_short_write_refuted",
    "C26_force_without_position_refuted",
    "C26_limit_refuted",
    "C26_exit_refuted"
   ],
   "note": "Replies, bound (limit + 1), header recognition, reply codes, closed connections. Refuted clauses: forces without positions, limit exceeded by one with unfetchable result, EXIT ends with failure, even short writes reported as success."
  },
  {
   "property": "C27",
   "status": "proved",
   "theorems": [
    "C27_periodic",
    "C27_periodic_defined",
    "C27_rescaled_if_counter_zero",
    "C27_uninitialised_refuted",
    "C27_wire_z_refuted"
   ],
   "note": "Fully periodic case for every stress. The rescaling loops use an uninitialised counter (C27_uninitialised_refuted); with the counter at zero the rescaling is right except for wires along z (C27_wire_z_refuted)."
  },
  {
   "property": "C28",
   "status": "proved",
   "theorems": [
    "C28_wrapped",
    "C28_fails_only_outside",
    "C28_idempotent",
    "C28_socket_variant",
    "C28_socket_boundary_refuted",
    "C28_float_refuted"
   ],
   "note": "Exact arithmetic, orthogonal cells without cyclix symmetry. The socket/start-up variant keeps the boundary L (C28_socket_boundary_refuted) and in double arithmetic tiny negative coordinates wrap to L (C28_float_refuted)."
  },
  {
   "property": "C29",
   "status": "proved",
   "theorems": [
    "C29_history",
    "C29_columns_distinct",
    "C29_zero_history_refuted",
    "C29_outer_loop_refuted"
   ],
   "note": "Both restart settings, any m>0, N and iterate sequence. MIXING_HISTORY 0 is UB (C29_zero_history_refuted); the hybrid outer loop does not clear the history between SCF cycles (C29_outer_loop_refuted)."
  },
  {
   "property": "C30",
   "status": "proved",
   "theorems": [
    "C30_density",
    "C30_component_integral",
    "C30_component_defined",
    "C30_spin_resolved",
    "C30_spin_negative_refuted",
    "C30_all_negative_refuted"
   ],
   "note": "Exact rational arithmetic; weights either dV or cyclix weights. Needs a nonzero integral of the clamped update (C30_all_negative_refuted); spin densities can be negative (C30_spin_negative_refuted)."
  },
  {
   "property": "C31",
   "status": "proved",
   "theorems": [
    "C31_atomic_density",
    "C31_first_step",
    "C31_later_steps",
    "C31_extrapolated_nonnegative",
    "C31_charged_cell_refuted",
    "C31_extrapolation_weights",
    "C31_least_squares",
    "C31_history"
   ],
   "note": "Spec: electrons = ionic charge - net charge. First step exact for every net charge; later steps integrate to the ionic charge, i.e. to the number of electrons only for NetCharge = 0 (C31_charged_cell_refuted: from the second step a charged cell gets the wrong count). Division by zero when the density to be scaled has zero integral is a distinct outcome. Extrapolation weights sum to one, coefficients are the least-squares ones given that dgelsd solves the normal equations, history slots hold the last three differences. Density read from a cube file is passed through unscaled."
  },
  {
   "property": "C32",
   "status": "proved",
   "theorems": [
    "C32_aar_stop",
    "C32_aar_extrapolation",
    "C32_aar_history",
    "C32_aar_keeps_solution",
    "C32_cg_residual",
    "C32_cg_stop",
    "C32_cg_orthogonal",
    "C32_cg_exact_start_undefined",
    "C32_aar_nan_refuted"
   ],
   "note": "AAR: stopping before the limit implies residual within tol*||b|| (exact comparisons); extrapolated residual is the residual of the extrapolated point at every iteration and least-squares coefficients minimise it; an exact solution is kept. CG: recursive residual equals b + A x at every iteration, restarted or not; residuals orthogonal and directions conjugate for a symmetric operator. C32_aar_nan_refuted: in IEEE arithmetic a run that overflows to nan is reported as converged. C32_cg_exact_start_undefined: CG started at an exact solution computes 0/0. LAPACK coefficients and norms are oracles."
  },
  {
   "property": "C33",
   "status": "proved",
   "theorems": [
    "C33_refines_list",
    "C33_pushes_then_pops"
   ],
   "note": "All operation sequences; also the capacity bound. realloc/malloc assumed to succeed."
  },
  {
   "property": "C34",
   "status": "proved",
   "theorems": [
    "C34_selection",
    "C34_orthonormal_rows",
    "C34_large_scores_refuted",
    "C34_nan_refuted"
   ],
   "note": "Eigen-decomposition is an input; exact rational scores. The marker 1e10 is distinguishable for orthonormal eigenvectors (C34_orthonormal_rows); not for larger scores (C34_large_scores_refuted), and NaN scores write w1[-1] (C34_nan_refuted)."
  },
  {
   "property": "C35",
   "status": "proved",
   "theorems": [
    "C35_reversible",
    "C35_momentum",
    "C35_momentum_balance",
    "C35_positions"
   ],
   "note": "Over the reals, for any force field and any number of atoms: velocity negation and rerunning retraces the trajectory up to the periodic wrap, total momentum changes by the sum of the forces, each position stays in the cell. Rounding is not modelled."
  },
  {
   "property": "C36",
   "status": "proved",
   "theorems": [
    "C36_first_half",
    "C36_second_half",
    "C36_run",
    "C36_zero_force_refuted"
   ],
   "note": "Both half steps and the run keep the kinetic energy at its initial value when the net force term is nonzero; C36_zero_force_refuted gives the 0/0 outcome when all forces on moving atoms vanish."
  },
  {
   "property": "C37",
   "status": "proved",
   "theorems": [
    "C37_temperature",
    "C37_momentum",
    "C37_fixed",
    "C37_defined",
    "C37_single_atom_refuted",
    "C37_momentum_fixed_refuted",
    "C37_user_drift_refuted",
    "C37_uniform_speed",
    "C37_uniform_speed_refuted",
    "C37_maxwell_zero_refuted"
   ],
   "note": "Temperature, momentum and fixed atoms hold as stated; refuted clauses: single atom (division by zero), momentum with fixed atoms, user-supplied drift, uniform-speed limits and the zero draw of the Maxwell sampler (log 0)."
  },
  {
   "property": "C38",
   "status": "proved",
   "theorems": [
    "C38_resume_between",
    "C38_copy_survives",
    "C38_resume_final",
    "C38_partial_write_refuted",
    "C38_stale_final_refuted",
    "C38_partial_final_refuted"
   ],
   "note": "Holds between snapshots, right after the rename, and after a completed final write (no older .restart); a complete copy always survives on disk. The full claim is refuted: killed while writing C the partial file is read, a stale .restart hides newer snapshots, a truncated .restart hides a complete C."
  },
  {
   "property": "C39",
   "status": "proved",
   "theorems": [
    "C39_one_run",
    "C39_restart_chain",
    "C39_zero_frequency_refuted"
   ],
   "note": "One run and any chain of restarted runs with arbitrary interruptions; C39_zero_frequency_refuted: a restart frequency of 0 is accepted and is undefined."
  },
  {
   "property": "C40",
   "status": "proved",
   "theorems": [
    "C40_ranks_agree",
    "C40_buffer_refuted",
    "C40_restored",
    "C40_flag_minus_one_refuted"
   ],
   "note": "Ranks agree on all packed variables when the chain in the file exceeds the input chain by at most one; refuted: longer chains overflow the buffer, RestartFlag -1 with a constant-pressure method leaves the ranks with different cells. NPT_NP_Pm is written but not read (recomputed each step)."
  },
  {
   "property": "C41",
   "status": "proved",
   "theorems": [
    "C41_chain_only",
    "C41_accepted_refuted",
    "C41_safe_iff",
    "C41_reader",
    "C41_reader_refuted"
   ],
   "note": "Only entries 0..nnos-1 are touched for 2 <= nnos <= 60; refuted: fewer than 2 passes the test and is undefined, more than 60 masses overflow before the test."
  },
  {
   "property": "C42",
   "status": "proved",
   "theorems": [
    "C42_region_exact",
    "C42_code_unique"
   ],
   "note": "Region code -1 iff inside; otherwise the index of the direction in the order in which the Bloch phase factors are stored."
  },
  {
   "property": "C43",
   "status": "proved",
   "theorems": [
    "C43_value_of_global_index",
    "C43_decomposition_independent",
    "C43_orbital_offset",
    "C43_seeds_distinct",
    "C43_offset_overflow_refuted"
   ],
   "note": "Value is a function of global index and offset; seeds distinct when the number of orbital values fits an int; overflow otherwise (C43_offset_overflow_refuted)."
  },
  {
   "property": "C44",
   "status": "proved",
   "theorems": [
    "C44_accepts_exactly",
    "C44_rejects_rest",
    "C44_long_host_refuted"
   ],
   "note": "Accepts exactly host:port / name:UNIX for host parts shorter than the 512-byte array; longer host parts overrun it (C44_long_host_refuted)."
  },
  {
   "property": "C45",
   "status": "proved",
   "theorems": [
    "C45_first_derivative_exact",
    "C45_second_derivative_exact",
    "C45_weight_overflow"
   ],
   "note": "Weights computed by Calculate_FDweights are exact on polynomials of degree up to 2n (first derivative) and 2n+1 (second derivative), over the reals, for every radius within int range; C45_weight_overflow shows where int arithmetic would overflow."
  },
  {
   "property": "C46",
   "status": "proved",
   "theorems": [
    "C46_weights",
    "C46_brillouin_sum",
    "C46_minimal"
   ],
   "note": "Exact rational arithmetic; k-vectors in reduced coordinates so each direction has its own tolerance. Preconditions: at least one point per direction and a tolerance at most half the grid spacing; for the sum, twice the shift is an integer or not within the tolerance of one. Minimality is proved for non-negative shifts."
  },
  {
   "property": "C47",
   "status": "proved",
   "theorems": [
    "C47_outcome",
    "C47_selected",
    "C47_links",
    "C47_inverse_map"
   ],
   "note": "Same preconditions as C46."
  },
  {
   "property": "C48",
   "status": "proved",
   "theorems": [
    "C48_accepted",
    "C48_inverse",
    "C48_volume",
    "C48_distance",
    "C48_gradient",
    "C48_laplacian",
    "C48_cell_type_refuted",
    "C48_cell_type",
    "C48_dropped"
   ],
   "note": "Last clause refuted: C48_cell_type_refuted exhibits an accepted lattice whose cell type stays 1, which no stencil or distance code handles (C48_cell_type: this is the only unsupported value). Distances for type 0 need exactly axis-aligned vectors (type 0 tolerates 1e-12)."
  },
  {
   "property": "C49",
   "status": "proved",
   "theorems": [
    "C49_cell_vectors",
    "C49_bloch_angle",
    "C49_cell_keyword_refuted",
    "C49_oblique_phase_refuted",
    "C49_reciprocal",
    "C49_points",
    "C49_out_of_bounds",
    "C49_always_in_bounds_refuted"
   ],
   "note": "'Writes only inside its arrays' refuted for one point per line and for 2n > 512 (C49_always_in_bounds_refuted, C49_out_of_bounds). The Bloch-angle clause holds for LATVEC_SCALE with an axis-aligned cell and is refuted for the CELL keyword (C49_cell_keyword_refuted: scale factors stay -1) and for oblique cells (C49_oblique_phase_refuted)."
  },
  {
   "property": "C50",
   "status": "proved",
   "theorems": [
    "C50_real",
    "C50_complex"
   ],
   "note": "C50_real and C50_complex: Lap_Kron and Lap_Kron_complex terminate without an out-of-bounds access and return (after eigval_Lap_3D and the division) the solution of the Kronecker-sum operator, for any ring of scalars and all mesh sizes. Exact arithmetic; the BLAS gemm is taken by its specification, and the eigen-decompositions returned by LAPACK are hypotheses."
  },
  {
   "property": "C51",
   "status": "proved",
   "theorems": [
    "C51_periodic",
    "C51_bloch",
    "C51_dirichlet",
    "C51_out_of_bounds",
    "C51_bloch_single_point_refuted",
    "C51_small_mesh_refuted"
   ],
   "note": "C51_dirichlet, C51_periodic, C51_bloch: the matrices act as the stencil on the zero, periodic and Bloch extension, are symmetric or Hermitian, and periodic rows sum to the stencil sum, over any ring, for meshes of at least FDn points. For 2 <= N < FDn the periodic builders write outside the matrix (C51_out_of_bounds, C51_small_mesh_refuted) and for N = 1 the Bloch factor is wrong (C51_bloch_single_point_refuted)."
  },
  {
   "property": "C52",
   "status": "proved",
   "theorems": [
    "C52_obsolete_keyword",
    "C52_class",
    "C52_displacement",
    "C52_letters_refuted"
   ],
   "note": "First clause holds for the obsolete keyword (C52_obsolete_keyword) and is refuted for the three-letter BC keyword (C52_letters_refuted); second clause proved for orthogonal cells (C52_displacement)."
  },
  {
   "property": "C53",
   "status": "proved",
   "theorems": [
    "C53_collect_all_lambda",
    "C53_layout"
   ],
   "note": "The eigenvalues each process holds before the call are those of its own spins and k-points (C04); MPI_Comm_split and the gathers follow the MPI standard; Cart_create keeps ranks."
  },
  {
   "property": "C54",
   "status": "proved",
   "theorems": [
    "C54_filter",
    "C54_eigenvector",
    "C54_gain",
    "C54_counts",
    "C54_bounds",
    "C54_bounds_later",
    "C54_buffer_refuted",
    "C54_default_degree",
    "C54_adaptive_degree",
    "C54_adaptive_degree_small_refuted",
    "C54_degree_restored_refuted"
   ],
   "note": "Exact arithmetic; the operator is any homogeneous map of one orbital. Refuted parts: the 1% buffer raises the upper bound (negative estimates), an adaptive degree never above the requested one (requests below 12), the requested degree is restored in the next SCF cycle."
  },
  {
   "property": "C55",
   "status": "proved",
   "theorems": [
    "C55_cover",
    "C55_laplacian",
    "C55_gradient",
    "C55_grid_independent",
    "C55_narrow_refuted",
    "C55_direction_matching_refuted"
   ],
   "note": "Laplacian and gradient, real and k-point versions, orthogonal cells; ncol=1, no int overflow. Refuted: grids narrower than FDn (possible with FD_GRID) read before the start of x; under direction-based matching of neighbour messages the swap for one or two processes in a periodic direction gives wrong results (C55_direction_matching_refuted), so the code depends on in-order matching."
  },
  {
   "property": "C56",
   "status": "proved",
   "theorems": [
    "C56_halo",
    "C56_laplacian",
    "C56_grid_independent",
    "C56_cell_type_refuted",
    "C56_narrow_refuted"
   ],
   "note": "Real and k-point versions; ncol=1, no int overflow; MPI_Dist_graph takes MPI_PROC_NULL entries as absent neighbours and messages between a pair of processes match in order. Refuted: cell type 1, which the classification can leave behind (C48_cell_type_refuted), makes the operator undefined (C56_cell_type_refuted); blocks narrower than FDn read before x (C56_narrow_refuted)."
  },
  {
   "property": "C57",
   "status": "proved",
   "theorems": [
    "C57_direction",
    "C57_history",
    "C57_secant",
    "C57_run",
    "C57_downhill",
    "C57_restart",
    "C57_fixed_scale_refuted",
    "C57_restart_line_refuted",
    "C57_maxmov_refuted",
    "C57_no_history_refuted",
    "C57_fixed_step",
    "C57_line_step"
   ],
   "note": "The direction, the stored history, the secant equation, the whole AUTOSCALE loop (refinement, downhill, step limits, restart) are proved over the reals. The clauses for L_AUTOSCALE: 0 and L_HISTORY: 0 are false: C57_fixed_scale_refuted (first iteration reads malloc'ed forces), C57_restart_line_refuted (search direction missing from the restart file), C57_maxmov_refuted (trial step added to L_MAXMOV), C57_no_history_refuted (write before the arrays)."
  },
  {
   "property": "C58",
   "status": "proved",
   "theorems": [
    "C58_new_run",
    "C58_restarted_run",
    "C58_end",
    "C58_full_relaxation",
    "C58_fq_refuted",
    "C58_agree_refuted"
   ],
   "note": "All numbering clauses are proved for an arbitrary step function. False: C58_fq_refuted (PRINT_RESTART_FQ: 0 divides by zero), C58_agree_refuted (each process reads its own clock)."
  },
  {
   "property": "C59",
   "status": "proved",
   "theorems": [
    "C59_schedule",
    "C59_limits",
    "C59_step",
    "C59_defined",
    "C59_restart",
    "C59_continued",
    "C59_error",
    "C59_units_refuted",
    "C59_wait_refuted",
    "C59_other_method_refuted"
   ],
   "note": "Schedule, limits, step, definedness, stopping test and restart are proved for a single relaxation. False: C59_units_refuted (FIRE_dt is converted again at each volume of a full relaxation), C59_wait_refuted (there the time step grows after one step), C59_other_method_refuted (velocities read uninitialised from another method's restart file)."
  },
  {
   "property": "C60",
   "status": "proved",
   "theorems": [
    "C60_step",
    "C60_exact",
    "C60_conjugate",
    "C60_converges",
    "C60_continued",
    "C60_downhill_refuted",
    "C60_uniform_refuted",
    "C60_other_method_refuted"
   ],
   "note": "Refuted clauses: a step can climb to an energy maximum and stop there as converged (C60_downhill_refuted); a direction of constant force divides by zero (C60_uniform_refuted); a restart file without a search direction is read as uninitialised memory (C60_other_method_refuted). Exact real arithmetic."
  },
  {
   "property": "C61",
   "status": "proved",
   "theorems": [
    "C61_brent",
    "C61_cell",
    "C61_fractional",
    "C61_history",
    "C61_residual",
    "C61_pressure",
    "C61_relax",
    "C61_relax_direct",
    "C61_brackets",
    "C61_third_extension_refuted",
    "C61_left_refuted"
   ],
   "note": "C61_third_extension_refuted: with the default dilatation and three relaxed directions the third extension of the bracket asks for a negative volume and the run stops; C61_left_refuted: the returned volume is unused, a root at the lower end leaves the cell at the upper end"
  },
  {
   "property": "C62",
   "status": "proved",
   "theorems": [
    "C62_sphere",
    "C62_truncated",
    "C62_truncated_small",
    "C62_screened",
    "C62_bare",
    "C62_stress",
    "C62_stress_auxiliary",
    "C62_volume",
    "C62_stress_limit",
    "C62_trace",
    "C62_tables",
    "C62_relax_refuted",
    "C62_stale_refuted",
    "C62_auxiliary_stress_refuted",
    "C62_small_vector_refuted"
   ],
   "note": "Kernels as integrals (C62_truncated, C62_screened, C62_bare), error below the threshold, stress constants as derivatives (C62_stress, C62_volume, C62_stress_limit), trace identity, tables. The clauses 'the tables follow the cell' and 'every read table is allocated during cell relaxation' are false: C62_stale_refuted, C62_relax_refuted. For the auxiliary function the stress constant is a quarter of minus the derivative (C62_stress_auxiliary, C62_auxiliary_stress_refuted) and non-zero wave vectors with G2 <= 1e-4 get the G=0 constant (C62_small_vector_refuted). Real arithmetic; the code's finite-difference gradients in the stress are not part of this claim."
  },
  {
   "property": "C63",
   "status": "proved",
   "theorems": [
    "C63_length",
    "C63_shifts",
    "C63_overflow",
    "C63_shift_safe",
    "C63_solve",
    "C63_complete",
    "C63_gamma",
    "C63_gamma_safe",
    "C63_overflow_refuted",
    "C63_gamma_refuted"
   ],
   "note": "Shift table (C63_shifts), exact overflow condition (C63_overflow, C63_shift_safe), Cartesian lengths (C63_length), k-point solver (C63_solve), completeness and uniqueness of the expansion (C63_complete), gamma-point solver for orthogonal cells or odd grids (C63_gamma, C63_gamma_safe). Two clauses are false: the shift arrays overflow by one element for a 2x1x1 mesh shifted by 1/2 with down-sampling 2 1 1 (C63_overflow_refuted), and in oblique cells with even grids the gamma-point solver differs from the k-point one at the Nyquist vectors (C63_gamma_refuted). Exact arithmetic; the FFT library is trusted; wave vector and position lengths are assumed to agree in periodic directions."
  },
  {
   "property": "C64",
   "status": "proved",
   "theorems": [
    "C64_slater",
    "C64_pw",
    "C64_pz",
    "C64_pz_refuted",
    "C64_pbex",
    "C64_pbex_other",
    "C64_rPW86x",
    "C64_pbec",
    "C64_pbec_other",
    "C64_pbex_scaling",
    "C64_constants",
    "C64_mu_refuted"
   ],
   "note": "Refuted parts: pz jumps at the density with rs = 1 where its two branches do not meet, so the potential is not a derivative there (C64_pz_refuted; proved at every other density); mu of pbex and beta of pbec do not satisfy mu = beta pi^2/3, the code uses two values of beta (C64_mu_refuted). Real arithmetic, one grid point."
  },
  {
   "property": "C65",
   "status": "proved",
   "theorems": [
    "C65_slater",
    "C65_pbex",
    "C65_rPW86x",
    "C65_pw",
    "C65_pbec",
    "C65_other",
    "C65_constants"
   ],
   "note": "All clauses. Real arithmetic, one grid point, total density equal to the sum of the spin densities (established by the caller, see C66). Exchange needs both spin densities positive: the caller's floor 1e-14 provides it."
  },
  {
   "property": "C66",
   "status": "proved",
   "theorems": [
    "C66_unpolarised",
    "C66_spin",
    "C66_defined",
    "C66_noncollinear",
    "C66_direction",
    "C66_energy",
    "C66_energy_spin",
    "C66_unknown",
    "C66_unknown_refuted",
    "C66_hf_refuted",
    "C66_vacuum_refuted",
    "C66_case",
    "C66_phase"
   ],
   "note": "The meta-GGA functions and pbexsr are parameters, assumed to return numbers and, in the derivative clauses, to return their own derivatives at the point; the nonlocal vdW part and cyclix cells are left out; the sum over processes is the sum over the grid. Refuted parts: XC HF keeps the whole PBE exchange beside the full exact exchange (C66_hf_refuted); an undocumented name such as PBE is not rejected and ixc is read unset (C66_unknown, C66_unknown_refuted); where both spin densities are below the threshold the energy uses 1e-14 and the potential 2e-14 (C66_vacuum_refuted). The noncollinear gradient-corrected potential is not claimed to be a derivative when the direction of the magnetisation varies."
  },
  {
   "property": "C67",
   "status": "proved",
   "theorems": [
    "C67_scanx",
    "C67_rscanx",
    "C67_r2scanx",
    "C67_scanx_bounds",
    "C67_alpha1",
    "C67_alpha1_refuted",
    "C67_scanx_spin",
    "C67_rscanx_spin",
    "C67_r2scanx_spin",
    "C67_spin_energy"
   ],
   "note": "The clause 'defined for every positive density and gradient' is refuted for scanx (C67_alpha1_refuted): an iso-orbital indicator of exactly 1 divides by zero; the C code then returns a NaN potential. For rSCAN and r2SCAN nothing is claimed about the derivative where the indicator is exactly 2.5, since the printed polynomial coefficients do not join the exponential exactly there. Exact real arithmetic."
  },
  {
   "property": "C68",
   "status": "proved",
   "theorems": [
    "C68_polar",
    "C68_real",
    "C68_badargs",
    "C68_m_checked_refuted",
    "C68_short_buffer",
    "C68_everywhere_refuted",
    "C68_addition",
    "C68_orthonormal",
    "C68_complex"
   ],
   "note": "Refuted clauses: agreement at every point other than the origin (C68_everywhere_refuted: values are cut to zero for 0 < r < 1e-10) and 'an invalid m is reported' for l = 0 (C68_m_checked_refuted). Exact real arithmetic on the decimal literals of the code; the caller must pass r = distance from the origin (dist_ok)."
  },
  {
   "property": "C69",
   "status": "proved",
   "theorems": [
    "C69_cutoff",
    "C69_orthogonal_box",
    "C69_list",
    "C69_edge_refuted",
    "C69_skew_box_refuted",
    "C69_cell_typ_refuted"
   ],
   "note": "Holds for nodes strictly inside the radius. Refuted clauses: a node at exactly the radius on the upper edge of a box is lost (C69_edge_refuted), a search box narrower than the ball in a skewed cell loses nodes (C69_skew_box_refuted), a cell type outside 0 and 11..19 reads an unset distance (C69_cell_typ_refuted). Exact coordinates; helical cells not modelled."
  },
  {
   "property": "C70",
   "status": "proved",
   "theorems": [
    "C70_projectors",
    "C70_operator",
    "C70_images",
    "C70_division",
    "C70_linear",
    "C70_hermitian",
    "C70_edge_refuted",
    "C70_bloch",
    "C70_gamma_point",
    "C70_kpt"
   ],
   "note": "helical cells (CyclixFlag) and rounding are not modelled; chi is any function of the displacement that vanishes from the cutoff on, which is a hypothesis: without it the claim fails (C70_edge_refuted)"
  },
  {
   "property": "C71",
   "status": "proved",
   "theorems": [
    "C71_density",
    "C71_spin",
    "C71_charge"
   ],
   "note": "Real arithmetic; helical cells (no division by dV) and the transfer to the phi domain (C05) are outside. The layout of the orbital and occupation arrays and the completeness of the division over groups are hypotheses, stated separately."
  },
  {
   "property": "C72",
   "status": "proved",
   "theorems": [
    "C72_band",
    "C72_entropy",
    "C72_derivative",
    "C72_minimum",
    "C72_total",
    "C72_kohn_sham",
    "C72_exact_exchange",
    "C72_harris",
    "C72_hubbard",
    "C72_hubbard_sum",
    "C72_hybrid_hubbard_refuted",
    "C72_meta_refuted",
    "C72_spinor_refuted"
   ],
   "note": "Three clauses are false and refuted: the Hubbard correction in the hybrid phase (C72_hybrid_hubbard_refuted), unconverged meta-GGA energies (C72_meta_refuted) and unconverged spinor energies (C72_spinor_refuted) with potential mixing. Real arithmetic; Exc, Esc, Eexx are inputs; erf is any function with the derivative of the error function."
  },
  {
   "property": "C73",
   "status": "proved",
   "theorems": [
    "C73_name",
    "C73_name_none",
    "C73_name_refuted",
    "C73_broadcast",
    "C73_broadcast_refuted",
    "C73_sizes",
    "C73_sizes_refuted",
    "C73_initial",
    "C73_initial_magnetic",
    "C73_initial_refuted",
    "C73_slots",
    "C73_slots_disjoint",
    "C73_slots_none"
   ],
   "note": "Refuted clauses: the name match takes an earlier type whose name begins with the given one (C73_name_refuted); the U of f is lost for all corrected types but the last because values are packed three apart (C73_broadcast_refuted); sizes differ for negative U, semicore shells and missing shells (C73_sizes_refuted); less than half filled magnetic shells get negative occupations (C73_initial_refuted). Radial functions and their broadcast are not modelled."
  },
  {
   "property": "C74",
   "status": "proved",
   "theorems": [
    "C74_operator",
    "C74_division",
    "C74_form",
    "C74_hermitian",
    "C74_kpt_hermitian",
    "C74_kpt_positive",
    "C74_occupation",
    "C74_store_gamma",
    "C74_store_kpt",
    "C74_gram",
    "C74_trace",
    "C74_store_refuted",
    "C74_hermitian_refuted",
    "C74_positive"
   ],
   "note": "Refuted clauses: C74_hermitian_refuted (two shells with different U), C74_store_refuted (matrix smaller than the block). The local orbitals on the grid are an input; numbers are those of a commutative ring."
  },
  {
   "property": "C75",
   "status": "proved",
   "theorems": [
    "C75_gradient",
    "C75_balance",
    "C75_force",
    "C75_stress",
    "C75_slab_refuted",
    "C75_close_refuted",
    "C75_energy",
    "C75_images",
    "C75_setup"
   ],
   "note": "Exact derivatives under the stated regularity (no atoms closer than sqrt 0.5 Bohr, no distance exactly at a cut-off, weights above 1e-99). C75_slab_refuted and C75_close_refuted give witnesses for the clauses that fail. Tables are parameters with the symmetry stated; rounding ignored."
  },
  {
   "property": "C76",
   "status": "proved",
   "theorems": [
    "C76_solver",
    "C76_lanczos",
    "C76_quadrature",
    "C76_weights",
    "C76_density",
    "C76_charge",
    "C76_energy",
    "C76_column",
    "C76_diagonal",
    "C76_operator",
    "C76_gamma",
    "C76_single_refuted",
    "C76_breakdown_refuted",
    "C76_entropy",
    "C76_entropy_sum",
    "C76_entropy_refuted",
    "C76_check",
    "C76_kpoint_refuted"
   ],
   "note": "SQ Gauss quadrature: solver, Lanczos, exactness to degree 2npl-1, weights, density error bound, charge, energy, density-matrix column, nodal operator. Refuted clauses: C76_single_refuted (npl=1 overruns lanczos_vec), C76_breakdown_refuted (zero residual divides by zero), C76_entropy_refuted (Fermi-Dirac entropy with Gaussian smearing), C76_kpoint_refuted (the input check joins k-points and non-collinear spin by and; only the latter is caught later). Real arithmetic; usefock=0; MPI gathering of the node results as a list of nodes."
  },
  {
   "property": "C77",
   "status": "proved",
   "theorems": [
    "C77_brent",
    "C77_brent_total",
    "C77_unimodal",
    "C77_descent_refuted",
    "C77_energy",
    "C77_gradient",
    "C77_stationary",
    "C77_search",
    "C77_direction",
    "C77_result",
    "C77_unconverged",
    "C77_defined",
    "C77_printed_refuted",
    "C77_parabola"
   ],
   "note": "Exact reals; the electrostatic solver, exchange-correlation and the Laplacian are parameters with the stated hypotheses. Refuted clauses with witnesses: C77_printed_refuted, C77_descent_refuted."
  },
  {
   "property": "C78",
   "status": "proved",
   "theorems": [
    "C78_literals",
    "C78_harmonics",
    "C78_harmonic_derivatives",
    "C78_angles",
    "C78_axis_refuted",
    "C78_gradient",
    "C78_index",
    "C78_spectrum",
    "C78_rotation",
    "C78_rotation_refuted",
    "C78_kernel",
    "C78_forces",
    "C78_sum_zero"
   ],
   "note": "Refuted clauses: C78_axis_refuted (a neighbour exactly on the negative x or negative z axis gets the angles of its mirror image) and C78_rotation_refuted (the spectrum then changes under rotation). The force theorem asks for displacements off the axes and with |dz| above the code's 1e-10 tolerance; h_nl and dh_nl are assumed to be a function and its derivative."
  },
  {
   "property": "C79",
   "status": "proved",
   "theorems": [
    "C79_forces",
    "C79_derivative",
    "C79_energy",
    "C79_division",
    "C79_setting",
    "C79_hellmann_feynman"
   ],
   "note": "C79_forces: both versions for every division; C79_division; C79_derivative and C79_hellmann_feynman: force = minus derivative of the energy; C79_energy: sum of atom energies = expectation of the operator of C70; C79_setting: hypotheses hold over R and C"
  },
  {
   "property": "C80",
   "status": "proved",
   "theorems": [
    "C80_form",
    "C80_largest",
    "C80_lower",
    "C80_mesh",
    "C80_mesh_refuted",
    "C80_degree",
    "C80_bounds",
    "C80_bounds_refuted"
   ],
   "note": "Exact for orthogonal cells, a lower bound for others (C80_lower). C80_mesh_refuted: the tabulated constant of the effective width of other cells is not the one of the default order with an even number of nodes. C80_bounds_refuted: the upper bound ignores the potential. Only the first SCF iteration of Chebyshevfilter_constants is modelled."
  },
  {
   "property": "C81",
   "status": "proved",
   "theorems": [
    "C81_stress",
    "C81_stress_spin",
    "C81_cell",
    "C81_measure"
   ],
   "note": "C81_stress (unpolarised) and C81_stress_spin (two spins); C81_cell for the matrices on the strained lattice; C81_measure for the measure and the undefined division. The core, D3, vdW, exact-exchange and orbital terms added by other functions and noncollinear spin are outside the model."
  },
  {
   "property": "C82",
   "status": "proved",
   "theorems": [
    "C82_error",
    "C82_division",
    "C82_short",
    "C82_stop",
    "C82_density",
    "C82_potential",
    "C82_mean",
    "C82_mean_none",
    "C82_shift_refuted",
    "C82_warning_refuted",
    "C82_noncollinear_refuted",
    "C82_next",
    "C82_nan"
   ],
   "note": "Refuted clauses, with witnesses: the warning after MAXIT_SCF turns is missing when the error equals the tolerance or is NaN (C82_warning_refuted); the zero-mean comment of Evaluate_scf_error (C82_shift_refuted); potential mixing with noncollinear spin stops at an unconverged potential (C82_noncollinear_refuted). Solver, potentials, energy and mixing are oracles."
  },
  {
   "property": "C83",
   "status": "proved",
   "theorems": [
    "C83_formula",
    "C83_symmetrize",
    "C83_work",
    "C83_short",
    "C83_held_refuted",
    "C83_flags_refuted"
   ],
   "note": "Refuted clauses, with witnesses: the net force is zero also with held atoms (C83_held_refuted); flags only hold or free a component (C83_flags_refuted). The local, nonlocal and core parts are inputs."
  },
  {
   "property": "C84",
   "status": "proved",
   "theorems": [
    "C84_warning",
    "C84_images_refuted"
   ],
   "note": "Refuted clause, with a witness: close atoms are found through the faces of a periodic cell (C84_images_refuted). The wrapping at the end is C28."
  },
  {
   "property": "C85",
   "status": "proved",
   "theorems": [
    "C85_udv",
    "C85_soc",
    "C85_soc_away",
    "C85_origin_refuted",
    "C85_overrun_refuted",
    "C85_slopes",
    "C85_columns",
    "C85_once"
   ],
   "note": "The scanning of the text is not modelled: the numbers of the file are functions of degree, projector and line. Exact division by the radius; the quotient at the origin is overwritten. Spin-orbit tables: C85_soc needs equal partial sums; C85_origin_refuted and C85_overrun_refuted show the wrong offset lpos[l-1] (readfiles.c:2219)."
  }
 ]
}