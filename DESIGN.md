# Verification design: SPARC-X/SPARC (C) in Rocq/Coq 8.16.1

The target is a distributed real-space DFT code.  The parts whose correctness is a *universal*
statement (for every mesh, process grid, message schedule, crash point, input line, operator...)
are modelled as small total Gallina functions, file by file, function by function, and the
properties listed in `properties.jsonl` are proved about these models.  The code itself is neither
compiled nor executed.

## Layout

* `rocq/theories/CBase.v` - C integer semantics used everywhere (truncating division, `int` range,
  an outcome type with `UB` as a distinct result), list utilities.
* `rocq/theories/<Topic>.v` - model of one group of C functions (each definition cites file and
  lines in `/repo`) followed by helper lemmas.
* `rocq/theories/P_<Topic>.v` - the property theorems of that topic: an independent specification,
  the theorem, a concrete example that meets the hypotheses, and `Print Assumptions`.
* `seeded/LOG.jsonl` - mutation experiments against the models.
* `MANIFEST.json` - status of every property and its theorem names.

## Conventions

* C `int` values are unbounded `Z` (or `nat` where the C value is a length/index that is never
  negative); `/` and `%` are `Z.quot`/`Z.rem`.  Where the property is about overflow, division by
  zero, out-of-bounds access or uninitialised reads, the model returns a distinct `UB` outcome (or
  the theorem states the index bound explicitly).
* `double` values: algebraic properties are proved over an abstract field / over `Q` / over Coq's
  `R`, i.e. in exact arithmetic.  Rounding is *not* modelled unless stated.  Where the property only
  needs an order or equality test the model is parametric in the number type.
* MPI is modelled by its specification: a collective is a function of all ranks' buffers, a
  point-to-point message is delivered once to the matching receive.  BLAS/LAPACK/user callbacks are
  universally quantified functions (Section variables, discharged at the end of the section).
* File systems are modelled as maps from names to contents, with a crash able to happen between any
  two steps and in the middle of a write.

## Trusted base

* The Coq 8.16.1 kernel (and `coqchk`).
* `Print Assumptions` is executed under every property theorem in the `P_*.v` files; the axioms that
  occur are listed per theorem in the table "Assumptions" at the end of this file.  Only
  standard-library axioms (real numbers, and what the stdlib's real-number development pulls in)
  occur, most theorems are closed under the global context.
* The hand translation from C to Gallina.  It is checked only by reading: every definition cites its
  source lines.
* Not modelled: floating point rounding, the MPI runtime, BLAS/LAPACK, memory allocation failure,
  the physics (whether the equations are the right ones), performance.

## Properties: what is modelled and how it is proved

| Id | Modelled code | Approach |
|----|---------------|----------|
| C01 | `block_decompose`, `_nstart`, `_rank` (parallelization.h) | integer arithmetic over `Z` with C division; partition stated with an independent "owner" predicate; overflow bounds on intermediates |
| C02 | domain part of `Setup_Comms` | product of three C01 partitions; existence and uniqueness of owner; sum of sizes |
| C03 | band split in `Setup_Comms` | integer arithmetic, contiguous chain of intervals ends at Nstates |
| C04 | spin/k-point split, `collect_all_lambda` counts/displacements | as C01; displacements equal starts times Ns |
| C05 | `Set_D2D_Target`, `D2D` packing/unpacking | per-rank send lists computed by the model, messages delivered by spec, unpacked box by box; result compared with the restriction of the global field |
| C06 | same | target lists characterised as "boxes intersect"; symmetric; message length = volume of intersection |
| C07 | `c_ndgrid*` | list function by recursion on dimension, proved equal to explicit column-major index formula |
| C08 | `Set_D2Dext_Target` layer/count arithmetic, `D2Dext` | one-dimensional layer arithmetic over a periodic ring of blocks, then product |
| C09 | `BP2DP`, `DP2BP` | index maps, inverse and bijective |
| C10 | `Row2Col`, `Col2Row` | list/array model with the in-place loops; invariant on processed prefix |
| C11 | `restrict_to_subgrid`, `copy_mat_blk` | index maps over flat arrays |
| C12 | `factor`, `sorted_factor`, `xferFactors` | fuelled loop with buffer index as explicit state, overrun = UB; divisor pairs |
| C13 | `SPARC_Dims_create` | 1-D/2-D/3-D search loops; invariant on best candidate; a refutation where the minsize check is missing |
| C14 | `dims_divide_*` | search loops with invariants |
| C15 | `ScaLAPACK_Dims_2D_BLCYC` | loop invariant |
| C16 | `MPI_Allreduce_overload` | chunk arithmetic with C's unsigned wrap-around for `size-1`; refutation for count 0 |
| C17 | `simplifyPath` and helpers | string model as list of ascii; denotation as stack of components |
| C18 | `strcmpi` | list recursion |
| C19 | interval searches | sorted lists over `Q`; refutations at right end point |
| C20 | `tridiag_gen`, `getYD_gen` | list recursion over a field; pivots bounded from below over the reals |
| C21 | `formatBytes` | loop over exponents; refutation above 1024^9 |
| C22 | `check_num_input` | loop with array index; refutation for 11 numbers |
| C23 | `local_Calculate_FermiLevel` | state machine over `Q` with an arbitrary `f`; bracket invariant |
| C24 | `smearing_function`, constraint | reals, monotonicity |
| C25 | `readBuffer` | oracle stream of `read` results; refutation |
| C26 | `main_Socket` loop | transition system over message lists |
| C27 | `stress_to_virial` | function with uninitialised counter as UB, branch table |
| C28 | `wraparound_dynamics`, `map_atom_coord` | exact rational arithmetic with `fmod` by specification |
| C29 | `Mixing_periodic_pulay` history part | ring buffer refinement |
| C30 | `Mixing_periodic_pulay` update part | rational arithmetic over lists |
| C31 | `Init_electronDensity`, `elecDensExtrapolation` | same; refutation for charged cells |
| C32 | `AAR`, `CG` | loops with operator oracle; CG over a ring module with linear operator |
| C33 | `dyArray` | heap-block model with capacity; refinement to lists by induction on op sequences |
| C34 | `mlff_CUR_sparsify` selection loop | list selection; ordering proof |
| C35 | `Leapfrog_part1/2` | field algebra |
| C36 | `Calc_vel1_G`, `Calc_vel2_G` | reals, `cosh^2-sinh^2=1` |
| C37 | `Initialize_MD` velocity part | field algebra plus refutations |
| C38 | `PrintMD`, `Rename_restart`, restart file choice | crash-aware file system model |
| C39 | `main_MD` counters | arithmetic of counters over run histories |
| C40 | `RestartMD` pack/unpack | symbolic pack list; per-rank field sets; refutations |
| C41 | `IsoPress` index use | index trace |
| C42 | `grid_outside_region` | case analysis with `lia` |
| C43 | `SeededRandVec`, `Init_orbital` | index formula independent of decomposition; seed injectivity and int overflow |
| C44 | `split_socket_name` | string model incl. `strtol` |
| C45 | `fract`, `FDweights_D1/D2`, stencil scaling (initialization.c) | reals; moment sums by the recurrence `M_{j+1}(n) = n^2 (M_j(n) - M_j(n-1))`; polynomials as coefficient lists re-expanded at the point |
| C46 | `Calculate_kpoints` grid and reduction loops | exact rationals for the reduced coordinates, tolerance as a positive rational; list fold with invariant "weighted list represents the processed prefix" |
| C47 | `Calculate_kpoints` Hartree-Fock part | same model; searches as list functions; slot index as explicit state |
| C48 | `Cart2nonCart_transformMat` and coordinate functions | reals, field algebra on 3x3 matrices |
| C49 | `calculate_kpts_bandstruct`, LATVEC_SCALE/CELL, Bloch phases | array writes with bounds, loop invariant; reciprocal basis over the reals |
| C50 | `Lap_Kron`, `eigval_Lap_3D` | buffers as functions, `dgemm` by its specification on column-major storage with offsets; sums over a commutative ring |
| C51 | `Lap_1D_*` | matrix accumulation loops; sums over a commutative ring |
| C52 | BC keywords, `setup`, displacement in the multipole expansion | same lattice model as C48; orthonormal dual basis |
| C53 | `collect_all_lambda`, spin/k-point communicators | `MPI_Comm_split` and gathers by their specification on rank lists; mismatched membership or counts are `UB` |
| C54 | `ChebyshevFiltering(_kpt)`, bounds, degree control | reals; entries in an arbitrary real module (real and complex arrays); arrays with leading dimensions; `T_m(cos t) = cos(mt)` |
| C55 | halo exchange, stencil loops (`Lap_plus_diag_vec_mult_orth`, `Gradient_vec_dir` and k-point versions) | any commutative ring; memory with uninitialised cells; neighbour lists from `MPI_Cart_shift`; messages between a pair of processes matched in order; compared with a global field extended by its images |
| C56 | 26-neighbour exchange and non-orthogonal Laplacian (`snd_rcv_buffer`, `Lap_plus_diag_vec_mult_nonorth`, k-point version) | as C55, with the box tables, counts and offsets of the 26 slots modelled entry by entry; mixed derivatives as two one-dimensional sweeps; compared with the operator sum T_ij D_i D_j on the extended global field |
| C57 | L-BFGS relaxation (`LBFGS`) | memory cells that may be uninitialised, real arithmetic with division by zero a distinct outcome; two-loop recursion compared with explicit BFGS matrices; the loop simulated against a textbook step function; positions and forces returned by the physics are arbitrary inputs |
| C58 | step counting shared by `NLCG`, `LBFGS`, `FIRE` | loop over an arbitrary step function; clock and stop file as one pair of booleans per iteration; printed labels and restart files collected as lists; compared with consecutive numbering and k-fold application of the step |
| C59 | FIRE relaxation (`FIRE`) | vectors over the reals with an arbitrary force field and wrapping; runs as an inductive relation recording whether each step was downhill; compared with a schedule computed from that record and with velocity Verlet |
| C60 | NLCG relaxation (`NLCG`) | one iteration over the reals with an arbitrary force field; the secant pairs are a separate recursion on the slope function; conjugacy by induction over a run on a quadratic energy, finite termination by a Bessel inequality |
| C61 | cell relaxation (`Relax_Cell`, `volrelax_constraint`, `reinitialize_cell_mesh`, `BrentsFun`) | the cell with its mesh and stencils as a record over the reals, with a separate predicate for a mesh that belongs to the cell; the root finder over an arbitrary stateful evaluation with a log of its calls, invariants on the log; the residual as a contraction of the stress with a strain defined by its action on the lattice vectors |
| C62 | ExxKernel.v: singularity_remooval_const branch by branch over the reals, table allocation and use | integrals and derivatives with Coquelicot; spec is the radial Fourier integral of the cut Coulomb potential and the Gaussian superposition of erfc; refutations for the cell-relaxation paths |
| C63 | ExxFft.v: find_k_shift with its array capacity, phase tables, kernel tables, apply_phase_factor, pois_fft_kpt, pois_fft; the FFT library is the unscaled discrete transform | spec is a Bloch sum over centred integer vectors with Cartesian lengths taken from the lattice (C48); orthogonality of the roots of unity; loop invariant for the shift table and an exact characterisation of its overflow |
| C64 | Xc.v: slater, pw, pz, pbex, rPW86x, pbec at one grid point over the reals, libm domain errors and division by zero as UB | published formulas written from the papers (Fermi wave vector, reduced gradients, PW92, PZ81, PBE family); derivatives with Coquelicot along arbitrary paths; interval arithmetic for the literals through Machin bounds on pi; PZ81 jumps at rs = 1 (refuted there) |
| C65 | XcSpin.v: slater_spin, pw_spin, pz_spin, pbex_spin, rPW86x_spin, pbec_spin at one grid point over the reals | spin scaling against the C64 functions; published PW92 interpolation and PBE gradient term with phi; derivative along arbitrary paths (up, dn, sigma); symmetry and reduction at zero polarisation; negativity through a bound of the spin stiffness against the unpolarised energy |
| C66 | XcGrid.v: xc_decomposition, add_rho_core, squared gradients, Calculate_Vxc (spin 0, 1, 2), Calculate_Exc, noncollinear potential; the gradient operator is the global one of C55 | pointwise variation (C64/C65) lifted to the grid by summation by parts: the discrete gradient is antisymmetric for the grid sum; spec is the derivative of the reported energy along arbitrary paths and an independent table of functionals |
| C67 | MggaX.v (mGGAscan.c, mGGArscan.c, mGGAr2scan.c: variables, switching functions, enhancement factors, the assembly of energy and potentials; real arithmetic, division by zero and domain errors are UB), MggaXLem.v, P_MggaX.v | Along an arbitrary path of density, squared gradient and kinetic energy density each intermediate quantity has the derivative the code computes (chain rule lemma by lemma); the result is an instance of `meta_at`, the premise C66 uses. Published formulas restated separately from the model. |
| C68 | SphHarm.v (RealSphericalHarmonic, ComplexSphericalHarmonic: all 98 formulas and 77 literals, the clearing loop, buffer overrun is UB), SphHarmSpec.v (textbook formula with Legendre polynomials from Bonnet's recursion), SphHarmLem.v, SphHarmAdd.v, P_SphHarm.v | Each formula equals literal times shape on polar coordinates by polynomial identity modulo sin^2+cos^2=1; the literals against pi by Machin bounds to 17 digits; addition theorem as a polynomial identity per degree; orthonormality by iterated integrals (trigonometric in phi, exact rational polynomial integrals in cos theta). |
| C69 | Nloc.v (GetInfluencingAtoms_nloc: image ranges, overlap test, counting and filling passes, CalculateDistance; coordinates exact rationals, conversion to int is UB out of range; helical cells left out), NlocSpec.v, NlocLem.v, P_Nloc.v | Rows correspond one to one to (atom, image) pairs; interval arithmetic on floor and ceiling shows that the range of images and of nodes loses nothing inside the ball; edge and skewed-box failures by computed witnesses. |
| C70 | `Vnl_vec_mult(_kpt)` with `Chi`, `IP_displ`, the two products, `Gamma` and the sum over processes, over an arbitrary commutative ring; arrays with bounds | equality with an operator formula that knows no processes or array positions, for any division of the grid; linearity; Hermitian symmetry for conjugate weights; the Bloch factors over the complex numbers; dependence on the division refuted when a projector does not vanish at the cutoff |
| C71 | `Calculate_elecDens` with the loops over k-points, bands and spin components, the counters into the orbital and occupation arrays, the three sums over groups, the magnetisation and the diagonal densities; arrays with bounds, reals | equality with the density matrix formula and the Pauli expectations for every division; eigenvalue characterisation and positivity of the diagonal densities; the integral over all domains |
| C72 | `Calculate_Eband`, `Calculate_electronicEntropy`, `Calculate_Free_Energy`, `Calculate_Escc` with the arguments of the SCF loop, on any division; Hubbard correction over types and atoms; arrays with bounds, reals | equality with sums over states and integrals; calculus for the two smearings (derivative, Gibbs inequality, error of the cut-off terms); algebra of the double-counting terms; witnesses for the three false clauses |
| C73 | reader's type match, broadcast buffer with its stride, size loops, displacement loop with its three counters, `init_occ_mat`; bounded arrays, rationals | induction over types with an invariant on the three counters; equality of the filled arrays with the list of corrected orbitals; traces; witnesses for the name clash, the lost f value, the size mismatches and the less than half filled shell |
| C74 | the two matrix products with the images, the product with the matrices of all atoms, the loops over k-points and bands, the two reductions, the two ways the matrix is stored; bounded arrays over a commutative ring with conjugation | folds over a flattened list of images and atoms with disjoint blocks; orbital on the grid as a sum over images; Gram form for positivity; exchange of sums for the trace identity; instances over R and C; witnesses for the asymmetric operator and the short matrix |
| C75 | `D3.v`: images, coordination numbers, C6 and derivatives, pair and triple loops with the accumulators `drij`, `FdivR6mulDC6` (out-of-range store = UB), last loop, stress | Loops are reduced to lists of contributions (`D3Lem.v`); energy derivative along a path by Coquelicot (`D3Der.v`, `D3Main.v`); energy against an independent definition with all ordered pairs/triples over any large enough box of images (`D3ESpec.v`, `P_D3Energy.v`); completeness of images by Cauchy-Schwarz (`P_D3Img.v`); two clauses refuted (`P_D3Cor.v`) |
| C76 | `SqGauss.v`: Lanczos recurrence with stored vectors (store past the allocation, division by a zero norm = UB), implicit QL with 200 iterations, weights, density, constraint, band energy, entropy, density-matrix column, input checks; `SqHsub.v`: the nodal Hamiltonian with halo copies and bounded loads | `SqQl.v`: every sweep is an orthogonal similarity, invariant Z T Z^t; `SqLz.v`: three-term recurrence gives an orthonormal basis; `SqMain.v`: Gauss exactness by moments (degree 2 npl - 1) and Ritz values; `SqHsubLem.v`: formula and symmetry by shifting sums; against the spec of `SqSpec.v` (operators, polynomials, eigenbases); four clauses refuted |
| C77 | `OfDft.v`: TFW energy, operator, normalised update (zero norm = UB), Brent's search with the list of evaluations, the conjugate-gradient loop with what pSPARC is left with after each search; `OfDftLem.v`, `OfGrad.v`: invariants and derivatives | invariant of the bracket (every trial at least the tolerance inside it), derivative of quadratic forms of symmetric operators and of the normalised line, induction over the loop; witnesses for the printed energy and for the missing step 0 |
| C78 | `Soap.v`: computeP and its limit at the poles, Y and its two derivatives, angles of a neighbour with the code's branches, one neighbour's contribution and gradient (quotients by zero = UB, too close = Exit), c_nlm, its derivative per atom, power spectrum, kernel (non-positive base = UB), zit, energy and force of mlff_predict; h_nl and dh_nl are given functions | Legendre polynomials by Bonnet's recursion in `SoapSpec.v`; Derive_n closed form and the raising and lowering relations (`SoapLeg.v`), angular derivatives (`SoapLem.v`), gradient in space (`SoapGrad.v`), chain rule along the path of one atom (`SoapForce.v`, `SoapMain.v`), rotational invariance from the ladder relation and a telescoping sum (`SoapRot.v`), sum of forces (`SoapSum.v`), index sets (`SoapIdx.v`) |
| C79 | `NlocForce.v`: the integrals of every process (blocks placed by direction, k-point and spinor), reductions, the loops over atoms, bands and projectors of both versions, the reductions over spins, k-points and bands; out-of-bounds reads and writes = UB; the derivatives of the orbitals are given arrays; spin-orbit terms and helical cells left out | formula over orbitals and grid in `NlocForceSpec.v`; every communicator equals the formula for its own orbitals (`NlocForceMain.v`, `NlocForceGrp.v`), then sums over communicators; exact quadratic expansion of the energy; instances at R and C (`P_NlocForceR.v`) |
| C80 | `LapMax.v`: the scaled weights, the sum of cosines with the odd/even factor, the effective mesh for both kinds of cell, `Mesh2ChebDegree` with `round`, the bounds in the first SCF iteration; division by zero nodes = UB; results of `Lanczos` are arguments | `LapMaxSpec.v`: grid functions on Z^3, periodicity, inner product, the Laplacian as a stencil (with mixed terms for other cells), eigenvalues. The symbol of the stencil is a sum of powers (1-cos)^n with positive coefficients (`cser_power`), hence decreasing; discrete Fourier expansion of the autocorrelation gives the bound on the quadratic form, plane waves attain it. |
| C81 | `XcStress.v`: Dxcdgrho, Exc_corr, the Cartesian gradients, the six sums and the trace version of the pressure, the cell measure, gradT and lapcT, on top of the model of C66; division by a zero measure = UB; the core term, D3, vdW and orbital terms, and noncollinear spin, left out | `XcStressSpec.v`: deformation, determinant, inverse transpose, contraction with the strain. `XcStressLem.v`: derivative of the determinant and of the squared gradient under strain; the main proof differentiates the energy of the strained crystal point by point (point functions of `XcGridVar.v`) and sums by parts on the grid; `C81_cell` ties the strained gradients to the code's matrices on the strained lattice. |
| C82 | `Scf.v`: Evaluate_scf_error over the processes (out-of-bounds read = UB, infinity and NaN kept), shifting_Veff_mean, one turn of the loop for density and potential mixing, the loop and the warning of scf_loop; solver, potentials, energy, Escc and mixing are oracles with a hidden state; Hubbard, SQ and timing branches left out | `ScfSpec.v`: relative change of the gathered entries, column sums. `P_Scf.v`: fold over processes = sum over the gathered entries; induction over the turns with the states reached at the top of the loop; invariant that the potential in force belongs to the input density; three refutations by concrete runs. |
| C83 | `EgsForces.v`: Calculate_EGS_Forces after its three parts: conversion (with `nonCart2Cart_grad` of `Lattice.v`), core and D3 terms, Symmetrize_forces, flags; out-of-bounds reads = UB; the parts themselves are inputs | `P_EgsForces.v`: Cartesian force defined by its projections on the unit lattice vectors; sums over atoms; least squares by completing the square; witnesses in the unit cube. |
| C84 | `AtomCheck.v`: cutoffs of the types, the search for the type of an atom (keeping the old value when none is found), both loops and their early end; out-of-bounds reads = UB | `P_AtomCheck.v`: radii laid out type after type, distance, first close pair in lexicographic order; induction over both loops; witness with two atoms across a face. |
| C85 | `PspTables.v`: the array of tables with bounds (outside = UB), one block of the file, the loop over degrees with its two offsets, the calls of `getYD_gen`, the columns of `Chi` | `P_PspTables.v`: place of a projector = partial sum + index; loop lemma for writes at distinct places; induction over degrees; witnesses for the wrong offset. |

Properties that cannot be expressed here are marked `not_applicable` in the manifest with a reason.

## Assumptions

Axioms that `Print Assumptions` reports, all from the standard library:

| axioms | theorems |
|---|---|
| none (closed under the global context) | C01_block_no_overflow, C01_block_owner_lookup, C01_block_partition, C02_domain_box, C02_domain_owner, C02_domain_total, C03_band_partition, C04_every_state_assigned_once, C04_idle_rank_has_no_kpoints_refuted, C04_lambda_layout, C05_empty_block_refuted, C05_redistribution_correct, C06_message_lengths_match, C06_pack_stays_in_buffer, C06_partner_lists_match, C07_ndgrid_empty_range_refuted, C07_ndgrid_enumerates, C08_counts_match, C08_halo_correct, C08_more_processes_than_nodes_refuted, C08_scratch_large_enough, C09_bp_to_dp, C09_dp_to_bp, C09_round_trip, C10_inverse, C10_no_columns_refuted, C10_side_by_side_to_stacked, C10_stacked_to_side_by_side, C11_block_copy, C11_subgrid_copy, C12_count_fits_short, C12_factor_complete, C12_large_int_overflow_refuted, C12_sorted_factor, C13_grid_usable, C13_min_size_1d, C13_min_size_2d, C13_min_size_3d_refuted, C13_zero_min_size_refuted, C14_fock_small_mesh_refuted, C14_four_way_split, C14_three_way_split, C14_three_way_split_fock, C14_two_way_split, C15_dense_grid_exact, C16_chunk_size, C16_chunks_equal_whole, C16_empty_refuted, C17_blank_path_refuted, C17_canonical, C17_combine, C17_output_bounded, C17_overrun_exact, C17_overrun_refuted, C17_same_object, C18_antisymmetric, C18_keyword_equality, C18_lowercase, C18_same_pointer, C19_beyond_table_refuted, C19_binary_search, C19_binary_search_safe, C19_left_of_uniform_table_refuted, C19_nodes, C19_right_end_refuted, C19_sorted_evaluation, C19_uniform_evaluation, C19_unsorted_evaluation, C20_every_equation, C20_exit_exactly_on_small_pivot, C20_only_solution, C20_spline_slopes, C20_two_nodes_refuted, C21_huge_refuted, C21_huge_values, C21_magnitude, C22_array_of_eleven, C22_array_of_ten, C22_eleven_numbers_refuted, C23_close_to_true_root, C23_root_or_error, C24_float_refuted, C25_closed_reported, C25_complete_read, C25_error_refuted, C25_short_read_refuted, C25_short_reported_exactly, C26_bounded, C26_closed_ends_normally, C26_complete_writes_succeed, C26_exit_refuted, C26_failed_write_reported, C26_force_reply_code, C26_force_without_position_refuted, C26_header_recognised, C26_limit_refuted, C26_replies_follow_history, C26_short_write_refuted, C27_periodic, C27_periodic_defined, C27_rescaled_if_counter_zero, C27_uninitialised_refuted, C27_wire_z_refuted, C28_fails_only_outside, C28_float_refuted, C28_idempotent, C28_socket_boundary_refuted, C28_socket_variant, C28_wrapped, C29_columns_distinct, C29_history, C29_outer_loop_refuted, C29_zero_history_refuted, C30_all_negative_refuted, C30_component_defined, C30_component_integral, C30_density, C30_spin_negative_refuted, C30_spin_resolved, C31_atomic_density, C31_charged_cell_refuted, C31_extrapolated_nonnegative, C31_extrapolation_weights, C31_first_step, C31_history, C31_later_steps, C31_least_squares, C32_aar_extrapolation, C32_aar_history, C32_aar_keeps_solution, C32_aar_nan_refuted, C32_aar_stop, C32_cg_exact_start_undefined, C32_cg_orthogonal, C32_cg_residual, C32_cg_stop, C33_pushes_then_pops, C33_refines_list, C34_large_scores_refuted, C34_nan_refuted, C34_orthonormal_rows, C34_selection, C38_copy_survives, C38_partial_final_refuted, C38_partial_write_refuted, C38_resume_between, C38_resume_final, C38_stale_final_refuted, C39_one_run, C39_restart_chain, C39_zero_frequency_refuted, C40_buffer_refuted, C40_flag_minus_one_refuted, C40_ranks_agree, C40_restored, C41_accepted_refuted, C41_chain_only, C41_reader, C41_reader_refuted, C41_safe_iff, C42_code_unique, C42_region_exact, C43_decomposition_independent, C43_offset_overflow_refuted, C43_orbital_offset, C43_seeds_distinct, C43_value_of_global_index, C44_accepts_exactly, C44_long_host_refuted, C44_rejects_rest, C46_brillouin_sum, C46_minimal, C46_weights, C47_inverse_map, C47_links, C47_outcome, C47_selected, C50_complex, C50_real, C51_bloch, C51_bloch_single_point_refuted, C51_dirichlet, C51_out_of_bounds, C51_periodic, C51_small_mesh_refuted, C52_class, C53_collect_all_lambda, C53_layout, C54_adaptive_degree, C54_adaptive_degree_small_refuted, C54_counts, C54_degree_restored_refuted, C55_cover, C55_direction_matching_refuted, C55_gradient, C55_grid_independent, C55_laplacian, C55_narrow_refuted, C56_cell_type_refuted, C56_grid_independent, C56_halo, C56_laplacian, C56_narrow_refuted, C58_agree_refuted, C58_end, C58_fq_refuted, C58_full_relaxation, C58_new_run, C58_restarted_run, C66_case, C66_phase, C69_cell_typ_refuted, C69_cutoff, C69_edge_refuted, C69_list, C69_orthogonal_box, C69_skew_box_refuted, C70_division, C70_edge_refuted, C70_hermitian, C70_images, C70_linear, C70_operator, C70_projectors, C73_broadcast, C73_broadcast_refuted, C73_initial, C73_initial_magnetic, C73_initial_refuted, C73_name, C73_name_none, C73_name_refuted, C73_sizes, C73_sizes_refuted, C73_slots, C73_slots_disjoint, C73_slots_none, C74_division, C74_form, C74_gram, C74_hermitian, C74_hermitian_refuted, C74_occupation, C74_operator, C74_store_gamma, C74_store_kpt, C74_store_refuted, C74_trace, C76_check, C76_kpoint_refuted, C78_index, C79_derivative, C79_division, C79_energy, C79_forces, C85_columns, C85_once, C85_slopes |
| `ClassicalDedekindReals.sig_forall_dec` | C60_other_method_refuted, C76_gamma |
| `ClassicalDedekindReals.sig_forall_dec`, `FunctionalExtensionality.functional_extensionality_dep` | C20_cubics, C20_runs, C20_three_nodes, C35_momentum, C35_momentum_balance, C35_positions, C35_reversible, C45_first_derivative_exact, C45_second_derivative_exact, C45_weight_overflow, C52_obsolete_keyword, C54_bounds, C54_bounds_later, C54_buffer_refuted, C54_default_degree, C54_eigenvector, C54_filter, C57_direction, C57_history, C57_no_history_refuted, C57_secant, C59_error, C59_other_method_refuted, C59_units_refuted, C60_conjugate, C60_continued, C60_converges, C60_downhill_refuted, C60_exact, C60_step, C60_uniform_refuted, C61_brackets, C61_brent, C61_fractional, C62_relax_refuted, C63_overflow, C63_shift_safe, C63_shifts, C72_band, C72_hubbard, C72_hubbard_sum, C72_hybrid_hubbard_refuted, C74_kpt_positive, C74_positive, C75_slab_refuted, C76_charge, C76_operator, C77_brent, C77_brent_total, C77_parabola, C77_unimodal, C80_degree, C81_cell, C81_measure, C82_mean, C82_mean_none, C85_origin_refuted, C85_overrun_refuted, C85_soc, C85_soc_away, C85_udv |
| `ClassicalDedekindReals.sig_forall_dec`, `ClassicalDedekindReals.sig_not_dec`, `FunctionalExtensionality.functional_extensionality_dep` | C24_electron_count, C24_fermi_dirac_range, C24_gaussian, C36_first_half, C36_run, C36_second_half, C36_zero_force_refuted, C37_defined, C37_fixed, C37_momentum, C37_momentum_fixed_refuted, C37_single_atom_refuted, C37_temperature, C37_uniform_speed, C37_uniform_speed_refuted, C37_user_drift_refuted, C48_accepted, C48_cell_type, C48_cell_type_refuted, C48_distance, C48_dropped, C48_gradient, C48_inverse, C48_laplacian, C48_volume, C49_always_in_bounds_refuted, C49_bloch_angle, C49_cell_keyword_refuted, C49_cell_vectors, C49_oblique_phase_refuted, C49_out_of_bounds, C49_points, C49_reciprocal, C52_displacement, C52_letters_refuted, C57_downhill, C57_fixed_scale_refuted, C57_fixed_step, C57_line_step, C57_maxmov_refuted, C57_restart, C57_restart_line_refuted, C57_run, C59_continued, C59_defined, C59_limits, C59_restart, C59_schedule, C59_step, C59_wait_refuted, C61_pressure, C61_residual, C63_complete, C63_length, C63_overflow_refuted, C68_badargs, C68_m_checked_refuted, C70_bloch, C70_gamma_point, C70_kpt, C71_charge, C71_density, C71_spin, C72_exact_exchange, C72_harris, C72_kohn_sham, C72_meta_refuted, C72_spinor_refuted, C72_total, C74_kpt_hermitian, C75_images, C75_setup, C76_breakdown_refuted, C76_column, C76_density, C76_diagonal, C76_energy, C76_lanczos, C76_quadrature, C76_single_refuted, C76_solver, C76_weights, C78_harmonics, C79_setting, C80_lower, C80_mesh, C80_mesh_refuted, C82_density, C82_division, C82_error, C82_nan, C82_next, C82_noncollinear_refuted, C82_potential, C82_shift_refuted, C82_short, C82_stop, C82_warning_refuted, C83_flags_refuted, C83_formula, C83_held_refuted, C83_short, C83_symmetrize, C83_work, C84_images_refuted, C84_warning |
| `ClassicalDedekindReals.sig_forall_dec`, `ClassicalDedekindReals.sig_not_dec`, `Classical_Prop.classic`, `FunctionalExtensionality.functional_extensionality_dep` | C24_constraint_increasing, C24_fermi_dirac_decreasing, C24_fermi_level_exists, C24_fermi_level_unique, C37_maxwell_zero_refuted, C54_gain, C61_cell, C61_history, C61_left_refuted, C61_relax, C61_relax_direct, C61_third_extension_refuted, C62_auxiliary_stress_refuted, C62_bare, C62_screened, C62_small_vector_refuted, C62_sphere, C62_stale_refuted, C62_stress, C62_stress_auxiliary, C62_stress_limit, C62_tables, C62_trace, C62_truncated, C62_truncated_small, C62_volume, C63_gamma, C63_gamma_refuted, C63_gamma_safe, C63_solve, C64_constants, C64_mu_refuted, C64_pbec, C64_pbec_other, C64_pbex, C64_pbex_other, C64_pbex_scaling, C64_pw, C64_pz, C64_pz_refuted, C64_rPW86x, C64_slater, C65_constants, C65_other, C65_pbec, C65_pbex, C65_pw, C65_rPW86x, C65_slater, C66_defined, C66_direction, C66_energy, C66_energy_spin, C66_hf_refuted, C66_noncollinear, C66_spin, C66_unknown, C66_unknown_refuted, C66_unpolarised, C66_vacuum_refuted, C67_alpha1, C67_alpha1_refuted, C67_r2scanx, C67_r2scanx_spin, C67_rscanx, C67_rscanx_spin, C67_scanx, C67_scanx_bounds, C67_scanx_spin, C67_spin_energy, C68_addition, C68_complex, C68_everywhere_refuted, C68_orthonormal, C68_polar, C68_real, C68_short_buffer, C72_derivative, C72_entropy, C72_minimum, C75_balance, C75_close_refuted, C75_energy, C75_force, C75_gradient, C75_stress, C76_entropy, C76_entropy_refuted, C76_entropy_sum, C77_defined, C77_descent_refuted, C77_direction, C77_energy, C77_gradient, C77_printed_refuted, C77_result, C77_search, C77_stationary, C77_unconverged, C78_angles, C78_axis_refuted, C78_forces, C78_gradient, C78_harmonic_derivatives, C78_kernel, C78_literals, C78_rotation, C78_rotation_refuted, C78_spectrum, C78_sum_zero, C79_hellmann_feynman, C80_bounds, C80_bounds_refuted, C80_form, C80_largest, C81_stress, C81_stress_spin |
