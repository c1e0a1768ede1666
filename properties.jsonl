{"id": "C01", "title": "One-dimensional block decomposition is an exact partition", "statement": "For a direction with n grid nodes split over p processes, the node ranges given by (start, length) for ranks 0..p-1 are contiguous, disjoint and cover 0..n-1; the owner lookup returns exactly the rank whose range contains the node; block lengths differ by at most one; no division by zero or int overflow occurs for 1<=p, 0<=n<2^31.", "quantifier": "every node count n, process count p and node index / rank", "why_tests_cant": "the claim is about all (n,p) including n<p and n%p=0; a finite test table cannot settle it and an off-by-one only shows for particular remainders", "anchors": ["src/include/parallelization.h: block_decompose, block_decompose_nstart, block_decompose_rank"]}
{"id": "C02", "title": "Every grid point of the 3-D mesh is owned by exactly one process of the Cartesian topology", "statement": "With the process grid (px,py,pz), the local boxes DMVertices computed by the processes tile the global mesh: each global point lies in exactly one local box, and the local sizes sum to Nx*Ny*Nz.", "quantifier": "every mesh size and every process grid", "why_tests_cant": "three-dimensional product of all decompositions; tests only cover a few process counts", "anchors": ["src/parallelization.c: Setup_Comms (domain part, lines 450-517, 829-925)", "src/include/parallelization.h"]}
{"id": "C03", "title": "Every Kohn-Sham band is assigned to exactly one band group", "statement": "The band ranges [band_start_indx, band_start_indx+Nband) computed by the band groups are disjoint and cover 0..Nstates-1, and no group gets a negative count, for all Nstates>=1, npband>=1.", "quantifier": "every number of states and band groups (including more groups than states)", "why_tests_cant": "wrong only for particular residues of Nstates modulo the block size", "anchors": ["src/parallelization.c: Setup_Comms lines 396-428"]}
{"id": "C04", "title": "Spin and k-point work is assigned exactly once", "statement": "Over the k-point groups 0..npkpt-1 the k-point ranges are disjoint, cover 0..Nkpts_sym-1 and the gathered eigenvalue layout (counts/displacements) is consistent with those ranges; same for spin groups.", "quantifier": "every number of k-points and k-point groups", "why_tests_cant": "must hold for every residue class; tests fix one machine size", "anchors": ["src/parallelization.c: Setup_Comms lines 95-189", "src/occupation.c: collect_all_lambda"]}
{"id": "C05", "title": "Redistribution between two domain decompositions moves every value to its right place", "statement": "If every sender holds its block of a global field, then after the transfer every receiver holds exactly its block of the same field, whatever the two process grids are.", "quantifier": "every global mesh, every sender process grid, every receiver process grid, every field", "why_tests_cant": "the number of (mesh, grid, grid) combinations is unbounded and the index arithmetic differs for each overlap shape", "anchors": ["src/parallelization.c: Set_D2D_Target, D2D"]}
{"id": "C06", "title": "Redistribution messages match pairwise", "statement": "A sender lists a receiver as a target if and only if that receiver lists the sender as a source, and the message lengths computed on both sides agree, so the exchange can neither dead-lock on a missing message nor truncate one.", "quantifier": "every mesh and pair of process grids, every pair of ranks", "why_tests_cant": "a mismatch shows up as a hang or MPI truncation only for particular process counts", "anchors": ["src/parallelization.c: Set_D2D_Target, D2D"]}
{"id": "C07", "title": "Nd-grid enumeration lists every multi-index exactly once, first dimension fastest", "statement": "For bounds [lo_d,hi_d] the generated list has length prod(hi_d-lo_d+1), contains every multi-index in range exactly once, in column-major order, and writes only inside the output array.", "quantifier": "every number of dimensions and every bound", "why_tests_cant": "recursive index arithmetic over arbitrary dimension", "anchors": ["src/tools.c: c_ndgrid, c_ndgrid_recursion"]}
{"id": "C08", "title": "Periodic halo extension delivers the right neighbour values", "statement": "In the periodic domain-with-extension exchange, what a process receives for offset (i,j,k) is exactly what the process at that offset sends to it for the opposite offset: counts agree, layers add up to the requested extension, and the extended block contains the periodic continuation of the field.", "quantifier": "every mesh, process grid, and extension width", "why_tests_cant": "number of layers depends on the ratio of extension and block sizes, which tests do not enumerate", "anchors": ["src/parallelization.c: Set_D2Dext_Target, reorder_counts, D2Dext"]}
{"id": "C09", "title": "Band-parallel and domain-parallel layouts are mutually inverse", "statement": "Converting a block of orbitals from band-parallel to domain-parallel layout and back returns the original data, and the per-process counts and displacements tile the buffers.", "quantifier": "every local domain size, number of bands, and number of processes in the band group", "why_tests_cant": "depends on all remainders of the band and domain split", "anchors": ["src/parallelization.c: BP2DP, DP2BP"]}
{"id": "C10", "title": "In-place row/column interleaving of two blocks is invertible", "statement": "Converting between the stacked [b c] layout and the row-interleaved [b;c] layout in place is a bijection: the two conversions are inverse to each other and place entry (i,j) at the documented index.", "quantifier": "every row count, column count and matrix content", "why_tests_cant": "in-place overlapping copies depend on the loop direction for every size", "anchors": ["src/tools.c: Row2Col, Col2Row"]}
{"id": "C11", "title": "Sub-grid copy reads and writes the corresponding points only", "statement": "Copying a sub-box between two boxes of different origin writes exactly the points of the box, each with the value of the same global point, and leaves all other entries unchanged.", "quantifier": "every box, sub-box and field", "why_tests_cant": "3-D index arithmetic over all sizes", "anchors": ["src/tools.c: restrict_to_subgrid, copy_mat_blk"]}
{"id": "C12", "title": "Divisor enumeration is complete and in bounds", "statement": "The list of divisors returned for num>=1 contains exactly the positive divisors of num, each once, sorted ascending in the sorted variant; the fixed-size scratch buffer is never overrun.", "quantifier": "every positive integer num", "why_tests_cant": "the flush path is only reached for numbers with more than 300 divisors, and completeness is a universal claim", "anchors": ["src/tools.c: factor, sorted_factor, xferFactors"]}
{"id": "C13", "title": "Automatic process-grid selection returns a usable grid", "statement": "The process grid returned for nproc processes has all dims>=1 and product <= nproc; when success is reported every direction has at least minsize nodes per process.", "quantifier": "every process count, mesh and minimum block size", "why_tests_cant": "search heuristics with many branches; the failing branch needs particular factorizations", "anchors": ["src/parallelization.c: SPARC_Dims_create"]}
{"id": "C14", "title": "Work-splitting heuristics never oversubscribe", "statement": "The two-, three- and four-way splits of np processes return positive factors whose product does not exceed np, and the search terminates.", "quantifier": "every np and every work size", "why_tests_cant": "search loop over all factorizations of all smaller process counts", "anchors": ["src/parallelization.c: dims_divide_2d, dims_divide_kbd, dims_divide_skbd, dims_divide_kbd_fock"]}
{"id": "C15", "title": "Dense-solver process grid uses exactly the requested processes", "statement": "The 2-D grid chosen for the dense eigensolver satisfies dims[0]*dims[1] = nproc.", "quantifier": "every process count and matrix size", "why_tests_cant": "search over all factorizations", "anchors": ["src/parallelization.c: ScaLAPACK_Dims_2D_BLCYC"]}
{"id": "C16", "title": "Chunked all-reduce covers the whole buffer exactly once", "statement": "Splitting a reduction of `count` elements into chunks yields chunks that tile [0,count) exactly; count = 0 is a legal request.", "quantifier": "every count and element size", "why_tests_cant": "the chunked path only triggers for buffers above 1e8 bytes and the residue arithmetic differs per count", "anchors": ["src/parallelization.c: MPI_Allreduce_overload"]}
{"id": "C17", "title": "Path simplification preserves meaning", "statement": "The simplified path denotes the same file-system object (same normalised component list, same absolute/relative kind) as the input, stays within the output buffer and contains no redundant '.' components.", "quantifier": "every path string", "why_tests_cant": "unbounded strings with interacting '.', '..', '//' and leading-blank cases", "anchors": ["src/tools.c: simplifyPath, getNextLevel, goLower, goUpper"]}
{"id": "C18", "title": "Keyword comparison is exactly case-insensitive equality", "statement": "Two keywords compare equal iff they have equal length and agree letter by letter up to ASCII case.", "quantifier": "every pair of strings", "why_tests_cant": "universal over strings", "anchors": ["src/tools.c: strcmpi"]}
{"id": "C19", "title": "Interval search brackets the query point", "statement": "For a strictly increasing abscissa table and a query inside it, the returned index i satisfies X[i] <= x <= X[i+1] and is a legal interval index; the spline evaluation reads only inside the tables.", "quantifier": "every table and query point, including both end points", "why_tests_cant": "the failing input is exactly the last abscissa, a measure-zero case", "anchors": ["src/tools.c: binary_interval_search, SplineInterp, SplineInterpUniform, SortSplineInterp"]}
{"id": "C20", "title": "The tridiagonal solver solves the tridiagonal system", "statement": "When elimination meets no zero pivot, the returned vector satisfies every equation of the tridiagonal system exactly (in exact arithmetic), is its only solution, and the run ends with an error exactly when a pivot is below the threshold. The spline slopes computed with it give a twice continuously differentiable not-a-knot spline; for four or more nodes at least 1e-24 apart (in exact arithmetic) they are always found; for the values of a cubic polynomial they are its derivative and the spline is the polynomial. A table of three nodes always ends with an error, and one of two nodes is read past its end.", "quantifier": "every system size and every coefficient; every table of nodes and values", "why_tests_cant": "all sizes; numerical tests cannot separate bug from rounding", "anchors": ["src/tools.c: tridiag_gen, getYD_gen"]}
{"id": "C21", "title": "Memory-size formatting reports the right magnitude", "statement": "The printed number times the printed unit equals the requested number of bytes.", "quantifier": "every byte count", "why_tests_cant": "only the extreme range misbehaves", "anchors": ["src/tools.c: formatBytes"]}
{"id": "C22", "title": "Numeric-list input never writes past the caller's array", "statement": "Counting the numbers on an input line never writes outside the caller's array, for any line.", "quantifier": "every input line", "why_tests_cant": "needs a line with more numbers than anyone would type in a test", "anchors": ["src/tools.c: check_num_input"]}
{"id": "C23", "title": "Fermi-level root finder returns a point with a sign change next to it", "statement": "Whenever the Fermi-level search returns b, either |f(b)| is below the absolute threshold or there is a point c within 2*tol1 of b with f(b)*f(c)<=0; every evaluated point stays inside the (expanded) bracket; otherwise the program terminates with an error - it never returns an unbracketed value.", "quantifier": "every constraint function, every starting bracket, tolerance and iteration limit", "why_tests_cant": "quantifies over all functions", "anchors": ["src/occupation.c: local_Calculate_FermiLevel, Calculate_FermiLevel"]}
{"id": "C24", "title": "Occupations are physical", "statement": "Every Fermi-Dirac occupation lies strictly between 0 and 1, occupations never increase with energy, the electron-count constraint is strictly increasing in the Fermi level, so the Fermi level is unique, and at that level the occupations add up to the number of electrons.", "quantifier": "every eigenvalue spectrum, temperature, k-point weights", "why_tests_cant": "continuum of inputs", "anchors": ["src/occupation.c: smearing_function, local_occ_constraint, occ_constraint, Calculate_occupation"]}
{"id": "C25", "title": "A successful socket read delivered all requested bytes", "statement": "If the buffer-read routine reports success then exactly len bytes were received; a closed or failed connection is reported as failure.", "quantifier": "every sequence of partial reads, EOFs and errors of the connection", "why_tests_cant": "depends on the schedule of short reads", "anchors": ["src/socket/driver.c: readBuffer"]}
{"id": "C26", "title": "Socket protocol replies are consistent with the protocol state", "statement": "READY/HAVEDATA answers reflect whether an undelivered result exists, force replies are sent only for computed positions, every computed configuration can be fetched, the number of configurations is bounded by the user limit, and an orderly exit request ends the run normally.", "quantifier": "every sequence of client messages", "why_tests_cant": "unbounded protocol histories", "anchors": ["src/socket/driver.c: main_Socket, read_socket_header, write_forces_to_socket"]}
{"id": "C27", "title": "Virial sent to the server is the stress tensor times minus volume, scaled by the periodicity", "statement": "The nine virial numbers are the symmetric tensor built from the six stress numbers, for each boundary condition type rescaled by the non-periodic lengths.", "quantifier": "every stress, cell and boundary condition", "why_tests_cant": "the wrong branch needs a particular boundary-condition combination, and depends on an uninitialised loop counter", "anchors": ["src/socket/driver.c: stress_to_virial"]}
{"id": "C28", "title": "Periodic wrapping returns an equivalent position inside the cell", "statement": "After wrapping, each coordinate lies in [0,L) and differs from the original by an integer multiple of L; wrapping twice is the same as wrapping once.", "quantifier": "every coordinate and cell length", "why_tests_cant": "continuum of inputs including exact multiples and tiny negative values", "anchors": ["src/md.c: wraparound_dynamics", "src/socket/driver.c: map_atom_coord"]}
{"id": "C29", "title": "Mixing history holds exactly the last m differences", "statement": "After any number of mixing iterations the columns of the history matrices are exactly the differences of the last min(k,m) consecutive iterates (since the last restart), at the ring-buffer positions.", "quantifier": "every iteration count, history length, restart flag and iterate sequence", "why_tests_cant": "history property over unbounded sequences", "anchors": ["src/mixing.c: Mixing_periodic_pulay"]}
{"id": "C30", "title": "Density mixing conserves charge and positivity", "statement": "After a density-mixing step the density is nowhere negative and integrates to the number of electrons; magnetisation integrals equal the (extrapolated) unpreconditioned ones.", "quantifier": "every density, residual, mixing parameter, preconditioner result", "why_tests_cant": "continuum of inputs; rounding hides small violations", "anchors": ["src/mixing.c: Mixing_periodic_pulay"]}
{"id": "C31", "title": "Initial/extrapolated density integrates to the number of electrons", "statement": "The density guess built for a new ionic step integrates to the number of electrons, and up/down densities add to the total; extrapolation weights sum to one.", "quantifier": "every density history, charge state", "why_tests_cant": "only visible for charged cells and later steps", "anchors": ["src/orbitalElecDensInit.c: Init_electronDensity, elecDensExtrapolation"]}
{"id": "C32", "title": "The linear solver's convergence report is truthful", "statement": "If the alternating Anderson-Richardson solver stops before its iteration limit, the returned vector satisfies ||b-Ax|| <= tol*||b|| for the residual function given; likewise CG's recursive residual equals the true residual at all times.", "quantifier": "every operator, preconditioner, right-hand side, parameter set", "why_tests_cant": "must hold for every operator and iteration path", "anchors": ["src/linearSolver.c: AAR, CG"]}
{"id": "C33", "title": "Dynamic arrays behave like lists", "statement": "Under any sequence of append/pop/clear operations the dynamic array holds exactly the list of values a mathematical list would, never accesses memory outside its capacity and pops what was pushed last.", "quantifier": "every operation sequence", "why_tests_cant": "unbounded histories with growth and shrink thresholds", "anchors": ["src/mlff/ddbp_tools.c: init_dyarray, append_dyarray, pop_dyarray, clear_dyarray, dyarray_double_capacity, dyarray_half_capacity"]}
{"id": "C34", "title": "Sparsification keeps distinct descriptors with the smallest scores", "statement": "The selected descriptor indices are distinct, in range, exactly n-N_low many, and no dropped descriptor has a smaller score than a kept one.", "quantifier": "every score vector", "why_tests_cant": "all orders and ties", "anchors": ["src/mlff/sparsification.c: mlff_CUR_sparsify", "src/mlff/tools_mlff.c: smallest, lin_search_double"]}
{"id": "C35", "title": "NVE integration is time reversible and conserves momentum", "statement": "One NVE step followed by velocity reversal and another step returns to the start (for any position-dependent force); total momentum is unchanged when forces sum to zero.", "quantifier": "every force field, state, time step", "why_tests_cant": "universal over force fields", "anchors": ["src/md.c: NVE, Leapfrog_part1, Leapfrog_part2"]}
{"id": "C36", "title": "The isokinetic thermostat conserves kinetic energy exactly", "statement": "Each half-step of the Gaussian-thermostat integrator leaves the kinetic energy unchanged for every force, mass and time step (in exact arithmetic), provided forces are not all zero.", "quantifier": "every state, force, mass, time step", "why_tests_cant": "exact identity over the reals that numerical tests only sample", "anchors": ["src/md.c: Calc_vel1_G, Calc_vel2_G"]}
{"id": "C37", "title": "Initial velocities have zero total momentum and the requested temperature", "statement": "After initialisation the total momentum is zero and kinetic energy equals dof*kB*T/2; with the uniform distribution each drawn velocity has the same speed.", "quantifier": "every random stream, mass and constraint assignment", "why_tests_cant": "depends on the random stream; the defect needs two consecutive draws in a given range", "anchors": ["src/md.c: Initialize_MD"]}
{"id": "C38", "title": "A crash at any moment leaves a usable and most recent MD restart point", "statement": "Whatever the moment the program is killed, a later restart resumes from the most recent completely written snapshot.", "quantifier": "every history of runs, snapshots and crash points (including in the middle of writing a file)", "why_tests_cant": "crash points and histories are not enumerable by tests", "anchors": ["src/md.c: main_MD, PrintMD, Rename_restart, RestartMD"]}
{"id": "C39", "title": "MD step numbering is contiguous across restarts", "statement": "A sequence of restarted runs executes each MD step number exactly once, ends after the requested number of steps, and the snapshot written at the end carries the number of the last executed step.", "quantifier": "every sequence of run lengths and early stops", "why_tests_cant": "unbounded run histories", "anchors": ["src/md.c: main_MD, PrintMD"]}
{"id": "C40", "title": "All ranks agree after reading an MD restart file", "statement": "The broadcast restart buffer is large enough, unpacked in the same order as packed, and after restart every rank holds the same dynamic variables as rank 0; every variable written is restored.", "quantifier": "every method, restart mode, atom count and thermostat chain length", "why_tests_cant": "rank-dependent state; needs multi-rank restarts in each mode", "anchors": ["src/md.c: RestartMD, PrintMD"]}
{"id": "C41", "title": "Nose-Hoover chain update stays inside its arrays", "statement": "The chain thermostat update only reads and writes chain entries 0..n-1 for every accepted chain length.", "quantifier": "every accepted chain length", "why_tests_cant": "length-1 chains are accepted by the checks but not covered by tests", "anchors": ["src/md.c: IsoPress, Initialize_MD"]}
{"id": "C42", "title": "Outside-region classification is exact", "statement": "The region code of a grid point is -1 iff the point is inside the box, otherwise it identifies uniquely which of the 26 outside regions contains it.", "quantifier": "every box and point", "why_tests_cant": "26 cases times all boxes", "anchors": ["src/tools.c: is_grid_outside, grid_outside_region"]}
{"id": "C43", "title": "Seeded random vectors do not depend on the parallel decomposition", "statement": "With a fixed seed the value at a global grid point depends only on its global index and the offset, not on how the domain is decomposed; distinct points get distinct seeds.", "quantifier": "every mesh, decomposition, point", "why_tests_cant": "all decompositions", "anchors": ["src/tools.c: SeededRandVec", "src/orbitalElecDensInit.c: Init_orbital"]}
{"id": "C44", "title": "Socket address parsing accepts exactly the documented forms", "statement": "host:port with 1<=port<=65535 or name:UNIX is accepted with the right fields, anything else is rejected.", "quantifier": "every input string", "why_tests_cant": "unbounded strings", "anchors": ["src/socket/driver.c: split_socket_name"]}
{"id": "C45", "title": "Finite-difference weights differentiate polynomials exactly", "statement": "For FD half-width n the first-derivative stencil applied to samples of any polynomial of degree at most 2n gives its exact first derivative at the centre point, and the second-derivative stencil gives the exact second derivative of any polynomial of degree at most 2n+1 (so constants are annihilated).", "quantifier": "every n >= 1, mesh size h <> 0, point and polynomial of that degree", "why_tests_cant": "tests use a few fixed orders (12, 8...) and tolerance comparisons; exactness for every order is a combinatorial identity", "anchors": ["src/initialization.c: SPARC_copy_input (FDweights_D1, FDweights_D2, stencil coefficients)", "src/tools.c: fract"]}
{"id": "C46", "title": "Time-reversal reduction of the k-point grid keeps Brillouin-zone sums", "statement": "The reduced k-point list with its weights gives, for every function that is periodic and even in k, exactly the sum over the full Monkhorst-Pack grid; weights are 1 or 2 and add up to Kx*Ky*Kz; the list never outgrows its allocation.", "quantifier": "every grid size, every shift (including values outside [0,1)), every even periodic function", "why_tests_cant": "grids and shifts are unbounded; wrong partner detection only shows for particular shift/size combinations", "anchors": ["src/initialization.c: Calculate_kpoints, SPARC_copy_input"]}
{"id": "C47", "title": "Hybrid-functional k-point maps are consistent", "statement": "With EXX down-sampling, exactly Nkpts_hf points are stored; each is linked to a reduced k-point that equals it or its negative (with the matching flag), the reduced list has no duplicates, and the inverse map lists each Hartree-Fock point exactly once without exceeding its two slots.", "quantifier": "every grid, shift and admissible down-sampling factor triple", "why_tests_cant": "many integer combinations; slot overflow is silent", "anchors": ["src/initialization.c: Calculate_kpoints"]}
{"id": "C48", "title": "Lattice coordinate transformations are mutually inverse and metric-preserving", "statement": "For an accepted lattice, Cart2nonCart_coord and nonCart2Cart_coord are inverse to each other, CalculateDistance of two points in cell coordinates is the Euclidean distance of their Cartesian images, the gradient transformation is the chain rule, and every accepted lattice is assigned a cell type the stencil code supports.", "quantifier": "every lattice with positive determinant, every point pair", "why_tests_cant": "continuous inputs; near-orthogonal cells", "anchors": ["src/initialization.c: Cart2nonCart_transformMat, nonCart2Cart_coord, Cart2nonCart_coord, nonCart2Cart_grad, CalculateDistance, SPARC_copy_input"]}
{"id": "C49", "title": "Band-structure k-points lie equally spaced on the requested lines", "statement": "calculate_kpts_bandstruct writes only inside its arrays, and point j of line i is start + (end-start)*j/(n-1) in reduced coordinates, with Cartesian components given by the reciprocal lattice of the simulation cell, so that the Bloch factor across cell face i has angle 2 pi k_i.", "quantifier": "every number of lines, points per line and end points", "why_tests_cant": "unusual counts (1 point per line, many lines) are not tested", "anchors": ["src/initialization.c: calculate_kpts_bandstruct, SPARC_copy_input"]}
{"id": "C50", "title": "Kronecker-product solver applies the Laplacian and its inverse", "statement": "Given 1-D eigendecompositions, Lap_Kron with the eigenvalues equals the 3-D Laplacian (sum of the three 1-D operators), and with the inverted eigenvalues it is the inverse of that Laplacian on its range (exact inverse when no eigenvalue is dropped), including the reuse of the output as scratch.", "quantifier": "every mesh size and vector, every orthonormal eigen-decomposition", "why_tests_cant": "needs every mesh shape; transposition errors cancel for symmetric shapes", "anchors": ["src/kroneckerLaplacian.c: Lap_Kron, eigval_Lap_3D, init_kron_Lap"]}
{"id": "C51", "title": "1-D Laplacian matrices equal the stencil operator", "statement": "The dense 1-D matrices act on any grid function as the finite-difference stencil with zero (Dirichlet), periodic or Bloch-periodic extension; they are symmetric (Hermitian), rows of the periodic one sum to zero, and no entry outside the matrix is written when the mesh has at least FDn points.", "quantifier": "every mesh size N, half-width FDn, stencil and grid function", "why_tests_cant": "small meshes (N<=2*FDn) wrap more than once", "anchors": ["src/kroneckerLaplacian.c: Lap_1D_Dirichlet, Lap_1D_Periodic, Lap_1D_Periodic_complex"]}
{"id": "C52", "title": "Isolated clusters get Cartesian multipole displacements", "statement": "A run with Dirichlet conditions in all three directions is accepted only for an orthogonal cell, and for such a cell the vector handed to the multipole expansion is the Cartesian displacement from the cell centre, with the distance used beside it being its length.", "quantifier": "every boundary-condition input, lattice, grid point and centre", "why_tests_cant": "the check exists for one of two input keywords only; tests use cubes", "anchors": ["src/readfiles.c: read_input", "src/initialization.c: SPARC_copy_input, nonCart2Cart_grad", "src/electrostatics.c: init_multipole_expansion, MultipoleExpansion_phi"]}
{"id": "C53", "title": "Every working process ends with the complete, identically ordered eigenvalue array", "statement": "After collect_all_lambda, on every process that takes part in the electronic work the array has, at index (s*Nk+k)*Ns+n, eigenvalue n of k-point k and spin s, whatever the split of spins and k-points over process groups, including left-over processes and uneven groups; the gather calls match in membership and counts and write inside the array.", "quantifier": "every number of processes, every requested npspin/npkpt/npband, every Nspin in {1,2}, Nk, Ns and all eigenvalues", "why_tests_cant": "uneven splits with idle processes need many process counts", "anchors": ["src/occupation.c: collect_all_lambda", "src/parallelization.c: Setup_Comms (spincomm, spin_bridge_comm, kptcomm, kpt_bridge_comm, bandcomm, dmcomm)"]}
{"id": "C54", "title": "Chebyshev filtering applies the scaled Chebyshev polynomial of the Hamiltonian", "statement": "For bounds a0 < a < b and degree m>=1 the filter divides by nothing zero and replaces each orbital x by T_m((H-c)/e)x / T_m((a0-c)/e) (c, e centre and half-width of [a,b]), leaving padding entries of the arrays alone; so an eigenvector at a0 keeps its size, eigenvectors below a are amplified in order of their eigenvalue relative to all those in [a,b], which are damped geometrically in m. CheFSI steps are numbered 0,1,2,... over the SCF iterations; the default degree is 14..72, decreasing in the mesh spacing; the adaptive degree stays within its limits.", "quantifier": "every linear operator, orbital block, leading dimension, number of columns, degree and bounds; every error sequence", "why_tests_cant": "an error in the scaling or recurrence only slows convergence, so results still look right", "anchors": ["src/eigenSolver.c: ChebyshevFiltering, Chebyshevfilter_constants, eigSolve_CheFSI, Mesh2ChebDegree", "src/eigenSolverKpt.c: ChebyshevFiltering_kpt, eigSolve_CheFSI_kpt"]}
{"id": "C55", "title": "Halo exchange and stencils compute the global operator whatever the process grid", "statement": "If every process of the Cartesian grid holds its block of a global field and blocks are at least FDn points wide, then the matrix-free Laplacian (a*Lap + b*diag(v) + c) and gradient on an orthogonal cell return on every process exactly the block of the global finite-difference operator applied to the field extended by zero (Dirichlet) or by its Bloch/periodic images, without reading uninitialised or foreign memory; so the result at a grid point does not depend on the number and arrangement of processes, also for 1 or 2 processes in a periodic direction where both neighbours coincide.", "quantifier": "every process grid, global grid, boundary conditions per direction, stencil radius, coefficients, phases, field, potential and coefficients over any commutative ring", "why_tests_cant": "tests run a handful of process grids; uneven blocks and grids with one or two processes in a periodic direction take separate paths", "anchors": ["src/lapVecRoutines.c: Lap_plus_diag_vec_mult_orth, stencil_3axis_thread_v2", "src/gradVecRoutines.c: Gradient_vec_dir, Calc_DX", "src/lapVecRoutinesKpt.c: Lap_plus_diag_vec_mult_orth_kpt", "src/gradVecRoutinesKpt.c: Gradient_vec_dir_kpt", "src/tools.c: is_grid_outside"]}
{"id": "C56", "title": "Matrix-free Laplacian on non-orthogonal cells computes the global operator whatever the process grid", "statement": "On a non-orthogonal cell of any of the types 11..17, if every process holds its block of a global field and every block is at least FDn points wide, then after the 26-neighbour exchange every point of the extended block, including edges and corners, holds the value of the field extended by zero (Dirichlet) or by its Bloch/periodic image, and a*Lap + b*diag(v) + c returns on every process exactly the block of the global operator sum_ij T_ij D_i D_j with all mixed terms its cell type keeps, without reading uninitialised or foreign memory; the result at a grid point does not depend on the number and arrangement of processes.", "quantifier": "every process grid, global grid, boundary conditions per direction, stencil radius, coefficients, phases, cell type 11..17, field and potential over any commutative ring", "why_tests_cant": "the 26 send and receive boxes, their counts and offsets, and the compaction for missing neighbours give many combinations; tests exercise a few grids and periodic cells, where an error in a corner block changes digits only", "anchors": ["src/lapVecRoutines.c: snd_rcv_buffer, Lap_plus_diag_vec_mult_nonorth, stencil_4comp, stencil_5comp", "src/gradVecRoutines.c: Calc_DX, Calc_DX1_DX2", "src/lapVecRoutinesKpt.c: Lap_plus_diag_vec_mult_nonorth_kpt", "src/parallelization.c: dist-graph neighbours (290-334)", "src/initialization.c: 2131-2177, 3594-3609"]}
{"id": "C57", "title": "L-BFGS relaxation moves along the BFGS direction, downhill and no further than allowed", "statement": "The search direction of LBFGS is the inverse Hessian built by the BFGS update from the last L_HISTORY moves (newest first) times the force, and that matrix maps the last loss of force onto the last move. With L_AUTOSCALE: 1 (the default) the whole relaxation follows the textbook method: first move of length L_FINIT_STP along the force, then moves at most L_MAXMOV long, the memory cleared after a move that had to be shortened or was not downhill; every move has positive product with the force; no memory is read before it is written; a run continued from the restart file continues as the uninterrupted one. With L_AUTOSCALE: 0 the first iteration also reads only initialised memory, moves stay within L_MAXMOV, and a restart between trial and line step is harmless; L_HISTORY: 0 is safe.", "quantifier": "every number of atoms, history length >= 1, sequence of positions and forces returned by the physics, step limits", "why_tests_cant": "a wrong pair order or shifted history still converges, only slower", "anchors": ["src/relax.c: LBFGS, norm, dotproduct, PrintRelax, RestartRelax"]}
{"id": "C58", "title": "Relaxation steps are numbered consecutively, through restarts and volume changes", "statement": "In the three relaxation methods a new run writes the step numbers 1, 2, ..., at most RELAX_NITER of them, and exactly that many unless the forces are below the tolerance, the time is up or the stop file appears; each restart file holds the state of the step it names and the last one names the last step; a run restarted from the file of step l writes l+1, l+2, ...; in a full relaxation (RelaxFlag 3) the numbers run on from volume to volume. All processes take the same number of steps, and every PRINT_RESTART_FQ accepted by the reader is safe.", "quantifier": "every method (what a step does is arbitrary), tolerance, iteration limit, output frequency, clock and stop-file behaviour, and restart step", "why_tests_cant": "interrupted runs at every possible step are not tested", "anchors": ["src/relax.c: NLCG, LBFGS, FIRE (loops and counters), PrintRelax, RestartRelax, volrelax_constraint", "src/initialization.c: 1828-1840"]}
{"id": "C59", "title": "FIRE relaxation follows its schedule, limits every displacement and restarts exactly", "statement": "In a FIRE run the time step and mixing follow the published schedule (growth by 1.1 after five downhill steps at the start or more than five after an uphill one, up to ten times FIRE_dt; halved after an uphill step, mixing reset to 0.1); each step is velocity Verlet with every displacement component cut at FIRE_maxmov; after an uphill step the velocity is zero, otherwise it is turned towards the force without growing; velocity and force never oppose each other after a step; a step is undefined only where all forces vanish; the restart file holds the whole state, so a continued run takes the steps of the uninterrupted one. The same schedule holds at each volume of a full relaxation, and restart files of other methods are safe.", "quantifier": "every number of atoms, force field, wrapping, positive time step, mass and displacement limit, every number of steps and point of interruption", "why_tests_cant": "schedule errors only slow convergence; restart at every step is not tested", "anchors": ["src/relax.c: FIRE, PrintRelax, RestartRelax, volrelax_constraint"]}
{"id": "C60", "title": "NLCG relaxation is conjugate gradients with a secant line search and restarts exactly", "statement": "Each iteration of NLCG moves the atoms along the search direction by at most six secant steps on the slope of the energy (from 0 and NLCG_sigma), stopping when the last one moved no coordinate by more than a hundredth of the force tolerance; the next direction is Polak-Ribiere's, replaced by the force when the factor is negative and at every 30th step. Where the slope is affine the line search is exact, defined, and the next direction is downhill; on a positive definite quadratic energy the first 29 iterations give mutually orthogonal forces and conjugate directions, each ending at the minimum of its line, so up to 28 degrees of freedom are relaxed after at most as many steps. The restart file holds the whole state, so a continued run takes the steps of the uninterrupted one. Every step lowers the energy, is defined, and restart files of other methods are safe.", "quantifier": "every number of atoms, force field and wrapping it does not see, NLCG_sigma, tolerance, number of steps and point of interruption; every positive definite quadratic energy for the conjugacy claims", "why_tests_cant": "wrong conjugacy only slows convergence; restart at every step is not tested", "anchors": ["src/relax.c: NLCG, PrintRelax, RestartRelax"]}
{"id": "C61", "title": "Relaxing the cell changes the whole mesh to the asked volume and searches a root of the pressure residual", "statement": "reinitialize_cell_mesh gives a cell of exactly the asked volume: the periodic directions and the atoms are stretched by one factor, so fractional coordinates stay, and mesh sizes, volume element and all stencil coefficients are those of the new cell; the result depends only on the last volume asked for, not on the ones before. The residual is minus the stress work of stretching the relaxed lattice vectors per direction, less the target, i.e. the pressure less the target when all three are relaxed. BrentsFun evaluates the bracket, doubles it up to three times while the residuals have the same sign, then at most max_iter volumes inside it; it returns a volume where the residual is below the tolerance or changes sign within the resolved distance, never divides by zero, and the cell ends at the last volume evaluated, which after an interior search is the returned one up to that distance. (The third extension asks for a negative volume when the square of the volume ratio is 9/7 or more, as with the default 1.06 and three directions: then the run stops with an error. A root at the lower end of the bracket is returned, but the cell is left at the upper end.)", "quantifier": "every cell with its mesh, every orthogonal or non-orthogonal lattice, every choice of relaxed directions, stencil weights, residual function of the state, tolerances and numbers of iterations", "why_tests_cant": "regression tests relax a few cells near equilibrium; a stale stencil changes the energy slightly; the extensions are never reached", "anchors": ["src/relax.c: Relax_Cell, volrelax_constraint, reinitialize_cell_mesh, BrentsFun"]}
{"id": "C62", "title": "Exact-exchange Poisson constants are the Coulomb kernels they stand for, and the stress and pressure constants their derivatives", "statement": "For each singularity method the constant stored for squared wave vector G2 is the Fourier transform of its potential: Coulomb cut at the radius whose sphere has the volume of the k-point supercell (truncation), erfc(wr)/r (screened), 1/r (auxiliary function). At G=0 it is the limit (truncation, ERFC). The stress constant is minus the derivative of the kernel in G2, the second one of truncation half its logarithmic derivative in the volume, and the trace of the stress constants is what the pressure path uses, so both ways give one pressure. Exactly the allocated tables are written and read. The tables follow the cell, also when a relaxation turns the stress on.", "quantifier": "every cell volume, number of k-points, screening parameter and squared wave vector", "why_tests_cant": "a wrong factor in a stress constant shifts the stress smoothly; reference values come from the same code", "anchors": ["src/xc/exx/exactExchangeInitialization.c: singularity_remooval_const, allocate_singularity_removal_const, init_exx", "src/xc/exx/exactExchangeStress.c: solve_allpair_poissons_equation_stress", "src/xc/exx/exactExchangePressure.c", "src/relax.c: volrelax_constraint"]}
{"id": "C63", "title": "The FFT Poisson solve of exact exchange multiplies every Bloch wave by the kernel of its own wave vector", "statement": "For every pair of k-points (k,q) the shift map points to a stored vector within 1e-12 of k-q (entry 0 exactly if k is q), stored shifts are pairwise different and each is some k-q. With the phase and kernel tables built from that list, the solver maps sum_G c_G exp(i(G+s).r), G over the reciprocal vectors nearest to zero, to the same sum with c_G multiplied by the kernel (C62) at the squared Cartesian length of G+s; every right-hand side is such a sum with unique coefficients, and no table is read outside its bounds. The half-spectrum solver of gamma-point runs does the same for real right-hand sides and returns the real solution. The shift arrays are large enough.", "quantifier": "every lattice accepted by the setup, grid, list of k-points and exchange k-points, right-hand side, singularity method", "why_tests_cant": "a swapped slice or sign of a phase changes the exchange energy by an amount that looks like a convergence error; the overflow by one element needs a rare mesh", "anchors": ["src/xc/exx/exactExchangeInitialization.c: find_k_shift, kshift_phasefactor, compute_pois_fft_const", "src/xc/exx/exactExchangeKpt.c: pois_fft_kpt, apply_phase_factor", "src/xc/exx/exactExchange.c: pois_fft"]}
{"id": "C64", "title": "Spin-unpolarised exchange-correlation functions return the published energies with potentials that are their exact derivatives", "statement": "For every positive density (and gradient square) slater, pw, pz, pbex (PBE, PBEsol, RPBE, revPBE), rPW86x and pbec return the published energy per particle, never leave the domain of log, sqrt, pow or a division, and the potentials are the derivatives of density times energy: along every differentiable path (rho(t), sigma(t)) the energy per volume changes by v drho + v2/2 dsigma (slater: to 1e-15 relative to the cube root, its literals being rounded). Exchange lies between the uniform-gas value and (1+kappa) times it and scales linearly under uniform scaling; correlation lies between the local value and zero; at zero gradient the local functionals come out. Flags outside the tables abort. The literals agree with the exact constants.", "quantifier": "every positive density, non-negative squared gradient and functional flag", "why_tests_cant": "self-consistent energies are insensitive to a small inconsistency between energy and potential; forces absorb it as noise", "anchors": ["src/exchangeCorrelation.c: slater, pw, pz, pbex, rPW86x, pbec"]}
{"id": "C65", "title": "Spin-polarised exchange-correlation functions scale exactly, are symmetric in the spins and have exact potentials", "statement": "For all positive spin densities slater_spin, pbex_spin and rPW86x_spin (from the gradient floor on) obey E[up,dn] = (E[2up]+E[2dn])/2 with potentials those of the unpolarised functions at twice the density; pw_spin and pbec_spin return the published Perdew-Wang interpolation and PBE gradient correction (polarisation scaled by 1-1e-6 inside f and phi), negative, the gradient correction between 0 and minus the local value, also when one spin density vanishes; exchanging the spins exchanges the two potentials; at equal spin densities pbec_spin gives exactly the numbers of pbec, and pw_spin those of pw up to the last digit of a literal; without gradient pbec_spin gives pw_spin. Along every differentiable path of spin densities and squared gradients the energy per volume changes by vu dup + vd ddn plus half the returned gradient derivative times dsigma. Flags outside the tables and spin-polarised PZ abort.", "quantifier": "every pair of spin densities, squared gradients of both and of the total, and functional flag", "why_tests_cant": "regression tests contain few magnetic systems; a wrong zeta derivative changes the moment slightly", "anchors": ["src/exchangeCorrelation.c: slater_spin, pw_spin, pz_spin, pbex_spin, rPW86x_spin, pbec_spin"]}
{"id": "C66", "title": "The exchange-correlation potential on the grid is the exact derivative of the exchange-correlation energy that is reported", "statement": "For each of the thirteen documented functional names (matched without regard to case) Calculate_Vxc returns defined values on every input density, unpolarised, spin-polarised or noncollinear (spin-polarised LDA_PZ aborts), and the energy per electron it stores is at every grid point that of the documented combination of exchange and correlation, at the density with the core density added and both thresholds applied, with PBE in the first iteration of a meta-GGA and the exact-exchange fraction removed for PBE0/HSE in the Fock phase. Along every differentiable path of density fields (and kinetic energy densities) that stays above the thresholds, the energy Calculate_Exc computes changes by exactly dV times the sum over the grid of potential times density change, in every cell, with the discrete gradient and divergence and the core correction (up to 1e-15 rho^(1/3) in the LDA potential). The noncollinear potential matrix is the derivative with respect to the density matrix for LDA, and for every functional it is the rotated collinear one when the magnetisation has one direction. Every other name leads to a read of an unset variable.", "quantifier": "every grid, stencil, cell, density path, core density, functional, hybrid fraction and phase", "why_tests_cant": "a wrong divergence sign or a missing metric factor is hidden by SCF convergence; only the total derivative shows it", "anchors": ["src/exchangeCorrelation.c: Calculate_Vxc, Calculate_Exc, add_rho_core, calculate_square_norm_of_gradient, compute_norm_square, Drho_times_v2xc, Calculate_Xcpotential_Noncollinear", "src/initialization.c: xc_decomposition", "src/electronDensity.c: Calculate_Magnorm, Calculate_diagonal_Density"]}
{"id": "C67", "title": "Meta-GGA exchange: the SCAN, rSCAN and r2SCAN energies are the published ones and their potentials are exact derivatives", "statement": "scanx, rscanx and r2scanx return for a point with positive density and squared gradient the published exchange energy per electron (uniform-gas energy times the enhancement factor of the reduced gradient and the iso-orbital indicator), and the three potentials v, v2, v3 they return are the derivative of density times energy with respect to the density, the gradient and the kinetic energy density along every differentiable path. SCAN needs an indicator different from 1, rSCAN and r2SCAN one different from 2.5. With tau at least the von Weizsaecker value the SCAN energy is negative and above 1.174 times the uniform-gas value. The spin-polarised versions return the spin-scaled energy and its derivatives with respect to the quantities of each channel. At an indicator of exactly 1 scanx divides by zero.", "quantifier": "all positive densities and squared gradients, all kinetic energy densities, all differentiable paths; both spin treatments", "why_tests_cant": "the potentials enter the Hamiltonian and the stress but only the total energy is compared with references; a wrong partial derivative shifts self-consistent results slightly, and a failure at one value of the indicator is hit with probability near zero on a grid", "anchors": ["src/xc/mgga/mGGAscan.c:24-167", "src/xc/mgga/mGGAscan.c:331-489", "src/xc/mgga/mGGArscan.c:23-186", "src/xc/mgga/mGGArscan.c:364-410", "src/xc/mgga/mGGAr2scan.c:24-168", "src/xc/mgga/mGGAr2scan.c:408-454"]}
{"id": "C68", "title": "The spherical harmonics are the textbook ones to 14 digits: normalised, orthogonal, with the right phase, and complete in each degree", "statement": "For every degree l from 0 to 6 and every |m| <= l, RealSphericalHarmonic fills the first len entries of Ylm with the real spherical harmonic (normalisation, Legendre derivative and cos(m phi) / sin(|m| phi)), and ComplexSphericalHarmonic with the complex one with the Condon-Shortley phase, both up to one relative factor that differs from 1 by at most 1e-14 and depends on (l, m) only; the rest of Ylm is untouched and entries with r < 1e-10 are set to zero for l > 0. Consequently the sum over m of products at two points is (2l+1)/(4 pi) P_l of the cosine of the angle between them (relative 3e-14), and the functions are orthonormal over the sphere (exactly orthogonal, norm 1 within 3e-14). A degree outside 0..6 or an |m| > l (l > 0) leaves Ylm as it was apart from the clearing; a buffer shorter than len is overrun. For l = 0 the order m is not checked.", "quantifier": "every array of points whose r entry is the distance from the origin, every l and m, every buffer", "why_tests_cant": "a wrong coefficient in one of the 98 formulas for d, f, g and higher shells only shows for pseudopotentials with that channel, as a small symmetry breaking or a slightly wrong energy", "anchors": ["src/tools.c:1231-1655", "src/tools.c:1664-2042"]}
{"id": "C69", "title": "Every process finds exactly the atom images whose projectors reach its box, with exactly the nodes they reach", "statement": "For every process box and every list of atoms, GetInfluencingAtoms_nloc runs without undefined behaviour and, for each atom type, lists each periodic image at most once; every image with a node of the box strictly inside the largest cutoff radius of its type is listed, no image without a node within the radius is, and the row of an image holds its coordinates, the index of its atom, and precisely the local indices of the nodes of the box within the radius, in increasing order. Images exist only in periodic directions. In an orthogonal cell the search box always contains the ball. Two clauses fail: a node at exactly the radius can be lost on one side of a box although the same node is found by another division of the grid, and in a skewed cell a search box half as wide as the radius, which the code accepts, loses nodes; a cell type outside 0 and 11..19 leaves the distance unset.", "quantifier": "every grid, process box, cell (orthogonal or with a metric tensor), list of types and atoms in the cell", "why_tests_cant": "a lost image or node only shows when an atom is near a particular process boundary or cell face, as an error far below the tolerance of reference energies", "anchors": ["src/nlocVecRoutines.c:43-385", "src/initialization.c:3687-3699"]}
{"id": "C70", "title": "The nonlocal operator is the same for every division of the grid, equals the sum over atoms and images of Gamma |chi><chi|, and is Hermitian", "statement": "For every set of processes whose boxes cover the grid once, with the influence lists the code builds, Vnl_vec_mult and Vnl_vec_mult_kpt run without undefined behaviour and add to column n of Hx at each node the value of  sum over atoms and projectors Gamma |P2><P1|x_n> dV, where a projector on the grid is the sum over all periodic images of the atom of the image's Bloch factor times the projector at the displacement; nothing else in Hx changes. Every projector (l, radial index, m) of a nonlocal channel has exactly one column, and its Gamma entry counts the local channel. The result does not depend on the division of the grid, on leading dimensions or on the number of processes. The operator is linear; with the two Bloch factors of the code, which are conjugate, it is Hermitian for the grid inner product, the phase between two images is that of the Bloch wave over the lattice vector between them whatever the position of the atom, and at k = 0 it is the real operator. If a projector does not vanish at the cutoff itself the result depends on the division.", "quantifier": "every cell, grid, division, pseudopotential, atom list, number of columns, leading dimensions, k-point and vector, over any commutative ring", "why_tests_cant": "an operator that is slightly non-Hermitian or depends on the process grid changes eigenvalues in digits that vary with compiler and process count anyway, so reference comparisons accept it", "anchors": ["src/nlocVecRoutines.c:394-760", "src/nlocVecRoutines.c:769-792", "src/nlocVecRoutines.c:798-883", "src/nlocVecRoutines.c:889-1003"]}
{"id": "C71", "title": "The electron density is the density matrix of the occupied orbitals however they are distributed, and integrates to the number of electrons", "statement": "For every division of k-points, bands and spin components over the groups of processes, Calculate_elecDens runs without undefined behaviour and gives every process the density of its nodes: the sum over k-points and bands of occfac * weight / Nkpts * occupation * |psi|^2 / dV, for each spin component. With collinear spin the total and the difference of the two are returned as well; with spinors the magnetisation is the expectation of the three Pauli matrices, its length is at most the density, and the two diagonal densities are the eigenvalues of the density matrix, the larger first, neither negative. Integrated over a grid divided into domains the density gives the sum of weighted occupations when the orbitals are normalised.", "quantifier": "every number of processes in each group, every division, orbital set, occupation and weight set; all three spin treatments; real and complex orbitals", "why_tests_cant": "an index that is wrong only when a spin group holds both components or when a band group is empty shows in one parallel layout; a wrong sign of the y magnetisation leaves energies of symmetric systems unchanged", "anchors": ["src/electronDensity.c:30-94", "src/electronDensity.c:104-202", "src/electronDensity.c:210-295", "src/electronDensity.c:300-324"]}
{"id": "C72", "title": "The free energy of an SCF iteration is the Kohn-Sham functional of the new orbitals, and entropy and occupations belong together", "statement": "For every division of spins, k-points and grid over the processes the band energy is the weighted sum of occupation times eigenvalue and the entropy term is minus the temperature times the sum of the entropies of the states: for Gaussian smearing exactly, for Fermi-Dirac smearing up to 5.7e-13 per state, never below. For both smearings the derivative of the free energy of a state with respect to its eigenvalue is its occupation, and Fermi-Dirac occupations have the least free energy among all occupations with the same number of electrons. With potential mixing, whatever the input potential, the energy of an iteration is: occupied kinetic and nonlocal energy + half the integral of (density + pseudocharge) times the electrostatic potential + exchange-correlation + self-energy correction - TS; exact exchange is counted once. With density mixing it is the same expression at the input density plus the integral of the potential times the change of the density. The Hubbard correction turns the expectation of U (1/2 - n) into U/2 (n - n n) for the atoms with a correction, counted over all types. Not true: the Hubbard correction is left out in the hybrid phase; with meta-GGA and with spinors the energy of an unconverged iteration with potential mixing is not the functional of the new orbitals.", "quantifier": "every number of processes, grid, spin treatment (for the functional: none or collinear), orbitals, occupations in [0,1], weights, potentials and temperature", "why_tests_cant": "an energy term counted twice or with the old potential vanishes or becomes constant at convergence, which is where tests compare energies", "anchors": ["src/energy.c:41-199", "src/energy.c:205-235", "src/energy.c:241-268", "src/energy.c:296-324", "src/energy.c:331-366", "src/electronicGroundState.c:759-763", "src/electronicGroundState.c:797-826", "src/electronicGroundState.c:872-899", "src/electronicGroundState.c:1219-1246", "src/tools.c:780-791"]}
{"id": "C73", "title": "DFT+U set-up: every process works with the U values of the input, the blocks of all corrected atoms are laid out without overlap, and the initial occupation holds the electrons of the atom", "statement": "For all types, atoms and U values: U_ATOM_TYPE selects the type with that name (up to case) unless an earlier type has a name that begins with it, in which case that one is taken (with types Ni and N, 'N' puts the correction on nickel). The broadcast delivers the U of s, p and d of every corrected type and of f of the last one to every process; in place of that of f of every other corrected type the processes receive the U of s of the next one (so root and the others may work with different numbers of projectors). When every U is 0 or at least 1e-12 and each corrected l has one shell, the number of projectors, the order of the occupation matrix and the length of Uval agree and Uval holds the U of each orbital; with a negative U, semicore shells or a missing shell they differ. IP_displ_U and rho_mn_displ give every corrected atom a block directly behind those of the corrected atoms before it, in any order of corrected and uncorrected types, and the search from the end finds the total length; without any corrected type it reads index -1. The initial occupation matrices are diagonal; without moment both spins share the electrons of the shells evenly; with a moment and shells at least half filled they hold exactly the electrons of the shells, with entries in [0,1] and the largest moment along the given direction; for shells less than half filled they hold a negative number of electrons.", "quantifier": "every list of types with and without correction, every number of atoms, U value, shell structure, moment and spin treatment", "why_tests_cant": "tests use one corrected type, d shells more than half filled, and compare converged energies, which do not depend on the initial matrices", "anchors": ["src/readfiles.c:1886-1903", "src/xc/hubbard/hubbardInitialization.c:82-167", "src/xc/hubbard/hubbardInitialization.c:443-634", "src/xc/hubbard/occupationMatrix.c:296-340", "src/xc/hubbard/locOrbRoutines.c:715-757"]}
{"id": "C74", "title": "The DFT+U operator and occupation matrix are those of the orbitals on the whole grid, for every division over processes, and belong together", "statement": "For every set of types, atoms and divisions of the grid, Vhub_vec_mult and Vhub_vec_mult_kpt run without undefined behaviour when the stored matrices and U values have one entry per projector, and add to every column at every node of a process the value of  sum over corrected atoms, |r> U_r (1/2 - n)_rc <c|x> dV, the orbital on the grid being the sum over all images of the atom with their Bloch factors; nothing else changes, and the result does not depend on the division. The occupation matrix of a corrected atom is, after the reductions, the sum over band groups, k-point groups, k-points and bands of w f <r|x> conj <c|x>, on every process; v* n v is real and never negative. Stored at gamma it is symmetrised from its lower triangle; with k-points the real part of its Hermitian part is stored. The occupation-weighted expectation values of the operator over all bands and k-points add up to the traces of the potential matrices with the occupation matrices. The operator is Hermitian at every k-point if all orbitals of an atom have the same U. Two clauses fail: with two corrected shells of different U and an occupation that mixes them, the operator is not symmetric; and with k-points and a second shell of a corrected l, the stored matrix is smaller than the block copied into it.", "quantifier": "every list of types, number of atoms and images, grid division, number of columns, leading dimensions, band and k-point groups, orbitals, occupations and matrices; over any commutative ring with a conjugation, and over the reals and complex numbers", "why_tests_cant": "a matrix with rows and columns exchanged or a missing reduction is invisible for diagonal occupation matrices and in runs with one group; tests use one corrected shell per atom", "anchors": ["src/xc/hubbard/locOrbRoutines.c:762-905", "src/xc/hubbard/locOrbRoutines.c:912-1072", "src/xc/hubbard/occupationMatrix.c:355-633", "src/xc/hubbard/occupationMatrix.c:640-985"]}
{"id": "C75", "title": "DFT-D3 correction: energy, forces and stress", "statement": "d3_energy_gradient returns the DFT-D3 energy: half the sum over all ordered pairs of atoms and a sixth of the sum over all ordered triples of atoms, with every lattice image within the cut-offs, of the damped C6/C8 and C9 terms, where C6 is the Gaussian-weighted mean of the reference values at the two coordination numbers. The images set by d3_set_criteria miss no atom within the cut-off. The gradient and the virial it returns are the exact derivatives of that energy along every motion of the atoms and every strain of the cell, including the dependence through the coordination numbers; the forces add up to zero; the virial is symmetric; in a crystal periodic along three directions the stress is the derivative per volume. No array is accessed out of bounds. Two clauses fail and are refuted with a witness: in a slab or a wire the stress is divided by the volume of the box and not by cell_measure as the other parts are; for two atoms closer than sqrt(0.5) Bohr the energy counts the pair but the gradient does not.", "quantifier": "all numbers of atoms, positions, lattices with positive determinant, tables, cut-offs with Cn_thr <= Rthr", "why_tests_cant": "A wrong factor in the three-body derivative, in the chain rule through the coordination numbers, or in the weights of equal atoms changes forces by parts in a thousand; missing images only show in skewed cells; the slab factor needs a slab with D3 and stress at once.", "anchors": ["src/xc/vdW/d3/d3correction.c:30-646", "src/xc/vdW/d3/d3forceStress.c:20-103", "src/xc/vdW/d3/d3initialization.c:100-120"]}
{"id": "C76", "title": "Gauss spectral quadrature: density, charge, energy and density matrix of the SQ method", "statement": "For every node whose quadrature returns, the Lanczos vectors are orthonormal and reduce the symmetric nodal Hamiltonian to the stored tridiagonal matrix, the QL solver returns a complete orthonormal set of eigenvectors of that matrix, and nodes and weights integrate every polynomial of degree up to 2 npl - 1 in the Hamiltonian exactly; the weights are non-negative and add up to one, the nodes stay within the spectrum, and the recorded extreme eigenvalues are those of the nodes. The density at the node therefore differs from the exact local density, occfac/dV times the sum over eigenvectors of f(lambda) u(node)^2, by at most 2 occfac/dV times the error of the best such polynomial; the zero of the constraint on the Fermi level is exactly where the density integrates to the charge; the band energy of a polynomial is exact; the column of the density matrix used for forces is exact for degrees up to npl - 1 and its centre is the density. HsubTimesVec is, without out-of-bounds access, -1/2 Laplacian plus local potential plus nonlocal projectors on the box of the node with zero values outside, linear and symmetric, and leaves the halo zero. The checks of the input keep out what they name. Four clauses fail and are refuted with witnesses: npl = 1 passes the check and overruns the array of vectors; a zero Lanczos residual divides by zero; with Gaussian smearing the entropy is that of Fermi-Dirac; k-points pass the check.", "quantifier": "all boxes, grids, finite-difference orders and coefficients, potentials, projectors, numbers of quadrature points, smearing functions, start nodes and symmetric operators", "why_tests_cant": "Tests compare energies to 1e-4 or so at one npl: a weight or recurrence that is right only to lower polynomial degree still converges with npl; symmetric examples hide transposed eigenvectors and exchanged strides; the breakdown needs a start vector in an invariant subspace.", "anchors": ["src/linearScaling/sq.c:41-325", "src/linearScaling/sq.c:338-421", "src/linearScaling/sq.c:526-569", "src/linearScaling/sqDensity.c:114-200", "src/linearScaling/sqEnergy.c:63-185", "src/linearScaling/sqNlocVecRoutines.c:197-250", "src/initialization.c:2802-2862", "src/initialization.c:2907-2913"]}
{"id": "C77", "title": "Orbital-free DFT: energy, gradient, line search and conjugate gradients", "statement": "The energy minimised by OFDFT_NLCG_TETER is the Thomas-Fermi-Weizsaecker functional of u = sqrt(rho), and its residual is, up to the factor -dV/n_atom, the gradient of the energy per atom on the sphere of vectors with Ne electrons, so it vanishes exactly at solutions of the Euler-Lagrange equation. Every vector made by extend_normalized_vector is non-negative and holds Ne electrons, hence so are the density returned and every point whose energy is printed. A run ended by its test returns rho = u^2 with the energy of u and a root-mean-square residual below the tolerance. Directions follow Polak-Ribiere cut off at zero, restarted after 30 turns. Brent_Emin evaluates at most 100 points, all at least 1e-10 inside (0,1), divides by zero nowhere, takes parabolic steps only to the vertex of the parabola through its three best points, returns the lowest of them, and for a unimodal energy keeps the minimiser in its bracket and returns it within twice its tolerance. From a density with Ne electrons the run is defined unless a conjugate direction points to -u. Two clauses fail and are refuted with witnesses: the energy printed with an iteration is that of the last trial of the line search and not of the point accepted; the search never looks at step 0, so even a convex energy that falls at 0 can be raised by the step taken.", "quantifier": "all grids, spacings, electron counts, lambda, tolerances, starting densities, symmetric electrostatic solvers and Laplacians, exchange-correlation functionals with Vxc the derivative of Exc, and energies along the line", "why_tests_cant": "A wrong factor in the gradient only slows convergence; the search and the loop recover from bad directions; the mismatch of printed and accepted energies is below the printed digits near convergence; the failing division needs an exactly antiparallel direction.", "anchors": ["src/ofdft/ofdft.c:55-58", "src/ofdft/ofdft.c:63-204", "src/ofdft/ofdft.c:212-255", "src/ofdft/ofdft.c:264-359", "src/ofdft/ofdft.c:366-428", "src/ofdft/ofdft.c:757-772"]}
{"id": "C78", "title": "SOAP descriptor: spherical harmonics, rotational invariance, and forces that are the gradient of the predicted energy", "statement": "The machine-learned force field's spherical harmonics are the textbook ones for every l and |m|<=l, with their derivatives in both angles. The power spectrum is sqrt(8 pi^2/(2l+1)) times the sum over all m of c c'*, each pair of (element, radial function) is visited once and fills the array exactly, and the spectrum does not change when the neighbourhood is rotated by any product of rotations about z and x. The gradient stored for a neighbour is the derivative of its contribution. The kernel is the normalised power of the dot product and zit gives its derivative; the predicted force on every coordinate of every atom is minus the derivative of the predicted energy, and the forces add up to zero. Refuted with witnesses: a neighbour exactly on the negative x axis gets azimuth 0 and one exactly on the negative z axis polar angle 0, so each is taken for its mirror image, and the spectrum of two neighbours on the x axis changes when they are turned onto y.", "quantifier": "all l, m, angles, displacements off the refuted axes, radial functions with their derivatives, neighbour lists, training columns, weights and scales", "why_tests_cant": "Random structures never put a neighbour exactly on an axis, while crystals always do; a wrong sign in one m or one slot changes forces by little and is absorbed by the fit; invariance holds for all l only by algebra no finite set of rotations checks.", "anchors": ["src/mlff/spherical_harmonics.c:31-218", "src/mlff/soap_descriptor.c:567-745", "src/mlff/soap_descriptor.c:758-866", "src/mlff/soap_descriptor.c:916-971", "src/mlff/covariance_matrix.c:46-164", "src/mlff/covariance_matrix.c:856-1060", "src/mlff/regression.c:817-935", "src/mlff/sparc_mlff_interface.c:117-121", "src/mlff/sparc_mlff_interface.c:1089-1106"]}
{"id": "C79", "title": "Nonlocal forces: the formula for every division of grid, bands, k-points and spins, and minus the derivative of the nonlocal energy", "statement": "Calculate_nonlocal_forces_linear and Calculate_nonlocal_forces_kpt (without spin-orbit terms) access no array out of bounds and add to the force of every atom in every direction the value  - 2 sum over spins, k-points and bands of w f sum over projectors Gamma Re(conj <Chi|psi> <Chi|d psi>) dV, the projector on the grid being the sum over all images of the atom with their Bloch factors; entries of the force array behind the last atom stay. The result is the same for every division of the grid over processes and of spins, k-points and bands over communicators. When every orbital moves along its derivative the nonlocal energy of the atom is a quadratic polynomial of the step whose linear coefficient is minus that force; over the reals and the complex numbers the force is minus the derivative. The energies of the atoms add up to the expectation of the operator of C70 in the occupied orbitals.", "quantifier": "all cells, grids, divisions, numbers of types, atoms, images, projectors, spinors, k-points and bands, orbitals and their derivatives, occupations and weights; over any commutative ring with a conjugation, and over the reals and complex numbers", "why_tests_cant": "a wrong block of the integrals, a wrong band offset or a wrong occupation is invisible when one communicator holds all bands, spins and k-points and all occupations are equal; equal Gammas hide a wrong projector index; a lost conjugation cancels over k and -k", "anchors": ["src/forces.c:750-844", "src/forces.c:849-921", "src/forces.c:926-989", "src/forces.c:995-1159", "src/forces.c:1167-1231", "src/forces.c:1240-1305", "src/forces.c:1313-1392"]}
{"id": "C80", "title": "Largest eigenvalue of -1/2 Lap, effective mesh, polynomial degree and the bounds of the Chebyshev filter", "statement": "MaxEigVal_mhalfLap is exactly the largest eigenvalue of -1/2 of the periodic finite-difference Laplacian in an orthogonal cell, for every order, mesh and number of nodes, odd or even: it is attained by a periodic grid function and no eigenvalue lies above it or below zero; in every other cell some eigenvalue is at least as large, as the comment says. For even numbers of nodes a uniform mesh of the effective width has the same largest eigenvalue. The polynomial degree lies between 14 and 72, never falls when the mesh gets finer, and is 14 from 0.7 on. When the bounds are taken from this value they are ordered with the cutoff half-way, the upper one bounds -1/2 Lap + V for every V without positive expectation values, and the lower one bounds it from below for every V without expectation values below -2.1. Refuted with witnesses: with the default order in a hexagonal cell the effective width, made with a tabulated constant, belongs to a larger eigenvalue; and with a positive potential the upper bound is below the largest eigenvalue of the Hamiltonian.", "quantifier": "all orders, mesh widths, numbers of nodes, periodic grid functions, transformation matrices, flags and potentials", "why_tests_cant": "The sum of cosines peaks at the last frequency only because the weights are the Taylor coefficients they are, which no set of orders shows; odd numbers of nodes have a different top frequency; a bound a little too small makes the filter amplify high states only in cells with a positive potential.", "anchors": ["src/initialization.c:2105-2147", "src/initialization.c:2183-2226", "src/initialization.c:2233-2248", "src/relax.c:1214-1232", "src/md.c:1198-1216", "src/eigenSolver.c:611-655", "src/eigenSolver.c:699-704", "src/eigenSolver.c:2347-2362"]}
{"id": "C81", "title": "Exchange-correlation stress and pressure are the derivative of the exchange-correlation energy with respect to strain", "statement": "For every functional of the table, with and without spin, the six numbers of Calculate_XC_stress times the cell measure are the derivative, at zero strain and for every strain matrix, of the exchange-correlation energy of the strained crystal: every grid point moves with the lattice, the electrons and the kinetic energy density of a volume element stay in it, the core density of a point is held (its own term is added elsewhere), and gradients are those the code forms on the strained lattice. Without gradients the slip of the tabulated Slater constant, at most 1e-15 rho^(1/3), is the only difference. Calculate_XC_pressure returns the trace of this stress times the measure plus twice the energy of the density in the potential, the part its caller takes from the bands. On a strained lattice the code's transformation matrices give exactly the squared gradients and the volume factor used here. The cell measure is the volume spanned by the lattice vectors of the periodic directions and unit vectors of the others; the result is undefined exactly when it is zero.", "quantifier": "all grids, stencils, cells, densities above the floors, core densities, kinetic energy densities, strain matrices (symmetric or not), functionals, phases of the exact-exchange loop", "why_tests_cant": "Finite-difference stress tests run a few cubic crystals, where off-diagonal components vanish and a transposed transformation or a swapped component does not show; a lost kinetic-energy term needs a meta-GGA; the egg-box error of moving the grid hides small factors.", "anchors": ["src/stress.c:508-596", "src/pressure.c:124-131", "src/pressure.c:151-209", "src/energy.c:93-115", "src/energy.c:166", "src/initialization.c:3574-3593", "src/initialization.c:3674-3684", "src/exchangeCorrelation.c:178-188", "src/exchangeCorrelation.c:334-345"]}
{"id": "C82", "title": "Self-consistent field loop: the error, when it stops, when it warns, and what the error compares", "statement": "Evaluate_scf_error returns |out - in| / |out| over the whole grid, the same for every division over processes; it is zero exactly when a nonzero output equals the input, infinite or not a number when the output vanishes, and undefined when an array is too short. The rows written are numbered from 1 and each comes from one turn; the loop ends at the first turn from MINIT_SCF on whose error is below the tolerance (TOL_SCF_INIT when usefock is odd) or after MAXIT_SCF turns, and warns exactly when the last error is above the tolerance, so never when it ended early. With density mixing the potential in force at every turn is that of the input density, the error compares the density solved in it with this input, and the energy is taken at the input. With potential mixing and no or collinear spin the error compares the potential of the new density with the one the orbitals were solved in, and the correction Escc of these two is added to the energy. In periodic systems the potential is shifted by constants to zero sums before mixing (one constant for both collinear spins) and shifting back restores the sums. Refuted with witnesses: no warning after MAXIT_SCF when the error equals the tolerance or is not a number; the error does depend on a constant added to both potentials, against the comment; with potential mixing and noncollinear spin the part compared is never mixed, so a run stops with error 0 and no warning though input and output potentials differ.", "quantifier": "all numbers of processes and nodes, arrays, solvers, potentials, energies, mixing rules and histories, limits, tolerances, spin types and boundary conditions", "why_tests_cant": "Systems used in tests converge well before the limit; an error compared with the wrong input still decreases and converges to the same point; a zero mean holds by accident in neutral cells; noncollinear spin is seldom run with potential mixing.", "anchors": ["src/electronicGroundState.c:724-1149", "src/electronicGroundState.c:1160-1193", "src/electronicGroundState.c:1226-1270", "src/electronicGroundState.c:1273-1299", "src/mixing.c:249-262", "src/mixing.c:391-412"]}
{"id": "C83", "title": "Assembled atomic forces: Cartesian conversion, net force removed, held atoms", "statement": "Calculate_EGS_Forces turns the forces along the lattice directions into the Cartesian forces that do the same work along every displacement, adds the core correction, subtracts the gradient of the dispersion energy, and symmetrizes: no net force remains in any direction, differences between atoms are kept, forces without a net force do not change, and no other set of forces without a net force is closer in the sense of least squares. In a helical cell that is a part of the circle only the z component is symmetrized. When atoms move (relaxation of atoms or MD) every component is then multiplied by its flag, so flags 0 and 1 hold or free it. A force array that is too short is read out of bounds. Refuted with witnesses: with held atoms the forces handed on have a net force, against the comment, because the flags are applied last; and flags other than 0 and 1, which the reader accepts, scale or reverse forces.", "quantifier": "all cells the set-up accepts, numbers of atoms, forces, core and dispersion terms, flags, kinds of run", "why_tests_cant": "Symmetric test crystals have no net force to remove, and in orthogonal cells the conversion does nothing; a wrong stride in the sum changes forces by the size of the discretisation error only.", "anchors": ["src/forces.c:49-138", "src/forces.c:1399-1428", "src/xc/vdW/d3/d3forceStress.c:100-104", "src/initialization.c:3675-3681", "src/readfiles.c:1675-1691"]}
{"id": "C84", "title": "Warning about atoms that are too close", "statement": "Check_atomlocation writes at most one warning. It writes it exactly when two atoms of the cell are closer than half the sum of their radii, the radius of an atom being the largest cutoff of its type (or zero), and the distance printed is that of the first such pair. Refuted with a witness: images are not looked at, so two atoms 0.2 Bohr apart through a face of a periodic cell give no warning.", "quantifier": "all numbers of types and atoms, cutoffs and positions", "why_tests_cant": "Relaxation and MD tests never bring atoms that close; an off-by-one in the pair loop or a radius kept from another type shows only for particular atoms.", "anchors": ["src/md.c:1759-1803"]}
{"id": "C85", "title": "Projector tables of a pseudopotential: every projector keeps its own values, slopes and columns", "statement": "Reading a pseudopotential file with at least two radial points stores, for every degree but the local one, each projector's values over the radius in its own table, with the value at the origin copied from the next point, and touches nothing outside the array; the tables of the local degree stay zero. The same holds for spin-orbit projectors when the numbers of scalar and spin-orbit projectors have equal partial sums at every degree read. Without that condition the origin of a spin-orbit projector is taken from another projector or read past the end of the array (refuted). The spline slopes fill their allocation one table after the other, and every column of the projector matrix uses a table of values together with the slopes computed from that same table, exactly one column for every projector and order of every degree but the local one.", "quantifier": "all numbers of projectors per degree, local degrees, numbers of radial points and values", "why_tests_cant": "The usual pseudopotentials have equal numbers of projectors for every degree, for which the wrong offset happens to be the right one.", "anchors": ["src/readfiles.c:2111-2222", "src/initialization.c:3472-3517", "src/nlocVecRoutines.c:440-444, 523-557"]}
