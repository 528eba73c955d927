{"id": "C01", "title": "Task assignment is an ordered partition", "statement": "parallel.find_assignments(tasks, task_weights) returns one list per MPI worker, and concatenating those lists gives back exactly `tasks`, in order, each task once, whenever every weight is strictly positive (in particular with the default weights). For arbitrary non-negative weights it still returns one list per worker whose concatenation is a prefix of `tasks`, but trailing zero-weight tasks can be lost; the positivity hypothesis is therefore necessary.", "quantifier": "all task lists, all weight lists of the same length, all worker counts P >= 1", "why_tests_cant": "the tests fix five literal task lists with two to five workers; the claim ranges over all lists, weights and worker counts, and the lost-task case needs a weight pattern nobody wrote down", "anchors": ["modred/parallel.py: find_assignments"]}
{"id": "C02", "title": "Default task assignment is balanced", "statement": "With default weights every worker gets floor(n/P) or ceil(n/P) of the n tasks, workers with no tasks all come after workers with tasks, exactly min(n,P) workers are busy, and check_for_empty_tasks reports True exactly when n < P.", "quantifier": "all task lists, all worker counts P >= 1", "why_tests_cant": "balance is a statement about every (n,P) pair; the symmetric inner-product algorithm silently depends on it (busy workers must be ranks 0..k-1)", "anchors": ["modred/parallel.py: find_assignments", "modred/parallel.py: check_for_empty_tasks", "modred/vectorspace.py: VectorSpaceHandles.compute_symm_inner_product_array"]}
{"id": "C03", "title": "Memory limit is honoured or raised to a workable minimum", "statement": "After VectorSpaceHandles(max_vecs_per_node=m) each process may hold at least 3 vectors; when m suffices for 3 vectors per process it is kept and processes-per-node times vectors-per-process does not exceed it; otherwise it is raised to the least value giving 3 per process. As a result the run-time estimates never divide by zero and every chunk holds at least two rows.", "quantifier": "all integers m (including 0 and negative), all process counts P >= 1 and node counts 1 <= N <= P", "why_tests_cant": "the interaction of rounding in the clamp with later divisions and chunk sizes has to hold for every (m,P,N)", "anchors": ["modred/vectorspace.py: VectorSpaceHandles.__init__", "modred/vectorspace.py: VectorSpaceHandles.compute_inner_product_array", "modred/vectorspace.py: VectorSpaceHandles.lin_combine"]}
{"id": "C04", "title": "Inner-product arrays are complete, correct and schedule independent", "statement": "VectorSpaceHandles.compute_inner_product_array(rows, cols) terminates on every schedule with every rank returning the same num_rows x num_cols array whose (i,j) entry is inner_product(row_i, col_j), for any conjugate-symmetric inner product whose values share one scalar type; the result does not depend on the number of processes, on max_vecs_per_node, on message buffering or on interleaving. If num_rows <= num_cols conjugate symmetry is not needed.", "quantifier": "all non-empty handle lists, all stored vectors, all process counts, all memory limits, all MPI schedules and buffering policies", "why_tests_cant": "tests run one or two process counts under the scheduler the machine happens to use; deadlock, lost columns and overwritten chunks only show for some (sizes, P, limit, interleaving)", "anchors": ["modred/vectorspace.py: VectorSpaceHandles.compute_inner_product_array", "modred/parallel.py: find_assignments", "modred/reductions.py: Intracomm.allreduce"]}
{"id": "C05", "title": "Symmetric inner-product arrays equal the full computation", "statement": "VectorSpaceHandles.compute_symm_inner_product_array(vecs) terminates on every schedule, every rank returning the same n x n array; with a conjugate-symmetric inner product entry (i,j) is inner_product(v_i, v_j) for every i and j, even though only part of the array is computed directly and some pairs are computed twice.", "quantifier": "all non-empty handle lists, all stored vectors, all process counts, all memory limits, all MPI schedules and buffering policies", "why_tests_cant": "which pairs are exchanged depends on parity of the number of active processes and the chunking; coverage of all pairs must be shown for all of them", "anchors": ["modred/vectorspace.py: VectorSpaceHandles.compute_symm_inner_product_array"]}
{"id": "C06", "title": "Linear combinations are written once, completely, on every schedule", "statement": "VectorSpaceHandles.lin_combine(sums, basis, coeffs, col_indices) terminates on every schedule; afterwards the store holds, at each sum handle j, the vector sum_i coeff[i, idx_j] * basis_i, each sum handle having been written exactly once by one process, and nothing else is modified. If the coefficient array does not match the number of basis or sum handles every process raises ValueError and nothing is written. The sum handles must be distinct and disjoint from the basis handles.", "quantifier": "all handle lists, stored vectors, coefficient arrays (1-D or 2-D) and column index lists, all process counts, memory limits, schedules and buffering policies", "why_tests_cant": "a wrong chunk boundary or ring pass loses one summand only for particular sizes and process counts; tests use random sizes with one process count", "anchors": ["modred/vectorspace.py: VectorSpaceHandles.lin_combine"]}
{"id": "C07", "title": "Message tags identify the communicating pair and their size is quadratic in P", "statement": "In every send made by the inner-product and linear-combination routines the tag determines the (sender, receiver) pair, the sender's tag equals the tag the receiver waits for, and the largest possible tag is P*P+P-2 or less; hence runs are valid whenever the MPI tag limit is at least that, and for the limit guaranteed by the MPI standard (32767) there are process counts for which an invalid tag is used.", "quantifier": "all process counts P and all ranks", "why_tests_cant": "no test runs with more than a few processes", "anchors": ["modred/vectorspace.py: VectorSpaceHandles.compute_inner_product_array (send_tag, recv_tag)", "modred/vectorspace.py: VectorSpaceHandles.lin_combine"]}
{"id": "C08", "title": "reduce and allreduce compute the ordered fold", "statement": "Intracomm.reduce(x, op, root) returns x_0 op x_1 op ... op x_{P-1} at the root and None elsewhere, and Intracomm.allreduce returns that value on every rank, for every associative op (commutativity is not needed), terminating on every schedule; allreduce returns the same value on every rank even if op is not associative.", "quantifier": "all process counts (not only powers of two), all roots, all inputs, all associative operations, all schedules and buffering policies", "why_tests_cant": "the recursion over bit masks leaves different ranks idle for each P; tests cannot range over P nor over schedules", "anchors": ["modred/reductions.py: Intracomm.reduce", "modred/reductions.py: Intracomm.allreduce"]}
{"id": "C09", "title": "scan and exscan compute prefix folds", "statement": "Intracomm.scan returns x_0 op ... op x_r on rank r and Intracomm.exscan returns x_0 op ... op x_{r-1} on rank r > 0 and None on rank 0, for every associative op, terminating on every schedule.", "quantifier": "all process counts, all inputs, all associative operations, all schedules and buffering policies", "why_tests_cant": "hypercube exchanges with non-power-of-two sizes leave partial values incomplete on some ranks; that these are never used is an inductive argument", "anchors": ["modred/reductions.py: Intracomm.scan", "modred/reductions.py: Intracomm.exscan"]}
{"id": "C10", "title": "Rank-zero calls are evaluated once and shared", "statement": "call_and_bcast(f, *args) returns f(*args), evaluated with rank zero's arguments, on every rank; bcast returns rank zero's value on every rank; call_from_rank_zero returns f's value on rank zero and None elsewhere; f is run exactly once. If f raises on rank zero the remaining ranks never return from call_and_bcast (they block), so an input error on rank zero is not reported on the others.", "quantifier": "all process counts, all functions, all per-rank arguments, all schedules", "why_tests_cant": "blocking behaviour is a statement about all schedules; the existing test only looks at the returned value", "anchors": ["modred/parallel.py: call_and_bcast", "modred/parallel.py: bcast", "modred/parallel.py: call_from_rank_zero"]}
{"id": "C11", "title": "Handles subtract the current base vector", "statement": "For every history of get, put and base lookups, VecHandle.get() returns scale * (stored vector - current base vector), provided no handle used as a base is written after it was first used as one and handles that compare equal hold the same vector; without the first proviso a stale cached base is used, without the second the wrong base is used.", "quantifier": "all handle families (in memory, text, pickle), nesting of bases, scales, and all finite histories of operations", "why_tests_cant": "the cache is a class variable shared by all handles, so the result depends on the entire history; a unit test explores one history", "anchors": ["modred/vectors.py: VecHandle.get", "modred/vectors.py: VecHandle.put", "modred/vectors.py: VecHandleInMemory.__eq__", "modred/vectors.py: VecHandleArrayText.__eq__", "modred/vectors.py: VecHandlePickle.__eq__"]}
{"id": "C12", "title": "Text files round-trip arrays", "statement": "load_array_text(save_array_text(A), delimiter, is_complex) returns A with its shape for every non-empty 2-D real or C-ordered complex array (1-D arrays come back as one column), reals and complexes interleaved; arrays with more than two dimensions raise RuntimeError; a complex load of a file with an odd number of columns raises ValueError. Integer arrays are not round-tripped: their bit patterns are reinterpreted as floats. In files from elsewhere, comments and empty lines change nothing; lines with different numbers of fields and fields that are no numbers raise ValueError.", "quantifier": "all array shapes and entries, all delimiters that cannot occur inside a printed number, both element types", "why_tests_cant": "an all-shapes round-trip statement; the integer defect is silent", "anchors": ["modred/util.py: save_array_text", "modred/util.py: load_array_text", "modred/util.py: atleast_2d_col"]}
{"id": "C13", "title": "Hankel arrays are constant along skew diagonals", "statement": "util.Hankel(first_col, last_row) has shape (len(first_col), len(last_row)), its first column is first_col, entry (i,j) depends only on i+j, and its last row is last_row except possibly its first entry; with last_row omitted entries below the skew diagonal are zero.", "quantifier": "all non-empty first columns and last rows, any scalar type", "why_tests_cant": "index arithmetic at the corner must be right for every pair of lengths", "anchors": ["modred/util.py: Hankel"]}
{"id": "C14", "title": "Block Hankel arrays place chunk i+j at block (i,j)", "statement": "util.Hankel_chunks(first_col_chunks, last_row_chunks) puts first_col_chunks[i+j] (or last_row_chunks[i+j-n+1] beyond the corner) at block (i,j), for all equally-shaped chunks, and agrees with Hankel when chunks are 1x1.", "quantifier": "all chunk shapes and all numbers of row and column chunks", "why_tests_cant": "as for Hankel, over all block shapes", "anchors": ["modred/util.py: Hankel_chunks"]}
{"id": "C15", "title": "Truncated SVD keeps exactly the values above both tolerances", "statement": "util.svd(A, atol, rtol) returns consistent U, S, V with the same number k of columns; the kept singular values are exactly the leading ones that exceed atol and whose ratio to the largest exceeds rtol; U and V have orthonormal columns, A V = U diag(S) and A^H U = V diag(S); if everything discarded is zero then A = U diag(S) V^H.", "quantifier": "all arrays and all tolerances including None, for every LAPACK result satisfying the SVD contract", "why_tests_cant": "the count-then-prefix trick is right only because singular values are sorted; the claim is about all inputs and tolerances", "anchors": ["modred/util.py: svd"]}
{"id": "C16", "title": "Truncated eigendecomposition keeps exactly the values above both tolerances", "statement": "util.eigh(A, atol, rtol, is_positive_definite) returns eigenpairs of A sorted by decreasing magnitude, with orthonormal eigenvectors; the kept pairs are exactly those above the (possibly raised) atol and above rtol times the largest; with is_positive_definite=True and a non-negative atol all returned eigenvalues are strictly positive and no eigenvalue larger than the raised tolerance is lost. With atol=None and a negative eigenvalue the positive-definite option raises TypeError, and with atol=None zero eigenvalues are kept.", "quantifier": "all Hermitian arrays, all tolerances including None, both flags, for every LAPACK result satisfying the eigendecomposition contract", "why_tests_cant": "tests choose random matrices whose spectrum never straddles the tolerance in the awkward way", "anchors": ["modred/util.py: eigh"]}
{"id": "C17", "title": "Biorthogonal eigenvectors", "statement": "util.eig_biorthog(A, scale_choice) returns eigenvalues, right and left eigenvectors of A whose diagonal inner products are 1 for either scale choice, leaving the other family unchanged; if the eigenvalues are pairwise distinct then L^H R is the identity and no division by zero occurs; with a repeated eigenvalue the off-diagonal products need not vanish. An invalid scale choice raises ValueError.", "quantifier": "all square arrays and every LAPACK eigenvector choice satisfying its contract", "why_tests_cant": "random test matrices have distinct eigenvalues with probability one", "anchors": ["modred/util.py: eig_biorthog"]}
{"id": "C18", "title": "Array inner products and combinations", "statement": "VectorSpaceArrays.compute_inner_product_array is sesquilinear, compute_symm_inner_product_array is Hermitian for Hermitian weights, 1-D weights act exactly as the diagonal 2-D array with those entries, no weights act as the identity, and lin_combine(basis, coeffs, idx) is basis times the selected coefficient columns; weights with 3 or more non-trivial dimensions raise ValueError. One-element weights are rejected with ValueError although the documentation allows them.", "quantifier": "all vectors, coefficients, weights and index lists", "why_tests_cant": "algebraic identities over all data", "anchors": ["modred/vectorspace.py: VectorSpaceArrays"]}
{"id": "C19", "title": "POD modes are orthonormal and the coefficients are projections", "statement": "For compute_POD_arrays_snaps_method the returned modes are orthonormal in the weighted inner product, eigenvalues are those of the correlation array, proj_coeffs equals the inner products of modes with the data, and when nothing with non-zero eigenvalue is truncated modes * proj_coeffs reproduces the data; mode_indices selects columns.", "quantifier": "all data arrays, all Hermitian positive-definite weights (None, 1-D, 2-D), all tolerances, all mode index lists", "why_tests_cant": "orthogonality for all data follows from algebra, not sampling", "anchors": ["modred/pod.py: compute_POD_arrays_snaps_method", "modred/pod.py: PODHandles"]}
{"id": "C20", "title": "Direct POD satisfies the same specification", "statement": "compute_POD_arrays_direct_method returns modes orthonormal in the same weighted inner product, eigenvalues equal to squared singular values which are eigenvalues of the correlation array, and the same projection identity as the method of snapshots. The tolerances act on singular values, so unlike the snapshot method atol keeps eigenvalues between atol**2 and atol.", "quantifier": "all data arrays, weights and tolerances, for every LAPACK result satisfying its contract", "why_tests_cant": "method equivalence over all inputs; the tolerance difference only shows near the cut", "anchors": ["modred/pod.py: compute_POD_arrays_direct_method"]}
{"id": "C21", "title": "BPOD modes are biorthogonal and the Hankel shortcut is exact", "statement": "For compute_BPOD_arrays the adjoint modes and direct modes satisfy adjoint^H W direct = I, direct_proj_coeffs = adjoint^H W direct_vecs and adjoint_proj_coeffs = direct^H W adjoint_vecs; when the data are impulse responses of a linear system and of its adjoint, the Hankel array assembled from the first block column and last block row equals all inner products Y^H W X.", "quantifier": "all data, weights, tolerances, numbers of inputs and outputs, and all linear time-invariant systems", "why_tests_cant": "requires algebra over arbitrary systems and sizes", "anchors": ["modred/bpod.py: compute_BPOD_arrays", "modred/bpod.py: BPODHandles.compute_decomp", "modred/bpod.py: BPODHandles.compute_direct_modes", "modred/bpod.py: BPODHandles.compute_adjoint_modes"]}
{"id": "C22", "title": "DMD modes are biorthogonal to the adjoint modes", "statement": "For compute_DMD_arrays_snaps_method, adjoint_modes^H W proj_modes = I and adjoint_modes^H W exact_modes = I, proj_coeffs equals adjoint_modes^H W vecs, adv_proj_coeffs equals adjoint_modes^H W adv_vecs, and spectral_coeffs are the magnitudes of the first column of proj_coeffs.", "quantifier": "all data, weights, tolerances and max_num_eigvals, provided no DMD eigenvalue used for exact modes is zero", "why_tests_cant": "identities over all data", "anchors": ["modred/dmd.py: compute_DMD_arrays_snaps_method"]}
{"id": "C23", "title": "Exact DMD modes are eigenvectors of the fitted operator", "statement": "For the operator A = adv_vecs * pinv_W(vecs) fitted by DMD, A * exact_modes = exact_modes * diag(eigvals); if adv_vecs = A0 * vecs for a linear map A0 and the span of the data is A0-invariant then (eigvals, exact_modes) are eigenpairs of A0 and projected and exact modes coincide.", "quantifier": "all data, weights and linear maps", "why_tests_cant": "an algebraic statement for all data", "anchors": ["modred/dmd.py: compute_DMD_arrays_snaps_method", "modred/dmd.py: compute_DMD_arrays_direct_method"]}
{"id": "C24", "title": "Sequential DMD equals DMD on the split sequence", "statement": "Calling DMD on one sequence x_0..x_m gives the same decomposition and modes as calling it with vecs = x_0..x_{m-1} and adv_vecs = x_1..x_m, in the arrays and handles interfaces.", "quantifier": "all sequences, weights, tolerances; all handle states", "why_tests_cant": "equality of two code paths over all inputs", "anchors": ["modred/dmd.py: compute_DMD_arrays_snaps_method", "modred/dmd.py: DMDHandles.compute_decomp", "modred/dmd.py: DMDHandles.compute_exact_modes"]}
{"id": "C25", "title": "DMD handle objects do not mix decompositions", "statement": "For every history of compute_decomp and compute_exact_modes calls on one DMDHandles object, exact modes are built from the advanced vectors of the latest decomposition; this holds for histories in which no sequential decomposition follows a non-sequential one, and fails otherwise because the previous advanced handles are kept. Mismatched numbers of vectors raise ValueError.", "quantifier": "all histories of calls on one object", "why_tests_cant": "a property of call histories; tests make a fresh object for each case", "anchors": ["modred/dmd.py: DMDHandles.compute_decomp", "modred/dmd.py: DMDHandles.compute_exact_modes"]}
{"id": "C26", "title": "Direct and snapshot DMD agree; handle tolerances", "statement": "compute_DMD_arrays_direct_method computes the same low-order map, modes and coefficients as the snapshot method whenever the two retain the same singular directions; DMDHandles ignores a user supplied rtol (results are the same for every rtol), unlike the array functions.", "quantifier": "all data, weights and tolerances", "why_tests_cant": "equality of methods for all data; the ignored argument is invisible when the default is used", "anchors": ["modred/dmd.py: compute_DMD_arrays_direct_method", "modred/dmd.py: DMDHandles.compute_eigendecomp"]}
{"id": "C27", "title": "Total-least-squares DMD", "statement": "TLSqr DMD projects both data sets onto the retained stacked right singular directions and satisfies the same biorthogonality as DMD for the projected data; with no truncation in the stacked step it coincides with ordinary DMD. The snapshot array function's spectral coefficients omit a conjugation, so for complex data they differ from the magnitudes of the first projection coefficients.", "quantifier": "all data, weights, tolerances", "why_tests_cant": "algebra over all data; the missing conjugate only matters for complex data", "anchors": ["modred/dmd.py: compute_TLSqrDMD_arrays_snaps_method", "modred/dmd.py: compute_TLSqrDMD_arrays_direct_method", "modred/dmd.py: TLSqrDMDHandles"]}
{"id": "C28", "title": "ERA sample format", "statement": "era.make_sampled_format(times, Markovs) returns the samples in the order 0 1 1 2 2 3 ..., raises on length mismatch and on spacing deviating from the first step by more than dt_tol; the returned time steps are 0 1 1 2 2 3 ... whenever the accumulated deviation stays below half a step, and need not be otherwise.", "quantifier": "all time sequences, Markov sequences and tolerances", "why_tests_cant": "drift accumulates with length, no short test shows it", "anchors": ["modred/era.py: make_sampled_format"]}
{"id": "C29", "title": "ERA Hankel arrays are the Markov Hankel arrays, in bounds", "statement": "ERA.compute_model assembles H with block (r,c) = Markov[r+c] and H2 with block (r,c) = Markov[r+c+1] of the sampled sequence; the default mc=mo never index out of range; explicit (mc,mo) accepted by the size check can still be out of range and then raise IndexError, the default is not maximal, and the constructor's mc and mo are ignored.", "quantifier": "all numbers of samples, inputs, outputs, mc, mo", "why_tests_cant": "bounds for every size combination", "anchors": ["modred/era.py: ERA._assemble_Hankel", "modred/era.py: ERA.compute_model", "modred/era.py: ERA._set_Markovs"]}
{"id": "C30", "title": "ERA recovers the Markov parameters of the system", "statement": "If the Markov parameters come from a linear system (A,B,C) that the Hankel array observes and controls, the ERA model of matching order satisfies C_r A_r^k B_r = C A^k B for every k, not only those sampled.", "quantifier": "all linear systems, all k, all sizes, for every SVD satisfying its contract", "why_tests_cant": "an infinite family of equalities per system", "anchors": ["modred/era.py: ERA.compute_model"]}
{"id": "C31", "title": "OKID recovers impulse responses", "statement": "OKID(inputs, outputs, num_Markovs) returns the Markov parameters of the observer fitted to the data; for data of a linear system for which some observer gain is deadbeat within the window and informative input, they equal D, CB, CAB, ...; sample-count mismatch raises ValueError.", "quantifier": "all real data sets, numbers of inputs, outputs and Markov parameters", "why_tests_cant": "identity over all systems and inputs", "anchors": ["modred/okid.py: OKID"]}
{"id": "C32", "title": "Galerkin projection is exact on invariant subspaces", "statement": "LTIGalerkinProjectionArrays/Handles.compute_model returns (adjoint^H W basis)^-1 adjoint^H W [A basis, B] and C basis; if the basis spans an A-invariant subspace the reduced operator reproduces A on it, with any non-singular adjoint basis; with is_basis_orthonormal=True the result is the same whenever the bases are biorthonormal; a wrong number of adjoint basis vectors raises ValueError. compute_model equals the separate reductions in any order of calls. With handles, any history of calls asks for the inner products of the adjoint basis with each list of vectors once, and for those of the two bases only once (never, if declared orthonormal). reduce_C returns the outputs on the basis vectors as columns; a list of numbers becomes one row with arrays, one column with handles.", "quantifier": "all operators, bases, weights and call orders", "why_tests_cant": "algebra and call-order independence over all inputs", "anchors": ["modred/ltigalerkinproj.py: LTIGalerkinProjectionArrays", "modred/ltigalerkinproj.py: LTIGalerkinProjectionHandles"]}
{"id": "C33", "title": "Finite-difference derivatives of handles", "statement": "compute_derivs_handles(vecs, adv_vecs, deriv, dt) writes (adv_i - vec_i)/dt to the i-th derivative handle, each once, on every schedule; different list lengths raise RuntimeError on every rank before anything is written. compute_derivs_arrays computes the same entrywise, repeating dimensions of length one (so one advanced vector serves for all), and raises ValueError for other shapes that differ.", "quantifier": "all handle lists, all process counts, all schedules, all non-zero dt", "why_tests_cant": "ranges over schedules and process counts", "anchors": ["modred/ltigalerkinproj.py: compute_derivs_handles", "modred/ltigalerkinproj.py: compute_derivs_arrays"]}
{"id": "C34", "title": "Trapezoid inner product", "statement": "InnerProductTrapz(*grids)(v1, v2) equals the tensor-product trapezoidal quadrature of conj(v1)*v2, is conjugate symmetric and linear in the second argument, and is positive semi-definite when every grid is increasing; shape mismatches raise TypeError and no grids raises ValueError.", "quantifier": "all numbers of dimensions, grids and arrays", "why_tests_cant": "algebraic law over all dimensions", "anchors": ["modred/vectors.py: InnerProductTrapz", "modred/vectors.py: inner_product_array_uniform"]}
{"id": "C35", "title": "sanity_check has no false alarms and catches non-sesquilinear products", "statement": "In exact arithmetic VectorSpaceHandles.sanity_check passes for every vector whose addition, scaling and inner product satisfy the vector space and inner product laws, and fails whenever scaling or adding the tested vector to itself does not change the inner product by the expected factors by more than the tolerance. If a supplied operation raises, its exception comes out and the changes made up to then stay.", "quantifier": "all vector space implementations and test vectors", "why_tests_cant": "ranges over user-supplied vector types", "anchors": ["modred/vectorspace.py: VectorSpaceHandles.sanity_check"]}
{"id": "C36", "title": "Impulse responses and simulation", "statement": "util.impulse(A,B,C,num_time_steps) returns num_time_steps samples, sample k being C A^k B; util.lsim returns the outputs of x(k+1)=A x(k)+B u(k), y(k)=C x(k) from rest, which is the convolution of the input with the impulse response.", "quantifier": "all systems, inputs and lengths", "why_tests_cant": "recursion over all lengths", "anchors": ["modred/util.py: impulse", "modred/util.py: lsim"]}
{"id": "C37", "title": "Balanced truncation at full order preserves the system", "statement": "util.balanced_truncation without truncation returns a similar system: C_r A_r^k B_r = C A^k B for every k; but the Gramians it uses solve the continuous-time Lyapunov equation, so the balancing is not that of the discrete-time system its documentation describes.", "quantifier": "all real systems for which the two Lyapunov solutions are non-singular, all k", "why_tests_cant": "infinitely many Markov parameters; the wrong Gramian is invisible to impulse-response tests at full order", "anchors": ["modred/util.py: balanced_truncation"]}
{"id": "C38", "title": "Saved decompositions can be loaded", "statement": "put_decomp followed by get_decomp with the default array readers and writers restores real decompositions with at least two values, and fails to restore decompositions with a single value (they come back zero-dimensional) or complex ones (they come back with real and imaginary columns).", "quantifier": "all decompositions", "why_tests_cant": "the failing shapes are corner cases of an all-shapes statement", "anchors": ["modred/pod.py: PODHandles.get_decomp", "modred/pod.py: PODHandles.put_decomp", "modred/bpod.py: BPODHandles.get_decomp", "modred/dmd.py: DMDHandles.get_decomp", "modred/util.py: load_array_text"]}
{"id": "C39", "title": "Node identifiers are unique", "statement": "The node identifier computed from the host name is injective on host names, so get_num_nodes equals the number of distinct hosts among the processes.", "quantifier": "all host names (non-empty byte strings not starting with a zero byte), all process placements", "why_tests_cant": "injectivity over all strings", "anchors": ["modred/parallel.py: get_node_ID, get_num_nodes (module initialisation)"]}
{"id": "C40", "title": "File listing and signal loading", "statement": "util.get_file_list(dir, ext) returns exactly the entries ending in ext, in directory order, for every non-empty extension, and returns nothing for an empty extension; load_signals splits the first column from the rest and raises ValueError for fewer than two columns; load_multiple_signals stacks files with equal times and raises ValueError otherwise.", "quantifier": "all directory contents, extensions, files", "why_tests_cant": "all strings and file contents", "anchors": ["modred/util.py: get_file_list", "modred/util.py: load_signals", "modred/util.py: load_multiple_signals"]}
{"id": "C41", "title": "In-place linear combinations are unsafe", "statement": "lin_combine whose sum handles overlap its basis handles gives the right result in serial when all sums fit in one chunk, and can give a wrong result otherwise because early sums are written before later chunks read the basis again.", "quantifier": "all sizes and memory limits", "why_tests_cant": "depends on the memory limit, which tests leave at a fixed value", "anchors": ["modred/vectorspace.py: VectorSpaceHandles.lin_combine"]}
{"id": "C42", "title": "Rank-zero writes and barriers", "statement": "Every put_* method writes the array exactly once, from rank zero, before any rank returns from the call.", "quantifier": "all process counts and schedules", "why_tests_cant": "a statement about all schedules", "anchors": ["modred/pod.py: PODHandles.put_eigvals", "modred/parallel.py: barrier, call_from_rank_zero"]}
{"id": "C43", "title": "Rounding does not change how work is split", "statement": "find_assignments computes with floating-point numbers, and so do the numbers of loops and the memory limits of VectorSpaceHandles. For natural weights whose sum times the number of workers is at most 2^50 the assignment is the one exact arithmetic gives; the ceilings and limits are exact below 2^52. For arbitrary weights and roundings the result still consists of one list per worker that together are a prefix of the tasks.", "quantifier": "all weights, numbers of workers, processes and nodes, and all roundings with relative error at most 2^-53 that keep halves of integers; IEEE double rounding is one", "why_tests_cant": "a rounding error would show only for particular quotients among very many", "anchors": ["modred/parallel.py: find_assignments", "modred/vectorspace.py: VectorSpaceHandles.__init__, compute_inner_product_array, lin_combine"]}
{"id": "C44", "title": "How often vectors are read, and how large messages are", "statement": "compute_inner_product_array reads each vector of the shorter list once and each vector of the other list once per pass over the chunks of the shorter one, ceil(ceil(n/P)/(max_vecs_per_proc-1)) times in all, besides three reads per rank for the timing test; lin_combine reads each basis vector once per pass over the chunks of sums; compute_symm_inner_product_array reads vector i once for each chunk of (max_vecs_per_proc-1)*P vectors up to its own. No message in transit ever carries more than one vector.", "quantifier": "all executions, process counts, memory limits and lists of handles", "why_tests_cant": "tests check results, not the number of reads or the sizes of messages, and only for a few process counts and limits", "anchors": ["modred/vectorspace.py: VectorSpaceHandles.compute_inner_product_array, compute_symm_inner_product_array, lin_combine"]}
{"id": "C45", "title": "When a rank returns, everybody's work is done", "statement": "In every configuration of every execution in which some rank has returned from lin_combine or compute_derivs_handles, all ranks have made all their writes, so the output handles already hold their final values; in which some rank has returned from compute_inner_product_array or compute_symm_inner_product_array, all ranks have made all their reads.", "quantifier": "all reachable configurations of all executions, process counts, memory limits and lists of handles", "why_tests_cant": "without the closing barrier a caller would see missing or old vectors only for unlucky timings", "anchors": ["modred/vectorspace.py: VectorSpaceHandles.lin_combine, compute_inner_product_array, compute_symm_inner_product_array", "modred/ltigalerkinproj.py: compute_derivs_handles"]}
{"id": "C46", "title": "Modes come from the stored decomposition and the vectors given", "statement": "PODHandles.compute_modes, BPODHandles.compute_direct_modes/compute_adjoint_modes and DMDHandles/TLSqrDMDHandles.compute_exact_modes/compute_proj_modes/compute_adjoint_modes, called on an object holding any decomposition (computed or loaded), write the combinations of the vectors passed to the call, or of the vectors the object remembers when none are passed, with the coefficients of the stored decomposition; a sequence one vector too long is shortened at the right end; the object then remembers the vectors passed. Modes built from the images of the vectors under a linear map are the images of the modes. mode_indices=None means all indices and an integer the list of it; a number of handles other than that of the modes raises ValueError before anything is written.", "quantifier": "all inner product spaces, numbers of processes, schedules, object states with matching shapes, vectors, index lists, None and integers", "why_tests_cant": "tests pass the vectors used for the decomposition; a method that ignored its argument would pass them", "anchors": ["modred/pod.py:396-414", "modred/bpod.py:422-469", "modred/dmd.py:925-1057", "modred/dmd.py:1925-1950"]}
{"id": "C47", "title": "The leading POD modes are the best approximation", "statement": "For compute_POD_arrays_snaps_method, compute_POD_arrays_direct_method (no, 1D and 2D weights) and PODHandles (compute_decomp, compute_modes, compute_proj_coeffs): for every r up to the number of modes kept, the first r modes with their projection coefficients approximate the data, in the sum of squared weighted norms, at least as well as any combinations of any r vectors; the remaining error is exactly the sum of the eigenvalues of the correlation array left out.", "quantifier": "all data, positive semidefinite weights or inner products, tolerances, r, competing vectors and coefficients; for handles all numbers of processes and schedules", "why_tests_cant": "optimality quantifies over every competing set of vectors; tests check eigenvector equations only", "anchors": ["modred/pod.py:68-99", "modred/pod.py:155-208", "modred/pod.py:277-440"]}
{"id": "C48", "title": "BPOD with Galerkin projection equals ERA", "statement": "For a linear system (A, B, C) and impulse responses of the system and of its adjoint sampled every P steps, compute_BPOD_arrays followed by LTIGalerkinProjectionArrays.compute_model on the balancing modes returns the same reduced A, B, C as ERA.compute_model applied to the Markov parameters of the system with as many states as BPOD keeps modes.", "quantifier": "all systems, weights, numbers of inputs, outputs, blocks and states, sampling steps P, tolerances, both settings of is_basis_orthonormal, any array decomposition meeting the SVD contract and deterministic on equal arrays", "why_tests_cant": "The two computations share no code after the SVD: one works with snapshots and weights, the other with Markov parameters. Tests compare them for a few random systems up to rounding; agreement for every system is the theorem of Ma, Ahuja and Rowley that the library relies on.", "anchors": ["modred/bpod.py:83-147", "modred/era.py:164-320", "modred/ltigalerkinproj.py:123-296"]}
{"id": "C49", "title": "Saved reduced-order models can be loaded by every rank", "statement": "The files written by put_model of the Galerkin projections and by put_model, put_decomp and put_sing_vals of ERA, and by put_proj_coeffs of DMD, are read back by every rank with the same numbers (arrays by rows, singular values as a column), whatever the schedule, and no other file changes. In the Galerkin put_model no rank goes on before all three files are written. In ERA, where every rank writes and there is no barrier, a rank that has returned finds its files written, as the ranks write the same texts; with different arrays the file depends on the schedule. An attribute that is not computed yet raises TypeError: on every rank in ERA; on rank zero only in the Galerkin classes, where the other ranks wait for ever. The put methods that TLSqrDMDHandles does not support raise NotImplementedError on every rank and write nothing. A decomposition of one value saved and loaded is 0-d and np.diag, where compute_modes begins, rejects it.", "quantifier": "All numbers of ranks, arrays of real numbers, file names, earlier contents, schedules, buffering of messages and continuations of the program.", "why_tests_cant": "The number of interleavings of P ranks writing and reading files grows exponentially; tests run one of them.", "anchors": ["modred/ltigalerkinproj.py:87-120", "modred/era.py:223-277", "modred/dmd.py:703-709", "modred/dmd.py:2075-2086"]}
{"id": "C50", "title": "The random systems have the stated eigenvalues and are stable", "statement": "drss returns a real system whose A has exactly the n evenly spaced numbers from .2 to .95 as eigenvalues, whatever the draws, as long as the drawn array is invertible; so all are real, strictly between 0 and 1 and distinct, and the powers of A and the impulse response of the system decay at least like .95^k. The eigenvalues of the A of rss are exactly the drawn numbers, negated, in (-1, 0]; they are strictly negative unless a draw is 0, in which case A has a rest point other than zero, contrary to the documentation. With a singular draw both raise.", "quantifier": "All numbers of states, inputs and outputs, all draws (arrays over any field with conjugation and order) and all powers.", "why_tests_cant": "The functions are random and used only to make test systems; a test sees a few draws and a few powers.", "anchors": ["modred/util.py:387-410", "modred/util.py:413-433"]}
{"id": "C51", "title": "Equality and the small helpers", "statement": "Two array vector spaces are == exactly if their weights have the same shape and entries; == is an equivalence relation and equal spaces compute the same inner products (or raise the same exception); conversely, among weights of the same number of dimensions the inner products of the unit vectors decide, but across dimensions they do not. Two handle spaces are == exactly if inner product and verbosity agree, and then compute the same array on every rank even with different memory limits. smart_eq is equality of type, shape and entries (not reflexive with NaN). flatten_list is concatenation and undoes the assignment of tasks; sum_lists adds element by element, so allreduce with it gives every rank the sums over the ranks, or fails on every rank if lengths differ; InnerProductBlock gives the array of all inner products, which is what the parallel algorithm gives on every rank. Messages are printed by rank zero only; an invalid channel raises on rank zero only; print_from_rank_zero ignores its channel. Subtraction of the base class Vector undoes addition in a vector space, and operations a subclass leaves out raise NotImplementedError.", "quantifier": "All weights, arrays, lists, objects, numbers of ranks, schedules, memory limits, messages and channel names.", "why_tests_cant": "The tests compare a few objects and run sum_lists on one pair of lists; they cannot show that equality has no false positives or that all schedules agree.", "anchors": ["modred/vectorspace.py:56-64", "modred/vectorspace.py:134-137", "modred/vectorspace.py:1069-1077", "modred/util.py:33-45", "modred/util.py:151-192", "modred/py2to3.py:18-40", "modred/parallel.py:106-109", "modred/vectors.py:200-225"]}
{"id": "C52", "title": "Identification from end to end", "statement": "The array impulse returns, passed through make_sampled_format to compute_ERA_model with the true order, gives a real model with the same impulse response of every length and the same lsim output for every real input as the original system. The estimates OKID computes from lsim's output are a zero direct term followed by exactly impulse's array. So lsim, OKID, dropping the first parameter, make_sampled_format and compute_ERA_model together recover a system with the same responses. If the first parameter is not dropped, the model found answers every input one step late.", "quantifier": "All real systems of any dimensions, sample counts, times within the tolerance, inputs that determine the parameters (or independent regressors), with a deadbeat observer within the window; Hankel blocks that observe and control the system; every SVD and least squares result meeting LAPACK's contracts.", "why_tests_cant": "The tests run OKID and ERA separately on stored data with tolerances; none composes them, and an off-by-one in the convention for the first parameter shows only in the composition.", "anchors": ["modred/util.py:436-492", "modred/okid.py:8-99", "modred/era.py:8-52", "modred/era.py:55-95", "modred/era.py:160-240"]}
{"id": "C53", "title": "Whole main programs on any number of processes", "statement": "If the methods of a main program, read one after another as a single process would run them, end with a result, then the program run by any number of processes ends on every schedule with the same result on every rank and the same stored vectors, whatever each method reads and writes. The example programs do what they announce: the inner products of the modes of tutorial_ex5 are the identity, tutorial_ex4 stores DMD modes, tutorial_ex6 chooses the least number of modes whose singular values exceed the given fraction of the sum and stores that many direct and adjoint modes, rom_ex2 returns the Galerkin projection, and POD followed by the action of an operator spread over the ranks and by Galerkin projection gives the projected operator. The barrier after the data are saved is needed: without it a rank may find no data. tutorial_ex3, which has no such barrier but is run on several processes by runall.py, and the creation of the output directory by every rank, go wrong on some schedules.", "quantifier": "All numbers of processes, schedules, buffering, initial stores, data, handles, vector spaces with a positive semidefinite inner product, tolerances, mode indices and results of LAPACK routines that satisfy their contracts.", "why_tests_cant": "The tests run the classes one at a time with hand-made data and few processes, and compare one schedule; the example scripts are run but their results are not checked.", "anchors": ["modred/examples/tutorial_ex3.py:8-29", "modred/examples/tutorial_ex4.py:26-43", "modred/examples/tutorial_ex5.py:26-43", "modred/examples/tutorial_ex6.py:30-50", "modred/examples/rom_ex2.py:39-50", "modred/examples/runall.py:8-23", "modred/pod.py:345-417", "modred/bpod.py:348-470", "modred/ltigalerkinproj.py:299-480"]}
{"id": "C54", "title": "Array examples: trapezoid weights, and the reduced-order model of main_CGL", "statement": "tutorial_ex2 and main_CGL compute the weights of the trapezoidal rule, so that inner products of arrays with them are those of InnerProductTrapz, and POD in tutorial_ex2 is POD in that inner product. main_CGL: for any strictly increasing grid, real dt and operators A, B, C for which I - dt/2 A is regular, the Hankel array of compute_BPOD_arrays holds the impulse response C S^(i+j) B of the Crank-Nicolson scheme, S = (I - dt/2 A)^-1 (I + dt/2 A); direct and adjoint modes are biorthonormal, so that is_basis_orthonormal=True is right; Ar and Br are Galerkin projections and Cr is C on the modes; the outputs y and yr are the impulse responses of both schemes. When the modes kept are all with non-zero singular values and there are at least as many time steps as states, I - dt/2 Ar is regular and the responses y and yr agree, at all times. With more modes asked for than kept it raises IndexError. tutorial_ex1: the modes are orthonormal and the projection of the data on them is the best approximation of that rank, with the other eigenvalues' sum as error; IndexError if fewer eigenvalues are above the tolerance. rom_ex1: the Galerkin projection, with the system's responses if the basis spans an invariant subspace containing the inputs.", "quantifier": "all grids with at least two points, all matrices A, B, C, time steps and numbers of steps, all fields with conjugation; LAPACK routines that meet their contracts", "why_tests_cant": "the program checks one random operator and prints an error; exactness needs the algebra of the Krylov spaces, for all systems", "anchors": ["modred/examples/main_CGL.py:42-50", "modred/examples/main_CGL.py:68-69", "modred/examples/main_CGL.py:97-111", "modred/examples/main_CGL.py:131-166", "modred/examples/tutorial_ex2.py:11-22", "modred/examples/tutorial_ex1.py:10-13", "modred/examples/rom_ex1.py:25-28"]}
{"id": "C55", "title": "Differentiation arrays of hermite.py", "statement": "poldif: for any distinct nodes and any non-zero weights, with B the relative derivatives of the weight, the l-th array takes the values at the nodes of weight times polynomial (degree less than the number of nodes) to the values of the l-th derivative, and is the only array that does, for every l, also l >= n - 1. With m given the weight is constant. Other combinations of keywords raise RuntimeError. herroots returns exactly the roots of the Hermite polynomial, increasing. herdif: its nodes are those roots over b, and its l-th array differentiates exp(-(b y)^2/2) times polynomials of degree less than n exactly; no derivatives raise IndexError; n = 0 is treated as n = 1. The operator main_CGL builds from them is -nu d/dx + gamma d2/dx2 + mu on those functions.", "quantifier": "All numbers of nodes and derivatives, all nodes, weights, scales and polynomials over any field with conjugation and order; eigenvalue routine and square root by contract, exp any function without zeros.", "why_tests_cant": "The recursions are compact and have no tests in the repository; a numerical test compares with a few functions at a few sizes up to rounding, which grows with n and l, so it cannot tell an exact scheme from a convergent one.", "anchors": ["modred/examples/hermite.py:10-134", "modred/examples/main_CGL.py:40,53-54"]}
{"id": "C56", "title": "Input and output arrays of main_CGL: optimal disturbance", "statement": "main_CGL sets B to a disturbance of unit energy in the trapezoid inner product such that, for a time k among those of its loop, no disturbance of unit energy has at any of the times more energy than B has at time k, and before k all have strictly less. It is the optimum over all (complex) disturbances, not only over singular vectors at one time. B is undefined (NameError) exactly if there are no times or one step maps everything to zero. The arrays it starts from meet the hypotheses of C54 on main_CGL: the grid is real and strictly increasing, A is the Ginzburg-Landau operator, B and C have the right shapes, and C u is the trapezoid integral of u times the Gaussian at x_s. Fewer than two points raise IndexError.", "quantifier": "all numbers of points and of times, all positive weights, all operators and parameters, all disturbances; LAPACK's svd and eigvalsh by contract, expm any function to invertible arrays", "why_tests_cant": "the maximum is over all disturbances and times; the program only plots B, and a test can compare with finitely many disturbances", "anchors": ["modred/examples/main_CGL.py:40-67"]}
{"id": "C57", "title": "Supplied vectors and inner products are inner product spaces", "statement": "Arrays of one shape with np.vdot, arrays on one grid with InnerProductTrapz, and CustomVectors made with the same grids (examples/customvector.py) can be added, scaled and multiplied without exceptions, results are again such objects, and the inner product is linear in its second argument and conjugate symmetric; it is positive and definite (for the trapezoid rule: on strictly increasing grids). So all theorems about handles, which assume these laws, apply to them. CustomVecHandle gets back what was put, also sums and multiples. Shapes that do not fit raise TypeError in inner products, no grids raise ValueError, and a sum has the grids of its first term. CustomVectors on different grids of the same size are not refused, and then conjugate symmetry fails (refuted).", "quantifier": "all shapes, all numbers of dimensions and grids, all vectors and scalars over any field with conjugation and order", "why_tests_cant": "laws for all vectors and all grids; sanity_check tests them on one vector", "anchors": ["modred/examples/customvector.py:9-56", "modred/vectors.py:137-197"]}
{"id": "C58", "title": "OKID.m and okid.OKID compute the same Markov parameters", "statement": "matlab/OKID.m, for any number of inputs, outputs, samples and requested blocks N > 0, builds the regressor that okid.OKID builds, fits observer parameters M = y pinv(V) that are a least-squares fit of least norm, and returns the N + 1 blocks D, Y1..YN of the recursion of that fit. If pinv's cutoff 1e-5 only removes zero singular values, and lstsq returns the solution of least norm (or the data determine it), these blocks rearranged as in testOKID_python.m are the array OKID returns. So from a system with a deadbeat observer and informative data they are its Markov parameters. Unequal numbers of samples fail the assert, N = 0 is an index error; with more blocks than samples OKID.m answers where OKID raises ValueError. The absolute cutoff makes the two differ for small data (refuted).", "quantifier": "all signals, sizes and N over any field with conjugation and order, all factors satisfying the contract of the SVD in pinv", "why_tests_cant": "the tests compare with stored MATLAB results for a few sizes of one random system", "anchors": ["matlab/OKID.m:1-75", "matlab/testOKID_python.m:43-47", "modred/okid.py:9-99"]}
{"id": "C59", "title": "Text files go between Python and MATLAB", "statement": "save_mat_text.m writes, up to the digits of numbers, the characters that save_array_text writes for the same real or complex matrix and delimiter, so load_array_text reads it back (with the same delimiter, or the default if it is a blank). load_mat_text.m reads what save_array_text wrote when the delimiter is a blank, tab, comma or semicolon; 1-D arrays come as columns; complex arrays come back complex if some imaginary part is not zero. So matrices go from Python to MATLAB and back unchanged. Complex arrays without imaginary parts do not (refuted: read back they raise ValueError or have half the columns), and other delimiters, which Python reads back, are errors in MATLAB. Rows without columns cannot be written by MATLAB, lines with different numbers of entries are errors, an odd number of columns is not complex data.", "quantifier": "all sizes, entries and delimiters; any printing and reading of numbers in the usual characters that are inverse", "why_tests_cant": "the tests of util only read in Python what Python wrote; nothing runs the MATLAB functions", "anchors": ["matlab/save_mat_text.m:1-27", "matlab/load_mat_text.m:1-20", "modred/util.py:48-123"]}
{"id": "C60", "title": "Vectors held in memory at once", "statement": "At no point of any execution does a rank in compute_inner_product_array or compute_symm_inner_product_array refer to more than max_vecs_per_proc + 1 different vector objects, or max_vecs_per_proc + 2 if there are several ranks; in lin_combine the numbers are one larger, whether or not += on vectors works in place. Both bounds are reached, so the documented limit (maximum number of vectors that can be stored in memory) is not kept (refuted): the loop variable still refers to the last column, the list being sent is kept while the next is received, and sum_layer refers to the last scaled sum.", "quantifier": "all numbers of ranks, nodes, rows, columns, sums and limits; all interleavings; all values read and received; any vector class", "why_tests_cant": "memory use is not tested, and the peak depends on the iteration, on chunk sizes and on the rank", "anchors": ["modred/vectorspace.py:66-76", "modred/vectorspace.py:223-493", "modred/vectorspace.py:495-822", "modred/vectorspace.py:824-1066"]}
{"id": "C61", "title": "A failure on one rank is not hidden by results on another", "statement": "In compute_inner_product_array, compute_symm_inner_product_array, lin_combine and compute_derivs_handles, in every reachable configuration, if one rank has returned then every rank has; so if any rank has raised, whatever the exception, no rank ever returns. If a vector that is to be read cannot be (and nothing else is wrong), the ranks stop after finitely many steps on every schedule, none with a result and one with OSError. The other ranks need not raise: they may wait for ever (refuted).", "quantifier": "all numbers of ranks, nodes, rows, columns, sums, coefficients and limits; all stores; all interleavings", "why_tests_cant": "the tests only run parallel calls that succeed, and on a few ranks", "anchors": ["modred/vectorspace.py:223-493", "modred/vectorspace.py:495-822", "modred/vectorspace.py:824-1066", "modred/ltigalerkinproj.py:24-52", "modred/parallel.py:99-104"]}
{"id": "C62", "title": "lin_combine does not disturb the caller's vectors", "statement": "With vectors as objects that several handles may refer to, and += changing the object on its left, lin_combine does exactly what it does when vectors are values: with handles that load a new object on every get for any number of processes, and in serial with VecHandleInMemory. In the second case no object the caller had is changed, every sum is a new object held by its own handle only, and all other handles keep their objects. This needs x*c to be a new object even if c = 1: false otherwise (refuted). With vectors of mixed dtype, whether += raises depends on the number of processes (refuted).", "quantifier": "all numbers of processes (file handles), all vectors, coefficients, limits, heaps and aliasing between handles; all interleavings", "why_tests_cant": "a test sees one pattern of aliasing and compares sums, not whether its inputs were changed", "anchors": ["modred/vectorspace.py:824-1066", "modred/vectors.py:26-34", "modred/vectors.py:58-80", "modred/vectors.py:89-132"]}
{"id": "C63", "title": "Results do not depend on the number of processes, to the last bit, where that is so", "statement": "With complex128 numbers added as IEEE 754 rounds them (binary64, nearest even; -0 and 0 taken as one number): compute_inner_product_array returns one and the same array for every number of processes and nodes, every memory limit and every schedule. compute_symm_inner_product_array does so if the inner product is symmetric exactly; if it is symmetric only up to rounding, its last bits depend on the number of processes (refuted). lin_combine stores the same vectors for every schedule, number of nodes and memory limit given the number of processes, whatever the addition; with another number of processes the sums differ, and two equal columns of coefficients can give different sums in one run (refuted).", "quantifier": "all vectors, inner products and additions, all numbers of processes and nodes, limits and interleavings", "why_tests_cant": "a test compares with a tolerance, on the few process counts it is run with", "anchors": ["modred/vectorspace.py:223-492", "modred/vectorspace.py:495-821", "modred/vectorspace.py:824-1066", "modred/reductions.py:1-132"]}
{"id": "C64", "title": "Accuracy of linear combinations in floating point, on any number of processes", "statement": "If every addition and multiplication has a relative error of at most u, each entry of each vector lin_combine stores differs from the exact linear combination by at most ((1+u)^n - 1) times the sum of the absolute values of its n terms. For binary64 and n at most 2^52 that is n 2^-52 times that sum. Entries computed on different numbers of processes or nodes, with other limits or schedules, differ by at most twice that.", "quantifier": "all vectors, coefficients, numbers of processes and nodes, limits and interleavings, every rounding with relative error u", "why_tests_cant": "a test compares a few small runs with a tolerance chosen by hand", "anchors": ["modred/vectorspace.py:824-1066"]}
{"id": "C65", "title": "Methods called before what they need has been computed raise and write nothing", "statement": "For every state of a PODHandles, BPODHandles, DMDHandles or TLSqrDMDHandles object in which an attribute that compute_modes, compute_direct_modes, compute_adjoint_modes, compute_exact_modes, compute_proj_modes, compute_spectrum or a proj_coeffs method needs is None, the method raises on every rank the exception of the first such attribute in the order of evaluation; no message is sent and no vector written. So do modes with no vectors, or with numbers of vectors that do not fit. compute_eigendecomp and compute_SVD without the array to decompose raise on rank zero only, and the other ranks wait for ever; for TLSqrDMDHandles all ranks raise. A DMDHandles or TLSqrDMDHandles object with correlation arrays but no cross-correlation array raises AttributeError on every rank, after the eigendecompositions have been sent round. A new object has no attribute set, so all these methods raise on it.", "quantifier": "all object states, arguments, vectors, numbers of processes and interleavings", "why_tests_cant": "there are hundreds of combinations of attributes that are None; a test of an exception on one process says nothing of the other ranks", "anchors": ["modred/pod.py:345-427", "modred/bpod.py:312-333", "modred/bpod.py:422-499", "modred/dmd.py:782-810", "modred/dmd.py:903-1108", "modred/dmd.py:1761-1814", "modred/dmd.py:1925-2187", "modred/pod.py:241-254", "modred/bpod.py:180-197", "modred/dmd.py:513-536", "modred/dmd.py:1664-1691"]}
{"id": "C66", "title": "What an object is left with when a method raises, and what later calls make of it", "statement": "For every PODHandles, BPODHandles, DMDHandles, TLSqrDMDHandles and ERA object, a compute_decomp or compute_model that raises leaves the attributes assigned before the exception: with a LAPACK failure on one process, zero outputs in BPOD or different numbers of vectors in DMD and total-least-squares DMD on any number of processes, the new vectors and arrays stand beside the former decomposition. compute_modes then raises nothing and writes combinations of the new vectors with the former coefficients, if the numbers fit. ERA keeps its former model unless the eigenvalue check itself fails. A new compute_decomp or compute_model on such an object gives what it gives on any other object with the same attributes that it does not assign. If mc and mo are accepted but need more Markov parameters than there are, compute_model leaves the Hankel arrays filled block by block up to the first missing parameter and zero from there on.", "quantifier": "all object states, vectors, arguments and LAPACK results; numbers of processes and interleavings where not restricted to one process", "why_tests_cant": "the object is used after an exception in sequences no test makes, and its results look plausible", "anchors": ["modred/pod.py:345-393", "modred/bpod.py:312-418", "modred/dmd.py:782-900", "modred/dmd.py:1761-1922", "modred/era.py:164-220", "modred/era.py:280-340", "modred/parallel.py:136-153"]}
{"id": "C67", "title": "Which call the attributes of a handle object come from", "statement": "After every sequence of calls of the public methods of a PODHandles, BPODHandles, DMDHandles or TLSqrDMDHandles object (compute and get methods, in any order and with any arguments) that raises no exception: the vectors are the newest given to compute_decomp or to a method that computes modes; spectral and projection coefficients are those of the newest call that computed or read them, whatever decomposition came after; eigenvalues and eigenvectors change in compute_decomp, compute_eigendecomp or compute_SVD and get_decomp only; the arrays of inner products in compute_decomp and their own get methods only. So compute_decomp of other vectors leaves the former coefficients, which put_proj_coeffs then writes, and get_decomp leaves the cross-correlation array that compute_proj_coeffs uses. Holds at the end of every execution on all processes. If some of the calls raise and the caller catches the exceptions, vectors given to calls that raised count like the others, coefficients and the low-order decomposition are those of calls that did not raise, and eigenvectors of correlation arrays may be of a later call that raised; compute_proj_coeffs of a DMD object that raises may leave proj_coeffs of the current and adv_proj_coeffs of a former decomposition. A get method that cannot read one of its sources leaves the attributes of the sources before it new and all others as they were. It raises the exception of the source it could not read, and only then raises.", "quantifier": "all sequences of calls, arguments, object states, LAPACK results, numbers of processes and interleavings", "why_tests_cant": "tests make each call once, in one order, on a fresh object", "anchors": ["modred/pod.py:257-287", "modred/pod.py:345-427", "modred/bpod.py:200-248", "modred/bpod.py:312-499", "modred/dmd.py:539-612", "modred/dmd.py:782-1108", "modred/dmd.py:1761-2187"]}
{"id": "C68", "title": "DMD reproduces the sequence and predicts what a linear map gives next", "statement": "With distinct eigenvalues, proj_modes times proj_coeffs is the data restricted to the directions kept, and adv_proj_coeffs is diag(eigvals) times proj_coeffs if the advanced data lie in them. For a sequence x_0 ... x_N of which no singular value is dropped, every x_j with j < N equals sum_l proj_modes_l eigvals_l^j proj_coeffs[l, 0], and what this sum leaves of x_N is orthogonal to the adjoint modes and to x_0 ... x_(N-1). For a sequence that a linear map produces and whose span it preserves, the sum gives every later step. compute_DMD_arrays_snaps_method and compute_DMD_arrays_direct_method return modes, eigvals and coefficients for which the sum gives the sequence back. The same holds for DMDHandles: after compute_decomp of a sequence of handles and the methods for modes, spectrum and coefficients, each vector but the last is the combination of the vectors written to the projected-mode handles with coefficients eigvals_l^j proj_coeffs[l, 0], on any number of processes and in every schedule. With nonzero eigenvalues the sum over the exact modes, sum_l exact_modes_l eigvals_l^j proj_coeffs[l, 0], gives every x_j with 1 <= j <= N, the last vector included. The total-least-squares functions return modes, eigenvalues and coefficients that fit the denoised pairs without error whenever the second truncation keeps as many directions as the first. DMDHandles likewise: the combination of the vectors written to the exact-mode handles gives every vector but the first, and if a linear map takes each vector of the sequence to the next and the last is a combination of the others, then the projected modes written are eigenvectors of that map with the eigenvalues returned and their combination gives every later step. For DMDHandles with advanced vectors given or not, and for TLSqrDMDHandles on the denoised pairs if the second truncation keeps as many directions as the first: each vector is the combination of the projected modes written with the column of proj_coeffs, adv_proj_coeffs is eigvals times proj_coeffs, and with nonzero eigenvalues each advanced vector is the combination of the exact modes written with the column of adv_proj_coeffs.", "quantifier": "all data, inner product weights and tolerances for which no value is dropped; eigenvalues distinct, adjoint eigenvectors paired", "why_tests_cant": "an identity over all sequences and all later steps; with rounding a test sees it only approximately", "anchors": ["modred/dmd.py: compute_DMD_arrays_snaps_method", "modred/dmd.py: compute_DMD_arrays_direct_method", "modred/dmd.py: DMDHandles", "modred/dmd.py: compute_TLSqrDMD_arrays_snaps_method", "modred/dmd.py: compute_TLSqrDMD_arrays_direct_method", "modred/dmd.py: TLSqrDMDHandles"]}
{"id": "C69", "title": "BPOD and ERA balance the Gramians of the data", "statement": "Let X hold the direct and Y the adjoint data of BPOD, W the inner product weights, S the singular values kept, Phi and Psi the direct and adjoint modes. Then X X^H W Psi = Phi S and Y Y^H W Phi = Psi S, so in the coordinates of the modes both empirical Gramians are the diagonal array S, and the direct modes are eigenvectors of the product of the Gramians with eigenvalues the squares of S; the projection coefficients returned have direct dc dc^H = S and adjoint ac ac^H = S. Where only zeros are dropped, Y^H W Phi dc = Y^H W X. The model that ERA returns for exact Markov parameters of a system of the requested order has controllability and observability Gramians, over the times that the Hankel array covers, both equal to the diagonal array of singular values. For BPODHandles the vectors written to the mode handles balance the Gramians in the same way, whichever modes are asked for, on any number of processes and in every schedule.", "quantifier": "All data arrays, all weights, all tolerances, all impulse responses, all Markov parameters, all answers of the SVD that meet its contract", "why_tests_cant": "testbpod.py checks the Gramians for a few random data sets, with loose tolerances since squaring the arrays loses digits; for ERA nothing is checked. Balancing for all data, weights and choices of modes is a statement about all inputs.", "anchors": ["modred/bpod.py: compute_BPOD_arrays", "modred/bpod.py: BPODHandles", "modred/era.py: ERA.compute_model", "modred/tests/testbpod.py:172-186", "modred/tests/testbpod.py:528-543"]}
{"id": "C70", "title": "Methods depend on the vectors through their inner products alone", "statement": "Take two sets of vectors stored under the same handles, possibly in different spaces, with equal inner products between all stored vectors. Any method of the handle classes, run on either, returns the same arrays or raises the same exception, and all vectors stored afterwards, modes included, again have equal inner products with each other. The result does not depend on the number of processes, the per-node limit or the schedule. In particular a map that keeps inner products changes no result, and weights W = B^H B give the same as no weights with the data multiplied by B. This is spelt out for the full use of PODHandles, BPODHandles, DMDHandles, TLSqrDMDHandles and LTIGalerkinProjectionHandles. The same holds for the array functions of the method of snapshots (POD, DMD, TLS DMD), compute_BPOD_arrays and LTIGalerkinProjectionArrays: if data X with weights W are replaced by T X with weights W' where T^H W' T = W, then eigenvalues, singular values, eigenvectors, coefficients and reduced arrays stay the same, the modes are multiplied by T, and an exception is raised in one case if and only if the same one is raised in the other.", "quantifier": "All programs over the vector space methods, all vectors, all inner products, all numbers of processes, all schedules, whatever LAPACK returns for C70_methods", "why_tests_cant": "Tests use fixed random vectors in one space; that no other feature of the vectors can influence a result is a statement about all pairs of data sets.", "anchors": ["modred/pod.py: PODHandles", "modred/dmd.py: DMDHandles", "modred/bpod.py: BPODHandles", "modred/ltigalerkinproj.py: LTIGalerkinProjectionHandles", "modred/vectorspace.py: VectorSpaceHandles.compute_inner_product_array, lin_combine", "modred/pod.py: compute_POD_arrays_snaps_method", "modred/dmd.py: compute_DMD_arrays_snaps_method, compute_TLSqrDMD_arrays_snaps_method", "modred/bpod.py: compute_BPOD_arrays", "modred/ltigalerkinproj.py: LTIGalerkinProjectionArrays"]}
