{
 "claims": [
  {
   "property": "C01",
   "status": "proved",
   "theorems": [
    "C01_one_list_per_worker",
    "C01_default_weights",
    "C01_positive_weights",
    "C01_nonnegative_weights",
    "C01_zero_weights_refuted"
   ],
   "note": "Weights are exact rationals. The refuted theorem shows the positivity hypothesis is needed."
  },
  {
   "property": "C02",
   "status": "proved",
   "theorems": [
    "C02_sizes",
    "C02_busy",
    "C02_check_for_empty_tasks"
   ],
   "note": ""
  },
  {
   "property": "C03",
   "status": "proved",
   "theorems": [
    "C03_three_per_process",
    "C03_limit_kept",
    "C03_limit_raised",
    "C03_estimates_defined",
    "C03_uneven_nodes_refuted"
   ],
   "note": "Integer limits; the refuted theorem shows a node with more than its share of processes can exceed the limit."
  },
  {
   "property": "C04",
   "status": "proved",
   "theorems": [
    "C04_stored_values",
    "C04_inner_product_array",
    "C04_no_inner_product",
    "C04_empty_lists",
    "C04_mixed_types_refuted"
   ],
   "note": "Vectors and scalars are arbitrary types; addition needs only a neutral zero. The refuted theorem shows that inner products of different scalar types are stored wrongly."
  },
  {
   "property": "C05",
   "status": "proved",
   "theorems": [
    "C05_symmetric_array",
    "C05_conj_symmetric",
    "C05_no_inner_product",
    "C05_no_vectors"
   ],
   "note": "Hypotheses: tag limit at least P*P-2+P/2; stored values share the dtype of the first inner product; conj zero = zero, exact zero test. C05_conj_symmetric drops the symmetry of the inner product."
  },
  {
   "property": "C06",
   "status": "proved",
   "theorems": [
    "C06_linear_combinations",
    "C06_sums",
    "C06_written_once",
    "C06_shape_mismatch",
    "C06_bad_index"
   ],
   "note": "vector addition and scaling are uninterpreted; C06_sums assumes an associative and commutative addition, C06_linear_combinations does not"
  },
  {
   "property": "C07",
   "status": "proved",
   "theorems": [
    "C07_tag_identifies_pair",
    "C07_tag_bound",
    "C07_tag_bound_attained",
    "C07_inner_product_tags",
    "C07_symm_tags",
    "C07_lin_combine_tags",
    "C07_symm_largest_tag",
    "C07_tag_limit_exceeded",
    "C07_lin_combine_limit_exceeded",
    "C07_symm_limit_exceeded",
    "C07_standard_limit"
   ],
   "note": "All reachable configurations of the three routines; failure below the limit shown for each routine."
  },
  {
   "property": "C08",
   "status": "proved",
   "theorems": [
    "C08_reduce",
    "C08_allreduce",
    "C08_allreduce_agree"
   ],
   "note": "MINLOC/MAXLOC pairs are the case where the values are pairs."
  },
  {
   "property": "C09",
   "status": "proved",
   "theorems": [
    "C09_scan",
    "C09_exscan"
   ],
   "note": ""
  },
  {
   "property": "C10",
   "status": "proved",
   "theorems": [
    "C10_call_and_bcast",
    "C10_bcast",
    "C10_call_from_rank_zero",
    "C10_call_and_bcast_raising"
   ],
   "note": "MPI bcast is modelled as point-to-point sends from the root."
  },
  {
   "property": "C11",
   "status": "proved",
   "theorems": [
    "C11_current_base",
    "C11_plain",
    "C11_one_per_file",
    "C11_put_get",
    "C11_cached",
    "C11_stale_refuted",
    "C11_equal_refuted",
    "C11_equal_memory_refuted",
    "C11_missing"
   ],
   "note": "All finite histories of get and put, any nesting of bases; both provisos are needed (the three _refuted theorems). Vectors are values: changing a vector in place after put or get is not modelled."
  },
  {
   "property": "C12",
   "status": "proved",
   "theorems": [
    "C12_real",
    "C12_complex",
    "C12_vector",
    "C12_ints",
    "C12_ints_lost",
    "C12_dims",
    "C12_scalar",
    "C12_fortran",
    "C12_percent",
    "C12_odd",
    "C12_complex_as_real",
    "C12_real_as_complex",
    "C12_empty",
    "C12_handle",
    "C12_comments",
    "C12_ragged",
    "C12_unreadable"
   ],
   "note": "Down to the characters of the file. Printing and reading one number is a contract (record printing): read(show x) = x and printed numbers use digits, signs, point, e, inf, nan. Delimiters are single characters; element types float64, complex128, int64."
  },
  {
   "property": "C13",
   "status": "proved",
   "theorems": [
    "C13_Hankel",
    "C13_default",
    "C13_unique"
   ],
   "note": "Arguments as flattened one-dimensional arrays."
  },
  {
   "property": "C14",
   "status": "proved",
   "theorems": [
    "C14_chunks",
    "C14_default",
    "C14_agrees",
    "C14_no_chunks"
   ],
   "note": "Chunks of equal shapes; unequal shapes depend on the NumPy version and are not modelled."
  },
  {
   "property": "C15",
   "status": "proved",
   "theorems": [
    "C15_truncated_svd",
    "C15_empty",
    "C15_lapack_error"
   ],
   "note": "Every scalar field with conjugation and order; numpy.linalg.svd is a parameter satisfying svd_contract."
  },
  {
   "property": "C16",
   "status": "proved",
   "theorems": [
    "C16_truncated_eigh",
    "C16_positive",
    "C16_no_tolerance_negative",
    "C16_empty",
    "C16_zero_kept",
    "C16_no_tolerance_positive"
   ],
   "note": "numpy.linalg.eigh and argsort are parameters satisfying eigh_contract and argsort_contract. With atol = None and positive eigenvalues the functions do the same as with atol = 0; a negative eigenvalue raises TypeError (C16_no_tolerance_negative)."
  },
  {
   "property": "C17",
   "status": "proved",
   "theorems": [
    "C17_biorthogonal",
    "C17_distinct",
    "C17_bad_choice",
    "C17_repeated_refuted"
   ],
   "note": "scipy.linalg.eig is a parameter satisfying eig_contract; C17_repeated_refuted is the witness for repeated eigenvalues."
  },
  {
   "property": "C18",
   "status": "proved",
   "theorems": [
    "C18_entries",
    "C18_sesquilinear",
    "C18_hermitian",
    "C18_symm_hermitian",
    "C18_diagonal",
    "C18_no_weights",
    "C18_lin_combine",
    "C18_lin_combine_indices",
    "C18_mismatch",
    "C18_weights",
    "C18_one_element_refuted"
   ],
   "note": "C18_one_element_refuted is the witness that one-element weights are rejected."
  },
  {
   "property": "C19",
   "status": "proved",
   "theorems": [
    "C19_POD_snaps",
    "C19_distributed",
    "C19_no_tolerance",
    "C19_handles",
    "C19_handles_count",
    "C19_handles_undecomposed",
    "C19_no_tolerance_positive",
    "C19_handles_no_tolerance"
   ],
   "note": "compute_POD_arrays_snaps_method and the class PODHandles (on any number of processes and every schedule); eigh, argsort and square roots are parameters with contracts; square roots assumed only of the positive eigenvalues. With atol = None and positive eigenvalues the functions do the same as with atol = 0; a negative eigenvalue raises TypeError (C16_no_tolerance_negative)."
  },
  {
   "property": "C20",
   "status": "proved",
   "theorems": [
    "C20_POD_direct_no_weights",
    "C20_POD_direct_1D",
    "C20_POD_direct_2D",
    "C20_tolerance",
    "C20_distributed",
    "C20_weight_dims",
    "C20_same_truncation_refuted"
   ],
   "note": "svd, cholesky, inv and square roots are parameters with contracts."
  },
  {
   "property": "C21",
   "status": "proved",
   "theorems": [
    "C21_chunks",
    "C21_shortcut",
    "C21_impulse_Hankel",
    "C21_BPOD",
    "C21_impulse",
    "C21_distributed",
    "C21_leftover",
    "C21_no_blocks",
    "C21_not_Hankel_refuted",
    "C21_handles",
    "C21_handles_impulse"
   ],
   "note": "compute_BPOD_arrays and the class BPODHandles (on any number of processes and every schedule); LAPACK SVD and sqrt are parameters with contracts."
  },
  {
   "property": "C22",
   "status": "proved",
   "theorems": [
    "C22_DMD_snaps",
    "C22_biorthogonal",
    "C22_identity",
    "C22_distributed",
    "C22_shapes",
    "C22_repeated_refuted",
    "C22_handles",
    "C22_handles_biorthonormal",
    "C22_no_tolerance_positive"
   ],
   "note": "LAPACK eigh/eig enter through contracts; the mutual inner products are diagonal in the eigenvalue blocks and the identity when the eigenvalues are distinct; for repeated eigenvalues biorthogonality is refuted. DMDHandles: every execution of decomposition, modes, spectrum and coefficients on any number of processes ends with the same values on all ranks. With atol = None and positive eigenvalues the functions do the same as with atol = 0; a negative eigenvalue raises TypeError (C16_no_tolerance_negative)."
  },
  {
   "property": "C23",
   "status": "proved",
   "theorems": [
    "C23_fitted_operator",
    "C23_compression",
    "C23_invariant",
    "C23_untruncated"
   ],
   "note": "exact modes are eigenvectors of adv_vecs * pinv_W(vecs) restricted to the kept directions, for non-zero eigenvalues"
  },
  {
   "property": "C24",
   "status": "proved",
   "theorems": [
    "C24_snaps",
    "C24_direct",
    "C24_handles",
    "C24_handles_tls",
    "C24_handles_modes"
   ],
   "note": "arrays and handles; the handles statement covers DMDHandles and TLSqrDMDHandles on any number of processes"
  },
  {
   "property": "C25",
   "status": "proved",
   "theorems": [
    "C25_history",
    "C25_exact",
    "C25_proj",
    "C25_stale",
    "C25_stale_modes",
    "C25_count",
    "C25_refuted"
   ],
   "note": "all histories of calls without a sequential decomposition after a split one; the unrestricted statement is refuted, and C25_stale_modes says what the stale modes are"
  },
  {
   "property": "C26",
   "status": "proved",
   "theorems": [
    "C26_DMD_direct",
    "C26_agree",
    "C26_determined",
    "C26_nonzero",
    "C26_distributed",
    "C26_same_tolerance_refuted",
    "C26_handles_rtol"
   ],
   "note": "same tolerances do not give the same truncation (refuted); DMDHandles and TLSqrDMDHandles ignore rtol"
  },
  {
   "property": "C27",
   "status": "proved",
   "theorems": [
    "C27_TLSqr_snaps",
    "C27_TLSqr_direct",
    "C27_direct_denoised",
    "C27_coincides_snaps",
    "C27_coincides_direct",
    "C27_spectral_real",
    "C27_spectral_refuted",
    "C27_distributed",
    "C27_handles",
    "C27_handles_untruncated",
    "C27_no_tolerance_positive"
   ],
   "note": "Total-least-squares DMD: both array methods and the handles class return the DMD of the data projected onto the kept eigenvectors of the summed correlation arrays; with nothing but zeros dropped the data are unchanged, except for the spectral coefficients of the snapshot method, which omit a conjugate (refuted; correct when the first eigenvector entries are real). With atol = None and positive eigenvalues the functions do the same as with atol = 0; a negative eigenvalue raises TypeError (C16_no_tolerance_negative)."
  },
  {
   "property": "C28",
   "status": "proved",
   "theorems": [
    "C28_sampled",
    "C28_uneven",
    "C28_mismatch",
    "C28_bad_dims",
    "C28_short",
    "C28_drift_refuted",
    "C28_complex_refuted"
   ],
   "note": "Order, lengths and every failure of make_sampled_format; time steps are 0 1 1 2 2 3 ... when each time is within half a step, and a drifting sequence within the tolerance refutes the unconditional claim. np.round enters only through round_ok."
  },
  {
   "property": "C29",
   "status": "proved",
   "theorems": [
    "C29_Hankel",
    "C29_negative",
    "C29_sizes",
    "C29_default",
    "C29_not_maximal",
    "C29_check_refuted",
    "C29_constructor_ignored",
    "C29_Markovs"
   ],
   "note": "Blocks, shapes and every outcome of _assemble_Hankel for all integer sizes, the default sizes, the handling of missing dimensions, and the shortcomings named in the statement."
  },
  {
   "property": "C30",
   "status": "proved",
   "theorems": [
    "C30_Markov_recovered",
    "C30_from_samples"
   ],
   "note": "Similarity of the model and the system, hence all Markov parameters; also composed with make_sampled_format and default sizes. Oracle hypotheses: SVD contract, square roots of the nonzero singular values, eigvals returns."
  },
  {
   "property": "C31",
   "status": "proved",
   "theorems": [
    "C31_observer",
    "C31_recovered",
    "C31_mismatch",
    "C31_too_many",
    "C31_none",
    "C31_one_dim",
    "C31_bad_dims"
   ],
   "note": "Least squares is an oracle with the normal-equation contract; exact data, deadbeat observer; real data."
  },
  {
   "property": "C32",
   "status": "proved",
   "theorems": [
    "C32_arrays",
    "C32_orthonormal",
    "C32_exact",
    "C32_invariant",
    "C32_response",
    "C32_biorthonormal",
    "C32_history",
    "C32_model",
    "C32_attributes",
    "C32_kept",
    "C32_constructor",
    "C32_failed_attribute",
    "C32_standard_basis",
    "C32_handles",
    "C32_handles_galerkin",
    "C32_handles_exact",
    "C32_handles_constructor",
    "C32_handles_singular",
    "C32_handles_commands",
    "C32_C",
    "C32_handles_C"
   ],
   "note": "numpy.linalg.inv enters through a contract (left inverse); put_* methods are the generic put-and-barrier of C42"
  },
  {
   "property": "C33",
   "status": "proved",
   "theorems": [
    "C33_derivatives",
    "C33_written_once",
    "C33_length_mismatch",
    "C33_zero_dt",
    "C33_arrays",
    "C33_handles_agree_with_arrays"
   ],
   "note": "All schedules and process counts; 1./dt is a value or an exception; the derivative handles must be distinct and may overlap the inputs only at the same index. Array version with broadcasting, arrays with at least one row."
  },
  {
   "property": "C34",
   "status": "proved",
   "theorems": [
    "C34_quadrature",
    "C34_no_grids",
    "C34_grids",
    "C34_shape_error",
    "C34_conj_symmetric",
    "C34_linear",
    "C34_nonneg",
    "C34_definite",
    "C34_uniform",
    "C34_uniform_definite",
    "C34_uniform_size"
   ],
   "note": "Exact arithmetic over any field with conjugation; grids are one-dimensional arrays. Also definiteness for strictly increasing grids and the laws of inner_product_array_uniform."
  },
  {
   "property": "C35",
   "status": "proved",
   "theorems": [
    "C35_exact",
    "C35_no_inner_product",
    "C35_no_false_alarm",
    "C35_factors",
    "C35_changed",
    "C35_bilinear_refuted",
    "C35_raises"
   ],
   "note": "Exact arithmetic, any user-supplied operations on any object state, including ones that change their arguments. Only wrong real factors are caught: a bilinear product passes for every vector (C35_bilinear_refuted)."
  },
  {
   "property": "C36",
   "status": "proved",
   "theorems": [
    "C36_lsim",
    "C36_convolution",
    "C36_impulse",
    "C36_impulse_default",
    "C36_lsim_impulse",
    "C36_bad_system",
    "C36_bad_inputs",
    "C36_complex_refuted"
   ],
   "note": "scipy.signal.dlsim and dimpulse are modelled as documented; real systems (complex ones lose imaginary parts, refuted)."
  },
  {
   "property": "C37",
   "status": "proved",
   "theorems": [
    "C37_similar",
    "C37_gramian_refuted",
    "C37_delay"
   ],
   "note": "solve_lyapunov, the SVD and square roots are oracles; the left singular vectors of L_o^T L_c are real (the code transposes without conjugating)."
  },
  {
   "property": "C38",
   "status": "proved",
   "theorems": [
    "C38_pod",
    "C38_bpod",
    "C38_dmd",
    "C38_tls",
    "C38_pod_single_refuted",
    "C38_bpod_single_refuted",
    "C38_dmd_complex_refuted",
    "C38_put_raises",
    "C38_get_missing"
   ],
   "note": "Put then get on any number of ranks and any schedule, down to the characters of the files. The failures that the property states (one value, complex values) are the _refuted theorems."
  },
  {
   "property": "C39",
   "status": "proved",
   "theorems": [
    "C39_node_ID_injective",
    "C39_num_nodes"
   ],
   "note": ""
  },
  {
   "property": "C40",
   "status": "proved",
   "theorems": [
    "C40_file_list",
    "C40_file_list_in",
    "C40_no_extension",
    "C40_empty_extension_refuted",
    "C40_load_signals",
    "C40_too_few_columns",
    "C40_saved",
    "C40_load_multiple",
    "C40_lengths_differ",
    "C40_signals_differ",
    "C40_broadcast_refuted",
    "C40_no_files"
   ],
   "note": "Times are compared with np.allclose, a parameter. C40_broadcast_refuted: a file with one signal among files with several is accepted."
  },
  {
   "property": "C41",
   "status": "proved",
   "theorems": [
    "C41_serial_one_chunk",
    "C41_in_place_refuted"
   ],
   "note": "serial case of in-place use; a counterexample for several chunks"
  },
  {
   "property": "C42",
   "status": "proved",
   "theorems": [
    "C42_put_before_return",
    "C42_put_then_read"
   ],
   "note": ""
  },
  {
   "property": "C43",
   "status": "proved",
   "theorems": [
    "C43_assignments",
    "C43_default_assignments",
    "C43_ceil_div",
    "C43_memory",
    "C43_estimates",
    "C43_binary64",
    "C43_any_weights",
    "C43_absorbed_weight_refuted"
   ],
   "note": ""
  },
  {
   "property": "C44",
   "status": "proved",
   "theorems": [
    "C44_inner_product_reads",
    "C44_lin_combine_reads",
    "C44_symmetric_reads",
    "C44_enough_memory",
    "C44_symmetric_warning_refuted"
   ],
   "note": "The symmetric routine's warning that every vector is read num_row_chunks times is refuted. For the number of vectors held at once see C60."
  },
  {
   "property": "C45",
   "status": "proved",
   "theorems": [
    "C45_lin_combine",
    "C45_sums_available",
    "C45_derivs",
    "C45_derivs_available",
    "C45_inner_products",
    "C45_symmetric"
   ],
   "note": ""
  },
  {
   "property": "C46",
   "status": "proved",
   "theorems": [
    "C46_pod",
    "C46_bpod_direct",
    "C46_bpod_adjoint",
    "C46_dmd_proj",
    "C46_dmd_adjoint",
    "C46_dmd_exact",
    "C46_linear_image",
    "C46_all",
    "C46_int",
    "C46_all_pod"
   ],
   "note": "For any object state with a decomposition of matching shape; mode_indices may be a list, None (C46_all) or an integer (C46_int)."
  },
  {
   "property": "C47",
   "status": "proved",
   "theorems": [
    "C47_POD_snaps",
    "C47_POD_direct_no_weights",
    "C47_POD_direct_1D",
    "C47_POD_direct_2D",
    "C47_handles"
   ],
   "note": "Exact arithmetic, LAPACK through its contracts. For handles the mode indices must start 0,1,...,r-1."
  },
  {
   "property": "C48",
   "status": "proved",
   "theorems": [
    "C48_BPOD_Galerkin_is_ERA"
   ],
   "note": "Composes the models of three modules. The SVD oracle is assumed to return the same decomposition for arrays with equal entries. Markov parameters are real, since ERA stores real parts only."
  },
  {
   "property": "C49",
   "status": "proved",
   "theorems": [
    "C49_galerkin_model",
    "C49_galerkin_before_return",
    "C49_galerkin_unset",
    "C49_era_model",
    "C49_era_decomp",
    "C49_era_sing_vals",
    "C49_era_returned",
    "C49_era_unset",
    "C49_era_race_refuted",
    "C49_proj_coeffs",
    "C49_tls_unsupported",
    "C49_loaded_single",
    "C49_loaded_several"
   ],
   "note": "A put is one atomic step. C49_era_race_refuted: with different arrays on the ranks the result is not determined."
  },
  {
   "property": "C50",
   "status": "proved",
   "theorems": [
    "C50_drss",
    "C50_drss_stable",
    "C50_drss_decay",
    "C50_drss_impulse",
    "C50_rss",
    "C50_rss_range",
    "C50_rss_zero_refuted",
    "C50_singular"
   ],
   "note": "Random draws are arbitrary arguments. numpy.linalg.inv by contract. Exact arithmetic. C50_rss_zero_refuted: a draw of 0 makes the system not asymptotically stable."
  },
  {
   "property": "C51",
   "status": "proved",
   "theorems": [
    "C51_space_eq",
    "C51_space_equivalence",
    "C51_space_products",
    "C51_products_space",
    "C51_products_space_refuted",
    "C51_flatten_list",
    "C51_flatten_assignments",
    "C51_make_iterable",
    "C51_sum_lists",
    "C51_sum_arrays",
    "C51_sum_lists_allreduce",
    "C51_sum_lists_mismatch",
    "C51_smart_eq",
    "C51_smart_eq_exact",
    "C51_smart_eq_nan_refuted",
    "C51_block",
    "C51_block_empty",
    "C51_block_parallel",
    "C51_vs_eq",
    "C51_vs_eq_products",
    "C51_vs_eq_refuted",
    "C51_print",
    "C51_print_agree_refuted",
    "C51_print_from_rank_zero",
    "C51_print_channel_refuted",
    "C51_vector_sub",
    "C51_vector_missing"
   ],
   "note": "Element equality is a parameter of smart_eq; iterables are lists, sum_arrays on one-dimensional arrays."
  },
  {
   "property": "C52",
   "status": "proved",
   "theorems": [
    "C52_impulse_era",
    "C52_lsim_okid",
    "C52_identification",
    "C52_undropped"
   ],
   "note": "Exact arithmetic; contracts of SVD (with real singular vectors), square root and least squares are assumed at the arrays passed. Transposing lsim's output and dropping the direct term are the user's steps."
  },
  {
   "property": "C53",
   "status": "proved",
   "theorems": [
    "C53_methods",
    "C53_main",
    "C53_ex4",
    "C53_ex5",
    "C53_ex6",
    "C53_rom_ex2",
    "C53_pod_galerkin",
    "C53_no_barrier_refuted",
    "C53_ex3_refuted",
    "C53_makedirs",
    "C53_makedirs_refuted"
   ],
   "note": "Put-then-barrier steps and method calls in any order; files of the text and pickle handles are values of a shared store."
  },
  {
   "property": "C54",
   "status": "proved",
   "theorems": [
    "C54_weights",
    "C54_inner_products",
    "C54_tutorial_ex2",
    "C54_main_CGL",
    "C54_tutorial_ex1",
    "C54_rom_ex1"
   ],
   "note": "The grid and operators are arguments. The one-dimensional B and C are one-column and one-row arrays. Random data are arguments; the files rom_ex1 writes are in C49."
  },
  {
   "property": "C55",
   "status": "proved",
   "theorems": [
    "C55_poldif",
    "C55_poldif_constant",
    "C55_keywords",
    "C55_herroots",
    "C55_herdif",
    "C55_limits",
    "C55_operator"
   ],
   "note": "Derivatives in the statements are formal (coefficients; Leibniz formula for products). C55_real_deriv and C55_real_wderiv (HermiteExamples.v) show that over Coq's real numbers they are the derivatives of analysis; these two and the examples over the reals use the axioms of Coq's reals."
  },
  {
   "property": "C56",
   "status": "proved",
   "theorems": [
    "C56_optimal",
    "C56_undefined",
    "C56_setup",
    "C56_small"
   ],
   "note": ""
  },
  {
   "property": "C57",
   "status": "proved",
   "theorems": [
    "C57_trapz",
    "C57_vdot",
    "C57_custom",
    "C57_handle",
    "C57_errors",
    "C57_mixed_refuted"
   ],
   "note": "C57_mixed_refuted: vectors on different grids of equal size are multiplied without complaint, not symmetrically"
  },
  {
   "property": "C58",
   "status": "proved",
   "theorems": [
    "C58_fit",
    "C58_agree",
    "C58_recovered",
    "C58_mismatch",
    "C58_none",
    "C58_too_many",
    "C58_cutoff_refuted"
   ],
   "note": "pinv satisfies pinv_contract (SVD with the cutoff); C58_agree assumes that lstsq returns the solution of least norm, or independent data."
  },
  {
   "property": "C59",
   "status": "proved",
   "theorems": [
    "C59_same_text",
    "C59_to_python",
    "C59_to_matlab",
    "C59_vector",
    "C59_there_and_back",
    "C59_no_imaginary_refuted",
    "C59_unreadable",
    "C59_no_columns",
    "C59_ragged",
    "C59_odd"
   ],
   "note": "Finite numbers; delimiters of one character, not '%' or a backslash for MATLAB; MATLAB's load as documented."
  },
  {
   "property": "C60",
   "status": "proved",
   "theorems": [
    "C60_inner_product_memory",
    "C60_symmetric_memory",
    "C60_lin_combine_memory",
    "C60_limit_refuted"
   ],
   "note": "Counts objects that the functions' local variables refer to, freed when the last reference goes; not MPI's buffers, temporaries of get, put, inner_product or of one arithmetic operation, or vectors of the caller."
  },
  {
   "property": "C61",
   "status": "proved",
   "theorems": [
    "C61_inner_products_all_or_none",
    "C61_symmetric_all_or_none",
    "C61_lin_combine_all_or_none",
    "C61_derivs_all_or_none",
    "C61_incomplete_store",
    "C61_inner_products",
    "C61_symmetric",
    "C61_lin_combine",
    "C61_derivs",
    "C61_every_rank_fails_refuted"
   ],
   "note": "The all_or_none theorems have no hypotheses. C61_incomplete_store is for any program of the model. For derivatives the missing snapshot is one that is not also an output handle."
  },
  {
   "property": "C62",
   "status": "proved",
   "theorems": [
    "C62_files",
    "C62_in_memory",
    "C62_new_objects",
    "C62_sums_in_memory",
    "C62_product_returns_operand_refuted",
    "C62_mixed_kinds_refuted"
   ],
   "note": "Refinement of the model with vectors as values (C06) by one with a heap. User classes may or may not update in place in +=. VecHandleInMemory is covered in serial only (a handle's vector is an attribute of one process's object)."
  },
  {
   "property": "C63",
   "status": "proved",
   "theorems": [
    "C63_inner_products",
    "C63_symmetric",
    "C63_lin_combine",
    "C63_symmetric_refuted",
    "C63_lin_combine_refuted"
   ],
   "note": "Inner products and vector operations are any deterministic functions. MPI reductions are taken in rank order; no order matters here, since all but one of the terms added are zero."
  },
  {
   "property": "C64",
   "status": "proved",
   "theorems": [
    "C64_accuracy",
    "C64_binary64",
    "C64_agree"
   ],
   "note": "Real one-dimensional arrays; numbers without overflow and underflow."
  },
  {
   "property": "C65",
   "status": "proved",
   "theorems": [
    "C65_pod",
    "C65_pod_no_vectors",
    "C65_bpod",
    "C65_dmd",
    "C65_dmd_vectors",
    "C65_decomposing",
    "C65_no_cross",
    "C65_new",
    "C65_new_raises"
   ],
   "note": "That np.linalg raises LinAlgError on None, and the exception types of operations on None, are read off NumPy and Python."
  },
  {
   "property": "C66",
   "status": "proved",
   "theorems": [
    "C66_same",
    "C66_pod",
    "C66_bpod_zero",
    "C66_bpod",
    "C66_dmd_count",
    "C66_dmd",
    "C66_pod_modes",
    "C66_bpod_modes",
    "C66_dmd_modes",
    "C66_retry",
    "C66_tls_same",
    "C66_tls_count",
    "C66_tls",
    "C66_sequential",
    "C66_tls_modes",
    "C66_tls_retry",
    "C66_era_same",
    "C66_era_kept",
    "C66_era_mixed",
    "C66_era_partial",
    "C66_era_retry"
   ],
   "note": "With more than one process a LAPACK failure on rank zero leaves the other ranks waiting (C65, C61)."
  },
  {
   "property": "C67",
   "status": "proved",
   "theorems": [
    "C67_pod",
    "C67_bpod",
    "C67_dmd",
    "C67_runs",
    "C67_stale",
    "C67_pod_caught",
    "C67_bpod_caught",
    "C67_dmd_caught",
    "C67_coeffs_left",
    "C67_coeffs_mixed",
    "C67_attempt",
    "C67_eigen_same",
    "C67_decomp_same",
    "C67_pod_get",
    "C67_bpod_get",
    "C67_dmd_get",
    "C67_tls_get",
    "C67_get_coeffs",
    "C67_get_same",
    "C67_get_told",
    "C67_pod_gets",
    "C67_bpod_gets",
    "C67_dmd_gets"
   ],
   "note": "Exceptions that are caught: those raised on every rank, and all of them on one process; the DMD coefficients after compute_proj_coeffs raised, or get_proj_coeffs at its second source, are covered for that call alone (C67_coeffs_left, C67_get_coeffs). C25_history in addition says which vectors a settled sequence of DMD calls combines."
  },
  {
   "property": "C68",
   "status": "proved",
   "theorems": [
    "C68_reconstruct",
    "C68_advance",
    "C68_sequence",
    "C68_last",
    "C68_predict",
    "C68_snaps",
    "C68_direct",
    "C68_handles_modes",
    "C68_handles",
    "C68_exact",
    "C68_exact_sequence",
    "C68_exact_snaps",
    "C68_exact_direct",
    "C68_TLS",
    "C68_TLS_snaps",
    "C68_TLS_direct",
    "C68_exact_handles_modes",
    "C68_exact_handles",
    "C68_handles_eigenvectors",
    "C68_handles_predict_modes",
    "C68_handles_predict",
    "C68_pairs",
    "C68_pairs_handles",
    "C68_TLS_handles"
   ],
   "note": "Theorems whose names end in snaps, direct, handles or predict are about the calls themselves; the others are about any outputs that meet dmd_spec or dmd_modes, which C22, C26 and C27 show the calls return. No eigenvalue is dropped (max_num_eigvals=None for DMD); for TLS DMD the fit is of the denoised pairs, under the hypothesis that the second truncation keeps as many directions as the first. Statements about sequences are for calls without advanced vectors, those about pairs for both."
  },
  {
   "property": "C69",
   "status": "proved",
   "theorems": [
    "C69_balanced",
    "C69_BPOD",
    "C69_ERA",
    "C69_modes",
    "C69_handles"
   ],
   "note": "Exact arithmetic over a field with conjugation. BPOD: any result that meets bpod_spec with a decomposition of Y^H W X; compute_BPOD_arrays on impulse responses of a system and of its adjoint; BPODHandles for data whose inner products have the block Hankel form, on any number of processes. ERA: under the hypotheses of C30, the model of the true order."
  },
  {
   "property": "C70",
   "status": "proved",
   "theorems": [
    "C70_methods",
    "C70_isometry",
    "C70_weights",
    "C70_POD",
    "C70_DMD",
    "C70_BPOD",
    "C70_TLS",
    "C70_Galerkin",
    "C70_POD_arrays",
    "C70_DMD_arrays",
    "C70_TLS_arrays",
    "C70_BPOD_arrays",
    "C70_Galerkin_arrays"
   ],
   "note": "C70_methods is for every program over the vector space operations, hence for every method of the handle classes; its hypothesis is that the program is defined on one of the two stores in the sequential reading `ok` (vectors found, mode handles distinct and not data handles, LAPACK returns). The theorems for the single classes derive this from the contracts of LAPACK. Vectors are compared through inner products, so modes are determined up to vectors orthogonal to everything. The theorems for array functions assume of LAPACK only that it looks at shape and entries of its argument, and that the weights are accepted and fit the number of entries; results are equal, except that the correlation and Hankel arrays, adv_proj_coeffs and the reduced arrays have equal shape and entries. The direct methods are not covered there: they use a square root of the weights."
  }
 ]
}
