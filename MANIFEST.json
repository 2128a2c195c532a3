{
 "claims": [
  {
   "property": "C01",
   "status": "proved",
   "theorems": [
    "C01_permutation_is_bijection"
   ],
   "note": "all sorts (any rearrangement of the range), both splitting strategies; given partitions in range"
  },
  {
   "property": "C02",
   "status": "proved",
   "theorems": [
    "C02_children_tile"
   ],
   "note": "given partitions must tile [0,n)"
  },
  {
   "property": "C03",
   "status": "proved",
   "theorems": [
    "C03_partition",
    "C03_small_refuted"
   ],
   "note": "guard: no cluster above the partition is a leaf; the refuted theorem shows the partition vector is short otherwise"
  },
  {
   "property": "C04",
   "status": "proved",
   "theorems": [
    "C04_given_partition_respected"
   ],
   "note": "pairwise disjoint intervals in [0,n), any order"
  },
  {
   "property": "C05",
   "status": "proved",
   "theorems": [
    "C05_regular_sizes",
    "C05_number_of_children",
    "C05_min_size"
   ],
   "note": ""
  },
  {
   "property": "C06",
   "status": "proved",
   "theorems": [
    "C06_terminates",
    "C06_one_child_never_terminates",
    "C06_stack_machine"
   ],
   "note": "both strategies; the explicit-stack loop of the code and the recursion agree"
  },
  {
   "property": "C07",
   "status": "proved",
   "theorems": [
    "C07_renumbering_round_trip"
   ],
   "note": ""
  },
  {
   "property": "C08",
   "status": "proved",
   "theorems": [
    "C08_local_renumbering"
   ],
   "note": ""
  },
  {
   "property": "C09",
   "status": "proved",
   "theorems": [
    "C09_save_read_tree",
    "C09_built_trees",
    "C09_save_read_properties",
    "C09_empty_refuted"
   ],
   "note": "coordinates are printed and parsed; the counter, read through the coordinate type, is assumed exactly representable; n=0 cannot be read back"
  },
  {
   "property": "C10",
   "status": "proved",
   "theorems": [
    "C10_split_join",
    "C10_split_join_any_delimiter",
    "C10_split_total",
    "C10_leading_empty",
    "C10_empty_delimiter",
    "C10_two_characters_refuted"
   ],
   "note": "one-character delimiters, and longer ones when the first occurrence in (token delimiter) is the one after the token; refuted otherwise"
  },
  {
   "property": "C11",
   "status": "proved",
   "theorems": [
    "C11_vector_round_trip",
    "C11_matrix_round_trip",
    "C11_truncated_refuted"
   ],
   "note": "a truncated file is accepted silently (refuted theorem)"
  },
  {
   "property": "C12",
   "status": "proved",
   "theorems": [
    "C12_ball_contains_points"
   ],
   "note": "uses the axioms of the standard real numbers; exact arithmetic"
  },
  {
   "property": "C13",
   "status": "proved",
   "theorems": [
    "C13_preorder",
    "C13_postorder"
   ],
   "note": ""
  },
  {
   "property": "C14",
   "status": "proved",
   "theorems": [
    "C14_trees_satisfy_hypotheses",
    "C14_leaves_tile",
    "C14_leaves_computed"
   ],
   "note": "any admissibility condition (an oracle), both consistent settings, whole matrix or one target part"
  },
  {
   "property": "C15",
   "status": "proved",
   "theorems": [
    "C15_symmetric_storage",
    "C15_qpart_alone_refuted"
   ],
   "note": "partition for symmetry only together with the target part of the same number; refuted otherwise"
  },
  {
   "property": "C16",
   "status": "proved",
   "theorems": [
    "C16_only_admissible_compressed"
   ],
   "note": ""
  },
  {
   "property": "C17",
   "status": "proved",
   "theorems": [
    "C17_processes_cover"
   ],
   "note": ""
  },
  {
   "property": "C18",
   "status": "proved",
   "theorems": [
    "C18_hmatrix_vector_product",
    "C18_built_matrices",
    "C18_rank_0_refuted"
   ],
   "note": "every structure; matrices of HMatrixTreeBuilder meet the hypotheses; the represented entries are the generator's up to the accuracy of the compressed blocks (any relation)"
  },
  {
   "property": "C19",
   "status": "proved",
   "theorems": [
    "C19_symmetric_product",
    "C19_built_matrices",
    "C19_conjugate_of_symmetric_refuted"
   ],
   "note": "trans N, T with S and N, C with H; C with a complex symmetric matrix is refuted"
  },
  {
   "property": "C20",
   "status": "proved",
   "theorems": [
    "C20_schedule_independent"
   ],
   "note": "equality with the result of the sequential product, exact arithmetic"
  },
  {
   "property": "C21",
   "status": "proved",
   "theorems": [
    "C21_columnwise",
    "C21_schedule_independent"
   ],
   "note": ""
  },
  {
   "property": "C22",
   "status": "proved",
   "theorems": [
    "C22_copy_to_dense",
    "C22_copy_to_dense_in_user_numbering",
    "C22_built_leaves_ready",
    "C22_copy_to_dense_symmetric_refuted",
    "C22_rank_0_refuted"
   ],
   "note": "low-rank leaves of rank at least 1; refuted for rank 0 and for copy_to_dense with symmetry"
  },
  {
   "property": "C23",
   "status": "proved",
   "theorems": [
    "C23_lrmat_vector_product"
   ],
   "note": ""
  },
  {
   "property": "C24",
   "status": "proved",
   "theorems": [
    "C24_low_rank_sum",
    "C24_not_nested_refuted"
   ],
   "note": "recompression is a parameter that loses nothing (the identity is one); overlapping blocks of which none contains the other: nothing is added (refuted witness)"
  },
  {
   "property": "C25",
   "status": "proved",
   "theorems": [
    "C25_product",
    "C25_product_scaled",
    "C25_product_into_dense",
    "C25_product_into_low_rank",
    "C25_beta_refuted",
    "C25_rank_0_refuted",
    "C25_symmetric_operand_refuted",
    "C25_symmetric_into_dense_refuted"
   ],
   "note": "truncations are parameters that lose nothing; witnesses show that beta is ignored for a hierarchical C when A or B is a leaf, that a rank 0 block leads to an illegal BLAS call, and that with an operand stored by one of its halves the products with the missing blocks are silently left out"
  },
  {
   "property": "C26",
   "status": "proved",
   "theorems": [
    "C26_triangular_solve",
    "C26_factorization",
    "C26_two_solves_invert"
   ],
   "note": "sides L and R, trans N, T and C; LAPACK/BLAS modelled from their documentation, exact arithmetic; iamax_rule: the pivot choice of LAPACK meets the contract"
  },
  {
   "property": "C27",
   "status": "proved",
   "theorems": [
    "C27_factorization",
    "C27_internal_solve",
    "C27_solve",
    "C27_singular_leading_block_refuted",
    "C27_low_rank_diagonal_refuted"
   ],
   "note": "Truncations are parameters that lose nothing, the pivot of a leaf any choice that meets LAPACK's rule; op N, T, C; any tree. Refuted witnesses outside the guard: singular leading block (no exchange of rows across leaves), low-rank leaf on the diagonal."
  },
  {
   "property": "C28",
   "status": "proved",
   "theorems": [
    "C28_factorization",
    "C28_solve_real",
    "C28_solve_complex",
    "C28_three_children_refuted"
   ],
   "note": "Generic theorem over any field with a positivity test and square root; instances over the reals (star = T) and complex numbers (star = C). Exact arithmetic and exact truncation. Positive definiteness (every non-zero vector has a positive quadratic form) is the hypothesis and success of potrf in every leaf is proved, by positivity of the Schur complements. C28_three_children_refuted: wrong result with three children."
  },
  {
   "property": "C29",
   "status": "proved",
   "theorems": [
    "C29_dense_right_hand_side",
    "C29_low_rank_right_hand_side",
    "C29_hierarchical_right_hand_side",
    "C29_stored_triangle",
    "C29_low_rank_diagonal_refuted"
   ],
   "note": "Sides L and R, UPLO L and U, op N, T and C, unit and non-unit diagonal, any alpha; dense, low-rank and hierarchical right-hand sides. Diagonal leaves must be dense (otherwise C29_low_rank_diagonal_refuted)."
  },
  {
   "property": "C30",
   "status": "proved",
   "theorems": [
    "C30_svd_truncation",
    "C30_svd_generator_real"
   ],
   "note": "uses the axioms of the standard real numbers; gesvd is an oracle with its documented result; generator theorem for real coefficients"
  },
  {
   "property": "C31",
   "status": "proved",
   "theorems": [
    "C31_full_aca",
    "C31_full_aca_real",
    "C31_full_aca_complex"
   ],
   "note": "generic theorem closed; norm versions use the axioms of the standard real numbers; exact arithmetic"
  },
  {
   "property": "C32",
   "status": "proved",
   "theorems": [
    "C32_partial_aca",
    "C32_sym_partial_aca",
    "C32_no_tolerance"
   ],
   "note": "exact arithmetic"
  },
  {
   "property": "C33",
   "status": "proved",
   "theorems": [
    "C33_cost_of_blocks",
    "C33_requested_rank_zero",
    "C33_rank_zero_always"
   ],
   "note": ""
  },
  {
   "property": "C34",
   "status": "proved",
   "theorems": [
    "C34_safe_histories",
    "C34_no_leak",
    "C34_resize_moved_from_refuted",
    "C34_resize_view_refuted",
    "C34_copy_own_view_refuted",
    "C34_assign_empty_refuted"
   ],
   "note": "the refuted theorems show the faults outside the contract"
  },
  {
   "property": "C35",
   "status": "proved",
   "theorems": [
    "C35_vector_product_global",
    "C35_cluster_partition",
    "C35_hmatrix_operator",
    "C35_from_generator",
    "C35_from_symmetric_generator"
   ],
   "note": "collectives modelled from the MPI standard; any local operators that add up to the row block; the operators built by the library from cluster trees and a generator meet the hypotheses"
  },
  {
   "property": "C36",
   "status": "proved",
   "theorems": [
    "C36_matrix_product_global",
    "C36_target_renumbering_refuted"
   ],
   "note": ""
  },
  {
   "property": "C37",
   "status": "proved",
   "theorems": [
    "C37_transposed_vector_product_global",
    "C37_transposed_vector_product_local",
    "C37_internal_hermitian_refuted"
   ],
   "note": ""
  },
  {
   "property": "C38",
   "status": "proved",
   "theorems": [
    "C38_vector_product_local"
   ],
   "note": ""
  },
  {
   "property": "C39",
   "status": "proved",
   "theorems": [
    "C39_local_numbering",
    "C39_repeated_point_refuted"
   ],
   "note": ""
  },
  {
   "property": "C40",
   "status": "proved",
   "theorems": [
    "C40_overlap_solver",
    "C40_no_overlap",
    "C40_builder_blocks",
    "C40_symmetric_refuted",
    "C40_builder_nonsymmetric_refuted"
   ],
   "note": "exact arithmetic, exact truncations. The refuted theorems are concrete runs: symmetric with overlap (UPLO L and U), and the non-symmetric solver of DDMSolverBuilder"
  },
  {
   "property": "C41",
   "status": "proved",
   "theorems": [
    "C41_threshold_keeps_exactly_the_large",
    "C41_threshold_general",
    "C41_first_nu",
    "C41_all_above_refuted"
   ],
   "note": "LAPACK's eigenvectors and the postcondition of std::sort are hypotheses; the read past the end is a refuted theorem"
  },
  {
   "property": "C42",
   "status": "proved",
   "theorems": [
    "C42_coarse_operator_is_galerkin",
    "C42_hermitian",
    "C42_one_hierarchical_matrix_per_process",
    "C42_hermitian_galerkin_refuted",
    "C42_source_offset_refuted"
   ],
   "note": ""
  },
  {
   "property": "C43",
   "status": "proved",
   "theorems": [
    "C43_statistics_are_true",
    "C43_minimum_refuted"
   ],
   "note": "double is modelled by exact rationals"
  },
  {
   "property": "C44",
   "status": "proved",
   "theorems": [
    "C44_siblings_separated"
   ],
   "note": "std::sort is assumed to sort by the key"
  },
  {
   "property": "C45",
   "status": "proved",
   "theorems": [
    "C45_depths_of_leaves"
   ],
   "note": ""
  },
  {
   "property": "C46",
   "status": "proved",
   "theorems": [
    "C46_matrix_product_local",
    "C46_transposed_matrix_product_global",
    "C46_transposed_matrix_product_local",
    "C46_overlapping_sources_refuted"
   ],
   "note": ""
  },
  {
   "property": "C47",
   "status": "proved",
   "theorems": [
    "C47_values",
    "C47_copies_are_independent"
   ],
   "note": ""
  },
  {
   "property": "C48",
   "status": "proved",
   "theorems": [
    "C48_estimator_real",
    "C48_estimator_complex"
   ],
   "note": "uses the axioms of the standard real numbers; exact arithmetic"
  },
  {
   "property": "C49",
   "status": "proved",
   "theorems": [
    "C49_dense_lu_solve"
   ],
   "note": "exact arithmetic"
  },
  {
   "property": "C50",
   "status": "proved",
   "theorems": [
    "C50_dense_cholesky",
    "C50_cholesky_succeeds"
   ],
   "note": "exact arithmetic. C50_cholesky_succeeds: for a Hermitian positive definite matrix the factorisation succeeds; C50_dense_cholesky: when it succeeds the factors and solves are right; the code ignores info"
  },
  {
   "property": "C51",
   "status": "proved",
   "theorems": [
    "C51_admissible_blocks_are_separated",
    "C51_condition_symmetric_and_monotone"
   ],
   "note": "uses the axioms of the standard real numbers; exact arithmetic"
  },
  {
   "property": "C52",
   "status": "proved",
   "theorems": [
    "C52_bounding_box_longest_axis",
    "C52_negative_coordinates_refuted"
   ],
   "note": "uses the axioms of the standard real numbers; exact arithmetic; negative coordinates: refuted"
  },
  {
   "property": "C53",
   "status": "proved",
   "theorems": [
    "C53_largest_extent_2d"
   ],
   "note": "uses the axioms of the standard real numbers; exact arithmetic"
  },
  {
   "property": "C54",
   "status": "proved",
   "theorems": [
    "C54_scale",
    "C54_add_low_rank"
   ],
   "note": ""
  },
  {
   "property": "C55",
   "status": "proved",
   "theorems": [
    "C55_dense_local_solver"
   ],
   "note": "exact arithmetic"
  },
  {
   "property": "C56",
   "status": "proved",
   "theorems": [
    "C56_hmatrix_local_solver"
   ],
   "note": "exact arithmetic, exact truncations"
  },
  {
   "property": "C57",
   "status": "proved",
   "theorems": [
    "C57_product_with_overlap",
    "C57_exchange_is_consistent",
    "C57_hermitian_block_product_refuted"
   ],
   "note": "exact arithmetic; HPDDM's exchange modelled from its documentation. Refuted outside the guard: for a complex Hermitian operator and several right-hand sides GMV computes conj(A conj(x))."
  },
  {
   "property": "C58",
   "status": "proved",
   "theorems": [
    "C58_solve",
    "C58_converged_is_solution",
    "C58_without_permutation_refuted"
   ],
   "note": "the Krylov method is an arbitrary function; preconditioners and convergence are not modelled. Refuted outside the guard: an operator that does not use the permutation."
  },
  {
   "property": "C59",
   "status": "proved",
   "theorems": [
    "C59_blocks_computed",
    "C59_never_stuck",
    "C59_blocks_of_the_matrix",
    "C59_dense_blocks_generator",
    "C59_reused_builder_refuted",
    "C59_destroyed_matrix_refuted"
   ],
   "note": "statements of the loop bodies are atomic, one block each. Refuted outside the guard: a builder used twice."
  },
  {
   "property": "C60",
   "status": "proved",
   "theorems": [
    "C60_full_aca_rank",
    "C60_partial_aca_rank",
    "C60_sym_partial_aca_rank",
    "C60_full_aca_real",
    "C60_full_aca_complex"
   ],
   "note": "generic theorems closed; real and complex versions use the axioms of the standard real numbers; exact arithmetic"
  },
  {
   "property": "C61",
   "status": "proved",
   "theorems": [
    "C61_copy_diagonal",
    "C61_copy_diagonal_in_user_numbering",
    "C61_built_matrices",
    "C61_built_symmetric_matrices",
    "C61_rectangular_blocks_refuted"
   ],
   "note": "Refuted outside the guard: rows and columns clustered differently (a rectangular low-rank block on the diagonal is read with the wrong leading dimension; a block that meets the diagonal but does not start on it is skipped)."
  },
  {
   "property": "C62",
   "status": "proved",
   "theorems": [
    "C62_copy",
    "C62_copy_threads",
    "C62_assignment",
    "C62_copy_can_be_factorised",
    "C62_copy_keeps_symmetric_data",
    "C62_built_trees_share_parameters",
    "C62_copy_has_its_own_parameters",
    "C62_copy_complex_symmetric_refuted",
    "C62_copy_does_not_share_refuted"
   ],
   "note": "Refuted outside the guard: the copy constructor leaves m_symmetry_type_for_leaves at 0, so the products of the copy of a complex symmetric matrix conjugate the blocks that are not stored; set_epsilon on the root of a copy does not reach its blocks."
  },
  {
   "property": "C63",
   "status": "proved",
   "theorems": [
    "C63_recompression_real",
    "C63_recompression_complex",
    "C63_truncated_svd_real",
    "C63_truncated_svd_complex",
    "C63_exact",
    "C63_exact_svd",
    "C63_tolerance_zero",
    "C63_sum_real",
    "C63_rank_zero_refuted"
   ],
   "note": "geqrf, gelqf and gesvd are arbitrary functions that meet LAPACK's documentation (reflectors, A = QR, A = LQ, A = u S vt); exact arithmetic. Refuted outside the guard: rank 0 (illegal leading dimension, no singular value)."
  },
  {
   "property": "C64",
   "status": "proved",
   "theorems": [
    "C64_largest_extent_3d",
    "C64_dominant_direction",
    "C64_axis",
    "C64_always_a_direction",
    "C64_small_geometry_refuted"
   ],
   "note": "Exact real arithmetic with the decimal literals of the code; machine epsilon is any number in (0, 2/9]. Refuted outside the guard: the test for a diagonal covariance is absolute, so that for small geometries the direction returned can have half of the largest variance."
  },
  {
   "property": "C65",
   "status": "proved",
   "theorems": [
    "C65_get_sub_hmatrix",
    "C65_diagonal_block",
    "C65_diagonal_block_symmetric",
    "C65_inconsistent_refuted"
   ],
   "note": "get_sub_hmatrix is complete and sound; the block_diagonal_hmatrix of a process always exists and represents the entries of the generator on the clusters of the process, without symmetry, symmetric or Hermitian, for the default consistent block trees. Refuted outside the guard: without block tree consistency the pointer can be null."
  },
  {
   "property": "C66",
   "status": "proved",
   "theorems": [
    "C66_numbering",
    "C66_adding_overlap",
    "C66_adding_overlap_symmetric",
    "C66_without_overlap",
    "C66_local_hmatrix",
    "C66_with_overlap",
    "C66_small_subdomain",
    "C66_local_geometry",
    "C66_upper_refuted",
    "C66_short_numbering_refuted"
   ],
   "note": "Low-rank blocks of positive rank (a block of rank 0 has no dense copy, C22). Refuted outside the guard: symmetric with UPLO 'U', where the code only logs an error."
  },
  {
   "property": "C67",
   "status": "proved",
   "theorems": [
    "C67_modulus_real",
    "C67_modulus_complex",
    "C67_matrix",
    "C67_product",
    "C67_vector_product",
    "C67_svd_real",
    "C67_svd_complex",
    "C67_full_aca_real",
    "C67_full_aca_complex",
    "C67_svd_matrix"
   ],
   "note": "The contract of the low-rank generator (relative Frobenius error epsilon, or error below the absolute tolerance, block by block) is proved for the SVD and for ACA with full pivoting; ACA with partial pivoting does not meet it (C32_no_tolerance, C48). Exact arithmetic."
  },
  {
   "property": "C68",
   "status": "proved",
   "theorems": [
    "C68_weighted_matrix",
    "C68_subdomain_hmatrix",
    "C68_diagonal_block",
    "C68_from_hmatrix",
    "C68_lapack_answers",
    "C68_symmetric_nu",
    "C68_symmetric_threshold",
    "C68_general_nu",
    "C68_general_threshold",
    "C68_complex_eigenvalues_refuted",
    "C68_other_size_refuted",
    "C68_no_overlap_refuted"
   ],
   "note": "LAPACK's gv and ggev and std::sort are arbitrary functions that meet their documentation. With an overlap, D A D is singular, so the threshold loop of the symmetric case always stops in range. Refuted outside the guard: real coefficients with complex eigenvalues (alphai is ignored: an eigenvalue of modulus 1 is dropped by a threshold below 1), a local matrix of another size (silently zero), and a hierarchical diagonal block without overlap (copied in the user numbering, not in the local one)."
  },
  {
   "property": "C69",
   "status": "proved",
   "theorems": [
    "C69_operator_matrix",
    "C69_vector_product",
    "C69_matrix_product",
    "C69_transposed_vector_product",
    "C69_vector_product_local",
    "C69_matrix_product_local",
    "C69_transposed_matrix_product",
    "C69_transposed_vector_product_local",
    "C69_transposed_matrix_product_local"
   ],
   "note": "The distributed operator built by one process per part (dist_inputs, the two cases of DefaultApproximationBuilder) and a low-rank generator with the contract of C67 (accurate). The bound is the one of C67 for the whole matrix: the errors of the processes add up in squares. Exact arithmetic. The symmetric case uses the products by the rows, as the code does, so that the transposed product is bounded although the approximation itself is not exactly symmetric. Example: five processes, ACA with full pivoting, without and with symmetry."
  },
  {
   "property": "C70",
   "status": "proved",
   "theorems": [
    "C70_recompression_real",
    "C70_recompression_complex",
    "C70_svd_real",
    "C70_svd_complex",
    "C70_low_rank_sum",
    "C70_matrix_low_rank",
    "C70_low_rank_matrix",
    "C70_low_rank_low_rank",
    "C70_matrix_matrix",
    "C70_hmatrix_low_rank",
    "C70_hmatrix_matrix",
    "C70_low_rank_hmatrix",
    "C70_matrix_hmatrix",
    "C70_add_low_rank",
    "C70_exact_refuted"
   ],
   "note": "The contracts of the truncations are proved for recompression and the truncated SVD (C63, given LAPACK's documentation), with real and complex coefficients. One call of each kernel: no bound is stated for a whole hierarchical product or factorisation, which truncates many times. Exact arithmetic except for the truncations."
  },
  {
   "property": "C71",
   "status": "proved",
   "theorems": [
    "C71_leaves_file",
    "C71_lines_tile",
    "C71_lines_symmetric",
    "C71_built_matrices",
    "C71_built_symmetric",
    "C71_levels_files",
    "C71_level",
    "C71_names_differ",
    "C71_repeated_depth_refuted"
   ],
   "note": "The text goes through an independent reader of comma-separated integers. The depth of a node is data (stored by tree.hpp); C71_level relates it to the level when every node is one deeper than its parent. C71_repeated_depth_refuted shows the empty second file for a repeated depth. Requested depths are assumed to be non-negative."
  },
  {
   "property": "C72",
   "status": "proved",
   "theorems": [
    "C72_statistics",
    "C72_minimum_applies",
    "C72_minimum_refuted",
    "C72_information",
    "C72_timings",
    "C72_names_refuted"
   ],
   "note": "double is modelled by exact rationals, size_t by naturals (no overflow of 2^64); MPI_Reduce from its documentation. C72_minimum_refuted: a process without dense blocks and a small matrix spoils the minimum. C72_names_refuted: with different entries on the processes the sums mix them. The size_t accumulation of half-integers is exact for square symmetric blocks, which is the guard of the ratio."
  },
  {
   "property": "C73",
   "status": "proved",
   "theorems": [
    "C73_frobenius_absolute_error",
    "C73_whole_error",
    "C73_too_many_terms_refuted",
    "C73_norm_frob",
    "C73_norm2_real",
    "C73_norm2_complex",
    "C73_max_modulus",
    "C73_min_modulus",
    "C73_storage"
   ],
   "note": "double is modelled by the real numbers. Frobenius_relative_error calls an overload of copy_submatrix that no generator has, so it cannot be instantiated and is not modelled. Outside the guard (more terms than the rank) the factors are read beyond their end: C73_too_many_terms_refuted."
  },
  {
   "property": "C74",
   "status": "proved",
   "theorems": [
    "C74_clustered_geometry",
    "C74_built_trees",
    "C74_no_cluster_refuted"
   ],
   "note": "The text is read back by an independent reader of comma-separated tables; the formatting of a coordinate is a parameter. C74_clustered_geometry is the exact content for any cluster tree with the shape that cluster trees have (each node tiled by its children, one deeper than its parent); C74_built_trees is for the trees of create_cluster_tree. C74_no_cluster_refuted: outside the guard a point without a cluster at the depth has the number of the first cluster."
  },
  {
   "property": "C75",
   "status": "proved",
   "theorems": [
    "C75_get_row",
    "C75_get_col",
    "C75_set_row",
    "C75_set_col",
    "C75_scale",
    "C75_sum",
    "C75_vector_product",
    "C75_matrix_product",
    "C75_argmax",
    "C75_other_sizes_refuted",
    "C75_text",
    "C75_no_columns_refuted"
   ],
   "note": "Exact arithmetic. C75_other_sizes_refuted: the sum of matrices of the same number of coefficients and other shapes is not refused, mixes the coefficients or reads beyond the end. C75_no_columns_refuted: a matrix without columns writes an empty file."
  },
  {
   "property": "C76",
   "status": "proved",
   "theorems": [
    "C76_history",
    "C76_after_set_level",
    "C76_writers_keep_their_level",
    "C76_critical_is_always_printed"
   ],
   "note": "Writers are numbers; the state is the current writer and the threshold of each standard writer. A user-defined writer receives every message, what it does is its own."
  },
  {
   "property": "C77",
   "status": "proved",
   "theorems": [
    "C77_matrix_right",
    "C77_low_rank_right",
    "C77_into_low_rank_right",
    "C77_matrix_left",
    "C77_low_rank_left",
    "C77_into_low_rank_left",
    "C77_built_matrices",
    "C77_hermitian_transposed_refuted"
   ],
   "note": "The statement excludes the combination for which the code is wrong: Hermitian storage on the right, transb = N, transa = T or C (C77_hermitian_transposed_refuted: op(A) conj(B) is computed)."
  },
  {
   "property": "C78",
   "status": "proved",
   "theorems": [
    "C78_low_rank_errors",
    "C78_hierarchical_errors",
    "C78_low_rank_bound",
    "C78_hierarchical_bound",
    "C78_small_tolerance",
    "C78_number_of_truncations",
    "C78_real",
    "C78_complex",
    "C78_exact_refuted"
   ],
   "note": "The bound is in the norms of C, op(A) and op(B), not of the result: with cancellation the relative error of the result can be larger. beta = 1 (the scaling of C by another beta is C25_product_scaled). C78_real and C78_complex use the recompression and SVD of the library, LAPACK as documented. C78_exact_refuted: the error is not zero."
  },
  {
   "property": "C79",
   "status": "proved",
   "theorems": [
    "C79_cluster_trees",
    "C79_two_way",
    "C79_built_operand",
    "C79_exact_operand",
    "C79_product",
    "C79_lu_solve",
    "C79_cholesky_solve_real",
    "C79_cholesky_solve_complex",
    "C79_two_levels_refuted"
   ],
   "note": "The statement is restricted to partitions one level deep: with a deeper one the product adds nothing and reports nothing (C79_two_levels_refuted, a defect of the code). Factorisations: exact compression, recompression and SVD."
  },
  {
   "property": "C80",
   "status": "proved",
   "theorems": [
    "C80_total_error",
    "C80_real",
    "C80_complex",
    "C80_exact_build",
    "C80_exact_refuted"
   ],
   "note": "total_bound, the statement, is a definition in P_Total.v just above the theorem. beta = 1. The compression contract accurate is proved for the SVD and full ACA generators (C67); for the partial pivoting generator it cannot hold (C30). C80_exact_refuted: the terms of the compressions are needed."
  },
  {
   "property": "C81",
   "status": "proved",
   "theorems": [
    "C81_compressors",
    "C81_storage",
    "C81_symmetric_storage",
    "C81_reported",
    "C81_symmetric_reported",
    "C81_worthwhile_refuted",
    "C81_off_diagonal_refuted"
   ],
   "note": "coefficients (P_Store.v) is the sum, over the leaves, of the coefficients stored as in C43. The reported numbers are in exact arithmetic (double in the code). The guards are those of the statement; the refuted theorems show they are needed."
  },
  {
   "property": "C82",
   "status": "proved",
   "theorems": [
    "C82_sizes",
    "C82_two_children",
    "C82_depths",
    "C82_reported_depths",
    "C82_number_of_clusters",
    "C82_uneven_parts_refuted",
    "C82_geometric_refuted"
   ],
   "note": "Refuted outside the guards: seven parts with two children (depths differ by two), and a line of 24 points for which GeometricSplitting makes a tree of depth 12."
  },
  {
   "property": "C83",
   "status": "proved",
   "theorems": [
    "C83_test",
    "C83_full_aca",
    "C83_partial_aca",
    "C83_sym_partial_aca",
    "C83_svd",
    "C83_counters",
    "C83_large_blocks_refuted",
    "C83_wrapped_refuted",
    "C83_counters_refuted"
   ],
   "note": "MachModel.v repeats the loops of CompModel.v with 32-bit arithmetic (overflow undefined, or wrap-around). Modelled in 32 bits: the cost tests, the allocations of the generators, the counters of the clusters; not the index arithmetic i + j*M of Matrix (bounded by the size of the allocation) nor the sizes and offsets (at most the number of points)."
  },
  {
   "property": "C84",
   "status": "proved",
   "theorems": [
    "C84_vector_product_global",
    "C84_matrix_product_global",
    "C84_transposed_vector_product_global",
    "C84_transposed_matrix_product_global",
    "C84_vector_product_local",
    "C84_matrix_product_local",
    "C84_transposed_vector_product_local",
    "C84_transposed_matrix_product_local",
    "C84_coarse_operator",
    "C84_gather_solution",
    "C84_product_is_the_product",
    "C84_different_flags_refuted",
    "C84_missing_process_refuted"
   ],
   "note": "Every process runs its own program on its own data; the collective MPI routines are matched in the order of the calls of each process, with the least and the greatest synchronisation MPI allows. Refuted outside: different symmetry flags on two processes (calls that do not match), a process that does not call. Not covered: the point-to-point exchanges, which are in HPDDM (their orders of arrival are in C57-C58), and MPI_Reduce of timings and informations."
  },
  {
   "property": "C85",
   "status": "proved",
   "theorems": [
    "C85_matrix_product_global",
    "C85_overflow",
    "C85_transposed_matrix_product_global",
    "C85_matrix_product_local",
    "C85_transposed_matrix_product_local",
    "C85_condition_refuted",
    "C85_solve",
    "C85_solve_overflow",
    "C85_product_with_overlap",
    "C85_solve_condition_refuted"
   ],
   "note": "MachDistModel.v and MachDdmModel.v repeat the functions of DistModel.v and DdmModel.v with 32-bit arithmetic (overflow undefined). The condition on (mu-1)*(part size)*mu is a defect: without it the product between global vectors overflows for every input although all the arrays are small (C85_overflow, C85_condition_refuted: 1000 vectors of 2200 coefficients), and so does the end of DDM::solve (C85_solve_overflow, C85_solve_condition_refuted). Not covered: HPDDM and: the integers of the local operators themselves."
  },
  {
   "property": "C86",
   "status": "proved",
   "theorems": [
    "C86_every_schedule",
    "C86_sequential",
    "C86_two_runs",
    "C86_constant",
    "C86_reference_blas",
    "C86_exact_arithmetic",
    "C86_same_result_refuted",
    "C86_relative_error_refuted",
    "C86_number_of_roundings",
    "C86_explicit_bound"
   ],
   "note": "The BLAS is a record that meets an accuracy contract (inn + 3 roundings per row of length inn; met by loops rounded one by one, C86_reference_blas; met by any order of summation of real BLAS). Real coefficients; no overflow, underflow or NaN; products of a vector (the row-major products of several vectors and the complex types are not covered). Refuted: equal results of two schedules, errors relative to the result."
  },
  {
   "property": "C87",
   "status": "proved",
   "theorems": [
    "C87_every_schedule",
    "C87_sequential",
    "C87_svd"
   ],
   "note": "Composition of C67 (exact compression within its tolerance) and C86 (rounded product); the compression itself is computed exactly (its rounding errors are not modelled). Real coefficients."
  },
  {
   "property": "C88",
   "status": "proved",
   "theorems": [
    "C88_every_process",
    "C88_two_runs",
    "C88_local_vectors"
   ],
   "note": "The local products are those of C86 (real coefficients, BLAS with an accuracy contract); the communications and renumberings are those of DistModel.v and copy numbers. One local operator (hierarchical matrix) per process, as DistributedOperatorFromHMatrix builds it, with permutations; products of several vectors and transposed products are not rounded in the model."
  },
  {
   "property": "C89",
   "status": "proved",
   "theorems": [
    "C89_total_error",
    "C89_number_of_roundings",
    "C89_local_vectors"
   ],
   "note": "Composition of C69 (exact compression within its tolerance) and C88 (rounded distributed product); the compression itself is computed exactly. Real coefficients; product of one vector, between global or between local vectors."
  },
  {
   "property": "C90",
   "status": "proved",
   "theorems": [
    "C90_every_process",
    "C90_any_order",
    "C90_total_error",
    "C90_number_of_roundings",
    "C90_symmetric_total_error"
   ],
   "note": "Real coefficients, one vector, use_permutation = true. The first four: operators without symmetric storage. MPI_Allreduce is a function of the receiver, the position and the contributions, constrained by an error contract that every order of rounded additions meets. With symmetric storage the function calls vector_product_global_to_global, covered by C88; C90_symmetric_total_error is the whole error of that case. In the bounds of the whole error the compression itself is computed exactly."
  }
 ]
}