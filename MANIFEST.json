{
 "claims": [
  {
   "property": "C01",
   "status": "proved",
   "theorems": [
    "C01_split_chain",
    "C01_split_tiles_iff",
    "C01_split_tiles_large",
    "C01_split_tiles_divisible",
    "C01_split_tiles_refuted"
   ],
   "note": "Unconditional tiling is refuted (n=5, k=4); the exact condition is proved."
  },
  {
   "property": "C02",
   "status": "proved",
   "theorems": [
    "C02_split_at_chain",
    "C02_split_at_tiles",
    "C02_split_like_sizes",
    "C02_split_like_tiles",
    "C02_split_like_start_refuted"
   ],
   "note": "split_like ignores the start of the range: refuted for start <> 0."
  },
  {
   "property": "C03",
   "status": "proved",
   "theorems": [
    "C03_leaves_partition",
    "C03_subtrees_partition",
    "C03_regular_two",
    "C03_regular_power"
   ],
   "note": "Under regularity (no negative range), which is proved for <=2 blocks per direction and for leaf size times a power of the block count."
  },
  {
   "property": "C04",
   "status": "proved",
   "theorems": [
    "C04_child_coordinates",
    "C04_absolute_position",
    "C04_positions_unique",
    "C04_block_row",
    "C04_block_col"
   ],
   "note": ""
  },
  {
   "property": "C05",
   "status": "proved",
   "theorems": [
    "C05_terminates_log",
    "C05_terminates_leaf0",
    "C05_terminates_iff"
   ],
   "note": "Exact termination condition for positive leaf size, logarithmic depth."
  },
  {
   "property": "C06",
   "status": "proved",
   "theorems": [
    "C06_position_iff",
    "C06_position_total",
    "C06_diagonal_never",
    "C06_symmetric",
    "C06_monotone"
   ],
   "note": ""
  },
  {
   "property": "C07",
   "status": "proved",
   "theorems": [
    "C07_defined",
    "C07_symmetric",
    "C07_reorder",
    "C07_translate",
    "C07_monotone",
    "C07_diagonal_never",
    "C07_separated"
   ],
   "note": "Over exact rationals."
  },
  {
   "property": "C08",
   "status": "proved",
   "theorems": [
    "C08_entries",
    "C08_blocks",
    "C08_exact",
    "C08_leaf_size",
    "C08_layout",
    "C08_succeeds",
    "C08_kernels"
   ],
   "note": "For regular cluster trees (no negative range; see C03-C05) and any admissibility and compression routine. For position independent kernels (arange, random) windows_of fails, see the kernel properties."
  },
  {
   "property": "C09",
   "status": "proved",
   "theorems": [
    "C09_of_dense",
    "C09_offset_refuted"
   ],
   "note": "Proved for starts 0; refuted in general for every other start: the constructor never succeeds with asserts on (out of bounds read with asserts off)."
  },
  {
   "property": "C10",
   "status": "proved",
   "theorems": [
    "C10_accesses_stay_inside",
    "C10_vector_accesses_stay_inside",
    "C10_unchecked_ranges_refuted"
   ],
   "note": ""
  },
  {
   "property": "C11",
   "status": "proved",
   "theorems": [
    "C11_copy_equal_and_separate",
    "C11_independence",
    "C11_copy_has_own_storage"
   ],
   "note": ""
  },
  {
   "property": "C12",
   "status": "proved",
   "theorems": [
    "C12_assign_packed",
    "C12_assign_view_refuted",
    "C12_self_assign_refuted"
   ],
   "note": ""
  },
  {
   "property": "C13",
   "status": "proved",
   "theorems": [
    "C13_blocks_are_windows",
    "C13_write_one_entry",
    "C13_blocks_disjoint",
    "C13_write_histories",
    "C13_blocks_determine"
   ],
   "note": ""
  },
  {
   "property": "C14",
   "status": "proved",
   "theorems": [
    "C14_identifiers_single_thread",
    "C14_two_threads_refuted",
    "C14_duplicate_refuted",
    "C14_no_overlap",
    "C14_atomic"
   ],
   "note": ""
  },
  {
   "property": "C15",
   "status": "proved",
   "theorems": [
    "C15_is_submatrix",
    "C15_owners",
    "C15_stable",
    "C15_blocks"
   ],
   "note": ""
  },
  {
   "property": "C16",
   "status": "proved",
   "theorems": [
    "C16_dense_of_dense",
    "C16_dense_of_lowrank",
    "C16_dense_of_empty",
    "C16_dense_of_hierarchical",
    "C16_positions"
   ],
   "note": ""
  },
  {
   "property": "C17",
   "status": "proved",
   "theorems": [
    "C17_split_uniform",
    "C17_split_uniform_succeeds",
    "C17_split_dense",
    "C17_split_like",
    "C17_split_like_succeeds",
    "C17_split_hierarchical"
   ],
   "note": ""
  },
  {
   "property": "C18",
   "status": "proved",
   "theorems": [
    "C18_blocks",
    "C18_one_block_refuted",
    "C18_all_blocks_refuted",
    "C18_copied"
   ],
   "note": "The stated locality is false and refuted in general (every good LowRank with separate factors, every layout): scaling one block of a non-copying split scales the whole matrix and every block; operator*= on the resulting Hierarchical multiplies by a^(p*q). What holds is proved too: blocks show the right windows; with copy=true blocks are independent."
  },
  {
   "property": "C19",
   "status": "proved",
   "theorems": [
    "C19_dims_dense",
    "C19_dims_transpose",
    "C19_dims_scale",
    "C19_dims_zero_all"
   ],
   "note": ""
  },
  {
   "property": "C20",
   "status": "proved",
   "theorems": [
    "C20_transpose",
    "C20_transpose_twice"
   ],
   "note": ""
  },
  {
   "property": "C21",
   "status": "proved",
   "theorems": [
    "C21_norm",
    "C21_norm_structure_independent",
    "C21_norm_scale",
    "C21_norm_transpose"
   ],
   "note": ""
  },
  {
   "property": "C22",
   "status": "proved",
   "theorems": [
    "C22_zero_all",
    "C22_zero_lower",
    "C22_zero_upper"
   ],
   "note": ""
  },
  {
   "property": "C23",
   "status": "proved",
   "theorems": [
    "C23_gemm_exact",
    "C23_gemm_up_to_rounding",
    "C23_gemm_without_lowrank_result",
    "C23_no_transposition",
    "C23_transposition_without_lowrank",
    "C23_exact_arithmetic_exists",
    "C23_lowrank_hierarchical_transposed_refuted",
    "C23_hierarchical_lowrank_transposed_refuted"
   ],
   "note": ""
  },
  {
   "property": "C24",
   "status": "proved",
   "theorems": [
    "C24_only_C_changes",
    "C24_others_keep_their_value",
    "C24_new_result",
    "C24_same_as_on_values",
    "C24_product",
    "C24_arithmetic_exists"
   ],
   "note": ""
  },
  {
   "property": "C25",
   "status": "proved",
   "theorems": [
    "C25_product"
   ],
   "note": ""
  },
  {
   "property": "C26",
   "status": "proved",
   "theorems": [
    "C26_naive_exact_below_full_rank",
    "C26_naive_full_rank",
    "C26_naive_rank",
    "C26_rectangular_middle_refuted"
   ],
   "note": ""
  },
  {
   "property": "C27",
   "status": "proved",
   "theorems": [
    "C27_rounded_addition",
    "C27_rounded_error",
    "C27_fast_rounded_addition",
    "C27_contract_satisfiable"
   ],
   "note": ""
  },
  {
   "property": "C28",
   "status": "proved",
   "theorems": [
    "C28_selection",
    "C28_every_setting_adds"
   ],
   "note": ""
  },
  {
   "property": "C29",
   "status": "proved",
   "theorems": [
    "C29_addition_exact",
    "C29_addition_up_to_rounding",
    "C29_addition_unsupported_aborts",
    "C29_subtraction",
    "C29_subtraction_unsupported",
    "C29_scaling"
   ],
   "note": ""
  },
  {
   "property": "C30",
   "status": "proved",
   "theorems": [
    "C30_trmm_exact",
    "C30_trmm_up_to_rounding",
    "C30_trmm_operands",
    "C30_transposed_hierarchical_refuted"
   ],
   "note": "All block trees, sides, triangles, diagonal modes; trans='t' only where not two Hierarchical operands meet (refuted there). Partial correctness on Ok runs; leaf BLAS trmm modelled as the product with the triangle."
  },
  {
   "property": "C31",
   "status": "proved",
   "theorems": [
    "C31_trsm_exact",
    "C31_trsm_up_to_rounding",
    "C31_unsupported_aborts",
    "C31_lower_right_never"
   ],
   "note": "All block trees with square diagonal blocks and conforming right-hand sides; exact for exact low-rank arithmetic or B without LowRank blocks, else up to the errors of the low-rank operations. Leaf cblas_dtrsm modelled as explicit substitution."
  },
  {
   "property": "C32",
   "status": "proved",
   "theorems": [
    "C32_getrf_exact",
    "C32_getrf_up_to_rounding",
    "C32_dense_row_permutation",
    "C32_dense_pivoting_refuted"
   ],
   "note": "LAPACKE_dgetrf enters through its contract (lu_contract). Exactness under no row exchange; with LAPACK's partial pivoting the dropped exchanges make L*U differ from A (refuted theorem)."
  },
  {
   "property": "C33",
   "status": "proved",
   "theorems": [
    "C33_solve_exact",
    "C33_solve_up_to_rounding"
   ],
   "note": "Composition of getrf and two trsm calls, all nestings; b without LowRank blocks."
  },
  {
   "property": "C34",
   "status": "proved",
   "theorems": [
    "C34_tpmqrt",
    "C34_tpmqrt_dense",
    "C34_same_for_all_structures",
    "C34_round_trip",
    "C34_all_combinations_succeed",
    "C34_larfb",
    "C34_larfb_round_trip"
   ],
   "note": "All Dense/LowRank combinations (partial correctness and success); exact low-rank arithmetic, none needed for Dense A and B. dtprfb and dlarfb modelled by what they compute."
  },
  {
   "property": "C35",
   "status": "proved",
   "theorems": [
    "C35_tiled_qr",
    "C35_upper_triangular",
    "C35_tpqrt",
    "C35_wide_tile_not_factored"
   ],
   "note": "Any grid; dgeqrt3 and dtpqrt2 enter through contracts (qrt_ok), low-rank arithmetic exact and keeping left bases orthonormal. Tiles wider than high are refused by dgeqrt3 silently (theorem C35_wide_tile_not_factored)."
  },
  {
   "property": "C36",
   "status": "proved",
   "theorems": [
    "C36_columns",
    "C36_block_upper",
    "C36_general_refuted"
   ],
   "note": "What is computed is characterized for every C; equals Q*C for block upper triangular C; refuted for general C."
  },
  {
   "property": "C37",
   "status": "proved",
   "theorems": [
    "C37_reconstructs",
    "C37_upper",
    "C37_orthogonal",
    "C37_flat_orthonormal",
    "C37_singular_refuted"
   ],
   "note": "Grids of Dense, LowRank and Hierarchical blocks of any depth; partial correctness on Ok runs, exact dense QR and exact low-rank additions. Orthonormality of the block columns themselves is proved for Dense/LowRank tiles; mutual orthogonality needs invertible diagonal blocks of R (refuted otherwise)."
  },
  {
   "property": "C38",
   "status": "proved",
   "theorems": [
    "C38_contiguous_succeeds",
    "C38_contiguous",
    "C38_view_last_entry",
    "C38_views_refuted"
   ],
   "note": "Proved for contiguous matrices (Q*R=A, orthonormal Q, upper R, frame); refuted for every view with at least two rows that is narrower than its parent: its last entry is never touched, and elements outside the view are."
  },
  {
   "property": "C39",
   "status": "proved",
   "theorems": [
    "C39_interleave",
    "C39_selects_columns",
    "C39_exact",
    "C39_error",
    "C39_two_sided",
    "C39_sampled_columns",
    "C39_sampled_rows"
   ],
   "note": "LAPACKE_dgeqp3 enters through a contract (pivot_ok); diag_ok asks for invertible leading pivots. All permutations, ranks and shapes; also the randomized one sided decompositions."
  },
  {
   "property": "C40",
   "status": "proved",
   "theorems": [
    "C40_rank_range",
    "C40_accuracy",
    "C40_not_minimal_refuted"
   ],
   "note": "Over exact reals. Minimality is refuted."
  },
  {
   "property": "C41",
   "status": "proved",
   "theorems": [
    "C41_rsvd",
    "C41_exact",
    "C41_compression",
    "C41_compression_succeeds",
    "C41_compression_rank_bound",
    "C41_rid",
    "C41_old_rsvd_refuted"
   ],
   "note": "QR and SVD enter through contracts on returned factors (lapack_sound). old_rsvd is refuted by a concrete run meeting all contracts."
  },
  {
   "property": "C42",
   "status": "proved",
   "theorems": [
    "C42_dimensions_are_block_counts",
    "C42_refused",
    "C42_general_refuted"
   ],
   "note": "The claim is false; proved in general that the result has the block counts as dimensions, so never those of H unless every block is a single number."
  },
  {
   "property": "C43",
   "status": "proved",
   "theorems": [
    "C43_spacing",
    "C43_inside_iff",
    "C43_interval_refuted"
   ],
   "note": "Claim refuted; exact condition and spacing proved."
  },
  {
   "property": "C44",
   "status": "proved",
   "theorems": [
    "C44_decode_encode",
    "C44_encode_decode",
    "C44_range",
    "C44_injective"
   ],
   "note": ""
  },
  {
   "property": "C45",
   "status": "proved",
   "theorems": [
    "C45_sort_morton"
   ],
   "note": ""
  },
  {
   "property": "C46",
   "status": "proved",
   "theorems": [
    "C46_fill_from_file",
    "C46_outside_asserts",
    "C46_missing_file",
    "C46_trailing_blanks_refuted"
   ],
   "note": "For files with single blanks; refuted for blanks at line ends."
  },
  {
   "property": "C47",
   "status": "proved",
   "theorems": [
    "C47_window",
    "C47_succeeds",
    "C47_symmetric",
    "C47_bounds",
    "C47_arange_refuted",
    "C47_random_refuted"
   ],
   "note": "Over exact reals. Refuted for arange and the random kernels."
  },
  {
   "property": "C48",
   "status": "proved",
   "theorems": [
    "C48_get_after",
    "C48_last_set",
    "C48_never_set",
    "C48_set_frame"
   ],
   "note": ""
  },
  {
   "property": "C49",
   "status": "proved",
   "theorems": [
    "C49_nested_calls",
    "C49_from_start",
    "C49_queries",
    "C49_disabled",
    "C49_clear_undefined"
   ],
   "note": "clearTimers under a running timer is shown to leave a dangling pointer."
  },
  {
   "property": "C50",
   "status": "proved",
   "theorems": [
    "C50_elements",
    "C50_structure",
    "C50_additive",
    "C50_shape_only"
   ],
   "note": ""
  },
  {
   "property": "C51",
   "status": "proved",
   "theorems": [
    "C51_value",
    "C51_zero",
    "C51_structure",
    "C51_succeeds",
    "C51_uneven_refuted"
   ],
   "note": "Over exact reals. Partial correctness for all trees plus success for comparable ones; unevenly split trees refuted."
  },
  {
   "property": "C52",
   "status": "proved",
   "theorems": [
    "C52_factorization",
    "C52_forming_Q",
    "C52_checking_Q",
    "C52_no_interference",
    "C52_interleaved",
    "C52_interleaved_Q",
    "C52_whole_tiles_race",
    "C52_whole_tiles_refuted"
   ],
   "note": "Over all grid sizes and all orders allowed by the OpenMP dependencies: the tiles equal those of the sequential loops of qr.cpp (uses functional extensionality of the standard library). The kernels access the strict lower part of a diagonal tile and the rest separately; with whole tiles the claim is refuted."
  },
  {
   "property": "C53",
   "status": "proved",
   "theorems": [
    "C53_independent",
    "C53_tiled",
    "C53_blocked",
    "C53_mgs",
    "C53_mgs_factors",
    "C53_interleaved"
   ],
   "note": "All three fork-join examples (tiled Householder, blocked Householder, blocked MGS), any p and q: independence of the iterations of each parallel loop, equality with the sequential program for every order of the iterations, and for step-level interleavings within the footprints. The OpenMP runtime is modelled as: a phase starts when the one before is complete. C53_mgs_factors additionally proves that the sequential form of the MGS example factors A when R starts with zeros (as the example builds it). Blocks are whole-matrix cells; 'padded' fixes the encoding outside of the array. functional_extensionality_dep is used by C53_blocked and C53_mgs."
  },
  {
   "property": "C54",
   "status": "proved",
   "theorems": [
    "C54_resize"
   ],
   "note": ""
  },
  {
   "property": "C55",
   "status": "proved",
   "theorems": [
    "C55_value_semantics",
    "C55_copy",
    "C55_copy_independent",
    "C55_empty"
   ],
   "note": "Refinement: every program over Dense/LowRank/Hierarchical/Empty objects (construction, copy, move, block assignment, element writes) behaves on shared storage as on independent values; copies of arbitrary trees, including trees of views; copying an empty proxy fails."
  },
  {
   "property": "C56",
   "status": "proved",
   "theorems": [
    "C56_positions",
    "C56_object",
    "C56_distinct",
    "C56_distinct_refuted"
   ],
   "note": "Distinctness proved for uniformly divided trees, refuted otherwise."
  },
  {
   "property": "C57",
   "status": "proved",
   "theorems": [
    "C57_dispatch_total",
    "C57_most_specific",
    "C57_abort_otherwise",
    "C57_print_empty_refuted",
    "C57_gemm_all_combinations",
    "C57_gemm_fallback",
    "C57_supported"
   ],
   "note": ""
  },
  {
   "property": "C58",
   "status": "proved",
   "theorems": [
    "C58_read_geometry",
    "C58_missing_file_undefined",
    "C58_no_points_undefined"
   ],
   "note": "Missing or empty files shown undefined."
  },
  {
   "property": "C59",
   "status": "proved",
   "theorems": [
    "C59_blocked_qr",
    "C59_upper_triangular",
    "C59_block_column",
    "C59_apply_column",
    "C59_columns",
    "C59_general_refuted",
    "C59_lowrank_diagonal"
   ],
   "note": "Low-rank arithmetic exact and base-preserving (oracle contract). General C of the multiplication and LowRank diagonal blocks are refuted."
  },
  {
   "property": "C60",
   "status": "proved",
   "theorems": [
    "C60_accuracy",
    "C60_rank",
    "C60_tiny",
    "C60_total",
    "C60_deficient",
    "C60_full_rank_undefined",
    "C60_frobenius_refuted"
   ],
   "note": "Exact real arithmetic. Undefined behaviour at full column rank and the Frobenius bound are separate theorems."
  },
  {
   "property": "C61",
   "status": "proved",
   "theorems": [
    "C61_accuracy",
    "C61_total"
   ],
   "note": "Exact real arithmetic; LAPACK's dgerqf/dorgrq modelled as mirrored dgeqrf/dorgqr."
  },
  {
   "property": "C62",
   "status": "proved",
   "theorems": [
    "C62_qr",
    "C62_rq",
    "C62_dlarfg",
    "C62_qr_keeps",
    "C62_qr_wide"
   ],
   "note": "LAPACK's dgeqrf/dorgqr as sequence of reflectors; dgerqf/dorgrq as their mirror image."
  },
  {
   "property": "C63",
   "status": "proved",
   "theorems": [
    "C63_rounded",
    "C63_fast",
    "C63_addition",
    "C63_orthonormal_needed_refuted"
   ],
   "note": "Over exact reals. Without orthonormal bases of the first operand refuted for the fast variant, for every library."
  },
  {
   "property": "C64",
   "status": "proved",
   "theorems": [
    "C64_rounded",
    "C64_fast",
    "C64_fast_bases_refuted"
   ],
   "note": "Over exact reals. Preservation of orthonormal bases by the fast variant refuted for sums of smaller rank."
  },
  {
   "property": "C65",
   "status": "proved",
   "theorems": [
    "C65_accuracy"
   ],
   "note": "Over exact reals."
  },
  {
   "property": "C66",
   "status": "proved",
   "theorems": [
    "C66_svd_exists",
    "C66_library",
    "C66_addition"
   ],
   "note": "The SVD is obtained from maxima of continuous functions, not by the algorithm of dgesdd."
  },
  {
   "property": "C67",
   "status": "proved",
   "theorems": [
    "C67_geqrt3",
    "C67_tpqrt2",
    "C67_compact_form"
   ],
   "note": "dgeqrt3 is modelled as the loop over columns followed by dlarft, not as LAPACK's recursion."
  },
  {
   "property": "C68",
   "status": "proved",
   "theorems": [
    "C68_tiled_qr",
    "C68_real_tiles"
   ],
   "note": "With LowRank tiles the low-rank arithmetic is assumed to be exact; C77 has the bound without this."
  },
  {
   "property": "C69",
   "status": "proved",
   "theorems": [
    "C69_blocked_qr",
    "C69_real_blocks",
    "C69_dense_any_arithmetic"
   ],
   "note": "With LowRank blocks the low-rank arithmetic is assumed to be exact."
  },
  {
   "property": "C70",
   "status": "proved",
   "theorems": [
    "C70_gemm",
    "C70_gemm_new",
    "C70_nesting",
    "C70_shared_storage",
    "C70_trsm",
    "C70_trmm",
    "C70_getrf",
    "C70_mgs_qr",
    "C70_l2_error"
   ],
   "note": ""
  },
  {
   "property": "C71",
   "status": "proved",
   "theorems": [
    "C71_gemm",
    "C71_gemm_new",
    "C71_hodlr_gemm",
    "C71_trsm_left",
    "C71_trsm_right",
    "C71_getrf",
    "C71_solve",
    "C71_constructed_fit",
    "C71_halving",
    "C71_constructed_gemm",
    "C71_constructed_solve",
    "C71_position_solve",
    "C71_position_any_size",
    "C71_uneven_refuted"
   ],
   "note": "The low-rank routines are assumed not to fail where an accuracy is given; transposed products are not covered. Uneven sizes refuted for getrf in general, proved for weak admissibility."
  },
  {
   "property": "C72",
   "status": "proved",
   "theorems": [
    "C72_lapack_contract",
    "C72_factors",
    "C72_factors_without_lowrank",
    "C72_solve",
    "C72_constructed_solve",
    "C72_constructed_any_size",
    "C72_dominant_rows_refuted"
   ],
   "note": "Low-rank arithmetic exact, or no LowRank blocks in A. dgetrf is modelled as its unblocked form dgetf2 over the reals. Dominant rows refuted."
  },
  {
   "property": "C73",
   "status": "proved",
   "theorems": [
    "C73_relative_error",
    "C73_best_blocks",
    "C73_eps_error",
    "C73_of_dense",
    "C73_l2_error",
    "C73_kernels",
    "C73_eps_alone_refuted"
   ],
   "note": "Exact real arithmetic. Compression by accuracy (truncated_geqp3 + rq); for compression by rank (rsvd) the blockwise theorems apply with the error of rsvd as a premise. Error eps without the factor N refuted."
  },
  {
   "property": "C74",
   "status": "proved",
   "theorems": [
    "C74_addition",
    "C74_gemm",
    "C74_solve",
    "C74_constructed",
    "C74_constructed_any_size",
    "C74_any_size_sharp",
    "C74_rank_too_large",
    "C74_program",
    "C74_program_any_size",
    "C74_real_program",
    "C74_real_program_any_size"
   ],
   "note": "Exact arithmetic. FRANK_LRA=naive is not covered. C74_real_program and C74_real_program_any_size assume nothing of LAPACK."
  },
  {
   "property": "C75",
   "status": "proved",
   "theorems": [
    "C75_split_sound",
    "C75_split_exact",
    "C75_split_fits",
    "C75_split_at",
    "C75_split_like",
    "C75_tree_sound",
    "C75_tree",
    "C75_tree_lapack",
    "C75_tree_levels",
    "C75_tree_refuted",
    "C75_access",
    "C75_vector_access",
    "C75_window",
    "C75_new_refuted",
    "C75_geqp3",
    "C75_geqp3_refuted",
    "C75_identity",
    "C75_non_negative_vector",
    "C75_non_negative_vector_refuted"
   ],
   "note": "Covers index_range.cpp, cluster_tree.cpp, element access and splitting of Dense, truncated_geqp3's offsets, the identity kernel and get_non_negative_vector. Other arithmetic on sizes is over unbounded integers."
  },
  {
   "property": "C76",
   "status": "proved",
   "theorems": [
    "C76_encode",
    "C76_encode_overflow",
    "C76_encode_64_refuted",
    "C76_decode",
    "C76_decode_refuted",
    "C76_round_trip",
    "C76_boxes",
    "C76_boxes_31_refuted",
    "C76_boxes_32_refuted"
   ],
   "note": "Coordinates are rationals; conversion from double to int64_t truncates."
  },
  {
   "property": "C77",
   "status": "proved",
   "theorems": [
    "C77_tiled_qr",
    "C77_round_trip",
    "C77_weak_admissibility"
   ],
   "note": "Real numbers, no rounding. In C77_tiled_qr that the factorization returns is a premise; C77_weak_admissibility proves it."
  },
  {
   "property": "C78",
   "status": "proved",
   "theorems": [
    "C78_program",
    "C78_deficient"
   ],
   "note": "Real numbers, no rounding; weak admissibility (the default). That the compressed matrix is built is a premise of C78_program; C78_deficient proves it if no tile off the diagonal has full rank. Without it truncated_geqp3 may be undefined (C60)."
  },
  {
   "property": "C79",
   "status": "proved",
   "theorems": [
    "C79_lossless",
    "C79_program",
    "C79_rank_too_large"
   ],
   "note": "Exact arithmetic. The random samples are a function of their dimensions, as the generator is seeded anew each time. For twice the rank at least N nothing is said of the naive error."
  },
  {
   "property": "C80",
   "status": "proved",
   "theorems": [
    "C80_tasks",
    "C80_forks",
    "C80_bounds"
   ],
   "note": "Tasks and iterations are atomic here; C52 and C53 have the interleaved executions of the parallel parts. Timing and the printed number of threads are left out."
  },
  {
   "property": "C81",
   "status": "proved",
   "theorems": [
    "C81_weak",
    "C81_real",
    "C81_solve",
    "C81_blr",
    "C81_blr_real"
   ],
   "note": "Real numbers, no rounding. That getrf returns without exchanging rows is a premise (C71, C74 have success). C81_weak is for any addition of relative accuracy u, C81_real and C81_blr_real for the modelled truncating additions."
  },
  {
   "property": "C82",
   "status": "proved",
   "theorems": [
    "C82_program",
    "C82_program_any_size",
    "C82_returns",
    "C82_returns_any_size"
   ],
   "note": "Real numbers, no rounding. FRANK_LRA=naive is not covered. C82_returns: success follows from the constructor's return alone (compression to an accuracy can fail, C38). In C82_program the absence of row exchanges and an invertible diagonal of U are premises, as in C81; C72 derives them for dominant columns and exact low-rank arithmetic."
  },
  {
   "property": "C83",
   "status": "proved",
   "theorems": [
    "C83_residual",
    "C83_block_columns",
    "C83_real"
   ],
   "note": "Real numbers, no rounding. That mgs_qr returns is a premise. Orthogonality is bounded within block columns only: between block columns it depends on the condition of the diagonal blocks of R (C37_orthogonal for exact arithmetic). R(j,j) Hierarchical (nested grids) is not covered."
  },
  {
   "property": "C84",
   "status": "proved",
   "theorems": [
    "C84_program",
    "C84_one_column"
   ],
   "note": "Real numbers, no rounding; timing and output text are not modelled. For two or more block columns that mgs_qr returns is a premise: storing Q(i,j) compresses to an accuracy, which fails on a block of full rank (C38). Orthogonality between block columns is reported, not bounded. Weak admissibility only (admis below 1, the default is 0)."
  },
  {
   "property": "C85",
   "status": "proved",
   "theorems": [
    "C85_entries",
    "C85_paths",
    "C85_tiling",
    "C85_distinct",
    "C85_program",
    "C85_grid",
    "C85_runs"
   ],
   "note": "The singular values and the text of the document, the file name and the timers are not modelled. That compression to an accuracy returns is a premise of C85_runs (it fails on blocks of full rank, C38)."
  },
  {
   "property": "C86",
   "status": "proved",
   "theorems": [
    "C86_all_dense",
    "C86_exact",
    "C86_builds",
    "C86_iff",
    "C86_full_rank",
    "C86_full_rank_refuted",
    "C86_program"
   ],
   "note": "C86_full_rank_refuted is the part that fails: N / nleaf with N not nleaf times a power of the number of blocks. Sizes that do not divide evenly are outside of the positive part. The rest of blocked_mgs_h_qr.cpp is not modelled."
  },
  {
   "property": "C87",
   "status": "proved",
   "theorems": [
    "C87_same_tree",
    "C87_program",
    "C87_full_rank",
    "C87_any_size"
   ],
   "note": "That the compressed matrix is built is a premise of C87_program (compression to an accuracy fails on blocks of full rank, C38, C60). The factorization and the other numbers printed by blocked_mgs_h_qr.cpp are not part of it. Exact arithmetic."
  }
 ]
}