{
 "claims": [
  {
   "property": "C01",
   "status": "proved",
   "theorems": [
    "C01_sparse_history",
    "C01_sparse_history_any_start",
    "C01_sparse_every_built_matrix_reads",
    "C01_sparse_out_of_range",
    "C01_sparse_has_val"
   ],
   "note": "All histories of set/linear_set, from a new matrix and from any constructed one; out-of-range accesses abort. Writing -0.0 reads back +0.0 (norm0)."
  },
  {
   "property": "C02",
   "status": "proved",
   "theorems": [
    "C02_sparse_counts",
    "C02_sparse_nan_inf",
    "C02_counts_after_underflow_refuted"
   ],
   "note": "Counts are exact after every history of writes and for every matrix whose stored entries are nonzero. Outside the statement: scaling that underflows stores zeros (refuted theorem for doubles)."
  },
  {
   "property": "C03",
   "status": "proved",
   "theorems": [
    "C03_sparse_iteration",
    "C03_sparse_for_loop"
   ],
   "note": "Exactly the nonzero entries, row-major, once each; for any loop body."
  },
  {
   "property": "C04",
   "status": "partial",
   "theorems": [
    "C04_sparse_row_iteration",
    "C04_sparse_column_iteration_partial",
    "C04_sparse_empty_column_aborts",
    "C04_sparse_column_iteration_refuted"
   ],
   "note": "Rows fully. Columns: complete case analysis; an all-zero column of a non-empty matrix aborts (refuted)."
  },
  {
   "property": "C05",
   "status": "partial",
   "theorems": [
    "C05_sparse_add",
    "C05_sparse_sub",
    "C05_sparse_add_self",
    "C05_sparse_sub_self_refuted"
   ],
   "note": "+ - += -= on distinct objects fully; A += A fully; A -= A refuted (does not give 0)."
  },
  {
   "property": "C06",
   "status": "partial",
   "theorems": [
    "C06_sparse_hadamard_partial",
    "C06_sparse_hadamard_general_partial",
    "C06_sparse_hadamard_wrong_value_refuted",
    "C06_sparse_hadamard_corrupts_refuted",
    "C06_sparse_hadamard_nonfinite_refuted"
   ],
   "note": "Correct under the stated guard on erased entries (followed by an entry of A in the row, or in the last row with entries, or preceded by a kept entry with a non-empty next row); outside it wrong values / wrapped indices / unreadable matrix (refuted)."
  },
  {
   "property": "C07",
   "status": "proved",
   "theorems": [
    "C07_sparse_scale",
    "C07_sparse_scale_exact"
   ],
   "note": "Any number type, with the exact-field corollary."
  },
  {
   "property": "C08",
   "status": "partial",
   "theorems": [
    "C08_sparse_erase",
    "C08_sparse_erase_next_partial",
    "C08_sparse_erase_next_refuted",
    "C08_sparse_set_through_iterator"
   ],
   "note": "Erased matrix content fully; returned iterator's row() wrong when the erased entry was alone in its row (refuted)."
  },
  {
   "property": "C09",
   "status": "partial",
   "theorems": [
    "C09_sparse_swap_partial",
    "C09_sparse_swap_refuted"
   ],
   "note": "Correct when column counts agree; refuted otherwise (column count not exchanged)."
  },
  {
   "property": "C10",
   "status": "proved",
   "theorems": [
    "C10_sparse_transpose",
    "C10_sparse_conjugate"
   ],
   "note": "Any number type (conjugation as an abstract involution)."
  },
  {
   "property": "C11",
   "status": "proved",
   "theorems": [
    "C11_sparse_mul",
    "C11_sparse_mul_general",
    "C11_sparse_mul_mismatch",
    "C11_sparse_mul_assoc",
    "C11_sparse_mul_unit"
   ],
   "note": "Entries for any number type in the code's summation order; associativity and unit over a field."
  },
  {
   "property": "C12",
   "status": "proved",
   "theorems": [
    "C12_sparse_mul_vector",
    "C12_sparse_mul_left_vector",
    "C12_sparse_vector_general",
    "C12_sparse_vector_mismatch"
   ],
   "note": "Any number type; both sides."
  },
  {
   "property": "C13",
   "status": "proved",
   "theorems": [
    "C13_sparse_equality"
   ],
   "note": "Any number type with the code's ==."
  },
  {
   "property": "C14",
   "status": "proved",
   "theorems": [
    "C14_sparse_from_list"
   ],
   "note": "Any number type."
  },
  {
   "property": "C15",
   "status": "partial",
   "theorems": [
    "C15_sparse_sum_trace_avg",
    "C15_sparse_sum_trace_general",
    "C15_sparse_max_partial",
    "C15_sparse_min",
    "C15_sparse_max_refuted"
   ],
   "note": "sum, average, trace, min fully; max() refuted for matrices with no entry >= numeric_limits::min()."
  },
  {
   "property": "C16",
   "status": "proved",
   "theorems": [
    "C16_dense_linear_access",
    "C16_sparse_linear_access"
   ],
   "note": "Row-major linear index, any number type."
  },
  {
   "property": "C17",
   "status": "partial",
   "theorems": [
    "C17_dense_resize_is_noop",
    "C17_dense_resize_refuted",
    "C17_sparse_resize_is_noop",
    "C17_sparse_resize_refuted"
   ],
   "note": "resize is a no-op apart from argument checks for sparse and dense matrices: the expectation is refuted for both."
  },
  {
   "property": "C18",
   "status": "proved",
   "theorems": [
    "C18_dense_new",
    "C18_dense_every_built_matrix_reads",
    "C18_dense_history",
    "C18_dense_has",
    "C18_dense_out_of_range"
   ],
   "note": "Any number type; DenseMatrix and FixedMatrix; histories of set/linear_set from any constructed matrix."
  },
  {
   "property": "C19",
   "status": "partial",
   "theorems": [
    "C19_dense_elementwise_partial",
    "C19_dense_mismatch_partial",
    "C19_dense_equal_size",
    "C19_dense_shape_check_refuted",
    "C19_dense_self",
    "C19_dense_scale",
    "C19_dense_negate",
    "C19_dense_scale_by_own_entry",
    "C19_dense_scale_by_own_entry_refuted"
   ],
   "note": "Equal shapes and different sizes fully; equal size but different shape is accepted and combined in storage order (refuted). A *= *it (factor aliasing an entry) is exactly characterised and refuted."
  },
  {
   "property": "C20",
   "status": "proved",
   "theorems": [
    "C20_dense_mul",
    "C20_dense_mul_mismatch",
    "C20_dense_mul_vector",
    "C20_dense_transpose",
    "C20_dense_transpose_twice",
    "C20_dense_conjugate",
    "C20_dense_product_transpose",
    "C20_dense_mul_assoc"
   ],
   "note": "Entries for any number type in the code's summation order; (AB)^T = B^T A^T and associativity over a field. FixedMatrix::conjugate/adjugate cannot be instantiated and are not modelled."
  },
  {
   "property": "C21",
   "status": "proved",
   "theorems": [
    "C21_dense_iteration",
    "C21_dense_for_loop",
    "C21_dense_row_iteration",
    "C21_dense_column_iteration",
    "C21_dense_set_through_iterator"
   ],
   "note": "All three traversals, for arbitrary loop bodies in the all-entries case; writing through iterators."
  },
  {
   "property": "C22",
   "status": "proved",
   "theorems": [
    "C22_vector_elementwise",
    "C22_vector_elementwise_self",
    "C22_vector_mismatch",
    "C22_vector_scalar",
    "C22_vector_scalar_exact"
   ],
   "note": "All operators, also with target and operand the same object. That operands stay unchanged and that a throwing operator changed nothing is by construction of the model (the size check precedes every write)."
  },
  {
   "property": "C23",
   "status": "proved",
   "theorems": [
    "C23_cauchy_schwarz",
    "C23_triangle",
    "C23_vector_dot",
    "C23_vector_dot_symmetric",
    "C23_vector_dot_linear",
    "C23_vector_normalized"
   ],
   "note": "dot/magSqr/mag for any number type; symmetry, linearity over a field; normalized() over an ordered field with square roots (reals)."
  },
  {
   "property": "C24",
   "status": "partial",
   "theorems": [
    "C24_vector_max_partial",
    "C24_vector_min",
    "C24_vector_exact",
    "C24_vector_max_refuted"
   ],
   "note": "min fully; max() refuted when no entry reaches numeric_limits::min()."
  },
  {
   "property": "C25",
   "status": "partial",
   "theorems": [
    "C25_vector_slices_fixed_partial",
    "C25_vector_slices_dynamic_refuted",
    "C25_vector_has"
   ],
   "note": "Fixed vectors: slice followed by zeros; dynamic vectors always abort (refuted)."
  },
  {
   "property": "C26",
   "status": "partial",
   "theorems": [
    "C26_vector_alias_exact",
    "C26_vector_alias_last_partial",
    "C26_vector_div_alias",
    "C26_vector_alias_refuted"
   ],
   "note": "Exact effect of an aliased scalar for + - *; refuted as a value semantics; /= is right."
  },
  {
   "property": "C27",
   "status": "proved",
   "theorems": [
    "C27_vector_resize",
    "C27_vector_equality",
    "C27_vector_swap"
   ],
   "note": "swap is std::vector::swap and not separately proved."
  },
  {
   "property": "C28",
   "status": "proved",
   "theorems": [
    "C28_eye",
    "C28_eye_fixed",
    "C28_diag",
    "C28_diag_of",
    "C28_diag_round_trip"
   ],
   "note": "Any number type for dense, exact zero tests for sparse; all shapes."
  },
  {
   "property": "C29",
   "status": "proved",
   "theorems": [
    "C29_tril",
    "C29_triu",
    "C29_split"
   ],
   "note": "All shapes and all diagonals k (including beyond the matrix)."
  },
  {
   "property": "C30",
   "status": "partial",
   "theorems": [
    "C30_hilbert",
    "C30_inv_hilbert_partial",
    "C30_inv_hilbert_overflow_refuted"
   ],
   "note": "hilbert(n) in full. inv_hilbert(n) is the exact inverse as long as no intermediate size_t product overflows (stated bound); refuted beyond it (overflowing n exhibited)."
  },
  {
   "property": "C31",
   "status": "proved",
   "theorems": [
    "C31_orthogonal",
    "C31_orthogonal_fixed",
    "C31_unitary",
    "C31_projection",
    "C31_symmetric",
    "C31_hermitian",
    "C31_skew_symmetric",
    "C31_skew_hermitian"
   ],
   "note": "Exact arithmetic; FixedMatrix has no unitary check that can be instantiated."
  },
  {
   "property": "C32",
   "status": "proved",
   "theorems": [
    "C32_to_sparse",
    "C32_to_dense",
    "C32_round_trips"
   ],
   "note": "The source names undefined types DynamicMatrix/Matrix in the conversion header; the model reads them as DenseMatrix."
  },
  {
   "property": "C33",
   "status": "partial",
   "theorems": [
    "C33_cuthill",
    "C33_permutation_partial",
    "C33_reverse",
    "C33_not_square",
    "C33_empty_row_refuted"
   ],
   "note": "Always terminates and returns n indices: the non-empty rows once each, then zeros; hence a permutation iff no row is empty (refuted otherwise). Reverse variant = reverse; non-square throws."
  },
  {
   "property": "C34",
   "status": "proved",
   "theorems": [
    "C34_inverse_permutation",
    "C34_permutation_matrix",
    "C34_permutate",
    "C34_round_trip",
    "C34_mismatch"
   ],
   "note": "All permutations and matrices; any number type."
  },
  {
   "property": "C35",
   "status": "partial",
   "theorems": [
    "C35_permutate_vector",
    "C35_mismatch",
    "C35_system_partial",
    "C35_involution_partial",
    "C35_vector_refuted"
   ],
   "note": "permutate(v,p) uses the inverse permutation of permutate(m,p): refuted in general, proved for involutions and with the inverse permutation for vectors."
  },
  {
   "property": "C36",
   "status": "partial",
   "theorems": [
    "C36_sparse",
    "C36_dense_partial",
    "C36_dense_any_output_partial",
    "C36_bad_shapes",
    "C36_dirty_output_refuted",
    "C36_well_conditioned"
   ],
   "note": "Sparse overload in full; dense overload for zero output matrices, with the exact effect on other outputs; refuted for outputs that are not zero (which is what inverse(m) passes). The singularity exception is thrown only if changing one column by at most epsilon per entry makes the matrix singular, hence never for matrices with a sufficiently small inverse (C36_well_conditioned)."
  },
  {
   "property": "C37",
   "status": "partial",
   "theorems": [
    "C37_spd",
    "C37_symmetric_partial",
    "C37_bad_shapes",
    "C37_semidefinite_refuted",
    "C37_dirty_output_refuted"
   ],
   "note": "SPD in full, for a zero output matrix; symmetric with non-zero leading minors: decides definiteness. Refuted on [[0]] (0/0) and for a dirty output matrix."
  },
  {
   "property": "C38",
   "status": "proved",
   "theorems": [
    "C38_solve",
    "C38_bad_shapes"
   ],
   "note": "Dense and sparse; which exception on which shapes; thresholds |x| <= eps as in the code."
  },
  {
   "property": "C39",
   "status": "proved",
   "theorems": [
    "C39_ilu0",
    "C39_not_square"
   ],
   "note": "Pattern of A = its non-zero entries, diagonal non-zero, L and U start as zero matrices."
  },
  {
   "property": "C40",
   "status": "partial",
   "theorems": [
    "C40_lower_partial",
    "C40_upper_1x1_refuted",
    "C40_upper_3x3_refuted"
   ],
   "note": "Lower factor in full; upper factor refuted at 1x1 (1/u^2) and 3x3."
  },
  {
   "property": "C41",
   "status": "partial",
   "theorems": [
    "C41_exact",
    "C41_multiplicative",
    "C41_row_exchange",
    "C41_threshold_partial",
    "C41_well_conditioned",
    "C41_threshold_refuted"
   ],
   "note": "Exact for epsilon 0 for all three matrix types; for positive epsilon the determinant, or 0 for matrices within epsilon of a singular one; exact for well-conditioned matrices; refuted on diag(2^-53,1)."
  },
  {
   "property": "C42",
   "status": "partial",
   "theorems": [
    "C42_sparse_partial",
    "C42_well_conditioned",
    "C42_from_factors_partial",
    "C42_dense_partial",
    "C42_dense_only_monomial_refuted",
    "C42_dense_refuted",
    "C42_unit_factors_partial",
    "C42_factors_refuted"
   ],
   "note": "Sparse in full; dense characterised exactly and refuted (P starts as a copy of m); inverse(L,U) for unit diagonals, refuted otherwise. For well-conditioned matrices the sparse inverse always succeeds and is the inverse."
  },
  {
   "property": "C43",
   "status": "partial",
   "theorems": [
    "C43_certificate",
    "C43_bad_shapes",
    "C43_count_refuted",
    "C43_exact_start_refuted"
   ],
   "note": "Certificate, shape errors and termination proved for both solvers over every ordered field. Refuted: the count for maxIter=0 is 1; an exact start gives NaN for doubles (0/0)."
  },
  {
   "property": "C44",
   "status": "partial",
   "theorems": [
    "C44_pcg",
    "C44_cg_partial",
    "C44_cg_refuted",
    "C44_jacobi_preconditioner",
    "C44_jacobi_pcg"
   ],
   "note": "pcg in full (any SPD preconditioner, and the one from CG::jacobi). cg proved for n <= 2 and refuted for n = 3: it builds the direction from the old residual instead of the old direction."
  },
  {
   "property": "C45",
   "status": "partial",
   "theorems": [
    "C45_run",
    "C45_fixed_point",
    "C45_certificate",
    "C45_convergence",
    "C45_stop",
    "C45_terminates",
    "C45_bad_shapes",
    "C45_safe",
    "C45_zero_diagonal_refuted"
   ],
   "note": "Exact run, stopping rule, fixed point, certificate, convergence for dominant systems; safety for any number type. Refuted: a zero diagonal with non-zero numerator returns an infinite vector as converged. For strictly dominant systems the tolerance is an error bound ((1-q)|y-s| <= q eps), the number of sweeps is bounded and the iteration ends by itself (C45_stop, C45_terminates; same for Gauss-Seidel)."
  },
  {
   "property": "C46",
   "status": "partial",
   "theorems": [
    "C46_run_partial",
    "C46_zero_start",
    "C46_fixed_points",
    "C46_energy",
    "C46_convergence",
    "C46_convergence_any_start",
    "C46_terminates",
    "C46_gauss_seidel_fixed",
    "C46_gauss_seidel_convergence",
    "C46_gauss_seidel_stop",
    "C46_first_sweep_refuted"
   ],
   "note": "Every sweep but the first is textbook SOR (all of them when x0=0 or w=1). Refuted: the first sweep mixes with 0 instead of x0, so solutions are not fixed and a non-solution is reported converged. Convergence theorems hold for every start (counted from the first sweep). Gauss-Seidel on strictly dominant systems: error bound at the stop and sweep count (C46_gauss_seidel_stop)."
  },
  {
   "property": "C47",
   "status": "proved",
   "theorems": [
    "C47_corners",
    "C47_prepare",
    "C47_matrices",
    "C47_roundtrip",
    "C47_barycentric",
    "C47_to_global",
    "C47_reference",
    "C47_volume",
    "C47_unit_volume",
    "C47_volume_invariant",
    "C47_proper_exact",
    "C47_unprepared",
    "C47_wrong_size",
    "C47_tiny_refuted",
    "C47_stale"
   ],
   "note": "All maps, matrices and the volume for every triangle, with the exact condition under which the code treats a triangle as degenerate. Refuted for that case: with epsilon>0 a thin triangle has volume 0 depending on the corner numbering."
  },
  {
   "property": "C48",
   "status": "proved",
   "theorems": [
    "C48_gradient",
    "C48_gradient_range",
    "C48_face_center",
    "C48_face_normal",
    "C48_face_range_refuted",
    "C48_normal_any_dimension"
   ],
   "note": "Gradients, face centres and outward unit normals for every non-degenerate triangle; Math::normal in every dimension. Refuted: an out-of-range face index is undefined behaviour instead of an abort."
  },
  {
   "property": "C49",
   "status": "partial",
   "theorems": [
    "C49_diameter",
    "C49_center_partial",
    "C49_center_refuted",
    "C49_radius_partial",
    "C49_radius_refuted"
   ],
   "note": "diameter() proved. center() and outerRadius() refuted: the code multiplies by the determinant instead of dividing and forgets corner 0; proved what they return instead."
  },
  {
   "property": "C50",
   "status": "proved",
   "theorems": [
    "C50_neighbours",
    "C50_exact",
    "C50_symmetric",
    "C50_access",
    "C50_again",
    "C50_incremental_refuted"
   ],
   "note": "All build histories (add/mark vertex, add element of three distinct vertices) followed by setupNeighbors: succeeds iff no face has three owners, and then edges and neighbour slots are exact and symmetric; a second call changes nothing. Adding elements after a first setupNeighbors leaves stale edges (refuted). Accessors by number: C50_access."
  },
  {
   "property": "C51",
   "status": "proved",
   "theorems": [
    "C51_boundary"
   ],
   "note": "Flag after = flag before or lies on a face with one owner; nothing else changes."
  },
  {
   "property": "C52",
   "status": "partial",
   "theorems": [
    "C52_safe",
    "C52_shared",
    "C52_freed_once",
    "C52_exact",
    "C52_clear",
    "C52_owner",
    "C52_self_assignment_refuted",
    "C52_moved_from_refuted",
    "C52_clear_refuted"
   ],
   "note": "All histories of handle operations outside the exact set of forbidden ones (self-assignment of a sole handle, use of a moved-from handle: refuted, undefined behaviour). clear() leaks its edges and leaves them dangling (refuted)."
  },
  {
   "property": "C53",
   "status": "partial",
   "theorems": [
    "C53_generate",
    "C53_throws",
    "C53_boundary",
    "C53_area",
    "C53_tiles",
    "C53_square",
    "C53_extent_refuted"
   ],
   "note": "Counts, positions, neighbourhood, flags, equal area, exact tiling for all counts and sizes over any ordered field. The tiled rectangle is s0*e1/e0 by s1*e0/e1: the requested one iff e0=e1 (refuted in general for e0<>e1)."
  },
  {
   "property": "C54",
   "status": "partial",
   "theorems": [
    "C54_nodal",
    "C54_partition",
    "C54_interpolates",
    "C54_range",
    "C54_line_refuted",
    "C54_cubic_refuted",
    "C54_tetra_refuted",
    "C54_tables"
   ],
   "note": "Nodal basis, partition of unity and polynomial reproduction for (1,1), (2,1), (2,2), (3,1) over any ordered field; (1,2) has functions 1 and 2 exchanged and a fourth DOF that aborts; (2,3) and (3,2) always abort (all refuted). C54_tables: with ten node values both dead tables would be nodal, so only DOF is wrong."
  },
  {
   "property": "C55",
   "status": "partial",
   "theorems": [
    "C55_derivatives",
    "C55_node_values_partial",
    "C55_uniform",
    "C55_gradient_refuted",
    "C55_combination_refuted",
    "C55_tetra_table",
    "C55_cubic_table_partial",
    "C55_cubic_second_refuted"
   ],
   "note": "Derivatives in the sense of the standard library's derivable_pt_lim over the reals for every usable pair. With node values: all but gradient for (2,1) (stray factor, refuted); node values do not form the linear combination of the functions (refuted). The dead order-3 second derivative has local[1] instead of local[0] (refuted with ten node values)."
  },
  {
   "property": "C56",
   "status": "proved",
   "theorems": [
    "C56_first_order",
    "C56_second_order",
    "C56_shape_order",
    "C56_validate",
    "C56_without_neighbours_refuted",
    "C56_twice_refuted"
   ],
   "note": "prepareMesh of order 1 and 2 on every valid triangle mesh after setupNeighbors; the K=1 branch is not modelled."
  },
  {
   "property": "C57",
   "status": "proved",
   "theorems": [
    "C57_sum",
    "C57_index",
    "C57_linear",
    "C57_start",
    "C57_points",
    "C57_exact",
    "C57_integrable",
    "C57_degree",
    "C57_weights",
    "C57_positive",
    "C57_positive_refuted"
   ],
   "note": "Quadrature literals are read as exact decimals and values bounded by the stated error; float rounding is not modelled. Beyond the statement: the third triangle rule has a negative weight (refuted theorem)."
  },
  {
   "property": "C58",
   "status": "proved",
   "theorems": [
    "C58_mesh",
    "C58_quadratic",
    "C58_any",
    "C58_data",
    "C58_labels",
    "C58_element_arrays",
    "C58_element_data",
    "C58_exportable",
    "C58_no_point_data_refuted",
    "C58_gradient_refuted",
    "C58_unprepared_refuted",
    "C58_determinant_unprepared",
    "C58_three_dimensions_refuted"
   ],
   "note": "Proved by reading the written token stream back, for all prepared triangle meshes and any mesh whose elements have 3 (6) DOF vertices. Refuted: empty point data is UB, the gradient array announces 4 components but has 2, unprepared meshes get offsets without connectivity. Number formatting and stream failure are not modelled."
  },
  {
   "property": "C59",
   "status": "partial",
   "theorems": [
    "C59_loads",
    "C59_mesh",
    "C59_file",
    "C59_node_header",
    "C59_element_header",
    "C59_node_numbers",
    "C59_element_numbers",
    "C59_node_short",
    "C59_element_short",
    "C59_indented_safe",
    "C59_bad_reference_refuted",
    "C59_missing_files_refuted",
    "C59_malformed_accepted_refuted",
    "C59_before_the_line_refuted"
   ],
   "note": "Well-formed files load exactly; wrong headers, numbering and truncated lines (followed by a blank or comment) throw. Refuted: several malformed lines are accepted, unparsable or lonely first words and out-of-range references are UB. Decimal conversion (strtod) is a parameter; the iostream lexing is modelled."
  },
  {
   "property": "C60",
   "status": "proved",
   "theorems": [
    "C60_loads",
    "C60_rejects",
    "C60_safe",
    "C60_mesh",
    "C60_only_first_shape",
    "C60_empty_shape_aborts",
    "C60_degenerate_accepted"
   ],
   "note": "tinyobj's parsing and the float->T cast are not modelled: the theorems start from its parsed shapes."
  },
  {
   "property": "C61",
   "status": "partial",
   "theorems": [
    "C61_sign_pow",
    "C61_factorial",
    "C61_binom_partial",
    "C61_binom_out_of_range_refuted",
    "C61_binom_intermediate_refuted",
    "C61_real_binom",
    "C61_real_binom_nat"
   ],
   "note": "factorial and sign_pow in full; binom exact when no intermediate product overflows and k<=n; refuted: k>n and overflowing intermediates."
  },
  {
   "property": "C62",
   "status": "proved",
   "theorems": [
    "C62_vector_from_list",
    "C62_vector_access",
    "C62_vector_iteration",
    "C62_vector_aggregates"
   ],
   "note": "Any number type."
  },
  {
   "property": "C63",
   "status": "proved",
   "theorems": [
    "C63_dense_from_list",
    "C63_dense_from_empty_list_refuted"
   ],
   "note": "Non-empty lists fully; an empty list is undefined behaviour (refuted)."
  },
  {
   "property": "C64",
   "status": "proved",
   "theorems": [
    "C64_dense_equality",
    "C64_dense_swap"
   ],
   "note": "Any number type."
  },
  {
   "property": "C65",
   "status": "partial",
   "theorems": [
    "C65_dense_counts",
    "C65_dense_sum_trace_avg",
    "C65_dense_sum_general",
    "C65_dense_max_partial",
    "C65_dense_min",
    "C65_dense_max_refuted"
   ],
   "note": "max() refuted for matrices with no entry >= numeric_limits::min()."
  },
  {
   "property": "C66",
   "status": "proved",
   "theorems": [
    "C66_prepare",
    "C66_validate"
   ],
   "note": "Full, over any ordered field for the area test (the threshold is the code's numeric zero test)."
  },
  {
   "property": "C67",
   "status": "proved",
   "theorems": [
    "C67_assembly",
    "C67_solvable",
    "C67_run",
    "C67_convergence",
    "C67_terminates",
    "C67_certificate",
    "C67_tolerance_refuted"
   ],
   "note": "Exact arithmetic. Parameters of main() are quantified (XC, YC are inputs of the model); BOUNDARY_MODE 0 only, console output not modelled, data file as numbers. C67_tolerance_refuted records that the tolerance itself is not an error bound (a finding, not part of the claim)."
  },
  {
   "property": "C68",
   "status": "proved",
   "theorems": [
    "C68_assembly",
    "C68_solvable",
    "C68_bounds",
    "C68_run",
    "C68_convergence",
    "C68_terminates",
    "C68_certificate"
   ],
   "note": "Exact arithmetic. BOUNDARY_MODE 0 only; the reserve argument of the matrix constructor and the console output are not modelled."
  },
  {
   "property": "C69",
   "status": "partial",
   "theorems": [
    "C69_max_norm2",
    "C69_nonnegative",
    "C69_definite",
    "C69_homogeneous",
    "C69_triangle",
    "C69_entry_bound",
    "C69_product_bound",
    "C69_min_norm2_dense",
    "C69_min_norm2_sparse_partial",
    "C69_min_norm2_refuted",
    "C69_cond_partial"
   ],
   "note": "Proved for max_norm2. min_norm2 and cond of a sparse matrix look only at the stored (non-zero) entries and count a row without entries with the largest double, so they depend on the representation (C69_min_norm2_refuted)."
  },
  {
   "property": "C70",
   "status": "proved",
   "theorems": [
    "C70_vector",
    "C70_dense",
    "C70_sparse",
    "C70_vector_unambiguous",
    "C70_dense_unambiguous",
    "C70_sparse_unambiguous"
   ],
   "note": ""
  },
  {
   "property": "C71",
   "status": "partial",
   "theorems": [
    "C71_system",
    "C71_unique",
    "C71_nothing_dropped",
    "C71_five_point",
    "C71_solvers",
    "C71_pcg",
    "C71_handle",
    "C71_true_gradient",
    "C71_normal",
    "C71_gradients_refuted",
    "C71_small_loads_refuted",
    "C71_empty_refuted",
    "C71_estimate_refuted"
   ],
   "note": "Proved: system, elimination, symmetry, positive definiteness, unique solvability, five-point scheme on square cells, solver certificates, outputs. Refuted: the element gradients use J^-1 instead of its transpose, so the discretisation is right iff J is normal (C71_normal; wrong value on the fan); EPS drops the load of fine meshes; the order 2 estimate ignores four of six node values; a mesh without vertices aborts."
  },
  {
   "property": "C72",
   "status": "proved",
   "theorems": [
    "C72_vector",
    "C72_dense_product",
    "C72_sparse_product",
    "C72_dense_operations",
    "C72_sparse_operations",
    "C72_limit_refuted"
   ],
   "note": "Proved for all sizes; C72_limit_refuted shows that the 2^53 bound cannot be dropped."
  },
  {
   "property": "C73",
   "status": "partial",
   "theorems": [
    "C73_elementwise_nearest",
    "C73_sum_and_dot",
    "C73_dot_no_overflow",
    "C73_mag",
    "C73_max_min",
    "C73_dense_product",
    "C73_sparse_product",
    "C73_dense_vector_product",
    "C73_sparse_vector_product",
    "C73_scalar_division_refuted",
    "C73_mag_refuted"
   ],
   "note": "Proved as stated. Refuted: v / scalar multiplies by the rounded reciprocal (C73_scalar_division_refuted), mag overflows and underflows for representable norms (C73_mag_refuted)."
  },
  {
   "property": "C74",
   "status": "proved",
   "theorems": [
    "C74_rows",
    "C74_residual"
   ],
   "note": "Row-wise and combined residual bounds for dense and sparse storage."
  },
  {
   "property": "C75",
   "status": "partial",
   "theorems": [
    "C75_dense",
    "C75_sparse",
    "C75_solve_dense",
    "C75_solve_sparse",
    "C75_upper_refuted",
    "C75_no_overflow_dense",
    "C75_no_overflow_sparse"
   ],
   "note": "Proved for both overloads; for bounded entries C75_no_overflow_* discharges the premise lu_usable. C75_upper_refuted: the entries of U below the diagonal keep rounding residues."
  },
  {
   "property": "C76",
   "status": "proved",
   "theorems": [
    "C76_scheme",
    "C76_order",
    "C76_program",
    "C76_count",
    "C76_count_near",
    "C76_count_refuted"
   ],
   "note": "Exact real arithmetic for the error bounds, doubles for the point count. C76_count_refuted: with the double nearest to 1/93 the program uses 93 instead of 94 points (a finding beyond the claim)."
  },
  {
   "property": "C77",
   "status": "proved",
   "theorems": [
    "C77_scheme",
    "C77_program"
   ],
   "note": "Exact real arithmetic."
  },
  {
   "property": "C78",
   "status": "proved",
   "theorems": [
    "C78_best",
    "C78_line"
   ],
   "note": "Exact real arithmetic on the decimal tables of the code."
  },
  {
   "property": "C79",
   "status": "proved",
   "theorems": [
    "C79_system",
    "C79_scheme",
    "C79_program"
   ],
   "note": "Exact real arithmetic, order 1 and square cells only."
  },
  {
   "property": "C80",
   "status": "proved",
   "theorems": [
    "C80_jacobi",
    "C80_jacobi_error",
    "C80_sor",
    "C80_sor_error",
    "C80_overflow_refuted"
   ],
   "note": "The theorems say what holds when the solver stops by itself, in terms of the previous iterate; the guard `tame` excludes overflow, where the claim fails (C80_overflow_refuted)."
  },
  {
   "property": "C81",
   "status": "proved",
   "theorems": [
    "C81_poisson",
    "C81_coefficients",
    "C81_square"
   ],
   "note": "Hypotheses: finite tables in the last two sweeps (grid_tame), at least two sweeps or weight 1. The example meets them by computation."
  },
  {
   "property": "C82",
   "status": "proved",
   "theorems": [
    "C82_heat"
   ],
   "note": "Hypotheses: finite coefficients, finite tables in the last two sweeps (grid_tame3), at least two sweeps or weight 1. The example meets them by computation."
  },
  {
   "property": "C83",
   "status": "proved",
   "theorems": [
    "C83_vertex",
    "C83_element",
    "C83_range",
    "C83_vertex_clear",
    "C83_element_clear",
    "C83_clear_exact",
    "C83_vertex_kept",
    "C83_element_kept",
    "C83_validate"
   ],
   "note": "nullptr arguments are not modelled. The leak and the stale GlobalIndex are reported by C83_vertex_kept/C83_validate as facts about the code."
  },
  {
   "property": "C84",
   "status": "proved",
   "theorems": [
    "C84_dense_loop",
    "C84_dense_row",
    "C84_dense_column",
    "C84_dense_write",
    "C84_dense_end",
    "C84_sparse_loop",
    "C84_sparse_write",
    "C84_sparse_end"
   ],
   "note": "The abort after a write through a sparse end iterator (C84_sparse_end) is a fact about the code."
  },
  {
   "property": "C85",
   "status": "proved",
   "theorems": [
    "C85_m_matrix",
    "C85_apply",
    "C85_poisson"
   ],
   "note": "Over ordered fields (exact arithmetic)."
  },
  {
   "property": "C86",
   "status": "proved",
   "theorems": [
    "C86_numbering",
    "C86_unique",
    "C86_tridiagonal"
   ],
   "note": "Empty rows are left out (C33)."
  },
  {
   "property": "C87",
   "status": "proved",
   "theorems": [
    "C87_dense",
    "C87_fixed",
    "C87_sparse"
   ],
   "note": "The bound contains the worst-case growth 2^n of partial pivoting."
  },
  {
   "property": "C88",
   "status": "proved",
   "theorems": [
    "C88_solve_dense",
    "C88_solve_sparse",
    "C88_inverse_sparse",
    "C88_inverse_dense"
   ],
   "note": "inverse(m) of a dense matrix is wrong already in exact arithmetic (C42), so the dense statement is about inverse(L,U,P)."
  },
  {
   "property": "C89",
   "status": "proved",
   "theorems": [
    "C89_dense",
    "C89_sparse"
   ],
   "note": "A NaN in the last diagonal entry (pivot exactly 0) really happens: [[1,1],[1,1]]."
  },
  {
   "property": "C90",
   "status": "proved",
   "theorems": [
    "C90_dense",
    "C90_sparse",
    "C90_dominant",
    "C90_dominant_dense",
    "C90_dominant_sparse"
   ],
   "note": ""
  },
  {
   "property": "C91",
   "status": "proved",
   "theorems": [
    "C91_dense",
    "C91_sparse",
    "C91_condition",
    "C91_det_dense",
    "C91_det_sparse",
    "C91_solve_dense",
    "C91_solve_sparse",
    "C91_inverse_sparse",
    "C91_inverse_dense"
   ],
   "note": ""
  },
  {
   "property": "C92",
   "status": "proved",
   "theorems": [
    "C92_literals",
    "C92_points",
    "C92_weights",
    "C92_best",
    "C92_positive"
   ],
   "note": ""
  },
  {
   "property": "C93",
   "status": "proved",
   "theorems": [
    "C93_jacobi",
    "C93_jacobi_stops",
    "C93_sor",
    "C93_sor_stops"
   ],
   "note": ""
  },
  {
   "property": "C94",
   "status": "proved",
   "theorems": [
    "C94_prepare",
    "C94_to_global",
    "C94_to_local",
    "C94_point_exists",
    "C94_roundtrip",
    "C94_gradient",
    "C94_diameter",
    "C94_longest_edge_exists",
    "C94_face_center"
   ],
   "note": ""
  }
 ]
}