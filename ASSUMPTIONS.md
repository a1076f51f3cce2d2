# Print Assumptions for every property theorem (generated by tools/gen_assumptions.py)

All axioms are declared in Coq's standard library (Reals, FunctionalExtensionality, Classical); none is ours.

* `ClassicalDedekindReals.sig_not_dec` : `forall P : Prop, {~ ~ P} + {~ P}`
* `ClassicalDedekindReals.sig_forall_dec` : `forall P : nat -> Prop, (forall n : nat, {P n} + {~ P n}) -> {n : nat | ~ P n} + {forall n : nat, P n}`
* `FunctionalExtensionality.functional_extensionality_dep` : `forall (A : Type) (B : A -> Type) (f g : forall x : A, B x), (forall x : A, f x = g x) -> f = g`
* `Classical_Prop.classic` : `forall P : Prop, P \/ ~ P`

## Closed under the global context (no axioms)

C01_sparse_every_built_matrix_reads C01_sparse_has_val C01_sparse_history C01_sparse_history_any_start C01_sparse_out_of_range C02_counts_after_underflow_refuted C02_sparse_counts C02_sparse_nan_inf C03_sparse_for_loop C03_sparse_iteration C04_sparse_column_iteration_partial C04_sparse_column_iteration_refuted C04_sparse_empty_column_aborts C04_sparse_row_iteration C05_sparse_add C05_sparse_add_self C05_sparse_sub C05_sparse_sub_self_refuted C06_sparse_hadamard_corrupts_refuted C06_sparse_hadamard_general_partial C06_sparse_hadamard_nonfinite_refuted C06_sparse_hadamard_partial C06_sparse_hadamard_wrong_value_refuted C07_sparse_scale C07_sparse_scale_exact C08_sparse_erase C08_sparse_erase_next_partial C08_sparse_erase_next_refuted C08_sparse_set_through_iterator C09_sparse_swap_partial C09_sparse_swap_refuted C10_sparse_conjugate C10_sparse_transpose C11_sparse_mul C11_sparse_mul_assoc C11_sparse_mul_general C11_sparse_mul_mismatch C11_sparse_mul_unit C12_sparse_mul_left_vector C12_sparse_mul_vector C12_sparse_vector_general C12_sparse_vector_mismatch C13_sparse_equality C14_sparse_from_list C15_sparse_max_partial C15_sparse_max_refuted C15_sparse_min C15_sparse_sum_trace_avg C15_sparse_sum_trace_general C16_dense_linear_access C16_sparse_linear_access C17_dense_resize_is_noop C17_dense_resize_refuted C17_sparse_resize_is_noop C17_sparse_resize_refuted C18_dense_every_built_matrix_reads C18_dense_has C18_dense_history C18_dense_new C18_dense_out_of_range C19_dense_elementwise_partial C19_dense_equal_size C19_dense_mismatch_partial C19_dense_negate C19_dense_scale C19_dense_scale_by_own_entry C19_dense_scale_by_own_entry_refuted C19_dense_self C19_dense_shape_check_refuted C20_dense_conjugate C20_dense_mul C20_dense_mul_assoc C20_dense_mul_mismatch C20_dense_mul_vector C20_dense_product_transpose C20_dense_transpose C20_dense_transpose_twice C21_dense_column_iteration C21_dense_for_loop C21_dense_iteration C21_dense_row_iteration C21_dense_set_through_iterator C22_vector_elementwise C22_vector_elementwise_self C22_vector_mismatch C22_vector_scalar C22_vector_scalar_exact C23_cauchy_schwarz C23_triangle C23_vector_dot C23_vector_dot_linear C23_vector_dot_symmetric C23_vector_normalized C24_vector_exact C24_vector_max_partial C24_vector_max_refuted C24_vector_min C25_vector_has C25_vector_slices_dynamic_refuted C25_vector_slices_fixed_partial C26_vector_alias_exact C26_vector_alias_last_partial C26_vector_alias_refuted C26_vector_div_alias C27_vector_equality C27_vector_resize C27_vector_swap C28_diag C28_diag_of C28_diag_round_trip C28_eye C28_eye_fixed C29_split C29_tril C29_triu C30_hilbert C30_inv_hilbert_overflow_refuted C30_inv_hilbert_partial C31_hermitian C31_orthogonal C31_orthogonal_fixed C31_projection C31_skew_hermitian C31_skew_symmetric C31_symmetric C31_unitary C32_round_trips C32_to_dense C32_to_sparse C33_cuthill C33_empty_row_refuted C33_not_square C33_permutation_partial C33_reverse C34_inverse_permutation C34_mismatch C34_permutate C34_permutation_matrix C34_round_trip C35_involution_partial C35_mismatch C35_permutate_vector C35_system_partial C35_vector_refuted C36_bad_shapes C36_dense_any_output_partial C36_dense_partial C36_dirty_output_refuted C36_sparse C36_well_conditioned C37_bad_shapes C37_dirty_output_refuted C37_semidefinite_refuted C37_spd C37_symmetric_partial C38_bad_shapes C38_solve C39_ilu0 C39_not_square C40_lower_partial C40_upper_1x1_refuted C40_upper_3x3_refuted C41_exact C41_multiplicative C41_row_exchange C41_threshold_partial C41_threshold_refuted C41_well_conditioned C42_dense_only_monomial_refuted C42_dense_partial C42_dense_refuted C42_factors_refuted C42_from_factors_partial C42_sparse_partial C42_unit_factors_partial C42_well_conditioned C43_bad_shapes C43_certificate C43_count_refuted C43_exact_start_refuted C44_cg_partial C44_cg_refuted C44_jacobi_pcg C44_jacobi_preconditioner C44_pcg C45_bad_shapes C45_certificate C45_convergence C45_fixed_point C45_run C45_safe C45_stop C45_terminates C45_zero_diagonal_refuted C46_convergence C46_convergence_any_start C46_energy C46_first_sweep_refuted C46_fixed_points C46_gauss_seidel_convergence C46_gauss_seidel_fixed C46_gauss_seidel_stop C46_run_partial C46_terminates C46_zero_start C47_barycentric C47_corners C47_matrices C47_prepare C47_proper_exact C47_reference C47_roundtrip C47_stale C47_tiny_refuted C47_to_global C47_unit_volume C47_unprepared C47_volume C47_volume_invariant C47_wrong_size C48_face_center C48_face_normal C48_face_range_refuted C48_gradient C48_gradient_range C48_normal_any_dimension C49_center_partial C49_center_refuted C49_diameter C49_radius_partial C49_radius_refuted C50_access C50_again C50_exact C50_incremental_refuted C50_neighbours C50_symmetric C51_boundary C52_clear C52_clear_refuted C52_exact C52_freed_once C52_moved_from_refuted C52_owner C52_safe C52_self_assignment_refuted C52_shared C53_area C53_boundary C53_extent_refuted C53_generate C53_square C53_throws C53_tiles C54_cubic_refuted C54_interpolates C54_line_refuted C54_nodal C54_partition C54_range C54_tetra_refuted C55_combination_refuted C55_uniform C56_first_order C56_second_order C56_shape_order C56_twice_refuted C56_validate C56_without_neighbours_refuted C57_index C57_linear C57_start C57_sum C58_any C58_data C58_determinant_unprepared C58_element_arrays C58_element_data C58_exportable C58_gradient_refuted C58_labels C58_mesh C58_no_point_data_refuted C58_quadratic C58_three_dimensions_refuted C58_unprepared_refuted C59_bad_reference_refuted C59_before_the_line_refuted C59_element_header C59_element_numbers C59_element_short C59_file C59_indented_safe C59_loads C59_malformed_accepted_refuted C59_mesh C59_missing_files_refuted C59_node_header C59_node_numbers C59_node_short C60_degenerate_accepted C60_empty_shape_aborts C60_loads C60_mesh C60_only_first_shape C60_rejects C60_safe C61_binom_intermediate_refuted C61_binom_out_of_range_refuted C61_binom_partial C61_factorial C61_real_binom C61_real_binom_nat C61_sign_pow C62_vector_access C62_vector_aggregates C62_vector_from_list C62_vector_iteration C63_dense_from_empty_list_refuted C63_dense_from_list C64_dense_equality C64_dense_swap C65_dense_counts C65_dense_max_partial C65_dense_max_refuted C65_dense_min C65_dense_sum_general C65_dense_sum_trace_avg C66_prepare C66_validate C67_assembly C67_certificate C67_convergence C67_run C67_solvable C67_terminates C67_tolerance_refuted C68_assembly C68_bounds C68_certificate C68_convergence C68_run C68_solvable C68_terminates C69_cond_partial C69_definite C69_entry_bound C69_homogeneous C69_max_norm2 C69_min_norm2_dense C69_min_norm2_refuted C69_min_norm2_sparse_partial C69_nonnegative C69_product_bound C69_triangle C70_dense C70_dense_unambiguous C70_sparse C70_sparse_unambiguous C70_vector C70_vector_unambiguous C71_empty_refuted C71_estimate_refuted C71_five_point C71_gradients_refuted C71_handle C71_normal C71_nothing_dropped C71_pcg C71_small_loads_refuted C71_solvers C71_system C71_true_gradient C71_unique C79_system C80_overflow_refuted C83_clear_exact C83_element C83_element_clear C83_element_kept C83_range C83_validate C83_vertex C83_vertex_clear C83_vertex_kept C84_dense_column C84_dense_end C84_dense_loop C84_dense_row C84_dense_write C84_sparse_end C84_sparse_loop C84_sparse_write C85_apply C85_m_matrix C85_poisson C86_numbering C86_tridiagonal C86_unique

## ClassicalDedekindReals.sig_forall_dec, FunctionalExtensionality.functional_extensionality_dep

C72_limit_refuted C73_mag_refuted C73_scalar_division_refuted C75_upper_refuted C90_dominant C94_point_exists

## ClassicalDedekindReals.sig_forall_dec, ClassicalDedekindReals.sig_not_dec, FunctionalExtensionality.functional_extensionality_dep

C54_tables C55_cubic_second_refuted C55_cubic_table_partial C55_derivatives C55_gradient_refuted C55_node_values_partial C55_tetra_table C57_points C57_positive C57_positive_refuted C57_weights C91_condition C92_points C92_weights C94_longest_edge_exists

## ClassicalDedekindReals.sig_forall_dec, ClassicalDedekindReals.sig_not_dec, Classical_Prop.classic, FunctionalExtensionality.functional_extensionality_dep

C57_degree C57_exact C57_integrable C72_dense_operations C72_dense_product C72_sparse_operations C72_sparse_product C72_vector C73_dense_product C73_dense_vector_product C73_dot_no_overflow C73_elementwise_nearest C73_mag C73_max_min C73_sparse_product C73_sparse_vector_product C73_sum_and_dot C74_residual C74_rows C75_dense C75_no_overflow_dense C75_no_overflow_sparse C75_solve_dense C75_solve_sparse C75_sparse C76_count C76_count_near C76_count_refuted C76_order C76_program C76_scheme C77_program C77_scheme C78_best C78_line C79_program C79_scheme C80_jacobi C80_jacobi_error C80_sor C80_sor_error C81_coefficients C81_poisson C81_square C82_heat C87_dense C87_fixed C87_sparse C88_inverse_dense C88_inverse_sparse C88_solve_dense C88_solve_sparse C89_dense C89_sparse C90_dense C90_dominant_dense C90_dominant_sparse C90_sparse C91_dense C91_det_dense C91_det_sparse C91_inverse_dense C91_inverse_sparse C91_solve_dense C91_solve_sparse C91_sparse C92_best C92_literals C92_positive C93_jacobi C93_jacobi_stops C93_sor C93_sor_stops C94_diameter C94_face_center C94_gradient C94_prepare C94_roundtrip C94_to_global C94_to_local
