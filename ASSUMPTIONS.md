# Print Assumptions

Generated by tools/mkassumptions.py from the built theories. All of these are axioms of Coq's standard library.

## Closed under the global context (no axiom)

C01_irrep_roundtrip, C01_irreps_roundtrip, C01_str_injective, C01_parse_padded, C01_empty_refuted, C02_order_irrefl, C02_order_trans, C02_order_trichotomy, C02_order_meaning, C02_iterator_complete, C02_iterator_increasing, C03_selection_rule, C03_no_repetition, C03_dimension, C03_commutative, C03_unit, C03_associative, C04_slices_widths, C04_slices_partition, C04_slices_inside, C05_flat_preserved, C05_counts_preserved, C05_simplify_normal, C05_simplify_idempotent, C05_unify_idempotent, C05_simplify_canonical, C06_sort_spec, C06_regroup_spec, C06_regroup_canonical, C07_filter_keep_irreps, C07_filter_keep_fun, C07_filter_drop, C07_filter_lmax, C07_filter_none, C07_filter_conflict, C08_slice_by_mul, C08_slice_by_mul_reversed, C08_slice_by_mul_stride, C08_slice_by_dim_aligned, C08_slice_by_chunk, C08_tuple_slice_is_python, C08_slice_by_dim_cut_refuted, C08_slice_by_mul_reversed_refuted, C09_add, C09_mul_int, C09_mul_negative, C09_repeat, C09_mul_gcd, C09_floordiv_mul_gcd, C09_lmax, C09_lmax_error, C09_dim_is_sum, C10_is_perm_exact, C10_compose_is_function_composition, C10_compose_rejects, C10_compose_assoc, C10_identity, C10_inverse, C11_from_int_is_perm, C11_to_int_from_int, C11_from_int_to_int, C11_group_is_all, C12_germinate_closure, C12_germinate_terminates, C12_germinate_least, C12_is_group_exact, C13_sign_is_inversion_parity, C13_sign_homomorphism, C13_sign_identity, C13_sign_transposition, C13_sign_inverse, C13_to_cycles_exact, C18_filter_by_irrep_qualifies, C18_getitem_irreps_rejects, C25_split_weights, C25_too_few_weights, C27_default_instructions, C32_align, C32_align_rejects, C32_zero_multiplicity_refuted, C33_landing, C33_index, C44_s2_irreps, C44_check_parities, C44_check_both, C47_identity_when_not_training, C49_flat_count, C49_no_idle_weight, C50_germinate, C50_germinate_rejects, C50_notation, C50_contradictory, C50_formula_irreps, C50_formula_irreps_rejects, C50_subgroup, C50_tuples, C50_tuples_once, C50_contradictory_not_rejected, C53_reads_last_write, C53_reads_default, C53_rejects_unknown, C53_write_changes_only_that_name, C53_read_changes_nothing, C54_normalize, C54_max_denominator_refuted, C55_argnums, C60_irreps_kept, C60_irreps_forced, C61_names_distinct

## `ClassicalDedekindReals.sig_forall_dec`

C14_from_chunks, C14_rebuild, C14_from_chunks_rejects, C15_slice_by_mul_refuted, C15_remove_zero_chunks_refuted, C15_dot_per_irrep_refuted, C16_rechunk_keeps_the_array, C16_rechunk_rejects, C16_simplify, C16_unify, C16_remove_zero_chunks, C17_sort_permutes_the_blocks, C17_regroup, C18_filter, C18_filter_callable_refuted, C18_slice_by_mul, C18_slice_by_mul_zero_chunk_refuted, C18_getitem_irreps, C18_getitem_slice, C18_slice_by_chunk, C18_slice_by_chunk_reversed_refuted, C19_mul_to_axis, C19_axis_to_mul, C19_mul_to_axis_axis_to_mul, C19_axis_to_mul_mul_to_axis, C19_not_divisible, C19_other_axis_refuted, C19_last_axis_refuted, C19_axis_to_mul_other_axis_refuted, C20_concatenate_irreps, C20_concatenate_leading, C20_stack, C21_extend_with_zeros, C21_rejects, C22_different_irreps, C22_scale_empty_refuted, C22_add_bare, C22_add_bare_rejects, C24_dot_rejects, C32_align_arrays, C33_rejects, C44_rejects, C49_fused_rejects, C49_flat_weights, C49_flat_rejects, C49_own_weight, C49_fully_connected, C51_set_zero, C51_rejects_other_irreps, C51_rejects_feature_index, C56_guard, C56_new_axis_refuted, C56_ellipsis_refuted, C62_gradient

## `ClassicalDedekindReals.sig_forall_dec`, `FunctionalExtensionality.functional_extensionality_dep`

C20_reduce_leading, C20_reduced_shape, C20_reduce_irreps, C22_add_sub, C22_add_sub_same_shape, C22_neg, C22_scale, C23_block_diagonal, C23_each_copy, C23_identity, C23_composition, C23_structural, C23_rechunk, C23_filter, C23_slice_by_mul, C23_mul_to_axis, C23_axis_to_mul, C23_concatenate, C23_add_sub, C23_scale, C23_leading, C24_dot_invariant, C24_dot_per_irrep_invariant, C24_dot_value, C24_dot_symmetric, C24_dot_bilinear, C30_inversion, C31_dropped_is_zero, C33_any_order, C33_sum, C33_sum_modes, C33_sum_equivariant, C33_map_back, C33_map_back_gathers, C33_nel, C33_mean, C33_mean_map_back, C33_mean_nel, C33_mean_nel_map_back, C33_max, C33_max_default, C33_max_rejects, C41_parity_of_even, C41_parity_of_odd, C41_honest_even, C41_honest_odd, C41_parity_at_samples, C46_spread_exists, C47_dropout, C47_identity_when_p_is_0, C47_zero_when_p_is_1, C47_commutes, C47_rejects_empty, C47_draw_per_batch_entry_refuted, C47_draw_per_chunk_refuted, C49_list_rejects, C49_num_elements, C50_equations_generate, C51_set, C51_add, C54_limit_denominator, C64_trilinear, C64_zoom, C64_errors, C64_resize_rate, C64_same_size, C64_bounds, C64_affine, C64_linear, C64_mirror, C64_swap, C64_halve, C64_nearest_repeat, C64_nearest_mirror_refuted, C66_unique, C66_count

## `ClassicalDedekindReals.sig_forall_dec`, `ClassicalDedekindReals.sig_not_dec`, `FunctionalExtensionality.functional_extensionality_dep`

C14_every_reachable_array, C14_add_broadcast_refuted, C14_pow_refuted, C15_programs_cannot_see_flags, C15_drop_flags, C15_call_same_outcome, C22_mul_is_elementwise, C22_mul_rejects, C22_mul_by_scalars, C22_mul_per_copy, C22_div_per_copy, C22_bare_rejects, C22_bare_one, C22_div_by_scalars, C22_div_rejects, C22_mul_by_scalars_cg, C24_norm_invariant, C24_norm_value, C24_norm_squared_is_dot, C29_irreps, C29_regrouped, C29_not_regrouped, C29_dim, C29_rejects, C30_value, C30_regroup_output, C30_tensor_product_equivariant, C30_elementwise_equivariant, C30_bilinear_left, C30_bilinear_right, C30_elementwise_bilinear, C30_filter_before_or_after, C30_elementwise_filter, C30_inner_product, C30_norm, C31_dimension, C31_irreps, C31_regrouped, C31_equivariant, C31_rejects, C31_value, C31_second_moment_pair, C31_second_moment_self, C31_second_moment_scalar, C31_odd_self_coupling_is_zero, C31_pairs_are_redundant, C31_second_moment_pair_cg, C31_second_moment_self_cg, C32_elementwise_irreps, C32_elementwise_value, C32_elementwise_rejects, C34_axes, C37_moves_y_axis, C38_su2_commutators, C38_su2_antihermitian, C38_su2_casimir, C38_change_of_basis_unitary, C38_real, C38_antisymmetric, C38_commutators, C38_casimir, C38_vector, C39_rot_y, C39_J_tables, C39_J_rot_y, C40_orthogonal_degrees, C40_complete, C40_selection, C40_triangle, C40_su2_intertwines, C40_su2_orthonormal, C40_real, C40_real_triangle, C40_intertwines_generators, C40_orthonormal, C40_scalars, C40_exchange, C40_traceless, C41_value, C41_equivariant, C41_rejects, C41_wrong_number, C41_default_admissible, C41_normalize_multiple, C41_normalize_symmetry, C41_normalize_moment, C41_soft_odd_is_odd, C41_zero_chunk_refuted, C42_value, C42_equivariant, C42_too_few_scalars, C42_no_vectors, C42_zero_scalars_refuted, C43_edges, C43_loops, C43_symmetric, C43_isometry, C43_size, C43_batch, C43_batch_size, C43_coincident_refuted, C43_batch_size_refuted, C44_product, C44_sum, C44_difference, C44_scaling, C44_apply, C44_apply_even_refuted, C44_from_function, C44_from_function_rejects, C44_division, C45_to_s2grid, C45_to_s2grid_accepts, C45_from_s2grid, C45_from_s2grid_accepts, C45_factor, C45_normalizations, C45_fft_agrees, C45_fft_from_agrees, C45_fft_coarse_refuted, C46_batch_norm, C46_equivariant, C46_normalises, C46_running_convex, C46_training_history, C46_mask_of_ones, C46_rejects_scalars_without_batch, C46_success_implies_lengths, C46_independent_of_zero_flags_refuted, C48_u, C48_one_hot_accepts, C48_cutoff_means_both, C48_one_hot_length, C48_one_hot_entries, C48_one_hot_support, C48_gaussian_cutoff_refuted, C48_cosine_squares, C49_cg_normalized, C50_basis_of_formula, C50_symmetric, C50_antisymmetric, C54_round, C54_round_form_refuted, C54_gram_schmidt, C54_gram_schmidt_span, C54_gram_schmidt_fixed, C54_gram_schmidt_idempotent, C54_argument_overwritten_refuted, C54_basis_intersection, C54_basis_intersection_mismatch, C55_value, C55_regroup, C55_rejects, C55_zero_chunk_refuted, C55_scalar, C55_complete, C57_norm_activation_value, C57_norm_activation_equivariant, C57_wrong_number, C57_key_value_equivariant, C57_key_value_value, C58_one_index_ignores_formula, C58_no_index, C58_eigh_exists, C61_rejects, C61_no_orders, C65_softmax, C65_coefficients

## `ClassicalDedekindReals.sig_forall_dec`, `ClassicalDedekindReals.sig_not_dec`, `Classical_Prop.classic`, `FunctionalExtensionality.functional_extensionality_dep`

C24_norm_O3, C24_dot_O3, C24_dot_per_irrep_O3, C25_num_weights, C25_call_value, C25_output_mask, C26_matrix, C26_matrix_with_bias_rejected, C26_linear_in_input, C26_linear_in_weights, C27_equivariant, C27_default_equivariant, C27_biases, C27_bias_instructions, C27_user_instructions_refuted, C27_complete, C27_complete_affine, C27_determined, C27_linear_O3, C28_sum_of_squares, C28_unit_variance, C28_empty_input_refuted, C30_tensor_product_O3, C30_elementwise_O3, C31_tensor_square_O3, C34_proper_rotations, C34_convert, C34_any_chain, C34_any_safe_chain, C35_compose_angles, C35_compose_quaternion, C35_compose_axis_angle, C35_compose_log_coordinates, C35_inverse, C35_identity, C35_rotation_angle, C35_rotation_angle_batch_refuted, C36_angles, C36_axis_angle, C36_quaternion, C36_log_coordinates, C36_half_turn_refuted, C37_xyz_round_trip, C37_unit_round_trip, C37_angles_round_trip, C39_homomorphism, C39_identity, C39_inverse_is_transpose, C39_orthogonal, C39_low_degrees, C39_inversion, C39_parametrisations, C39_angles_inverse, C39_transform_by_angles, C39_transform_by_log_coordinates, C39_transform_by_axis_angle, C39_transform_by_quaternion, C39_transform_composition, C39_transform_identity, C39_transform_undo, C40_intertwines_group, C41_O3, C41_soft_odd_honest, C41_parity_sampling_refuted, C42_O3, C45_to_s2point, C45_to_s2point_on_grid, C45_to_s2point_refuted, C45_to_s2point_accepts, C45_s2_dirac, C45_s2_dirac_odd_refuted, C45_rotated_function, C45_to_s2point_equivariant, C45_orthonormal, C45_round_trip, C45_lossless, C45_lmax_in_component_refuted, C45_integrate, C45_resample, C46_O3, C48_sus, C48_sus_limit, C48_soft_envelope, C48_envelope_system_regular, C48_poly_envelope, C48_poly_envelope_is_u, C48_smooth_finite_smooth, C48_bessel, C49_constructor_sound, C49_constructor_complete, C49_value, C49_fused_value, C49_fused_agrees, C49_right, C49_right_fused, C49_right_plain, C49_equivariant, C49_share, C49_total_share, C49_variance, C49_linear_left, C49_linear_right, C49_output_mask, C49_fully_connected_total, C49_empty_entry_refuted, C49_empty_entry_error_refuted, C49_right_pairs_refuted, C49_right_stale_refuted, C49_right_none_refuted, C49_fused_unchecked_refuted, C49_path_normalization_refuted, C52_accepts, C52_coordinates_exist, C52_values, C52_algorithms_agree, C52_depends_on_degree, C52_homogeneous, C52_direction, C52_addition, C52_norm, C52_equivariant, C52_orthonormal, C52_derivative_accepts, C52_derivative, C54_intersection_of_commuting, C55_equivariant, C55_norm_squared, C55_equivariant_nonvacuous, C57_norm_activation_O3, C57_soft_normalization, C57_soft_normalization_O3, C58_list, C58_formula, C58_symmetric, C58_antisymmetric, C58_dimension, C58_one_index_refuted, C58_zero_dimension_refuted, C58_default_formula, C58_default_symmetric, C58_default_antisymmetric, C58_all_kept, C58_fails_iff, C58_irreps_determined, C58_flag_irrelevant, C58_keep_nothing_refuted, C59_product, C59_documented, C59_regrouped_first, C59_zero_vectors, C59_irreps, C59_accepts, C59_default_accepts, C59_rejects_non_vector, C59_rejects_empty, C59_negative_degree, C59_equivariant, C59_direction, C59_unsorted_refuted, C59_zero_refuted, C60_shape, C60_equivariant, C60_linear, C60_names_distinct, C60_rows, C60_complete, C60_equinox_shape, C60_equinox_equivariant, C60_equinox_channels_not_mixed, C60_rejects_irreps, C60_channels_reject_irreps_in, C60_zero_chunk_rejected, C60_equinox_zero_chunk, C60_rejects_weights, C60_per_channel, C61_value, C61_equivariant, C61_complete, C61_all_kept, C61_returns_iff, C61_unrequested_order_refuted, C61_channelwise, C61_homogeneous, C62_value, C62_run_unique, C62_irreps, C62_rejects, C62_invariant, C62_no_inputs, C62_no_layers, C62_unit_variance, C62_reparametrisation, C63_irreps, C63_local, C63_isolated, C63_additive, C63_linear, C63_translation, C63_relabel, C63_edge_order, C63_equivariant, C63_value, C65_irreps, C65_local, C65_cutoff, C65_isolated, C65_attention, C65_equivariant, C65_relabel, C65_edge_order, C65_value, C66_accepts, C66_irreps, C66_equivariant, C66_direction, C66_zero, C66_pole, C66_sound, C66_complete, C66_linear, C67_accepts, C67_equivariant, C67_correlation, C67_local, C67_linear, C67_left_out, C67_translation, C67_valid, C68_accepts, C68_irreps, C68_equivariant, C68_direction, C68_zero, C68_parameters, C68_linear, C68_pole

