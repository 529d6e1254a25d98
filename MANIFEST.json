{
 "claims": [
  {
   "property": "C01",
   "status": "partial",
   "theorems": [
    "C01_irrep_roundtrip",
    "C01_irreps_roundtrip",
    "C01_str_injective",
    "C01_parse_padded",
    "C01_empty_refuted"
   ],
   "note": "Round trip proved for every Irrep and every Irreps with at least one entry; str(Irreps()) = '' round trip and 'Irreps()' text are treated in C01_empty_refuted."
  },
  {
   "property": "C02",
   "status": "proved",
   "theorems": [
    "C02_order_irrefl",
    "C02_order_trans",
    "C02_order_trichotomy",
    "C02_order_meaning",
    "C02_iterator_complete",
    "C02_iterator_increasing"
   ],
   "note": ""
  },
  {
   "property": "C03",
   "status": "proved",
   "theorems": [
    "C03_selection_rule",
    "C03_no_repetition",
    "C03_dimension",
    "C03_commutative",
    "C03_unit",
    "C03_associative"
   ],
   "note": ""
  },
  {
   "property": "C04",
   "status": "proved",
   "theorems": [
    "C04_slices_widths",
    "C04_slices_partition",
    "C04_slices_inside"
   ],
   "note": ""
  },
  {
   "property": "C05",
   "status": "proved",
   "theorems": [
    "C05_flat_preserved",
    "C05_counts_preserved",
    "C05_simplify_normal",
    "C05_simplify_idempotent",
    "C05_unify_idempotent",
    "C05_simplify_canonical"
   ],
   "note": ""
  },
  {
   "property": "C06",
   "status": "proved",
   "theorems": [
    "C06_sort_spec",
    "C06_regroup_spec",
    "C06_regroup_canonical"
   ],
   "note": ""
  },
  {
   "property": "C07",
   "status": "proved",
   "theorems": [
    "C07_filter_keep_irreps",
    "C07_filter_keep_fun",
    "C07_filter_drop",
    "C07_filter_lmax",
    "C07_filter_none",
    "C07_filter_conflict"
   ],
   "note": ""
  },
  {
   "property": "C08",
   "status": "partial",
   "theorems": [
    "C08_slice_by_mul",
    "C08_slice_by_mul_reversed",
    "C08_slice_by_mul_stride",
    "C08_slice_by_dim_aligned",
    "C08_slice_by_chunk",
    "C08_tuple_slice_is_python",
    "C08_slice_by_dim_cut_refuted",
    "C08_slice_by_mul_reversed_refuted"
   ],
   "note": "slice_by_mul and slice_by_chunk are proved to be Python slicing of the flattened list; slice_by_dim is proved on aligned bounds, and the rejection half is refuted with a witness (the code only checks the width)."
  },
  {
   "property": "C09",
   "status": "proved",
   "theorems": [
    "C09_add",
    "C09_mul_int",
    "C09_mul_negative",
    "C09_repeat",
    "C09_mul_gcd",
    "C09_floordiv_mul_gcd",
    "C09_lmax",
    "C09_lmax_error",
    "C09_dim_is_sum"
   ],
   "note": ""
  },
  {
   "property": "C10",
   "status": "proved",
   "theorems": [
    "C10_is_perm_exact",
    "C10_compose_is_function_composition",
    "C10_compose_rejects",
    "C10_compose_assoc",
    "C10_identity",
    "C10_inverse"
   ],
   "note": ""
  },
  {
   "property": "C11",
   "status": "proved",
   "theorems": [
    "C11_from_int_is_perm",
    "C11_to_int_from_int",
    "C11_from_int_to_int",
    "C11_group_is_all"
   ],
   "note": ""
  },
  {
   "property": "C12",
   "status": "proved",
   "theorems": [
    "C12_germinate_closure",
    "C12_germinate_terminates",
    "C12_germinate_least",
    "C12_is_group_exact"
   ],
   "note": ""
  },
  {
   "property": "C13",
   "status": "proved",
   "theorems": [
    "C13_sign_is_inversion_parity",
    "C13_sign_homomorphism",
    "C13_sign_identity",
    "C13_sign_transposition",
    "C13_sign_inverse",
    "C13_to_cycles_exact"
   ],
   "note": ""
  },
  {
   "property": "C14",
   "status": "partial",
   "theorems": [
    "C14_every_reachable_array",
    "C14_from_chunks",
    "C14_rebuild",
    "C14_from_chunks_rejects",
    "C14_add_broadcast_refuted",
    "C14_pow_refuted"
   ],
   "note": "Proved for every array reachable by any sequence of the modelled calls (C14_every_reachable_array). The unrestricted claim is false: adding with broadcasting against a None chunk and x**0-style powers of a None chunk break it (C14_add_broadcast_refuted, C14_pow_refuted)."
  },
  {
   "property": "C15",
   "status": "partial",
   "theorems": [
    "C15_programs_cannot_see_flags",
    "C15_drop_flags",
    "C15_call_same_outcome",
    "C15_slice_by_mul_refuted",
    "C15_remove_zero_chunks_refuted",
    "C15_dot_per_irrep_refuted"
   ],
   "note": "Proved for every program of the modelled calls that respects the stated side conditions; three calls whose outcome does depend on the flags are exhibited (C15_*_refuted)."
  },
  {
   "property": "C16",
   "status": "proved",
   "theorems": [
    "C16_rechunk_keeps_the_array",
    "C16_rechunk_rejects",
    "C16_simplify",
    "C16_unify",
    "C16_remove_zero_chunks"
   ],
   "note": ""
  },
  {
   "property": "C17",
   "status": "proved",
   "theorems": [
    "C17_sort_permutes_the_blocks",
    "C17_regroup"
   ],
   "note": ""
  },
  {
   "property": "C18",
   "status": "partial",
   "theorems": [
    "C18_filter",
    "C18_filter_by_irrep_qualifies",
    "C18_filter_callable_refuted",
    "C18_slice_by_mul",
    "C18_slice_by_mul_zero_chunk_refuted",
    "C18_getitem_irreps",
    "C18_getitem_irreps_rejects",
    "C18_getitem_slice",
    "C18_slice_by_chunk",
    "C18_slice_by_chunk_reversed_refuted"
   ],
   "note": "Proved on the documented domain; filter with a callable that depends on the multiplicity, slice_by_mul cutting through a None chunk and slice_by_chunk[::-1] are refuted with witnesses."
  },
  {
   "property": "C19",
   "status": "partial",
   "theorems": [
    "C19_mul_to_axis",
    "C19_axis_to_mul",
    "C19_mul_to_axis_axis_to_mul",
    "C19_axis_to_mul_mul_to_axis",
    "C19_not_divisible",
    "C19_other_axis_refuted",
    "C19_last_axis_refuted",
    "C19_axis_to_mul_other_axis_refuted"
   ],
   "note": "Proved for the default axis; for other axes the two functions are not inverse (refuted with witnesses)."
  },
  {
   "property": "C20",
   "status": "proved",
   "theorems": [
    "C20_concatenate_irreps",
    "C20_concatenate_leading",
    "C20_stack",
    "C20_reduce_leading",
    "C20_reduced_shape",
    "C20_reduce_irreps"
   ],
   "note": ""
  },
  {
   "property": "C21",
   "status": "proved",
   "theorems": [
    "C21_extend_with_zeros",
    "C21_rejects"
   ],
   "note": ""
  },
  {
   "property": "C22",
   "status": "partial",
   "theorems": [
    "C22_add_sub",
    "C22_add_sub_same_shape",
    "C22_different_irreps",
    "C22_neg",
    "C22_scale",
    "C22_scale_empty_refuted",
    "C22_add_bare",
    "C22_add_bare_rejects",
    "C22_mul_is_elementwise",
    "C22_mul_rejects",
    "C22_mul_by_scalars",
    "C22_mul_per_copy",
    "C22_div_per_copy",
    "C22_bare_rejects",
    "C22_bare_one",
    "C22_div_by_scalars",
    "C22_div_rejects",
    "C22_mul_by_scalars_cg"
   ],
   "note": "Proved for +, -, negation, scaling, products and quotients (copy by copy) of arrays without zero-multiplicity entries; scaling an array with empty irreps is refuted."
  },
  {
   "property": "C23",
   "status": "proved",
   "theorems": [
    "C23_block_diagonal",
    "C23_each_copy",
    "C23_identity",
    "C23_composition",
    "C23_structural",
    "C23_rechunk",
    "C23_filter",
    "C23_slice_by_mul",
    "C23_mul_to_axis",
    "C23_axis_to_mul",
    "C23_concatenate",
    "C23_add_sub",
    "C23_scale",
    "C23_leading"
   ],
   "note": ""
  },
  {
   "property": "C24",
   "status": "proved",
   "theorems": [
    "C24_norm_invariant",
    "C24_dot_invariant",
    "C24_dot_per_irrep_invariant",
    "C24_norm_value",
    "C24_dot_value",
    "C24_dot_rejects",
    "C24_dot_symmetric",
    "C24_dot_bilinear",
    "C24_norm_squared_is_dot",
    "C24_norm_O3",
    "C24_dot_O3",
    "C24_dot_per_irrep_O3"
   ],
   "note": ""
  },
  {
   "property": "C25",
   "status": "proved",
   "theorems": [
    "C25_split_weights",
    "C25_too_few_weights",
    "C25_num_weights",
    "C25_call_value",
    "C25_output_mask"
   ],
   "note": ""
  },
  {
   "property": "C26",
   "status": "proved",
   "theorems": [
    "C26_matrix",
    "C26_matrix_with_bias_rejected",
    "C26_linear_in_input",
    "C26_linear_in_weights"
   ],
   "note": ""
  },
  {
   "property": "C27",
   "status": "proved",
   "theorems": [
    "C27_default_instructions",
    "C27_equivariant",
    "C27_default_equivariant",
    "C27_biases",
    "C27_bias_instructions",
    "C27_user_instructions_refuted",
    "C27_complete",
    "C27_complete_affine",
    "C27_determined",
    "C27_linear_O3"
   ],
   "note": "Equivariance, instruction/bias shape, completeness (C27_complete, C27_complete_affine) and uniqueness of the weights (C27_determined) proved; that user instructions are not checked for equal irreps is shown by C27_user_instructions_refuted."
  },
  {
   "property": "C28",
   "status": "proved",
   "theorems": [
    "C28_sum_of_squares",
    "C28_unit_variance",
    "C28_empty_input_refuted"
   ],
   "note": "Sum of squares and the variance itself (for any linear expectation) are proved; the excluded case is refuted by C28_empty_input_refuted."
  },
  {
   "property": "C29",
   "status": "proved",
   "theorems": [
    "C29_irreps",
    "C29_regrouped",
    "C29_not_regrouped",
    "C29_dim",
    "C29_rejects"
   ],
   "note": ""
  },
  {
   "property": "C30",
   "status": "proved",
   "theorems": [
    "C30_value",
    "C30_regroup_output",
    "C30_tensor_product_equivariant",
    "C30_elementwise_equivariant",
    "C30_inversion",
    "C30_bilinear_left",
    "C30_bilinear_right",
    "C30_elementwise_bilinear",
    "C30_filter_before_or_after",
    "C30_elementwise_filter",
    "C30_inner_product",
    "C30_norm",
    "C30_tensor_product_O3",
    "C30_elementwise_O3"
   ],
   "note": ""
  },
  {
   "property": "C31",
   "status": "proved",
   "theorems": [
    "C31_dimension",
    "C31_irreps",
    "C31_regrouped",
    "C31_equivariant",
    "C31_dropped_is_zero",
    "C31_rejects",
    "C31_value",
    "C31_second_moment_pair",
    "C31_second_moment_self",
    "C31_second_moment_scalar",
    "C31_tensor_square_O3",
    "C31_odd_self_coupling_is_zero",
    "C31_pairs_are_redundant",
    "C31_second_moment_pair_cg",
    "C31_second_moment_self_cg"
   ],
   "note": ""
  },
  {
   "property": "C32",
   "status": "partial",
   "theorems": [
    "C32_align",
    "C32_align_rejects",
    "C32_align_arrays",
    "C32_zero_multiplicity_refuted",
    "C32_elementwise_irreps",
    "C32_elementwise_value",
    "C32_elementwise_rejects"
   ],
   "note": "Proved when no entry has multiplicity 0; with a trailing zero multiplicity the alignment fails (refuted)."
  },
  {
   "property": "C33",
   "status": "proved",
   "theorems": [
    "C33_landing",
    "C33_any_order",
    "C33_index",
    "C33_sum",
    "C33_sum_modes",
    "C33_sum_equivariant",
    "C33_map_back",
    "C33_map_back_gathers",
    "C33_nel",
    "C33_mean",
    "C33_mean_map_back",
    "C33_mean_nel",
    "C33_mean_nel_map_back",
    "C33_max",
    "C33_max_default",
    "C33_max_rejects",
    "C33_rejects"
   ],
   "note": ""
  },
  {
   "property": "C34",
   "status": "proved",
   "theorems": [
    "C34_proper_rotations",
    "C34_axes",
    "C34_convert",
    "C34_any_chain",
    "C34_any_safe_chain"
   ],
   "note": "The conversions that read the axis off a matrix need trace <> -1 (no half turn); at half turns see C36_half_turn_refuted. expm is the exponential series."
  },
  {
   "property": "C35",
   "status": "partial",
   "theorems": [
    "C35_compose_angles",
    "C35_compose_quaternion",
    "C35_compose_axis_angle",
    "C35_compose_log_coordinates",
    "C35_inverse",
    "C35_identity",
    "C35_rotation_angle",
    "C35_rotation_angle_batch_refuted"
   ],
   "note": "Composition, inversion, identity and rotation angles proved; rotation_angle_from_angles on a batch is refuted (R2.T reverses the batch axis too)."
  },
  {
   "property": "C36",
   "status": "partial",
   "theorems": [
    "C36_angles",
    "C36_axis_angle",
    "C36_quaternion",
    "C36_log_coordinates",
    "C36_half_turn_refuted"
   ],
   "note": "Proved for every rotation (angles) and for every rotation that is not a half turn (axis-angle, quaternion, log coordinates); at every half turn the claim is refuted (C36_half_turn_refuted)."
  },
  {
   "property": "C37",
   "status": "proved",
   "theorems": [
    "C37_xyz_round_trip",
    "C37_unit_round_trip",
    "C37_moves_y_axis",
    "C37_angles_round_trip"
   ],
   "note": ""
  },
  {
   "property": "C38",
   "status": "proved",
   "theorems": [
    "C38_su2_commutators",
    "C38_su2_antihermitian",
    "C38_su2_casimir",
    "C38_change_of_basis_unitary",
    "C38_real",
    "C38_antisymmetric",
    "C38_commutators",
    "C38_casimir",
    "C38_vector"
   ],
   "note": ""
  },
  {
   "property": "C39",
   "status": "proved",
   "theorems": [
    "C39_rot_y",
    "C39_J_tables",
    "C39_J_rot_y",
    "C39_homomorphism",
    "C39_identity",
    "C39_inverse_is_transpose",
    "C39_orthogonal",
    "C39_low_degrees",
    "C39_inversion",
    "C39_parametrisations",
    "C39_angles_inverse",
    "C39_transform_by_angles",
    "C39_transform_by_log_coordinates",
    "C39_transform_by_axis_angle",
    "C39_transform_by_quaternion",
    "C39_transform_composition",
    "C39_transform_identity",
    "C39_transform_undo"
   ],
   "note": ""
  },
  {
   "property": "C40",
   "status": "proved",
   "theorems": [
    "C40_orthogonal_degrees",
    "C40_complete",
    "C40_selection",
    "C40_triangle",
    "C40_su2_intertwines",
    "C40_su2_orthonormal",
    "C40_real",
    "C40_real_triangle",
    "C40_intertwines_generators",
    "C40_intertwines_group",
    "C40_orthonormal",
    "C40_scalars",
    "C40_exchange",
    "C40_traceless"
   ],
   "note": ""
  },
  {
   "property": "C41",
   "status": "partial",
   "theorems": [
    "C41_value",
    "C41_equivariant",
    "C41_O3",
    "C41_rejects",
    "C41_wrong_number",
    "C41_default_admissible",
    "C41_parity_of_even",
    "C41_parity_of_odd",
    "C41_honest_even",
    "C41_honest_odd",
    "C41_parity_at_samples",
    "C41_normalize_multiple",
    "C41_normalize_symmetry",
    "C41_normalize_moment",
    "C41_soft_odd_is_odd",
    "C41_soft_odd_honest",
    "C41_zero_chunk_refuted",
    "C41_parity_sampling_refuted"
   ],
   "note": "Value, output parity, rejections, normalisation and O(3)-equivariance proved for functions whose measured parity is their parity (proved for exact even functions, for exact odd functions above the tolerance, and for soft_odd) and for zero chunks activated by functions vanishing at 0. The unrestricted claim is false: act(1) is used for known-zero chunks and parity is sampled on [0,10] only (C41_*_refuted)."
  },
  {
   "property": "C42",
   "status": "partial",
   "theorems": [
    "C42_value",
    "C42_equivariant",
    "C42_O3",
    "C42_too_few_scalars",
    "C42_no_vectors",
    "C42_zero_scalars_refuted"
   ],
   "note": "Value, irreps, rejections and O(3)-equivariance proved for inputs whose scalar chunks are not None and whose multiplicities are positive; a None scalar chunk that is cut makes gate raise TypeError (C42_zero_scalars_refuted)."
  },
  {
   "property": "C43",
   "status": "partial",
   "theorems": [
    "C43_edges",
    "C43_loops",
    "C43_symmetric",
    "C43_isometry",
    "C43_size",
    "C43_batch",
    "C43_batch_size",
    "C43_coincident_refuted",
    "C43_batch_size_refuted"
   ],
   "note": "Edge set, order, padding and the exclusion of self loops proved; coincident points are dropped with loop=False and batch+size pads with an index of another batch (refuted with witnesses)."
  },
  {
   "property": "C44",
   "status": "partial",
   "theorems": [
    "C44_s2_irreps",
    "C44_check_parities",
    "C44_check_both",
    "C44_product",
    "C44_sum",
    "C44_difference",
    "C44_scaling",
    "C44_rejects",
    "C44_apply",
    "C44_apply_even_refuted",
    "C44_from_function",
    "C44_from_function_rejects",
    "C44_division"
   ],
   "note": "Everything but one clause proved: apply with an even function on a signal of odd values keeps p_val = -1 although the values become even (C44_apply_even_refuted; apply computes new_p_val and does not use it)."
  },
  {
   "property": "C45",
   "status": "partial",
   "theorems": [
    "C45_to_s2point",
    "C45_to_s2point_on_grid",
    "C45_to_s2point_refuted",
    "C45_to_s2point_accepts",
    "C45_s2_dirac",
    "C45_s2_dirac_odd_refuted",
    "C45_rotated_function",
    "C45_to_s2point_equivariant",
    "C45_to_s2grid",
    "C45_to_s2grid_accepts",
    "C45_from_s2grid",
    "C45_from_s2grid_accepts",
    "C45_orthonormal",
    "C45_round_trip",
    "C45_factor",
    "C45_normalizations",
    "C45_lossless",
    "C45_lmax_in_component_refuted",
    "C45_fft_agrees",
    "C45_fft_from_agrees",
    "C45_fft_coarse_refuted",
    "C45_integrate",
    "C45_resample"
   ],
   "note": "Transforms, acceptance, round trip, normalizations, integrate, resample, to_s2point and s2_dirac proved under the stated conditions; refuted: fft on a grid coarser than 2 lmax + 1, 'component' ignores lmax_in, to_s2point permutes the values when both leading shapes are non-trivial, s2_dirac with p_val = -1 never succeeds."
  },
  {
   "property": "C46",
   "status": "proved",
   "theorems": [
    "C46_batch_norm",
    "C46_spread_exists",
    "C46_equivariant",
    "C46_normalises",
    "C46_O3",
    "C46_running_convex",
    "C46_training_history",
    "C46_mask_of_ones",
    "C46_rejects_scalars_without_batch",
    "C46_success_implies_lengths",
    "C46_independent_of_zero_flags_refuted"
   ],
   "note": "The result depends on whether a zero chunk is stored as None (refuted clause C46_*_refuted)."
  },
  {
   "property": "C47",
   "status": "proved",
   "theorems": [
    "C47_dropout",
    "C47_identity_when_not_training",
    "C47_identity_when_p_is_0",
    "C47_zero_when_p_is_1",
    "C47_commutes",
    "C47_rejects_empty",
    "C47_draw_per_batch_entry_refuted",
    "C47_draw_per_chunk_refuted"
   ],
   "note": "Each copy is scaled by one factor; the docstring's independent draws are refuted (C47_*_refuted)."
  },
  {
   "property": "C48",
   "status": "partial",
   "theorems": [
    "C48_sus",
    "C48_sus_limit",
    "C48_soft_envelope",
    "C48_envelope_system_regular",
    "C48_poly_envelope",
    "C48_poly_envelope_is_u",
    "C48_u",
    "C48_one_hot_accepts",
    "C48_cutoff_means_both",
    "C48_one_hot_length",
    "C48_one_hot_entries",
    "C48_one_hot_support",
    "C48_gaussian_cutoff_refuted",
    "C48_cosine_squares",
    "C48_smooth_finite_smooth",
    "C48_bessel"
   ],
   "note": "sus, soft_envelope, poly_envelope (existence and uniqueness of the solution included), u, cosine / smooth_finite / fourier windows and bessel proved; the gaussian basis is never 0, so cutoff does not cut it off (C48_gaussian_cutoff_refuted)."
  },
  {
   "property": "C49",
   "status": "partial",
   "theorems": [
    "C49_constructor_sound",
    "C49_constructor_complete",
    "C49_value",
    "C49_fused_value",
    "C49_fused_agrees",
    "C49_fused_rejects",
    "C49_flat_weights",
    "C49_flat_count",
    "C49_flat_rejects",
    "C49_list_rejects",
    "C49_right",
    "C49_right_fused",
    "C49_right_plain",
    "C49_equivariant",
    "C49_num_elements",
    "C49_own_weight",
    "C49_no_idle_weight",
    "C49_share",
    "C49_total_share",
    "C49_variance",
    "C49_cg_normalized",
    "C49_linear_left",
    "C49_linear_right",
    "C49_output_mask",
    "C49_fully_connected",
    "C49_fully_connected_total",
    "C49_empty_entry_refuted",
    "C49_empty_entry_error_refuted",
    "C49_right_pairs_refuted",
    "C49_right_stale_refuted",
    "C49_right_none_refuted",
    "C49_fused_unchecked_refuted",
    "C49_path_normalization_refuted"
   ],
   "note": "Proved for all instruction lists whose multiplicities suit their modes. The full claim is false in the corners shown by the C49_*_refuted theorems: instructions with an empty entry (unfused evaluation misassigns or fails), right with the pair modes or a None chunk, fusion not checking multiplicities, and path normalisation counting empty entries."
  },
  {
   "property": "C50",
   "status": "proved",
   "theorems": [
    "C50_germinate",
    "C50_germinate_rejects",
    "C50_notation",
    "C50_equations_generate",
    "C50_basis_of_formula",
    "C50_contradictory",
    "C50_formula_irreps",
    "C50_formula_irreps_rejects",
    "C50_symmetric",
    "C50_antisymmetric",
    "C50_subgroup",
    "C50_tuples",
    "C50_tuples_once",
    "C50_contradictory_not_rejected"
   ],
   "note": ""
  },
  {
   "property": "C51",
   "status": "proved",
   "theorems": [
    "C51_set",
    "C51_add",
    "C51_set_zero",
    "C51_rejects_other_irreps",
    "C51_rejects_feature_index"
   ],
   "note": ""
  },
  {
   "property": "C52",
   "status": "proved",
   "theorems": [
    "C52_accepts",
    "C52_coordinates_exist",
    "C52_values",
    "C52_algorithms_agree",
    "C52_depends_on_degree",
    "C52_homogeneous",
    "C52_direction",
    "C52_addition",
    "C52_norm",
    "C52_equivariant",
    "C52_orthonormal",
    "C52_derivative_accepts",
    "C52_derivative"
   ],
   "note": "All clauses proved for every degree and vector, in exact real arithmetic; x = 0 with normalize=True follows the code's guarded division. The symbolic coefficients produced through sympy are modelled as exact reals."
  },
  {
   "property": "C53",
   "status": "proved",
   "theorems": [
    "C53_reads_last_write",
    "C53_reads_default",
    "C53_rejects_unknown",
    "C53_write_changes_only_that_name",
    "C53_read_changes_nothing"
   ],
   "note": ""
  },
  {
   "property": "C54",
   "status": "proved",
   "theorems": [
    "C54_intersection_of_commuting",
    "C54_normalize",
    "C54_limit_denominator",
    "C54_max_denominator_refuted",
    "C54_round",
    "C54_round_form_refuted",
    "C54_gram_schmidt",
    "C54_gram_schmidt_span",
    "C54_gram_schmidt_fixed",
    "C54_gram_schmidt_idempotent",
    "C54_argument_overwritten_refuted",
    "C54_basis_intersection",
    "C54_basis_intersection_mismatch"
   ],
   "note": "limit_denominator, round, gram_schmidt (real, round_fn = identity) and basis_intersection (eigh as a parameter with its specification, a spectral gap at epsilon, completeness when gram_schmidt drops nothing). Proved defects: limit_denominator at d == max_denominator returns 0/1; the documented form sqrt(p)/q is not the form returned; gram_schmidt overwrites its argument. as_approx_integer_ratio (float bits), int64 overflow and the complex case are not modelled."
  },
  {
   "property": "C55",
   "status": "proved",
   "theorems": [
    "C55_value",
    "C55_regroup",
    "C55_equivariant",
    "C55_rejects",
    "C55_argnums",
    "C55_zero_chunk_refuted",
    "C55_scalar",
    "C55_norm_squared",
    "C55_equivariant_nonvacuous",
    "C55_complete"
   ],
   "note": "Value, regrouping, equivariance and rejections proved for every differentiable function; that a result with a None chunk is refused is shown by C55_zero_chunk_refuted."
  },
  {
   "property": "C56",
   "status": "partial",
   "theorems": [
    "C56_guard",
    "C56_new_axis_refuted",
    "C56_ellipsis_refuted"
   ],
   "note": "The guard is proved; two index forms reach the irreps axis (refuted with witnesses)."
  },
  {
   "property": "C57",
   "status": "proved",
   "theorems": [
    "C57_norm_activation_value",
    "C57_norm_activation_equivariant",
    "C57_norm_activation_O3",
    "C57_wrong_number",
    "C57_soft_normalization",
    "C57_soft_normalization_O3",
    "C57_key_value_equivariant",
    "C57_key_value_value"
   ],
   "note": ""
  },
  {
   "property": "C58",
   "status": "partial",
   "theorems": [
    "C58_list",
    "C58_formula",
    "C58_symmetric",
    "C58_antisymmetric",
    "C58_dimension",
    "C58_one_index_ignores_formula",
    "C58_one_index_refuted",
    "C58_no_index",
    "C58_zero_dimension_refuted",
    "C58_eigh_exists",
    "C58_default_formula",
    "C58_default_symmetric",
    "C58_default_antisymmetric",
    "C58_all_kept",
    "C58_fails_iff",
    "C58_irreps_determined",
    "C58_flag_irrelevant",
    "C58_keep_nothing_refuted"
   ],
   "note": "Proved for every list of irreps, and for every formula / symmetric / antisymmetric power with at least two indices of positive dimension (for the powers: at least one), with the optimised symmetric implementation on or off; irreps_out is determined by the request and does not depend on the flag. Missing: rounding to square roots of rationals is taken as the identity on the exact values. Refuted corners: a single index ignores its formula, an index of dimension 0 fails, and the optimised implementation raises ValueError exactly when keep_ir leaves nothing. np.linalg.eigh enters by its specification, which is shown to be satisfiable (spectral theorem)."
  },
  {
   "property": "C59",
   "status": "partial",
   "theorems": [
    "C59_product",
    "C59_documented",
    "C59_regrouped_first",
    "C59_zero_vectors",
    "C59_irreps",
    "C59_accepts",
    "C59_default_accepts",
    "C59_rejects_non_vector",
    "C59_rejects_empty",
    "C59_negative_degree",
    "C59_equivariant",
    "C59_direction",
    "C59_unsorted_refuted",
    "C59_zero_refuted"
   ],
   "note": "Proved for all inputs: the call is the tensor product with the harmonics, regrouped, the copies of each irrep in the order of the unsorted input; the documented equation holds exactly as written when the irreps of the input are sorted and merged and the vectors are not zero (C59_documented), and after regrouping the input otherwise (C59_regrouped_first). Refuted corners: an unsorted input (\"1o+0e\") gives the copies in another order, a zero vector is given the direction (0,0,1), and an input without irreps raises NameError. tensor_product's default component normalisation is meant; the allclose verifications are exact equalities."
  },
  {
   "property": "C60",
   "status": "proved",
   "theorems": [
    "C60_shape",
    "C60_irreps_kept",
    "C60_irreps_forced",
    "C60_equivariant",
    "C60_linear",
    "C60_names_distinct",
    "C60_rows",
    "C60_complete",
    "C60_equinox_shape",
    "C60_equinox_equivariant",
    "C60_equinox_channels_not_mixed",
    "C60_rejects_irreps",
    "C60_channels_reject_irreps_in",
    "C60_zero_chunk_rejected",
    "C60_equinox_zero_chunk",
    "C60_rejects_weights",
    "C60_per_channel"
   ],
   "note": "Proved for the haiku/flax module (C60_shape, C60_irreps_*, C60_equivariant, C60_linear, C60_rows, C60_names_distinct, C60_complete) and the equinox module (C60_equinox_*). Refuted corners: irreps_in together with channel_out rejects every input with other than one channel; irreps_in rejects an input with exactly those irreps when a non-empty chunk is flagged as zero (equinox: AssertionError on such an input); in equinox the input's channels are not mixed into channel_out but kept as a separate axis. Not modelled: dtypes, random initialisation, weights given as an array without axes, integer weights wrapped in an IrrepsArray."
  },
  {
   "property": "C61",
   "status": "partial",
   "theorems": [
    "C61_value",
    "C61_equivariant",
    "C61_names_distinct",
    "C61_complete",
    "C61_all_kept",
    "C61_returns_iff",
    "C61_unrequested_order_refuted",
    "C61_rejects",
    "C61_no_orders",
    "C61_channelwise",
    "C61_homogeneous"
   ],
   "note": "Proved on top of C58 for all orders, irreps, filters, parameters and inputs (C61_value, C61_equivariant, C61_complete, C61_channelwise, C61_homogeneous, C61_names_distinct, C61_all_kept, C61_returns_iff, C61_rejects, C61_no_orders). Missing, as in C58: the rounding of the basis to square roots of rationals is taken as the identity. Refuted corner (C61_unrequested_order_refuted): the bases of all orders up to the largest one are computed, also those not requested, so with even irreps kept and odd irreps in the input every call with a largest order of 3 or more raises ValueError, although order 4 alone is fine (C61_order_4_fine)."
  },
  {
   "property": "C62",
   "status": "proved",
   "theorems": [
    "C62_value",
    "C62_run_unique",
    "C62_irreps",
    "C62_rejects",
    "C62_invariant",
    "C62_no_inputs",
    "C62_no_layers",
    "C62_gradient",
    "C62_unit_variance",
    "C62_reparametrisation"
   ],
   "note": ""
  },
  {
   "property": "C63",
   "status": "proved",
   "theorems": [
    "C63_irreps",
    "C63_local",
    "C63_isolated",
    "C63_additive",
    "C63_linear",
    "C63_translation",
    "C63_relabel",
    "C63_edge_order",
    "C63_equivariant",
    "C63_value"
   ],
   "note": ""
  },
  {
   "property": "C64",
   "status": "proved",
   "theorems": [
    "C64_trilinear",
    "C64_zoom",
    "C64_errors",
    "C64_resize_rate",
    "C64_same_size",
    "C64_bounds",
    "C64_affine",
    "C64_linear",
    "C64_mirror",
    "C64_swap",
    "C64_halve",
    "C64_nearest_repeat",
    "C64_nearest_mirror_refuted"
   ],
   "note": "All of the stated property. 'nearest' does not commute with mirrors (halves go to the even voxel): C64_nearest_mirror_refuted."
  },
  {
   "property": "C65",
   "status": "proved",
   "theorems": [
    "C65_softmax",
    "C65_coefficients",
    "C65_irreps",
    "C65_local",
    "C65_cutoff",
    "C65_isolated",
    "C65_attention",
    "C65_equivariant",
    "C65_relabel",
    "C65_edge_order",
    "C65_value"
   ],
   "note": "All of the stated property, for calls whose query-key product contains a scalar (hypothesis scored of worked: otherwise linear_logit has no output and the code attends with zero heads); the parameters have the shapes the two Linear layers ask for (tf_fits). The exact formula for scalar features, vector attributes and one head is C65_value; C65_nonvacuous is a concrete graph."
  },
  {
   "property": "C66",
   "status": "proved",
   "theorems": [
    "C66_accepts",
    "C66_irreps",
    "C66_equivariant",
    "C66_direction",
    "C66_zero",
    "C66_pole",
    "C66_sound",
    "C66_complete",
    "C66_unique",
    "C66_linear",
    "C66_count"
   ],
   "note": "All of the stated property; filters given as strings are not modelled. C66_nonvacuous is a concrete call whose output is computed."
  },
  {
   "property": "C67",
   "status": "proved",
   "theorems": [
    "C67_accepts",
    "C67_equivariant",
    "C67_correlation",
    "C67_local",
    "C67_linear",
    "C67_left_out",
    "C67_translation",
    "C67_valid"
   ],
   "note": "All of the stated property, for parameters of the shapes the code asks for (supplied), 0 < static steps <= dynamic steps, relative_starts below 1 (ready). num_radial_basis and relative_starts are given per degree (a missing key is not modelled). C67_nonvacuous is a concrete layer, grid, quarter turn and mirror."
  },
  {
   "property": "C68",
   "status": "proved",
   "theorems": [
    "C68_accepts",
    "C68_irreps",
    "C68_equivariant",
    "C68_linear",
    "C68_pole",
    "C68_direction",
    "C68_zero",
    "C68_parameters"
   ],
   "note": "All of the stated property; irreps_out is an Irreps, the multiplicities of the input are positive (with only empty entries the code divides 0 by 0), and the direction is not zero in C68_equivariant. C68_nonvacuous is a concrete case."
  }
 ]
}