{
 "claims": [
  {
   "property": "C01",
   "status": "partial",
   "theorems": [
    "C01_as_strided_reads_right_elements",
    "C01_dtype_reinterpreting_view_refuted",
    "C01_scalar_base_refuted"
   ],
   "note": "The code violates part of the English claim; witnesses: C01_dtype_reinterpreting_view_refuted, C01_scalar_base_refuted. The other theorems prove the claim under the stated hypotheses."
  },
  {
   "property": "C02",
   "status": "partial",
   "theorems": [
    "C02_row_major_views_accepted",
    "C02_packed_views_accepted_partial",
    "C02_channels_last_one_channel_refuted"
   ],
   "note": "The code violates part of the English claim; witnesses: C02_channels_last_one_channel_refuted. The other theorems prove the claim under the stated hypotheses."
  },
  {
   "property": "C03",
   "status": "proved",
   "theorems": [
    "C03_rewrite_preserves_values",
    "C03_rewrite_frame"
   ],
   "note": ""
  },
  {
   "property": "C04",
   "status": "proved",
   "theorems": [
    "C04_affine_value_is_sympy_value",
    "C04_affine_value_defined",
    "C04_accepts_exactly_supported"
   ],
   "note": ""
  },
  {
   "property": "C05",
   "status": "proved",
   "theorems": [
    "C05_bound_shape_is_true_shape",
    "C05_operands_are_the_free_symbols",
    "C05_bind_succeeds_iff"
   ],
   "note": ""
  },
  {
   "property": "C06",
   "status": "partial",
   "theorems": [
    "C06_guards_replaced",
    "C06_no_integer_range_keeps_the_table",
    "C06_infinite_bounds",
    "C06_guards_contain_admissible",
    "C06_guards_exact",
    "C06_stale_guards_refuted",
    "C06_bool_range_raises_refuted"
   ],
   "note": "The code violates part of the English claim; witnesses: C06_stale_guards_refuted, C06_bool_range_raises_refuted. The other theorems prove the claim under the stated hypotheses."
  },
  {
   "property": "C07",
   "status": "proved",
   "theorems": [
    "C07_import_preserves_meaning",
    "C07_plain_graphs",
    "C07_canonical_lift_fresh_copy",
    "C07_canonical_local_scalar_dense",
    "C07_canonical_unsafe_index_put",
    "C07_canonical_embedding_bag",
    "C07_canonical_empty",
    "C07_assertions_are_dropped",
    "C07_well_scoped_graphs_are_imported",
    "C07_scalar_overload_selected",
    "C07_bool_tensors_are_cast_to_bool"
   ],
   "note": ""
  },
  {
   "property": "C08",
   "status": "proved",
   "theorems": [
    "C08_imported_block_is_ssa",
    "C08_imported_program_is_ssa"
   ],
   "note": ""
  },
  {
   "property": "C09",
   "status": "proved",
   "theorems": [
    "C09_loaded_at_most_once",
    "C09_unused_is_not_loaded",
    "C09_used_is_loaded_once",
    "C09_later_uses_share_the_value"
   ],
   "note": ""
  },
  {
   "property": "C10",
   "status": "partial",
   "theorems": [
    "C10_mutated_input_updated",
    "C10_mutated_buffer_stored",
    "C10_other_inputs_untouched",
    "C10_other_buffers_untouched",
    "C10_placeholder_producer_refuted"
   ],
   "note": "The code violates part of the English claim; witnesses: C10_placeholder_producer_refuted. The other theorems prove the claim under the stated hypotheses."
  },
  {
   "property": "C11",
   "status": "partial",
   "theorems": [
    "C11_two_inputs_one_producer_refuted",
    "C11_input_and_buffer_one_producer_refuted"
   ],
   "note": "The code violates part of the English claim; witnesses: C11_two_inputs_one_producer_refuted, C11_input_and_buffer_one_producer_refuted. The other theorems prove the claim under the stated hypotheses."
  },
  {
   "property": "C12",
   "status": "partial",
   "theorems": [
    "C12_user_outputs_in_order",
    "C12_accepted_outputs",
    "C12_argument_types",
    "C12_constant_after_mutation_refuted"
   ],
   "note": "The code violates part of the English claim; witnesses: C12_constant_after_mutation_refuted. The other theorems prove the claim under the stated hypotheses."
  },
  {
   "property": "C13",
   "status": "partial",
   "theorems": [
    "C13_symbolic_operators_partial",
    "C13_mixed_comparisons_reversed_refuted",
    "C13_one_less_than_two_refuted",
    "C13_modulus_refuted",
    "C13_modulus_partial"
   ],
   "note": "The code violates part of the English claim; witnesses: C13_mixed_comparisons_reversed_refuted, C13_one_less_than_two_refuted, C13_modulus_refuted. The other theorems prove the claim under the stated hypotheses."
  },
  {
   "property": "C14",
   "status": "partial",
   "theorems": [
    "C14_one_operand_per_parameter",
    "C14_operands_hold_the_completed_arguments",
    "C14_missing_required_argument_refuted",
    "C14_literal_lists_accepted",
    "C14_list_elements_have_the_element_type",
    "C14_list_argument_type"
   ],
   "note": "The code violates part of the English claim; witnesses: C14_missing_required_argument_refuted. The other theorems prove the claim under the stated hypotheses."
  },
  {
   "property": "C15",
   "status": "proved",
   "theorems": [
    "C15_getitem_selects",
    "C15_unpacked_once_per_node",
    "C15_later_getitems_emit_nothing"
   ],
   "note": ""
  },
  {
   "property": "C16",
   "status": "partial",
   "theorems": [
    "C16_loop_computes_source_partial",
    "C16_loop_only_computes_source",
    "C16_single_tensor_computes_source",
    "C16_limit",
    "C16_additional_inputs_refuted",
    "C16_single_carried_value_refuted",
    "C16_limit_stops_early"
   ],
   "note": "The code violates part of the English claim; witnesses: C16_additional_inputs_refuted, C16_single_carried_value_refuted. The other theorems prove the claim under the stated hypotheses."
  },
  {
   "property": "C17",
   "status": "partial",
   "theorems": [
    "C17_tracking_exactly",
    "C17_tracking_is_identity_partial",
    "C17_distinct_objects_distinct_mappings_partial",
    "C17_tracking_is_stable",
    "C17_reused_address_refuted"
   ],
   "note": "The code violates part of the English claim; witnesses: C17_reused_address_refuted. The other theorems prove the claim under the stated hypotheses."
  },
  {
   "property": "C18",
   "status": "partial",
   "theorems": [
    "C18_lookup_exactly",
    "C18_registered_first_partial",
    "C18_lookups_agree",
    "C18_late_registration_refuted"
   ],
   "note": "The code violates part of the English claim; witnesses: C18_late_registration_refuted. The other theorems prove the claim under the stated hypotheses."
  },
  {
   "property": "C19",
   "status": "partial",
   "theorems": [
    "C19_when_encoded",
    "C19_levels_partial",
    "C19_formats",
    "C19_levels_determine_the_element",
    "C19_bsc_refuted",
    "C19_bsc_square_partial"
   ],
   "note": "The code violates part of the English claim; witnesses: C19_bsc_refuted. The other theorems prove the claim under the stated hypotheses."
  },
  {
   "property": "C20",
   "status": "partial",
   "theorems": [
    "C20_functions_in_order",
    "C20_function_names_distinct_partial",
    "C20_distinct_requests_kept",
    "C20_repeated_request",
    "C20_names_are_stable",
    "C20_suffix_collision_refuted",
    "C20_shared_module_refuted",
    "C20_program_name_refuted",
    "C20_program_functions"
   ],
   "note": "The code violates part of the English claim; witnesses: C20_suffix_collision_refuted, C20_shared_module_refuted, C20_program_name_refuted. The other theorems prove the claim under the stated hypotheses."
  },
  {
   "property": "C21",
   "status": "proved",
   "theorems": [
    "C21_cached_type_is_described",
    "C21_order_of_requests_irrelevant",
    "C21_same_type_iff_same_description",
    "C21_repeated_request_is_found"
   ],
   "note": ""
  },
  {
   "property": "C22",
   "status": "proved",
   "theorems": [
    "C22_import_preserves_meaning",
    "C22_when_imported"
   ],
   "note": ""
  },
  {
   "property": "C23",
   "status": "proved",
   "theorems": [
    "C23_arguments",
    "C23_initialized_values"
   ],
   "note": ""
  },
  {
   "property": "C24",
   "status": "proved",
   "theorems": [
    "C24_precedence",
    "C24_untyped_is_none",
    "C24_input_types",
    "C24_constants_are_typed"
   ],
   "note": ""
  },
  {
   "property": "C25",
   "status": "partial",
   "theorems": [
    "C25_input_does_not_shadow_refuted",
    "C25_subgraph_names_partial"
   ],
   "note": "The code violates part of the English claim; witnesses: C25_input_does_not_shadow_refuted. The other theorems prove the claim under the stated hypotheses."
  },
  {
   "property": "C26",
   "status": "partial",
   "theorems": [
    "C26_version",
    "C26_which_operators",
    "C26_default_operators",
    "C26_uses_and_functions",
    "C26_shared_iff_same_key",
    "C26_same_signature",
    "C26_context_dependent_not_shared_refuted",
    "C26_nested_uses_default_config_refuted"
   ],
   "note": "The code violates part of the English claim; witnesses: C26_context_dependent_not_shared_refuted, C26_nested_uses_default_config_refuted. The other theorems prove the claim under the stated hypotheses."
  },
  {
   "property": "C27",
   "status": "partial",
   "theorems": [
    "C27_legal",
    "C27_spelling",
    "C27_injective_on_legal",
    "C27_collisions_refuted"
   ],
   "note": "The code violates part of the English claim; witnesses: C27_collisions_refuted. The other theorems prove the claim under the stated hypotheses."
  },
  {
   "property": "C28",
   "status": "proved",
   "theorems": [
    "C28_broadcast_is_common_shape",
    "C28_broadcast_commutative",
    "C28_broadcast_associative",
    "C28_broadcast_idempotent",
    "C28_broadcast_unit",
    "C28_broadcast_fails_on_mismatch",
    "C28_broadcast_is_least",
    "C28_broadcast_three_is_the_join"
   ],
   "note": ""
  },
  {
   "property": "C29",
   "status": "proved",
   "theorems": [
    "C29_wrapped_dim_denotes_the_axis",
    "C29_rejects_out_of_range"
   ],
   "note": ""
  },
  {
   "property": "C30",
   "status": "partial",
   "theorems": [
    "C30_expand_gives_requested_size",
    "C30_expanded_sizes_are_sizes",
    "C30_negative_request_refuted"
   ],
   "note": "The code violates part of the English claim; witnesses: C30_negative_request_refuted. The other theorems prove the claim under the stated hypotheses."
  },
  {
   "property": "C31",
   "status": "proved",
   "theorems": [
    "C31_view_spec",
    "C31_view_keeps_element_count",
    "C31_inferred_size_is_unique"
   ],
   "note": ""
  },
  {
   "property": "C32",
   "status": "partial",
   "theorems": [
    "C32_positive_step_counts_indices",
    "C32_negative_step_counts_indices_partial",
    "C32_negative_step_start_below_range_refuted",
    "C32_negative_step_default_start_refuted",
    "C32_start_max_int_refuted",
    "C32_invalid_slices_rejected"
   ],
   "note": "The code violates part of the English claim; witnesses: C32_negative_step_start_below_range_refuted, C32_negative_step_default_start_refuted, C32_start_max_int_refuted. The other theorems prove the claim under the stated hypotheses."
  },
  {
   "property": "C33",
   "status": "partial",
   "theorems": [
    "C33_mm_spec",
    "C33_dot_spec",
    "C33_mv_spec",
    "C33_bmm_spec",
    "C33_t_spec",
    "C33_matmul_shape",
    "C33_small_ranks_checked",
    "C33_batched_partial",
    "C33_batched_mismatch_accepted_refuted",
    "C33_unbroadcastable_batches_rejected",
    "C33_rank_zero_rejected"
   ],
   "note": "The code violates part of the English claim; witnesses: C33_batched_mismatch_accepted_refuted. The other theorems prove the claim under the stated hypotheses."
  },
  {
   "property": "C34",
   "status": "proved",
   "theorems": [
    "C34_atleast_spec",
    "C34_hstack_spec",
    "C34_hstack_vectors",
    "C34_hstack_matrices",
    "C34_column_stack_vectors",
    "C34_column_stack_scalars_and_matrices",
    "C34_cat_spec",
    "C34_stack_spec",
    "C34_cat_keeps_element_count"
   ],
   "note": ""
  },
  {
   "property": "C35",
   "status": "partial",
   "theorems": [
    "C35_t_of_a_matrix_partial",
    "C35_t_of_other_ranks_refuted",
    "C35_transpose_swaps",
    "C35_permute_spec",
    "C35_permute_keeps_sizes",
    "C35_repeated_dims_rejected",
    "C35_transpose_keeps_sizes",
    "C35_numpy_T_reverses",
    "C35_movedim_spec"
   ],
   "note": "The code violates part of the English claim; witnesses: C35_t_of_other_ranks_refuted. The other theorems prove the claim under the stated hypotheses."
  },
  {
   "property": "C36",
   "status": "partial",
   "theorems": [
    "C36_patched_argmax_is_a_reduction",
    "C36_dropped_dims",
    "C36_kept_dims",
    "C36_no_dims_reduces_all",
    "C36_rank_zero_dims_unchecked_refuted",
    "C36_max_dim_results_agree",
    "C36_argmax_is_a_reduction",
    "C36_unpatched_argmax_without_dim",
    "C36_unpatched_argmax_ignores_keepdim"
   ],
   "note": "The code violates part of the English claim; witnesses: C36_rank_zero_dims_unchecked_refuted. The other theorems prove the claim under the stated hypotheses."
  },
  {
   "property": "C37",
   "status": "partial",
   "theorems": [
    "C37_pooled_axis_counts_windows",
    "C37_zero_stride_rejected",
    "C37_max_pool2d_spec",
    "C37_avg_pool2d_spec",
    "C37_unit_window_keeps_the_shape",
    "C37_negative_padding_accepted_refuted",
    "C37_ceil_adds_at_most_one",
    "C37_max_pool3d_partial",
    "C37_avg_pool3d_partial",
    "C37_pool1d_partial",
    "C37_pool1d_unchecked_refuted",
    "C37_max_pool1d_dilation_ignored_refuted",
    "C37_adaptive_pool_spec",
    "C37_adaptive_avg_pool1d_is_adaptive_pool",
    "C37_adaptive_avg_pool2d_spec",
    "C37_adaptive_empty_batch_refuted",
    "C37_max_unpool_spec"
   ],
   "note": "The code violates part of the English claim; witnesses: C37_negative_padding_accepted_refuted, C37_pool1d_unchecked_refuted, C37_max_pool1d_dilation_ignored_refuted, C37_adaptive_empty_batch_refuted. The other theorems prove the claim under the stated hypotheses."
  },
  {
   "property": "C38",
   "status": "partial",
   "theorems": [
    "C38_default_stride_2d",
    "C38_default_stride_1d",
    "C38_default_stride_3d_partial",
    "C38_default_stride_3d_refuted"
   ],
   "note": "The code violates part of the English claim; witnesses: C38_default_stride_3d_refuted. The other theorems prove the claim under the stated hypotheses."
  },
  {
   "property": "C39",
   "status": "partial",
   "theorems": [
    "C39_convolution_counts_windows",
    "C39_checked_convolution_spec",
    "C39_checked_convolution_ranks",
    "C39_transposed_convolution_sizes",
    "C39_convolution_inverts_transposed",
    "C39_conv_transpose2d_is_conv_transpose",
    "C39_convolution_unchecked_refuted",
    "C39_convolution_agrees_when_checked",
    "C39_conv_tbc_refuted",
    "C39_conv_backwards_shapes"
   ],
   "note": "The code violates part of the English claim; witnesses: C39_convolution_unchecked_refuted, C39_conv_tbc_refuted. The other theorems prove the claim under the stated hypotheses."
  },
  {
   "property": "C40",
   "status": "partial",
   "theorems": [
    "C40_flatten_spec",
    "C40_flatten_scalar",
    "C40_flatten_keeps_element_count",
    "C40_collapse_spec",
    "C40_collapse_is_flatten",
    "C40_split_dim_spec",
    "C40_split_dim_keeps_element_count",
    "C40_collapse_inverts_split_dim",
    "C40_split_dim_inverts_collapse",
    "C40_unflatten_spec",
    "C40_unflatten_keeps_element_count",
    "C40_flatten_inverts_unflatten",
    "C40_unflatten_out_of_range_refuted"
   ],
   "note": "The code violates part of the English claim; witnesses: C40_unflatten_out_of_range_refuted. The other theorems prove the claim under the stated hypotheses."
  },
  {
   "property": "C41",
   "status": "partial",
   "theorems": [
    "C41_tril_counts_the_triangle",
    "C41_triu_counts_the_triangle",
    "C41_triangles_partition",
    "C41_negative_sizes_accepted_refuted"
   ],
   "note": "The code violates part of the English claim; witnesses: C41_negative_sizes_accepted_refuted. The other theorems prove the claim under the stated hypotheses."
  },
  {
   "property": "C42",
   "status": "partial",
   "theorems": [
    "C42_diagonal_spec",
    "C42_equal_dims_rejected",
    "C42_diag_embed_spec",
    "C42_diagonal_inverts_diag_embed",
    "C42_same_axis_accepted_refuted",
    "C42_diag_embed_rejects",
    "C42_diag_vector",
    "C42_diag_matrix",
    "C42_diag_other_ranks",
    "C42_diag_inverts_itself"
   ],
   "note": "The code violates part of the English claim; witnesses: C42_same_axis_accepted_refuted. The other theorems prove the claim under the stated hypotheses."
  },
  {
   "property": "C43",
   "status": "partial",
   "theorems": [
    "C43_pad_spec",
    "C43_constant_pad_spec",
    "C43_zero_padding_keeps_the_shape",
    "C43_replication_pad_spec",
    "C43_reflection_pad_spec",
    "C43_reflection_pad1d_spec",
    "C43_reflection_pad1d_length_unchecked_refuted",
    "C43_negative_result_accepted_refuted",
    "C43_repeat_spec",
    "C43_tile_spec",
    "C43_pixel_shuffle_spec",
    "C43_pixel_unshuffle_spec",
    "C43_unshuffle_inverts_shuffle",
    "C43_pixel_shuffle_keeps_element_count",
    "C43_repeat_interleave_flat",
    "C43_repeat_interleave_axis_partial",
    "C43_repeat_interleave_last_axis_refuted"
   ],
   "note": "The code violates part of the English claim; witnesses: C43_reflection_pad1d_length_unchecked_refuted, C43_negative_result_accepted_refuted, C43_repeat_interleave_last_axis_refuted. The other theorems prove the claim under the stated hypotheses."
  },
  {
   "property": "C44",
   "status": "partial",
   "theorems": [
    "C44_adjacent_indices",
    "C44_separated_indices",
    "C44_index_kinds",
    "C44_index_rejects",
    "C44_no_index_tensor_refuted"
   ],
   "note": "The code violates part of the English claim; witnesses: C44_no_index_tensor_refuted. The other theorems prove the claim under the stated hypotheses."
  },
  {
   "property": "C45",
   "status": "partial",
   "theorems": [
    "C45_two_operands_broadcast_partial",
    "C45_mismatch_rejected",
    "C45_operands_commute",
    "C45_first_operand_shape_refuted",
    "C45_first_operand_right_when_widest",
    "C45_three_operands_broadcast_partial",
    "C45_three_operands_refuted",
    "C45_broadcast_tensors_spec"
   ],
   "note": "The code violates part of the English claim; witnesses: C45_first_operand_shape_refuted, C45_three_operands_refuted. The other theorems prove the claim under the stated hypotheses."
  },
  {
   "property": "C46",
   "status": "partial",
   "theorems": [
    "C46_rot90_spec",
    "C46_rot90_four_turns",
    "C46_rot90_rejects",
    "C46_rot90_axes_unchecked_refuted",
    "C46_glu_spec",
    "C46_glu_wraps_twice_refuted",
    "C46_cosine_similarity_partial",
    "C46_cosine_similarity_mismatch",
    "C46_cosine_similarity_last_axis_refuted",
    "C46_cosine_similarity_range_unchecked_refuted",
    "C46_count_nonzero_spec",
    "C46_count_nonzero_all",
    "C46_select_removes_the_axis",
    "C46_index_select_sets_the_axis",
    "C46_unsqueeze_inserts_one",
    "C46_unsqueeze_rejects",
    "C46_squeeze_removes_size_one",
    "C46_squeeze_all",
    "C46_squeeze_dims_spec",
    "C46_topk_sets_the_axis",
    "C46_counting_from_the_end",
    "C46_unsqueeze_counts_from_the_end",
    "C46_out_of_range_rejected"
   ],
   "note": "The code violates part of the English claim; witnesses: C46_rot90_axes_unchecked_refuted, C46_glu_wraps_twice_refuted, C46_cosine_similarity_last_axis_refuted, C46_cosine_similarity_range_unchecked_refuted. The other theorems prove the claim under the stated hypotheses."
  },
  {
   "property": "C47",
   "status": "partial",
   "theorems": [
    "C47_valid_is_no_padding",
    "C47_same_padding_computed",
    "C47_weight_rank_checked",
    "C47_same_padding_result",
    "C47_same_padding_keeps_shape_partial",
    "C47_even_kernel_loses_one_refuted",
    "C47_dilations_reversed_refuted",
    "C47_checked_forms_agree",
    "C47_conv2d_same_padding"
   ],
   "note": "The code violates part of the English claim; witnesses: C47_even_kernel_loses_one_refuted, C47_dilations_reversed_refuted. The other theorems prove the claim under the stated hypotheses."
  },
  {
   "property": "C48",
   "status": "partial",
   "theorems": [
    "C48_promotion_is_least_upper_bound",
    "C48_promotion_commutative",
    "C48_promotion_associative",
    "C48_promotion_idempotent",
    "C48_list_promotion_is_least_upper_bound",
    "C48_list_promotion_order_irrelevant",
    "C48_complex_half_refuted",
    "C48_quantized",
    "C48_quantized_types",
    "C48_undefined_absorbs",
    "C48_priority_extends_order",
    "C48_priorities_are_ranks"
   ],
   "note": "The code violates part of the English claim; witnesses: C48_complex_half_refuted. The other theorems prove the claim under the stated hypotheses."
  },
  {
   "property": "C49",
   "status": "partial",
   "theorems": [
    "C49_self_promotion_exact",
    "C49_small_floats_become_uint8_refuted"
   ],
   "note": "The code violates part of the English claim; witnesses: C49_small_floats_become_uint8_refuted. The other theorems prove the claim under the stated hypotheses."
  },
  {
   "property": "C50",
   "status": "partial",
   "theorems": [
    "C50_combine_categories_spec",
    "C50_promote_dtypes_spec",
    "C50_malformed_not_rewritten",
    "C50_dimensioned_operands_decide",
    "C50_python_agrees_on_two_operands",
    "C50_python_disagrees_on_three_operands_refuted",
    "C50_dtype_predicates"
   ],
   "note": "The code violates part of the English claim; witnesses: C50_python_disagrees_on_three_operands_refuted. The other theorems prove the claim under the stated hypotheses."
  },
  {
   "property": "C51",
   "status": "partial",
   "theorems": [
    "C51_codes_decode",
    "C51_decode_codes",
    "C51_element_types_round_trip",
    "C51_element_types_round_trip_back",
    "C51_element_types_domain",
    "C51_importer_codes_agree_partial",
    "C51_complex_codes_refuted",
    "C51_codes_distinct",
    "C51_codes_missing",
    "C51_literal_types_agree",
    "C51_quantized_literals_are_storage_integers",
    "C51_python_numbers",
    "C51_importer_types_known",
    "C51_importer_types_distinct",
    "C51_memory_formats_agree",
    "C51_layouts_agree_partial",
    "C51_layout_codes_refuted"
   ],
   "note": "The code violates part of the English claim; witnesses: C51_complex_codes_refuted, C51_layout_codes_refuted. The other theorems prove the claim under the stated hypotheses."
  },
  {
   "property": "C52",
   "status": "partial",
   "theorems": [
    "C52_subtyping_decides_relation",
    "C52_subtyping_reflexive",
    "C52_subtyping_transitive",
    "C52_subtyping_sound",
    "C52_tensor_subtyping_exact",
    "C52_subtyping_ignores_storage_refuted",
    "C52_subtyping_incomplete_refuted",
    "C52_containers_invariant"
   ],
   "note": "The code violates part of the English claim; witnesses: C52_subtyping_ignores_storage_refuted, C52_subtyping_incomplete_refuted. The other theorems prove the claim under the stated hypotheses."
  },
  {
   "property": "C53",
   "status": "partial",
   "theorems": [
    "C53_meet_describes_common",
    "C53_meet_fails_iff_contradictory",
    "C53_meet_commutative",
    "C53_meet_idempotent",
    "C53_meet_is_greatest_lower_bound",
    "C53_meet_changes_value_semantics_refuted",
    "C53_storage_forgotten_refuted",
    "C53_value_semantics_changes",
    "C53_refining_sizes_and_dtype"
   ],
   "note": "The code violates part of the English claim; witnesses: C53_meet_changes_value_semantics_refuted, C53_storage_forgotten_refuted. The other theorems prove the claim under the stated hypotheses."
  },
  {
   "property": "C54",
   "status": "partial",
   "theorems": [
    "C54_verification_exact",
    "C54_print_parse_round_trip",
    "C54_printing_injective",
    "C54_parsed_types_verified",
    "C54_parser_accepts_only_spellings",
    "C54_printer_spells",
    "C54_bare_storage_lost_refuted",
    "C54_other_spellings",
    "C54_dictionary_types",
    "C54_builtin_conversion",
    "C54_string_tensors_not_convertible"
   ],
   "note": "The code violates part of the English claim; witnesses: C54_bare_storage_lost_refuted. The other theorems prove the claim under the stated hypotheses."
  },
  {
   "property": "C55",
   "status": "partial",
   "theorems": [
    "C55_value",
    "C55_reasons",
    "C55_passed_prefix",
    "C55_passed_partial",
    "C55_truncated_trace_refuted",
    "C55_floats_refuted",
    "C55_golden_zero_refuted",
    "C55_floats_partial",
    "C55_passed_by_config"
   ],
   "note": "The code violates part of the English claim; witnesses: C55_truncated_trace_refuted, C55_floats_refuted, C55_golden_zero_refuted. The other theorems prove the claim under the stated hypotheses."
  },
  {
   "property": "C56",
   "status": "partial",
   "theorems": [
    "C56_when_reported",
    "C56_outcomes",
    "C56_result_of_a_test",
    "C56_when_a_test_has_a_result",
    "C56_results_of_a_run",
    "C56_lost_tests_fail",
    "C56_registered_once",
    "C56_exit_code",
    "C56_unsupported_value_refuted",
    "C56_exit_codes"
   ],
   "note": "The code violates part of the English claim; witnesses: C56_unsupported_value_refuted. The other theorems prove the claim under the stated hypotheses."
  },
  {
   "property": "C57",
   "status": "partial",
   "theorems": [
    "C57_shape_check",
    "C57_dtype_check",
    "C57_any_error_refuted"
   ],
   "note": "The code violates part of the English claim; witnesses: C57_any_error_refuted. The other theorems prove the claim under the stated hypotheses."
  },
  {
   "property": "C58",
   "status": "partial",
   "theorems": [
    "C58_freed_after_last_use",
    "C58_freed_once",
    "C58_golden_result",
    "C58_constants_refuted"
   ],
   "note": "The code violates part of the English claim; witnesses: C58_constants_refuted. The other theorems prove the claim under the stated hypotheses."
  },
  {
   "property": "C59",
   "status": "partial",
   "theorems": [
    "C59_structure_restored",
    "C59_stale_code",
    "C59_adjusted_supported_partial",
    "C59_nested_refuted"
   ],
   "note": "The code violates part of the English claim; witnesses: C59_nested_refuted. The other theorems prove the claim under the stated hypotheses."
  },
  {
   "property": "C60",
   "status": "partial",
   "theorems": [
    "C60_function_name",
    "C60_function_name_injective",
    "C60_lookup_by_triple",
    "C60_lookup_by_key",
    "C60_verified",
    "C60_symbol_found",
    "C60_symbols_distinct",
    "C60_parsed_name",
    "C60_unique_key",
    "C60_class_name_refuted",
    "C60_class_name",
    "C60_signature",
    "C60_class_name_start",
    "C60_readonly",
    "C60_value_semantics",
    "C60_value_semantics_readonly",
    "C60_traits",
    "C60_mutating_variants"
   ],
   "note": "The code violates part of the English claim; witnesses: C60_class_name_refuted. The other theorems prove the claim under the stated hypotheses."
  },
  {
   "property": "C61",
   "status": "partial",
   "theorems": [
    "C61_element_types",
    "C61_types_partial",
    "C61_unranked_read_as_scalar_refuted",
    "C61_literal_types"
   ],
   "note": "The code violates part of the English claim; witnesses: C61_unranked_read_as_scalar_refuted. The other theorems prove the claim under the stated hypotheses."
  },
  {
   "property": "C62",
   "status": "proved",
   "theorems": [
    "C62_when_imported",
    "C62_attributes",
    "C62_regions"
   ],
   "note": ""
  },
  {
   "property": "C63",
   "status": "partial",
   "theorems": [
    "C63_inline_tensors_partial",
    "C63_raw_tensors",
    "C63_literal_agrees_with_type",
    "C63_typed_data_refused_refuted"
   ],
   "note": "The code violates part of the English claim; witnesses: C63_typed_data_refused_refuted. The other theorems prove the claim under the stated hypotheses."
  },
  {
   "property": "C64",
   "status": "partial",
   "theorems": [
    "C64_recorded_versions",
    "C64_nodes_use_recorded_version_partial",
    "C64_two_imports_refuted",
    "C64_full_default_domain_refuted"
   ],
   "note": "The code violates part of the English claim; witnesses: C64_two_imports_refuted, C64_full_default_domain_refuted. The other theorems prove the claim under the stated hypotheses."
  },
  {
   "property": "C65",
   "status": "partial",
   "theorems": [
    "C65_bind_attribute_partial",
    "C65_bind_node",
    "C65_graph_references_refuted",
    "C65_signature_partial",
    "C65_no_inputs_refuted",
    "C65_signature_truncated"
   ],
   "note": "The code violates part of the English claim; witnesses: C65_graph_references_refuted, C65_no_inputs_refuted. The other theorems prove the claim under the stated hypotheses."
  },
  {
   "property": "C66",
   "status": "proved",
   "theorems": [
    "C66_imported_functions",
    "C66_last_first"
   ],
   "note": ""
  },
  {
   "property": "C67",
   "status": "partial",
   "theorems": [
    "C67_shape_operands_fit",
    "C67_dtype_operands_fit",
    "C67_argument_unique",
    "C67_shape_argument",
    "C67_dtype_argument",
    "C67_shape_arguments",
    "C67_dtype_arguments",
    "C67_as_is_refuted",
    "C67_more_operands_refuted"
   ],
   "note": "The code violates part of the English claim; witnesses: C67_as_is_refuted, C67_more_operands_refuted. The other theorems prove the claim under the stated hypotheses."
  },
  {
   "property": "C68",
   "status": "partial",
   "theorems": [
    "C68_transcendental",
    "C68_rad2deg",
    "C68_softshrink",
    "C68_frobenius_norm",
    "C68_division",
    "C68_division_by_number",
    "C68_division_modes",
    "C68_division_by_number_modes",
    "C68_copysign",
    "C68_ldexp",
    "C68_ldexp_double_complex_refuted",
    "C68_ldexp_double_complex",
    "C68_softplus_keeps_integers_refuted"
   ],
   "note": "The code violates part of the English claim; witnesses: C68_ldexp_double_complex_refuted, C68_softplus_keeps_integers_refuted. The other theorems prove the claim under the stated hypotheses."
  },
  {
   "property": "C69",
   "status": "partial",
   "theorems": [
    "C69_two_tensors",
    "C69_three_tensors",
    "C69_list_of_tensors",
    "C69_tensor_and_number",
    "C69_complex_number_refuted",
    "C69_where",
    "C69_where_numbers",
    "C69_add_numbers",
    "C69_number_to_tensor_power",
    "C69_power_and_nll_backward",
    "C69_losses",
    "C69_floor_division",
    "C69_floor_division_by_number",
    "C69_one_dtype",
    "C69_baddbmm",
    "C69_leaky_relu",
    "C69_clamp",
    "C69_order_irrelevant",
    "C69_total"
   ],
   "note": "The code violates part of the English claim; witnesses: C69_complex_number_refuted. The other theorems prove the claim under the stated hypotheses."
  },
  {
   "property": "C70",
   "status": "proved",
   "theorems": [
    "C70_sums",
    "C70_means",
    "C70_prims_sums",
    "C70_trace",
    "C70_trace_dtype",
    "C70_deviations",
    "C70_var_means",
    "C70_norms",
    "C70_norm_scalar",
    "C70_norm_scalar_half",
    "C70_any_all",
    "C70_extremes"
   ],
   "note": ""
  },
  {
   "property": "C71",
   "status": "proved",
   "theorems": [
    "C71_given_dtype_wins",
    "C71_defaults",
    "C71_refused_dtypes",
    "C71_randn_like",
    "C71_ranges",
    "C71_full",
    "C71_number_tensors",
    "C71_converted_like",
    "C71_number_of_tensor",
    "C71_softmax"
   ],
   "note": ""
  },
  {
   "property": "C72",
   "status": "proved",
   "theorems": [
    "C72_fixed",
    "C72_infinity_tests",
    "C72_bucketize",
    "C72_one_hot",
    "C72_bincount",
    "C72_int_mm"
   ],
   "note": ""
  },
  {
   "property": "C73",
   "status": "proved",
   "theorems": [
    "C73_kept",
    "C73_several_results",
    "C73_equal_dtypes",
    "C73_noise",
    "C73_broadcast_tensors",
    "C73_reflection_pad1d"
   ],
   "note": ""
  },
  {
   "property": "C74",
   "status": "proved",
   "theorems": [
    "C74_refused",
    "C74_fake_quantize",
    "C74_bool_to_int64",
    "C74_poisson_nll_loss",
    "C74_elu",
    "C74_nll_loss_forward",
    "C74_two_tensors"
   ],
   "note": ""
  },
  {
   "property": "C75",
   "status": "partial",
   "theorems": [
    "C75_mm",
    "C75_mm_half_types_refuted",
    "C75_matmul_strict",
    "C75_matmul_takes_lower_refuted"
   ],
   "note": "The code violates part of the English claim; witnesses: C75_mm_half_types_refuted, C75_matmul_takes_lower_refuted. The other theorems prove the claim under the stated hypotheses."
  },
  {
   "property": "C76",
   "status": "partial",
   "theorems": [
    "C76_view_as_real",
    "C76_polar",
    "C76_polar_needs_equal_dtypes",
    "C76_polar_half_refuted",
    "C76_polar_round_trip",
    "C76_fft",
    "C76_rfft",
    "C76_stft",
    "C76_stft_bfloat16_refuted",
    "C76_slogdet",
    "C76_slogdet_half",
    "C76_quantized",
    "C76_int_repr",
    "C76_quantized_default"
   ],
   "note": "The code violates part of the English claim; witnesses: C76_polar_half_refuted, C76_stft_bfloat16_refuted. The other theorems prove the claim under the stated hypotheses."
  },
  {
   "property": "C77",
   "status": "partial",
   "theorems": [
    "C77_meaning",
    "C77_signature",
    "C77_subset",
    "C77_outside_refused",
    "C77_ready_graphs_imported",
    "C77_keyword_arguments_refuted",
    "C77_tuple_operands_refuted",
    "C77_indexed_tensors_refuted",
    "C77_device_index_refuted",
    "C77_unqualified_names"
   ],
   "note": "The code violates part of the English claim; witnesses: C77_keyword_arguments_refuted, C77_tuple_operands_refuted, C77_indexed_tensors_refuted, C77_device_index_refuted. The other theorems prove the claim under the stated hypotheses."
  },
  {
   "property": "C78",
   "status": "partial",
   "theorems": [
    "C78_type_counterparts",
    "C78_lists_of_strings_refuted",
    "C78_tensor_types",
    "C78_uncoded_dtypes_refused",
    "C78_dtype_codes",
    "C78_memory_format_codes",
    "C78_layout_codes",
    "C78_layouts_distinct",
    "C78_sparse_csc_is_mkldnn_refuted",
    "C78_arguments"
   ],
   "note": "The code violates part of the English claim; witnesses: C78_lists_of_strings_refuted, C78_sparse_csc_is_mkldnn_refuted. The other theorems prove the claim under the stated hypotheses."
  },
  {
   "property": "C79",
   "status": "partial",
   "theorems": [
    "C79_names",
    "C79_pass",
    "C79_last_signature",
    "C79_one_signature",
    "C79_loads",
    "C79_two_signatures_refuted",
    "C79_two_signatures_dropped_refuted",
    "C79_bfloat16_refuted",
    "C79_no_results_refuted",
    "C79_wide_numbers_refuted",
    "C79_other_types_refuted",
    "C79_arguments_unchecked_refuted",
    "C79_argument_dtypes",
    "C79_drop_is_a_suffix",
    "C79_wrong_words"
   ],
   "note": "The code violates part of the English claim; witnesses: C79_two_signatures_refuted, C79_two_signatures_dropped_refuted, C79_bfloat16_refuted, C79_no_results_refuted, C79_wide_numbers_refuted, C79_other_types_refuted, C79_arguments_unchecked_refuted. The other theorems prove the claim under the stated hypotheses."
  },
  {
   "property": "C80",
   "status": "partial",
   "theorems": [
    "C80_to_numpy",
    "C80_from_numpy",
    "C80_round_trip",
    "C80_convertible",
    "C80_results",
    "C80_user_outputs",
    "C80_bare_result",
    "C80_one_output_refuted"
   ],
   "note": "The code violates part of the English claim; witnesses: C80_one_output_refuted. The other theorems prove the claim under the stated hypotheses."
  },
  {
   "property": "C81",
   "status": "partial",
   "theorems": [
    "C81_like",
    "C81_negative_axes_refuted",
    "C81_arguments",
    "C81_methods",
    "C81_forward",
    "C81_given_methods",
    "C81_annotations",
    "C81_traced",
    "C81_not_traced",
    "C81_placeholders_refused",
    "C81_rank_zero_refuted",
    "C81_annotated",
    "C81_marked",
    "C81_second_dynamic_refuted",
    "C81_onnx_inputs",
    "C81_onnx_names",
    "C81_output_types",
    "C81_output_type_itself",
    "C81_pipelines",
    "C81_pipeline_option",
    "C81_raw_refused",
    "C81_lowered"
   ],
   "note": "The code violates part of the English claim; witnesses: C81_negative_axes_refuted, C81_rank_zero_refuted, C81_second_dynamic_refuted. The other theorems prove the claim under the stated hypotheses."
  },
  {
   "property": "C82",
   "status": "partial",
   "theorems": [
    "C82_followers_documented",
    "C82_table_covered",
    "C82_no_operator_listed_twice",
    "C82_broadcasting_ignored_refuted",
    "C82_unsafe_view_inference_refuted",
    "C82_operands_unchecked_refuted",
    "C82_reductions_over_dims",
    "C82_reductions_without_dims",
    "C82_prod_over_one_dim",
    "C82_norm_of_everything",
    "C82_prims_over_no_dims_refuted"
   ],
   "note": "The code violates part of the English claim; witnesses: C82_broadcasting_ignored_refuted, C82_unsafe_view_inference_refuted, C82_operands_unchecked_refuted, C82_prims_over_no_dims_refuted. The other theorems prove the claim under the stated hypotheses."
  },
  {
   "property": "C83",
   "status": "partial",
   "theorems": [
    "C83_linear_shape",
    "C83_linear_of_a_matrix",
    "C83_linear_batched_partial",
    "C83_linear_mismatch_refuted",
    "C83_addmm_spec",
    "C83_addmm_of_a_fitting_self",
    "C83_addmm_larger_self_refuted",
    "C83_addbmm_spec",
    "C83_addbmm_result",
    "C83_baddbmm_spec",
    "C83_baddbmm_self_unchecked_refuted",
    "C83_outer_spec_partial",
    "C83_outer_accepts_matrices_refuted",
    "C83_outer_needs_vectors",
    "C83_bilinear_spec",
    "C83_trilinear_spec",
    "C83_attention_exact",
    "C83_attention_partial",
    "C83_attention_second_batch_axis_refuted",
    "C83_attention_without_batch_refuted",
    "C83_attention_sizes_unchecked_refuted",
    "C83_embedding_spec",
    "C83_embedding_bag_spec",
    "C83_embedding_bag_no_offsets_refuted",
    "C83_one_hot_spec",
    "C83_det_spec_partial",
    "C83_det_more_batches_refuted",
    "C83_det_and_factors",
    "C83_slogdet_spec",
    "C83_cross_spec",
    "C83_cross_axis_unchecked_refuted",
    "C83_trace_spec",
    "C83_kthvalue_spec",
    "C83_channel_shuffle_spec"
   ],
   "note": "The code violates part of the English claim; witnesses: C83_linear_mismatch_refuted, C83_addmm_larger_self_refuted, C83_baddbmm_self_unchecked_refuted, C83_outer_accepts_matrices_refuted, C83_attention_second_batch_axis_refuted, C83_attention_without_batch_refuted, C83_attention_sizes_unchecked_refuted, C83_embedding_bag_no_offsets_refuted, C83_det_more_batches_refuted, C83_cross_axis_unchecked_refuted. The other theorems prove the claim under the stated hypotheses."
  },
  {
   "property": "C84",
   "status": "partial",
   "theorems": [
    "C84_windows_counted",
    "C84_frequencies_counted",
    "C84_unfold_counts_windows",
    "C84_unfold_scalar",
    "C84_unfold_unchecked_refuted",
    "C84_stft_counts_frames",
    "C84_stft_not_centered",
    "C84_stft_centered_partial",
    "C84_stft_odd_window_refuted",
    "C84_stft_long_window_refuted",
    "C84_rfft_spec",
    "C84_col2im_partial",
    "C84_col2im_no_position_refuted"
   ],
   "note": "The code violates part of the English claim; witnesses: C84_unfold_unchecked_refuted, C84_stft_odd_window_refuted, C84_stft_long_window_refuted, C84_col2im_no_position_refuted. The other theorems prove the claim under the stated hypotheses."
  },
  {
   "property": "C85",
   "status": "partial",
   "theorems": [
    "C85_truncation",
    "C85_truncation_unique",
    "C85_interpolate_to_size",
    "C85_interpolate_by_factor",
    "C85_interpolate_needs_one",
    "C85_interpolate_other_ranks_refuted",
    "C85_upsample_vec_is_interpolate",
    "C85_upsample_to_size",
    "C85_upsample1d_by_factor",
    "C85_upsample_needs_one",
    "C85_upsample_reads",
    "C85_grid_sampler_spec",
    "C85_grid_sampler_volumes_refuted",
    "C85_roi_align_spec",
    "C85_roi_pool_agrees",
    "C85_deform_conv2d_spec"
   ],
   "note": "The code violates part of the English claim; witnesses: C85_interpolate_other_ranks_refuted, C85_grid_sampler_volumes_refuted. The other theorems prove the claim under the stated hypotheses."
  },
  {
   "property": "C86",
   "status": "partial",
   "theorems": [
    "C86_count_determined",
    "C86_arange_counts_values",
    "C86_arange_from_zero",
    "C86_arange_from_start_partial",
    "C86_arange_negative_end_refuted",
    "C86_given_sizes",
    "C86_multinomial_spec"
   ],
   "note": "The code violates part of the English claim; witnesses: C86_arange_negative_end_refuted. The other theorems prove the claim under the stated hypotheses."
  },
  {
   "property": "C87",
   "status": "partial",
   "theorems": [
    "C87_nll_loss_spec",
    "C87_cross_entropy_spec_partial",
    "C87_cross_entropy_pixels_refuted",
    "C87_kl_div_spec",
    "C87_pointwise_losses",
    "C87_layer_norm_spec",
    "C87_layer_norm_sizes_unchecked_refuted",
    "C87_batch_norm_spec",
    "C87_other_norms"
   ],
   "note": "The code violates part of the English claim; witnesses: C87_cross_entropy_pixels_refuted, C87_layer_norm_sizes_unchecked_refuted. The other theorems prove the claim under the stated hypotheses."
  },
  {
   "property": "C88",
   "status": "partial",
   "theorems": [
    "C88_narrow_within",
    "C88_narrow_from_the_end_partial",
    "C88_narrow_to_the_end_refuted",
    "C88_narrow_overrun_refuted",
    "C88_narrow_rejects",
    "C88_narrow_at_a_tensor",
    "C88_view_as_complex_spec",
    "C88_complex_views_invert",
    "C88_real_view_spec",
    "C88_view_as_complex_unchecked_refuted",
    "C88_flips",
    "C88_repeat_interleave_spec",
    "C88_count_nonzero_spec",
    "C88_count_nonzero_scalar",
    "C88_inplace_operand_fits",
    "C88_nonzero_is_a_table",
    "C88_nonzero_columns",
    "C88_unknown_lengths",
    "C88_nonzero_static_spec",
    "C88_nms_rank_refuted",
    "C88_nms_columns"
   ],
   "note": "The code violates part of the English claim; witnesses: C88_narrow_to_the_end_refuted, C88_narrow_overrun_refuted, C88_view_as_complex_unchecked_refuted, C88_nms_rank_refuted. The other theorems prove the claim under the stated hypotheses."
  },
  {
   "property": "C89",
   "status": "partial",
   "theorems": [
    "C89_state_of_an_input",
    "C89_freezing_is_substitution",
    "C89_freezing_preserves_meaning",
    "C89_frozen_import_preserves_meaning",
    "C89_buffer_kept_in_constants_refuted"
   ],
   "note": "The code violates part of the English claim; witnesses: C89_buffer_kept_in_constants_refuted. The other theorems prove the claim under the stated hypotheses."
  },
  {
   "property": "C90",
   "status": "proved",
   "theorems": [
    "C90_declared_operands",
    "C90_declared_exactly_when_typed",
    "C90_returned_values_have_the_declared_types",
    "C90_types_of_returned_values",
    "C90_returned_values"
   ],
   "note": ""
  },
  {
   "property": "C91",
   "status": "partial",
   "theorems": [
    "C91_operands_and_results",
    "C91_symbols",
    "C91_functions_refused",
    "C91_result_types",
    "C91_captured_tensors_refuted"
   ],
   "note": "The code violates part of the English claim; witnesses: C91_captured_tensors_refuted. The other theorems prove the claim under the stated hypotheses."
  },
  {
   "property": "C92",
   "status": "partial",
   "theorems": [
    "C92_literal_is_the_tensor",
    "C92_single_elements_in_place",
    "C92_dtypes_with_literals",
    "C92_blob_names_are_injective",
    "C92_each_literal_is_its_tensor",
    "C92_bool_literals_partial",
    "C92_second_bool_literal_refuted"
   ],
   "note": "The code violates part of the English claim; witnesses: C92_second_bool_literal_refuted. The other theorems prove the claim under the stated hypotheses."
  },
  {
   "property": "C93",
   "status": "partial",
   "theorems": [
    "C93_fused_exactly_when_they_fit",
    "C93_links_and_directories",
    "C93_overlay_read_first",
    "C93_linked_directory_refuted"
   ],
   "note": "The code violates part of the English claim; witnesses: C93_linked_directory_refuted. The other theorems prove the claim under the stated hypotheses."
  },
  {
   "property": "C94",
   "status": "partial",
   "theorems": [
    "C94_operands_reach_their_arguments",
    "C94_counter_declared_when_used",
    "C94_when_there_is_a_body",
    "C94_absent_keyword_refuted"
   ],
   "note": "The code violates part of the English claim; witnesses: C94_absent_keyword_refuted. The other theorems prove the claim under the stated hypotheses."
  },
  {
   "property": "C95",
   "status": "partial",
   "theorems": [
    "C95_generated_operators",
    "C95_composite_operators",
    "C95_supported_operators",
    "C95_skipped_operators",
    "C95_every_operator_is_listed",
    "C95_lists_do_not_overlap",
    "C95_all_functions_found",
    "C95_functions_in_order",
    "C95_generated_and_skipped_refuted",
    "C95_missing_definitions",
    "C95_definitions_checked",
    "C95_unnecessary_definitions",
    "C95_generated_when_changed",
    "C95_what_a_run_changes",
    "C95_stable_after_two_runs",
    "C95_hash_contents",
    "C95_second_run_refuted",
    "C95_native_functions_refuted"
   ],
   "note": "The code violates part of the English claim; witnesses: C95_generated_and_skipped_refuted, C95_second_run_refuted, C95_native_functions_refuted. The other theorems prove the claim under the stated hypotheses."
  },
  {
   "property": "C96",
   "status": "partial",
   "theorems": [
    "C96_add",
    "C96_sub",
    "C96_mul",
    "C96_neg",
    "C96_constants_are_folded",
    "C96_folded_without_two_constants",
    "C96_undefined",
    "C96_max_min",
    "C96_remainder_partial",
    "C96_remainder_refuted",
    "C96_range_length_partial",
    "C96_range_length_refuted",
    "C96_derive_index",
    "C96_booleans",
    "C96_booleans_folded",
    "C96_conversions",
    "C96_comparisons",
    "C96_comparisons_folded",
    "C96_is_none",
    "C96_is_folded",
    "C96_never_undefined",
    "C96_strings",
    "C96_string_length_partial",
    "C96_string_length_refuted"
   ],
   "note": "The code violates part of the English claim; witnesses: C96_remainder_refuted, C96_range_length_refuted, C96_string_length_refuted. The other theorems prove the claim under the stated hypotheses."
  },
  {
   "property": "C97",
   "status": "partial",
   "theorems": [
    "C97_rounding",
    "C97_small_integers_are_doubles",
    "C97_integer_to_double",
    "C97_floordiv_partial",
    "C97_floordiv_refuted",
    "C97_product_quotient",
    "C97_product_quotient_applies",
    "C97_product_quotient_refuted",
    "C97_product_of_products",
    "C97_div_int",
    "C97_truncation",
    "C97_ceiling",
    "C97_special_values",
    "C97_scalar_conversions",
    "C97_bool_float",
    "C97_negation",
    "C97_comparisons_partial",
    "C97_strict_comparisons",
    "C97_comparisons_refuted",
    "C97_comparisons_folded",
    "C97_div_float",
    "C97_div_float_refuted",
    "C97_binary_operations"
   ],
   "note": "The code violates part of the English claim; witnesses: C97_floordiv_refuted, C97_product_quotient_refuted, C97_comparisons_refuted, C97_div_float_refuted. The other theorems prove the claim under the stated hypotheses."
  },
  {
   "property": "C98",
   "status": "partial",
   "theorems": [
    "C98_unchanged_list",
    "C98_aliased_list_refuted",
    "C98_len",
    "C98_getitem",
    "C98_add",
    "C98_mul",
    "C98_unpack",
    "C98_slice_partial",
    "C98_eq_int_list_partial",
    "C98_contains",
    "C98_min_partial",
    "C98_any_all",
    "C98_mutation_refuted",
    "C98_slice_refuted",
    "C98_empty_slice_refuted",
    "C98_applies",
    "C98_constant_lists_apply",
    "C98_tuple_index_partial",
    "C98_tuple_index_refuted",
    "C98_dict_getitem_partial",
    "C98_dict_contains",
    "C98_dict_applies",
    "C98_dict_getitem_refuted"
   ],
   "note": "The code violates part of the English claim; witnesses: C98_aliased_list_refuted, C98_mutation_refuted, C98_slice_refuted, C98_empty_slice_refuted, C98_tuple_index_refuted, C98_dict_getitem_refuted. The other theorems prove the claim under the stated hypotheses."
  },
  {
   "property": "C99",
   "status": "partial",
   "theorems": [
    "C99_slice_partial",
    "C99_slice_refuted",
    "C99_negative_step",
    "C99_slice_is_folded",
    "C99_slice_of_splat",
    "C99_slice_is_operand",
    "C99_slice_answers"
   ],
   "note": "The code violates part of the English claim; witnesses: C99_slice_refuted. The other theorems prove the claim under the stated hypotheses."
  },
  {
   "property": "C100",
   "status": "partial",
   "theorems": [
    "C100_transpose",
    "C100_transpose_is_folded",
    "C100_cat_partial",
    "C100_cat_refuted",
    "C100_cat_answers",
    "C100_cat_pattern",
    "C100_cat_pattern_keeps_elements",
    "C100_cat_pattern_refuted",
    "C100_broadcast",
    "C100_select_partial",
    "C100_select_refuted",
    "C100_select_is_folded",
    "C100_index_select",
    "C100_where_partial",
    "C100_where_refuted",
    "C100_where_is_folded"
   ],
   "note": "The code violates part of the English claim; witnesses: C100_cat_refuted, C100_cat_pattern_refuted, C100_select_refuted, C100_where_refuted. The other theorems prove the claim under the stated hypotheses."
  },
  {
   "property": "C101",
   "status": "partial",
   "theorems": [
    "C101_int_add_sub_partial",
    "C101_int_scalar_partial",
    "C101_int_rsub_mul_partial",
    "C101_int_mul",
    "C101_narrow_refuted",
    "C101_negative_scalar_refuted",
    "C101_int_div_partial",
    "C101_int_div_refuted",
    "C101_int_div_unsigned_partial",
    "C101_remainder_partial",
    "C101_remainder_refuted",
    "C101_float_partial",
    "C101_float_negative_refuted",
    "C101_not_folded"
   ],
   "note": "The code violates part of the English claim; witnesses: C101_narrow_refuted, C101_negative_scalar_refuted, C101_int_div_refuted, C101_remainder_refuted, C101_float_negative_refuted. The other theorems prove the claim under the stated hypotheses."
  },
  {
   "property": "C102",
   "status": "partial",
   "theorems": [
    "C102_compare_partial",
    "C102_compare_refuted",
    "C102_compare_float",
    "C102_compare_mixed_refuted",
    "C102_compare_applies",
    "C102_eq_tensor_partial",
    "C102_eq_tensor_refuted",
    "C102_eq_tensor_applies",
    "C102_item_partial",
    "C102_item_float",
    "C102_item_refuted",
    "C102_item_number",
    "C102_ones_zeros",
    "C102_full_partial",
    "C102_full_refuted",
    "C102_fill_applies",
    "C102_num_to_tensor_partial",
    "C102_num_to_tensor_refuted",
    "C102_rank_zero_partial",
    "C102_rank_zero_refuted",
    "C102_rank_zero_applies",
    "C102_scalar_applies"
   ],
   "note": "The code violates part of the English claim; witnesses: C102_compare_refuted, C102_compare_mixed_refuted, C102_eq_tensor_refuted, C102_item_refuted, C102_full_refuted, C102_num_to_tensor_refuted, C102_rank_zero_refuted. The other theorems prove the claim under the stated hypotheses."
  },
  {
   "property": "C103",
   "status": "partial",
   "theorems": [
    "C103_rewriting_preserves_results_and_effects",
    "C103_rewriting_keeps_well_formed",
    "C103_rewritings_preserve_results_and_effects",
    "C103_members_become_values",
    "C103_rewriting_applies_iff",
    "C103_sharing_of_results_lost_refuted"
   ],
   "note": "The code violates part of the English claim; witnesses: C103_sharing_of_results_lost_refuted. The other theorems prove the claim under the stated hypotheses."
  },
  {
   "property": "C104",
   "status": "partial",
   "theorems": [
    "C104_trees_preserve_results_and_effects_partial",
    "C104_trees_are_slices_partial",
    "C104_view_of_another_tensor_refuted",
    "C104_returned_copy_refuted",
    "C104_returned_view_and_copy_refuted"
   ],
   "note": "The code violates part of the English claim; witnesses: C104_view_of_another_tensor_refuted, C104_returned_copy_refuted, C104_returned_view_and_copy_refuted. The other theorems prove the claim under the stated hypotheses."
  },
  {
   "property": "C105",
   "status": "partial",
   "theorems": [
    "C105_select_is_one_position",
    "C105_select_out_of_range_refuted",
    "C105_narrow_is_consecutive_positions",
    "C105_narrow_of_the_end_refuted",
    "C105_split_is_consecutive_parts",
    "C105_stack_is_stack",
    "C105_atleast_1d_2d",
    "C105_hstack_is_hstack",
    "C105_hstack_of_a_scalar_refuted",
    "C105_column_stack_is_column_stack",
    "C105_roll_is_roll_of_small_shifts",
    "C105_roll_exactly",
    "C105_roll_of_a_large_shift_refuted"
   ],
   "note": "The code violates part of the English claim; witnesses: C105_select_out_of_range_refuted, C105_narrow_of_the_end_refuted, C105_hstack_of_a_scalar_refuted, C105_roll_of_a_large_shift_refuted. The other theorems prove the claim under the stated hypotheses."
  },
  {
   "property": "C106",
   "status": "partial",
   "theorems": [
    "C106_fliplr_flipud",
    "C106_t_is_the_transpose",
    "C106_numpy_t_reverses_the_axes",
    "C106_movedim_moves_one_axis",
    "C106_movedim_refuses_bad_axes",
    "C106_rot90_is_quarter_turns",
    "C106_squeeze_removes_the_named_axes",
    "C106_squeeze_of_a_size_that_is_not_one_fails",
    "C106_squeeze_refuses_the_others",
    "C106_squeeze_named_twice_refuted"
   ],
   "note": "The code violates part of the English claim; witnesses: C106_squeeze_named_twice_refuted. The other theorems prove the claim under the stated hypotheses."
  },
  {
   "property": "C107",
   "status": "partial",
   "theorems": [
    "C107_flatten_is_flatten",
    "C107_flatten_of_an_empty_tensor_refuted",
    "C107_flatten_refuses_axes_in_the_wrong_order",
    "C107_flatten_past_the_end_refuted",
    "C107_unflatten_is_unflatten",
    "C107_unflatten_into_no_elements_refuted",
    "C107_unflatten_unchecked_refuted",
    "C107_pixel_shuffle_is_pixel_shuffle",
    "C107_pixel_shuffle_of_no_channels_refuted",
    "C107_pixel_shuffle_unchecked_refuted",
    "C107_pixel_unshuffle_is_pixel_unshuffle",
    "C107_pixel_unshuffle_of_no_rows_refuted",
    "C107_pixel_unshuffle_undoes_pixel_shuffle",
    "C107_channel_shuffle_uses_the_wrong_groups_refuted",
    "C107_channel_shuffle_partial"
   ],
   "note": "The code violates part of the English claim; witnesses: C107_flatten_of_an_empty_tensor_refuted, C107_flatten_past_the_end_refuted, C107_unflatten_into_no_elements_refuted, C107_unflatten_unchecked_refuted, C107_pixel_shuffle_of_no_channels_refuted, C107_pixel_shuffle_unchecked_refuted, C107_pixel_unshuffle_of_no_rows_refuted, C107_channel_shuffle_uses_the_wrong_groups_refuted. The other theorems prove the claim under the stated hypotheses."
  },
  {
   "property": "C108",
   "status": "partial",
   "theorems": [
    "C108_repeat_is_repeat",
    "C108_repeat_refuses_too_few_repeats",
    "C108_negative_repeat_refuted",
    "C108_tile_is_tile",
    "C108_repeat_interleave_is_repeat_interleave",
    "C108_repeat_interleave_of_a_bad_axis",
    "C108_repeat_indices",
    "C108_repeat_indices_refused",
    "C108_repeat_indices_past_the_end_refuted"
   ],
   "note": "The code violates part of the English claim; witnesses: C108_negative_repeat_refuted, C108_repeat_indices_past_the_end_refuted. The other theorems prove the claim under the stated hypotheses."
  },
  {
   "property": "C109",
   "status": "partial",
   "theorems": [
    "C109_relu6_is_relu6",
    "C109_hardtanh_is_hardtanh",
    "C109_hardsigmoid_is_hardsigmoid",
    "C109_hardswish_is_hardswish",
    "C109_hardswish_of_minus_infinity_refuted",
    "C109_leaky_relu_is_leaky_relu",
    "C109_leaky_relu_backward_partial",
    "C109_leaky_relu_backward_refuted",
    "C109_leaky_relu_backward_of_the_result_is_kept",
    "C109_rrelu_is_rrelu",
    "C109_rrelu_of_a_negative_slope_refuted",
    "C109_rrelu_of_infinity_refuted",
    "C109_rrelu_noise",
    "C109_rrelu_with_noise_partial",
    "C109_rrelu_with_noise_does_not_train_refuted",
    "C109_rrelu_backward_is_rrelu_backward",
    "C109_prelu_of_one_weight_is_prelu",
    "C109_prelu_of_a_matrix_is_prelu",
    "C109_prelu_uses_the_wrong_axis_refuted",
    "C109_prelu_of_an_infinite_weight_refuted",
    "C109_elu_is_elu",
    "C109_celu_is_elu",
    "C109_selu_is_elu",
    "C109_softshrink_partial",
    "C109_softshrink_of_negative_numbers_refuted",
    "C109_hardshrink_is_hardshrink",
    "C109_threshold_is_threshold",
    "C109_nan_is_lost_refuted",
    "C109_shrinks_need_a_constant"
   ],
   "note": "The code violates part of the English claim; witnesses: C109_hardswish_of_minus_infinity_refuted, C109_leaky_relu_backward_refuted, C109_rrelu_of_a_negative_slope_refuted, C109_rrelu_of_infinity_refuted, C109_rrelu_with_noise_does_not_train_refuted, C109_prelu_uses_the_wrong_axis_refuted, C109_prelu_of_an_infinite_weight_refuted, C109_softshrink_of_negative_numbers_refuted, C109_nan_is_lost_refuted. The other theorems prove the claim under the stated hypotheses."
  },
  {
   "property": "C110",
   "status": "partial",
   "theorems": [
    "C110_isnan",
    "C110_isinf",
    "C110_isneginf",
    "C110_isposinf",
    "C110_nan_to_num_is_nan_to_num",
    "C110_nan_to_num_twice_refuted",
    "C110_masked_fill_is_masked_fill",
    "C110_clamp_min_is_clamp_min",
    "C110_clamp_keeps_nan",
    "C110_deg2rad_is_deg2rad",
    "C110_rad2deg_partial",
    "C110_rad2deg_refuted",
    "C110_sgn_is_sgn",
    "C110_trunc_is_trunc",
    "C110_frac_is_frac",
    "C110_fmod_is_fmod",
    "C110_fmod_by_infinity_refuted",
    "C110_fmod_of_integers",
    "C110_heaviside_is_heaviside",
    "C110_fmax_is_fmax",
    "C110_fmin_is_fmin",
    "C110_round_decimals_is_round_decimals",
    "C110_there_is_one_nearest",
    "C110_lerp_is_lerp",
    "C110_addcmul_is_addcmul",
    "C110_addcdiv_is_addcdiv",
    "C110_tanh_backward_is_tanh_backward",
    "C110_tanh_backward_of_infinity_refuted",
    "C110_fake_quantize_is_fake_quantize",
    "C110_fake_quantize_keeps_the_sizes",
    "C110_fake_quantize_of_a_scalar_refuted",
    "C110_signbit_of_floats",
    "C110_signbit_of_integers_reports_failure_refuted",
    "C110_copysign_is_copysign"
   ],
   "note": "The code violates part of the English claim; witnesses: C110_nan_to_num_twice_refuted, C110_rad2deg_refuted, C110_fmod_by_infinity_refuted, C110_tanh_backward_of_infinity_refuted, C110_fake_quantize_of_a_scalar_refuted, C110_signbit_of_integers_reports_failure_refuted. The other theorems prove the claim under the stated hypotheses."
  },
  {
   "property": "C111",
   "status": "partial",
   "theorems": [
    "C111_floors_of_roots",
    "C111_floor_is_unique",
    "C111_triu_lists_the_triangle",
    "C111_tril_lists_the_triangle",
    "C111_triu_when",
    "C111_tril_when",
    "C111_declared_sizes",
    "C111_other_dtype_refuted",
    "C111_declared_dtype_is_always_int64",
    "C111_negative_sizes_refuted"
   ],
   "note": "The code violates part of the English claim; witnesses: C111_other_dtype_refuted, C111_negative_sizes_refuted. The other theorems prove the claim under the stated hypotheses."
  },
  {
   "property": "C112",
   "status": "partial",
   "theorems": [
    "C112_nonzero_lists_the_indices",
    "C112_nonzero_exactly",
    "C112_nonzero_of_rank_0_refuted",
    "C112_compacted_lists_the_positions",
    "C112_masked_scatter_partial",
    "C112_masked_scatter_from_nothing_refuted",
    "C112_masked_scatter_of_a_larger_mask_refuted"
   ],
   "note": "The code violates part of the English claim; witnesses: C112_nonzero_of_rank_0_refuted, C112_masked_scatter_from_nothing_refuted, C112_masked_scatter_of_a_larger_mask_refuted. The other theorems prove the claim under the stated hypotheses."
  },
  {
   "property": "C113",
   "status": "partial",
   "theorems": [
    "C113_einsum_partial",
    "C113_ellipsis_partial",
    "C113_equations_are_read_back",
    "C113_letter_of_three_operands_refuted",
    "C113_without_an_arrow_all_is_summed",
    "C113_without_an_arrow_refuted",
    "C113_last_scalar_operand_refuted",
    "C113_ellipsis_of_no_dimensions",
    "C113_ellipsis_of_no_dimensions_refuted",
    "C113_subscripts_beyond_the_rank",
    "C113_broadcast_of_a_summed_letter_refuted"
   ],
   "note": "The code violates part of the English claim; witnesses: C113_letter_of_three_operands_refuted, C113_without_an_arrow_refuted, C113_last_scalar_operand_refuted, C113_ellipsis_of_no_dimensions_refuted, C113_broadcast_of_a_summed_letter_refuted. The other theorems prove the claim under the stated hypotheses."
  },
  {
   "property": "C114",
   "status": "partial",
   "theorems": [
    "C114_library_literal",
    "C114_library_with_a_backslash_refuted",
    "C114_quote",
    "C114_quote_within_a_text",
    "C114_quotation_mark_refuted",
    "C114_print_keeps_lines",
    "C114_print_ends_the_last_line",
    "C114_print_nothing",
    "C114_documentation_partial",
    "C114_nested_marks_refuted"
   ],
   "note": "The code violates part of the English claim; witnesses: C114_library_with_a_backslash_refuted, C114_quotation_mark_refuted, C114_nested_marks_refuted. The other theorems prove the claim under the stated hypotheses."
  },
  {
   "property": "C115",
   "status": "partial",
   "theorems": [
    "C115_types",
    "C115_types_of_results",
    "C115_dictionaries",
    "C115_types_without_tensors",
    "C115_record_partial",
    "C115_variadic_record_partial",
    "C115_unsupported_types",
    "C115_result_names_partial",
    "C115_result_names_refuted",
    "C115_print_parse",
    "C115_parse_print",
    "C115_number_of_results_refuted"
   ],
   "note": "The code violates part of the English claim; witnesses: C115_result_names_refuted, C115_number_of_results_refuted. The other theorems prove the claim under the stated hypotheses."
  },
  {
   "property": "C116",
   "status": "partial",
   "theorems": [
    "C116_types_with_numbers",
    "C116_types_with_tensors",
    "C116_other_types",
    "C116_devices_and_generators",
    "C116_numbers_beside_tensors_refuted",
    "C116_list_of_devices_refuted",
    "C116_no_default",
    "C116_list_defaults_partial",
    "C116_nested_empty_list_refuted",
    "C116_string_defaults_partial",
    "C116_string_with_an_apostrophe_refuted",
    "C116_string_with_a_quotation_mark_refuted",
    "C116_other_defaults",
    "C116_names",
    "C116_shape_declarations",
    "C116_dtype_declarations",
    "C116_decomposition_declarations"
   ],
   "note": "The code violates part of the English claim; witnesses: C116_numbers_beside_tensors_refuted, C116_list_of_devices_refuted, C116_nested_empty_list_refuted, C116_string_with_an_apostrophe_refuted, C116_string_with_a_quotation_mark_refuted. The other theorems prove the claim under the stated hypotheses."
  },
  {
   "property": "C117",
   "status": "partial",
   "theorems": [
    "C117_arguments",
    "C117_arguments_exist",
    "C117_placeholders",
    "C117_same_dtype",
    "C117_dtypes",
    "C117_when_two_tensors",
    "C117_two_tensors",
    "C117_verdicts_partial",
    "C117_verdicts_decide",
    "C117_verdicts_refuted",
    "C117_keyword_tensors"
   ],
   "note": "The code violates part of the English claim; witnesses: C117_verdicts_refuted. The other theorems prove the claim under the stated hypotheses."
  },
  {
   "property": "C118",
   "status": "partial",
   "theorems": [
    "C118_fresh",
    "C118_export_none",
    "C118_export_path_when",
    "C118_export_path",
    "C118_annotate_args_when",
    "C118_annotate_args",
    "C118_functions",
    "C118_given_arguments",
    "C118_extraction",
    "C118_one_name_refuted"
   ],
   "note": "The code violates part of the English claim; witnesses: C118_one_name_refuted. The other theorems prove the claim under the stated hypotheses."
  },
  {
   "property": "C119",
   "status": "partial",
   "theorems": [
    "C119_scalars",
    "C119_scalars_return",
    "C119_scalars_refuted",
    "C119_types",
    "C119_no_type",
    "C119_options_partial",
    "C119_options_refuted",
    "C119_default_options",
    "C119_values",
    "C119_function_types",
    "C119_type_bounds",
    "C119_type_bounds_refuted",
    "C119_literals",
    "C119_literals_refuted",
    "C119_adjust",
    "C119_adjusted",
    "C119_adjust_all",
    "C119_operation_names",
    "C119_operations",
    "C119_operations_distinct",
    "C119_located",
    "C119_location",
    "C119_location_names",
    "C119_locations_distinguish"
   ],
   "note": "The code violates part of the English claim; witnesses: C119_scalars_refuted, C119_options_refuted, C119_type_bounds_refuted, C119_literals_refuted. The other theorems prove the claim under the stated hypotheses."
  },
  {
   "property": "C120",
   "status": "partial",
   "theorems": [
    "C120_meaning",
    "C120_operands",
    "C120_success",
    "C120_shared_storage",
    "C120_shared_path",
    "C120_classes",
    "C120_functions",
    "C120_zero_refuted",
    "C120_path_refuted"
   ],
   "note": "The code violates part of the English claim; witnesses: C120_zero_refuted, C120_path_refuted. The other theorems prove the claim under the stated hypotheses."
  },
  {
   "property": "C121",
   "status": "partial",
   "theorems": [
    "C121_meaning",
    "C121_types",
    "C121_single",
    "C121_scoped",
    "C121_success",
    "C121_method_calls",
    "C121_function_calls",
    "C121_tuples",
    "C121_tensor_literals",
    "C121_scoped_refuted",
    "C121_conditions_refuted"
   ],
   "note": "The code violates part of the English claim; witnesses: C121_scoped_refuted, C121_conditions_refuted. The other theorems prove the claim under the stated hypotheses."
  },
  {
   "property": "C122",
   "status": "partial",
   "theorems": [
    "C122_meaning",
    "C122_initial",
    "C122_slots",
    "C122_accesses",
    "C122_root",
    "C122_specialisations",
    "C122_accepted",
    "C122_seeds",
    "C122_names",
    "C122_names_refuted",
    "C122_exports_refuted",
    "C122_shared"
   ],
   "note": "The code violates part of the English claim; witnesses: C122_names_refuted, C122_exports_refuted. The other theorems prove the claim under the stated hypotheses."
  },
  {
   "property": "C123",
   "status": "partial",
   "theorems": [
    "C123_copy",
    "C123_copy_tensors",
    "C123_meaning",
    "C123_refused",
    "C123_signature",
    "C123_others",
    "C123_how_far",
    "C123_one_user",
    "C123_changed_refuted"
   ],
   "note": "The code violates part of the English claim; witnesses: C123_changed_refuted. The other theorems prove the claim under the stated hypotheses."
  },
  {
   "property": "C124",
   "status": "partial",
   "theorems": [
    "C124_analysis",
    "C124_chosen",
    "C124_unchanged",
    "C124_same",
    "C124_left",
    "C124_succeeds",
    "C124_order_refuted",
    "C124_yield_refuted"
   ],
   "note": "The code violates part of the English claim; witnesses: C124_order_refuted, C124_yield_refuted. The other theorems prove the claim under the stated hypotheses."
  },
  {
   "property": "C125",
   "status": "partial",
   "theorems": [
    "C125_meaning",
    "C125_done",
    "C125_left",
    "C125_operands",
    "C125_types",
    "C125_names",
    "C125_operators",
    "C125_appended_refuted"
   ],
   "note": "The code violates part of the English claim; witnesses: C125_appended_refuted. The other theorems prove the claim under the stated hypotheses."
  },
  {
   "property": "C126",
   "status": "partial",
   "theorems": [
    "C126_meaning",
    "C126_fails",
    "C126_crashes",
    "C126_removed",
    "C126_alias_refuted",
    "C126_held_refuted",
    "C126_resumed_refuted"
   ],
   "note": "The code violates part of the English claim; witnesses: C126_alias_refuted, C126_held_refuted, C126_resumed_refuted. The other theorems prove the claim under the stated hypotheses."
  },
  {
   "property": "C127",
   "status": "partial",
   "theorems": [
    "C127_constant",
    "C127_constant_applies",
    "C127_agreed",
    "C127_agreed_applies",
    "C127_agreed_once",
    "C127_dead",
    "C127_dead_applies",
    "C127_dead_result",
    "C127_unroll_partial",
    "C127_unroll_applies",
    "C127_break_refuted",
    "C127_outer_refuted",
    "C127_negative_refuted"
   ],
   "note": "The code violates part of the English claim; witnesses: C127_break_refuted, C127_outer_refuted, C127_negative_refuted. The other theorems prove the claim under the stated hypotheses."
  },
  {
   "property": "C128",
   "status": "partial",
   "theorems": [
    "C128_frame",
    "C128_starts",
    "C128_result",
    "C128_succeeds_in_memory",
    "C128_rejected",
    "C128_too_big",
    "C128_temp_removed_partial",
    "C128_main",
    "C128_temp_left_refuted",
    "C128_input_deleted_refuted",
    "C128_subgraph_refuted"
   ],
   "note": "The code violates part of the English claim; witnesses: C128_temp_left_refuted, C128_input_deleted_refuted, C128_subgraph_refuted. The other theorems prove the claim under the stated hypotheses."
  },
  {
   "property": "C129",
   "status": "partial",
   "theorems": [
    "C129_sorted_set",
    "C129_order",
    "C129_ts_options",
    "C129_fx_options",
    "C129_space_refuted",
    "C129_raw",
    "C129_lowering",
    "C129_dynamo",
    "C129_dynamo_pipelines",
    "C129_dynamo_ignores_refuted",
    "C129_dynamo_always",
    "C129_export_and_import",
    "C129_stateless",
    "C129_scalarize",
    "C129_empty_tuple",
    "C129_output_assertion",
    "C129_whitespace",
    "C129_trim",
    "C129_report_partial",
    "C129_report_refuted",
    "C129_report_stderr",
    "C129_message"
   ],
   "note": "The code violates part of the English claim; witnesses: C129_space_refuted, C129_dynamo_ignores_refuted, C129_report_refuted. The other theorems prove the claim under the stated hypotheses."
  },
  {
   "property": "C130",
   "status": "partial",
   "theorems": [
    "C130_permute",
    "C130_permute_sound",
    "C130_permute_complete",
    "C130_cross",
    "C130_cross_sound_partial",
    "C130_cross_sound_refuted",
    "C130_cross_complete",
    "C130_kthvalue",
    "C130_kthvalue_sound",
    "C130_kthvalue_complete",
    "C130_scalar_refuted",
    "C130_norm",
    "C130_norm_refuted",
    "C130_renorm",
    "C130_renorm_sound",
    "C130_renorm_complete_partial",
    "C130_renorm_nan_refuted",
    "C130_rot90",
    "C130_rot90_sound",
    "C130_rot90_refuted",
    "C130_count_nonzero",
    "C130_count_nonzero_list",
    "C130_count_nonzero_list_refuted",
    "C130_tri_indices",
    "C130_tri_indices_sound",
    "C130_tri_indices_complete"
   ],
   "note": "The code violates part of the English claim; witnesses: C130_cross_sound_refuted, C130_scalar_refuted, C130_norm_refuted, C130_renorm_nan_refuted, C130_rot90_refuted, C130_count_nonzero_list_refuted. The other theorems prove the claim under the stated hypotheses."
  },
  {
   "property": "C131",
   "status": "partial",
   "theorems": [
    "C131_class",
    "C131_method",
    "C131_nn_module",
    "C131_lookup",
    "C131_nn_module_symbols",
    "C131_children",
    "C131_list",
    "C131_dict",
    "C131_initializer_partial",
    "C131_notes",
    "C131_initializer_refuted",
    "C131_initialize",
    "C131_bind",
    "C131_bind_total",
    "C131_bind_refuted",
    "C131_arg_attribute"
   ],
   "note": "The code violates part of the English claim; witnesses: C131_initializer_refuted, C131_bind_refuted. The other theorems prove the claim under the stated hypotheses."
  },
  {
   "property": "C132",
   "status": "partial",
   "theorems": [
    "C132_select_scatter_partial",
    "C132_select_scatter_last_refuted",
    "C132_scatter_read_back",
    "C132_scatter_unchanged",
    "C132_scatter_elsewhere",
    "C132_glu",
    "C132_eye_m",
    "C132_eye",
    "C132_one_hot_partial",
    "C132_one_hot_class_refuted",
    "C132_one_hot_inferred_refuted",
    "C132_diag_matrix",
    "C132_diag_vector",
    "C132_diag_applies",
    "C132_diagonal_dims",
    "C132_diag_embed_dims",
    "C132_trace"
   ],
   "note": "The code violates part of the English claim; witnesses: C132_select_scatter_last_refuted, C132_one_hot_class_refuted, C132_one_hot_inferred_refuted. The other theorems prove the claim under the stated hypotheses."
  },
  {
   "property": "C133",
   "status": "partial",
   "theorems": [
    "C133_pool2d_covers",
    "C133_pool2d_outputs_partial",
    "C133_pool2d_supported",
    "C133_pool2d_zero_stride_refuted",
    "C133_pool2d_zero_stride_only",
    "C133_pool2d_empty",
    "C133_pool1d_partial",
    "C133_pool1d_window",
    "C133_pool1d_outcome",
    "C133_pool1d_strict_refuted",
    "C133_conv_paddings",
    "C133_conv_outcome",
    "C133_conv_same_partial",
    "C133_conv_same_odd_refuted",
    "C133_conv_mode_refuted",
    "C133_pad_reflect_replicate",
    "C133_pad_least",
    "C133_pad_undefined",
    "C133_pad_constant",
    "C133_pad_refused"
   ],
   "note": "The code violates part of the English claim; witnesses: C133_pool2d_zero_stride_refuted, C133_pool1d_strict_refuted, C133_conv_same_odd_refuted, C133_conv_mode_refuted. The other theorems prove the claim under the stated hypotheses."
  },
  {
   "property": "C134",
   "status": "partial",
   "theorems": [
    "C134_new_indices_values",
    "C134_new_indices_shape",
    "C134_consecutive",
    "C134_index_slots",
    "C134_permuted_order",
    "C134_index_accepted",
    "C134_gap_refused",
    "C134_put_masks_partial",
    "C134_put_used",
    "C134_put_refused",
    "C134_put_missing_refuted",
    "C134_put_mismatch_refuted"
   ],
   "note": "The code violates part of the English claim; witnesses: C134_put_missing_refuted, C134_put_mismatch_refuted. The other theorems prove the claim under the stated hypotheses."
  },
  {
   "property": "C135",
   "status": "partial",
   "theorems": [
    "C135_refused",
    "C135_keepdim",
    "C135_same_sign_partial",
    "C135_all_axes",
    "C135_aminmax",
    "C135_mixed_signs_refuted",
    "C135_mixed_signs_error_refuted"
   ],
   "note": "The code violates part of the English claim; witnesses: C135_mixed_signs_refuted, C135_mixed_signs_error_refuted. The other theorems prove the claim under the stated hypotheses."
  },
  {
   "property": "C136",
   "status": "partial",
   "theorems": [
    "C136_bucketize",
    "C136_bucket_unique",
    "C136_bucketize_fails",
    "C136_no_boundaries_refuted",
    "C136_argmax_vec",
    "C136_argmin_vec",
    "C136_argmax_all",
    "C136_flatten_size",
    "C136_flatten_size_unknown"
   ],
   "note": "The code violates part of the English claim; witnesses: C136_no_boundaries_refuted. The other theorems prove the claim under the stated hypotheses."
  },
  {
   "property": "C137",
   "status": "partial",
   "theorems": [
    "C137_topk",
    "C137_topk_refused",
    "C137_topk_range_refuted",
    "C137_argsort",
    "C137_argsort_permutation"
   ],
   "note": "The code violates part of the English claim; witnesses: C137_topk_range_refuted. The other theorems prove the claim under the stated hypotheses."
  },
  {
   "property": "C138",
   "status": "proved",
   "theorems": [
    "C138_loops",
    "C138_suppressed",
    "C138_common_exists",
    "C138_nms",
    "C138_first_kept"
   ],
   "note": ""
  }
 ]
}