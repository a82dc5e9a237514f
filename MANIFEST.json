{
 "claims": [
  {
   "property": "C01",
   "status": "proved",
   "theorems": [
    "C01_eval_returns_values",
    "C01_eval_only_values",
    "C01_value_unique",
    "C01_other_targets_irrelevant",
    "C01_builder_calls"
   ],
   "note": ""
  },
  {
   "property": "C02",
   "status": "proved",
   "theorems": [
    "C02_once_in_order_needed",
    "C02_sequential_execution"
   ],
   "note": ""
  },
  {
   "property": "C03",
   "status": "proved",
   "theorems": [
    "C03_terminates",
    "C03_fuel_irrelevant",
    "C03_cycle_never_returns",
    "C03_depends_on_cycle_diverges"
   ],
   "note": ""
  },
  {
   "property": "C04",
   "status": "proved",
   "theorems": [
    "C04_failures_propagate_exactly",
    "C04_debug_error_needs_output"
   ],
   "note": ""
  },
  {
   "property": "C05",
   "status": "proved",
   "theorems": [
    "C05_placeholder_value",
    "C05_placeholder_operand",
    "C05_other_feeds_irrelevant",
    "C05_set_feeder",
    "C05_placeholder_creation"
   ],
   "note": ""
  },
  {
   "property": "C06",
   "status": "proved",
   "theorems": [
    "C06_variables"
   ],
   "note": ""
  },
  {
   "property": "C07",
   "status": "proved",
   "theorems": [
    "C07_repeated_computed_target_panics",
    "C07_repeated_sources_fine"
   ],
   "note": ""
  },
  {
   "property": "C08",
   "status": "proved",
   "theorems": [
    "C08_builder_chain",
    "C08_builder_panics",
    "C08_functions",
    "C08_attached_shapes",
    "C08_reshaping",
    "C08_gradient_tensors",
    "C08_fresh_tensor",
    "C08_existing_unchanged",
    "C08_inputs_older_and_acyclic",
    "C08_always_well_formed",
    "C08_depends_on_breaks_order_refuted"
   ],
   "note": ""
  },
  {
   "property": "C09",
   "status": "proved",
   "theorems": [
    "C09_same_tensor",
    "C09_injective",
    "C09_at_most_one",
    "C09_clear"
   ],
   "note": ""
  },
  {
   "property": "C10",
   "status": "proved",
   "theorems": [
    "C10_depends_on_order",
    "C10_depends_on_values",
    "C10_first_operand_gradient_dropped",
    "C10_gradient_changes_refuted"
   ],
   "note": ""
  },
  {
   "property": "C11",
   "status": "proved",
   "theorems": [
    "C11_gradient_is_path_sum",
    "C11_path_sum_unique",
    "C11_gradient_exists",
    "C11_no_output_panics"
   ],
   "note": ""
  },
  {
   "property": "C12",
   "status": "proved",
   "theorems": [
    "C12_grad_is_derivative",
    "C12_grad_with_default_is_derivative",
    "C12_second_derivative",
    "C12_evaluated_gradient",
    "C12_values_are_evaluated"
   ],
   "note": ""
  },
  {
   "property": "C13",
   "status": "proved",
   "theorems": [
    "C13_rules_called_once_in_order",
    "C13_terminates"
   ],
   "note": ""
  },
  {
   "property": "C14",
   "status": "proved",
   "theorems": [
    "C14_unreached_gives_zeros",
    "C14_starved_target_panics"
   ],
   "note": ""
  },
  {
   "property": "C15",
   "status": "proved",
   "theorems": [
    "C15_intermediate_target_refuted",
    "C15_repeated_target_refuted",
    "C15_repeated_output_refuted"
   ],
   "note": ""
  },
  {
   "property": "C16",
   "status": "proved",
   "theorems": [
    "C16_gradients_only_append",
    "C16_values_unchanged"
   ],
   "note": ""
  },
  {
   "property": "C17",
   "status": "proved",
   "theorems": [
    "C17_identity_forward",
    "C17_never_on_a_path",
    "C17_behind_stop_gets_zeros"
   ],
   "note": ""
  },
  {
   "property": "C18",
   "status": "proved",
   "theorems": [
    "C18_left_operand",
    "C18_right_operand",
    "C18_second_order",
    "C18_gradient_unique",
    "C18_unequal_rank_panics",
    "C18_unequal_rank_refuted",
    "C18_empty_axis_refuted"
   ],
   "note": ""
  },
  {
   "property": "C19",
   "status": "proved",
   "theorems": [
    "C19_elementwise",
    "C19_commutative",
    "C19_incompatible_shapes",
    "C19_one_element_divisor",
    "C19_static_shape"
   ],
   "note": ""
  },
  {
   "property": "C20",
   "status": "proved",
   "theorems": [
    "C20_unary_rules",
    "C20_binary_rules",
    "C20_forward_functions",
    "C20_maximum_tie_refuted"
   ],
   "note": ""
  },
  {
   "property": "C21",
   "status": "proved",
   "theorems": [
    "C21_lookup_by_id",
    "C21_lookup_by_name",
    "C21_registration_is_local",
    "C21_namespace_listing",
    "C21_variable_tensors"
   ],
   "note": ""
  },
  {
   "property": "C22",
   "status": "proved",
   "theorems": [
    "C22_round_trip",
    "C22_initialize",
    "C22_any_names",
    "C22_separator_refuted",
    "C22_non_finite_refuted"
   ],
   "note": ""
  },
  {
   "property": "C23",
   "status": "proved",
   "theorems": [
    "C23_failed_load_keeps_environment",
    "C23_crash_during_save",
    "C23_atomic_save_refuted",
    "C23_create_fails",
    "C23_bad_file_panics",
    "C23_dangling_identifier_refuted"
   ],
   "note": ""
  },
  {
   "property": "C24",
   "status": "proved",
   "theorems": [
    "C24_single_parameter_update",
    "C24_sgd_training",
    "C24_momentum_training"
   ],
   "note": ""
  },
  {
   "property": "C25",
   "status": "proved",
   "theorems": [
    "C25_adagrad_training",
    "C25_adam_training",
    "C25_divisions_proper"
   ],
   "note": ""
  },
  {
   "property": "C26",
   "status": "proved",
   "theorems": [
    "C26_simultaneous_when_shared",
    "C26_simultaneous_returns",
    "C26_simultaneous_refuted"
   ],
   "note": ""
  },
  {
   "property": "C27",
   "status": "proved",
   "theorems": [
    "C27_reduces",
    "C27_sparse_axes",
    "C27_gradient",
    "C27_sum_all",
    "C27_duplicate_axes",
    "C27_empty_vector_refuted",
    "C27_axis_too_large"
   ],
   "note": ""
  },
  {
   "property": "C28",
   "status": "proved",
   "theorems": [
    "C28_expected",
    "C28_flag_inverted"
   ],
   "note": ""
  },
  {
   "property": "C29",
   "status": "proved",
   "theorems": [
    "C29_concat",
    "C29_concat_determined",
    "C29_split_after_concat",
    "C29_concat_after_split",
    "C29_negative_axis_panics",
    "C29_expected_gradient",
    "C29_computed_gradient",
    "C29_first_operand",
    "C29_later_operands_refuted"
   ],
   "note": ""
  },
  {
   "property": "C30",
   "status": "proved",
   "theorems": [
    "C30_slice",
    "C30_slice_gradient",
    "C30_split",
    "C30_split_gradient"
   ],
   "note": ""
  },
  {
   "property": "C31",
   "status": "proved",
   "theorems": [
    "C31_gather",
    "C31_gradient",
    "C31_negative_axis_gradient_panics",
    "C31_index_minus_one_gradient_panics",
    "C31_no_indices_panics"
   ],
   "note": ""
  },
  {
   "property": "C32",
   "status": "proved",
   "theorems": [
    "C32_tile",
    "C32_gradient_unit_axis",
    "C32_gradient_refuted"
   ],
   "note": ""
  },
  {
   "property": "C33",
   "status": "proved",
   "theorems": [
    "C33_reshape",
    "C33_reshape_only",
    "C33_reshape_gradient",
    "C33_flatten",
    "C33_expand_dims",
    "C33_squeeze",
    "C33_squeeze_after_expand",
    "C33_expand_dims_gradient",
    "C33_squeeze_gradient",
    "C33_expand_negative_axis_refuted",
    "C33_squeeze_negative_axis",
    "C33_squeeze_two_negative_axes_refuted"
   ],
   "note": ""
  },
  {
   "property": "C34",
   "status": "proved",
   "theorems": [
    "C34_transpose",
    "C34_gradient",
    "C34_not_a_permutation"
   ],
   "note": ""
  },
  {
   "property": "C35",
   "status": "proved",
   "theorems": [
    "C35_product",
    "C35_mismatch",
    "C35_not_matrices",
    "C35_gradients",
    "C35_transposed_left",
    "C35_transposed_right",
    "C35_transposed_square_refuted"
   ],
   "note": ""
  },
  {
   "property": "C36",
   "status": "proved",
   "theorems": [
    "C36_softmax",
    "C36_distribution",
    "C36_shift_invariant",
    "C36_no_overflow",
    "C36_gradient",
    "C36_log_softmax",
    "C36_log_softmax_gradient",
    "C36_log_softmax_vector_panics",
    "C36_log_softmax_other_axis_refuted"
   ],
   "note": ""
  },
  {
   "property": "C37",
   "status": "proved",
   "theorems": [
    "C37_value",
    "C37_columns",
    "C37_channels",
    "C37_transposed_value",
    "C37_adjoint"
   ],
   "note": ""
  },
  {
   "property": "C38",
   "status": "proved",
   "theorems": [
    "C38_shape",
    "C38_checked_padding_panics",
    "C38_inexact_stride_refuted"
   ],
   "note": ""
  },
  {
   "property": "C39",
   "status": "proved",
   "theorems": [
    "C39_conv2d",
    "C39_conv2d_transpose",
    "C39_im2col_batch",
    "C39_conv2d_with_cols"
   ],
   "note": ""
  },
  {
   "property": "C40",
   "status": "proved",
   "theorems": [
    "C40_value",
    "C40_nothing_above_lowest",
    "C40_gradient_routes",
    "C40_gradient",
    "C40_second_order",
    "C40_padding_panics",
    "C40_padding_wraps",
    "C40_inexact_gradient_wrong",
    "C40_inexact_out_of_bounds_refuted",
    "C40_oversize_panics",
    "C40_f32_positions_refuted"
   ],
   "note": ""
  },
  {
   "property": "C41",
   "status": "proved",
   "theorems": [
    "C41_sum",
    "C41_gradient"
   ],
   "note": ""
  },
  {
   "property": "C42",
   "status": "proved",
   "theorems": [
    "C42_setdiff1d",
    "C42_integer_tensors",
    "C42_fractions_refuted"
   ],
   "note": ""
  },
  {
   "property": "C43",
   "status": "proved",
   "theorems": [
    "C43_argmax_first_axis",
    "C43_argmin_first_axis",
    "C43_argmax_rows",
    "C43_argmin_rows",
    "C43_higher_rank_panics",
    "C43_last_axis_refuted"
   ],
   "note": ""
  },
  {
   "property": "C44",
   "status": "proved",
   "theorems": [
    "C44_clip",
    "C44_gradient",
    "C44_on_the_bound"
   ],
   "note": ""
  },
  {
   "property": "C45",
   "status": "proved",
   "theorems": [
    "C45_state_registered",
    "C45_unknown_parameter",
    "C45_private_per_optimizer_refuted"
   ],
   "note": ""
  },
  {
   "property": "C46",
   "status": "proved",
   "theorems": [
    "C46_access_elem",
    "C46_out_of_range",
    "C46_gradient"
   ],
   "note": ""
  },
  {
   "property": "C47",
   "status": "proved",
   "theorems": [
    "C47_tensordot",
    "C47_mismatch"
   ],
   "note": ""
  },
  {
   "property": "C48",
   "status": "proved",
   "theorems": [
    "C48_product",
    "C48_gradients",
    "C48_matrices_panic",
    "C48_inner_dimension_unchecked",
    "C48_transposed_batches_refuted",
    "C48_copied_operand_refuted"
   ],
   "note": ""
  },
  {
   "property": "C49",
   "status": "proved",
   "theorems": [
    "C49_value",
    "C49_gradient",
    "C49_first_axis_dropped",
    "C49_second_axis_dropped_panics",
    "C49_second_axis_dropped_refuted"
   ],
   "note": ""
  },
  {
   "property": "C50",
   "status": "proved",
   "theorems": [
    "C50_sigmoid",
    "C50_sigmoid_shapes_differ",
    "C50_sigmoid_gradient",
    "C50_sigmoid_label_gradient_wrong",
    "C50_softmax",
    "C50_softmax_gradient_one_row",
    "C50_softmax_gradient_panics",
    "C50_softmax_gradient_square",
    "C50_softmax_gradient_refuted",
    "C50_softmax_label_gradient_refuted",
    "C50_sparse",
    "C50_sparse_bad_label"
   ],
   "note": ""
  },
  {
   "property": "C51",
   "status": "proved",
   "theorems": [
    "C51_image_gradient",
    "C51_filter_gradient",
    "C51_inexact_image_gradient_wrong",
    "C51_empty_batch_uninitialised",
    "C51_empty_batch_refuted"
   ],
   "note": ""
  },
  {
   "property": "C52",
   "status": "proved",
   "theorems": [
    "C52_input_gradient",
    "C52_filter_gradient",
    "C52_tall_filter_gradient_fails",
    "C52_wide_filter_gradient",
    "C52_wide_filter_gradient_refuted"
   ],
   "note": ""
  },
  {
   "property": "C53",
   "status": "proved",
   "theorems": [
    "C53_filter_gradient_of_image",
    "C53_filter_gradient_of_gradient",
    "C53_with_cols_filter_gradient",
    "C53_transposed_filter_gradient"
   ],
   "note": ""
  },
  {
   "property": "C54",
   "status": "proved",
   "theorems": [
    "C54_grad_is_vjp",
    "C54_grad_with_default_is_vjp",
    "C54_evaluated_gradient",
    "C54_values_are_evaluated"
   ],
   "note": ""
  },
  {
   "property": "C55",
   "status": "proved",
   "theorems": [
    "C55_values",
    "C55_gradient",
    "C55_normalized_moments",
    "C55_mean_of_many_elements_refuted"
   ],
   "note": ""
  },
  {
   "property": "C56",
   "status": "proved",
   "theorems": [
    "C56_hessian_vector_product",
    "C56_matmul_refuted",
    "C56_elu_refuted",
    "C56_reduce_sum_refuted",
    "C56_access_elem_panics",
    "C56_maximum_panics"
   ],
   "note": ""
  },
  {
   "property": "C57",
   "status": "proved",
   "theorems": [
    "C57_random_array",
    "C57_train",
    "C57_test",
    "C57_test_is_mean_of_train",
    "C57_gradient",
    "C57_test_mode_gradient_refuted",
    "C57_masks_repeat",
    "C57_mask_gradient_refuted",
    "C57_glorot_refuted"
   ],
   "note": ""
  },
  {
   "property": "C58",
   "status": "proved",
   "theorems": [
    "C58_passes_iff_close",
    "C58_passing_bounds_error",
    "C58_exact_gradients_pass",
    "C58_unpaired_variables_unchecked",
    "C58_nan_gradients_refuted",
    "C58_layout_refuted",
    "C58_accepts_grad"
   ],
   "note": ""
  },
  {
   "property": "C59",
   "status": "proved",
   "theorems": [
    "C59_jacobians",
    "C59_entries",
    "C59_evaluated",
    "C59_empty_objective",
    "C59_flatten_gradient_refuted"
   ],
   "note": ""
  },
  {
   "property": "C60",
   "status": "proved",
   "theorems": [
    "C60_traversal_safe",
    "C60_as_if_copied",
    "C60_hidden_outputs_dangle_refuted"
   ],
   "note": ""
  },
  {
   "property": "C61",
   "status": "proved",
   "theorems": [
    "C61_hook_value",
    "C61_hook_calls",
    "C61_map_value",
    "C61_assign",
    "C61_assign_arrays",
    "C61_map_debug_panics",
    "C61_map_left_out",
    "C61_hook_gradient",
    "C61_map_gradient_refuted"
   ],
   "note": ""
  },
  {
   "property": "C62",
   "status": "proved",
   "theorems": [
    "C62_float_shapes_agree",
    "C62_exact_range",
    "C62_large_dimensions_refuted"
   ],
   "note": ""
  },
  {
   "property": "C63",
   "status": "proved",
   "theorems": [
    "C63_total_derivative",
    "C63_step_uses_gradients",
    "C63_step_decreases_loss",
    "C63_step_returns"
   ],
   "note": ""
  },
  {
   "property": "C64",
   "status": "proved",
   "theorems": [
    "C64_guards_out_of_the_way",
    "C64_conflict_panics",
    "C64_own_borrows_never_conflict",
    "C64_exclusive_views_refuted",
    "C64_live_updates",
    "C64_adagrad_accumulator_refuted"
   ],
   "note": ""
  },
  {
   "property": "C65",
   "status": "proved",
   "theorems": [
    "C65_loss",
    "C65_gradients",
    "C65_step_decreases_loss"
   ],
   "note": ""
  },
  {
   "property": "C66",
   "status": "proved",
   "theorems": [
    "C66_softmax",
    "C66_softmax_special",
    "C66_logsumexp",
    "C66_log_softmax",
    "C66_sparse_xent",
    "C66_sigmoid",
    "C66_sigmoid_xent",
    "C66_sigmoid_xent_gradient",
    "C66_sigmoid_xent_gradient_refuted",
    "C66_softplus",
    "C66_softplus_refuted",
    "C66_relu_nan_refuted",
    "C66_relu",
    "C66_elu"
   ],
   "note": ""
  },
  {
   "property": "C67",
   "status": "proved",
   "theorems": [
    "C67_grad_is_vjp",
    "C67_total_derivative",
    "C67_evaluated_gradient",
    "C67_attached_shape_refuted",
    "C67_step_uses_gradients",
    "C67_step_decreases_loss",
    "C67_step_returns"
   ],
   "note": ""
  },
  {
   "property": "C68",
   "status": "proved",
   "theorems": [
    "C68_step_decreases_loss",
    "C68_loss",
    "C68_gradients"
   ],
   "note": ""
  },
  {
   "property": "C69",
   "status": "proved",
   "theorems": [
    "C69_adagrad_not_nan",
    "C69_adagrad_frozen",
    "C69_adam_counter",
    "C69_adam_not_nan",
    "C69_adam_frozen",
    "C69_sgd_absorbed",
    "C69_sgd_rounded",
    "C69_adagrad_rounded",
    "C69_adam_rounded"
   ],
   "note": ""
  },
  {
   "property": "C70",
   "status": "proved",
   "theorems": [
    "C70_product",
    "C70_same_as_without",
    "C70_overlapping_rows_refuted",
    "C70_batch_product",
    "C70_batch_copied",
    "C70_copied_with_transposed_refuted",
    "C70_batch_mismatch",
    "C70_batch_vector_panics",
    "C70_batch_vector_gradient_panics",
    "C70_unit_axis_refuted",
    "C70_unit_axis_gradients_refuted",
    "C70_convolution_calls"
   ],
   "note": ""
  },
  {
   "property": "C71",
   "status": "proved",
   "theorems": [
    "C71_standard_layout",
    "C71_transposition_lost",
    "C71_transposed_refuted",
    "C71_large_operands_unset"
   ],
   "note": ""
  },
  {
   "property": "C72",
   "status": "proved",
   "theorems": [
    "C72_alone_is_update",
    "C72_joint_evaluation",
    "C72_joint_returns",
    "C72_needs_a_parameter",
    "C72_requested_before_sees_old_refuted"
   ],
   "note": ""
  },
  {
   "property": "C73",
   "status": "proved",
   "theorems": [
    "C73_is_grad_of_reached_variables",
    "C73_gradients",
    "C73_gradients_with_lookups",
    "C73_needs_a_loss"
   ],
   "note": ""
  },
  {
   "property": "C74",
   "status": "proved",
   "theorems": [
    "C74_grad_returns_iff",
    "C74_grad_panics_iff",
    "C74_grad_returns_iff_with_lookups",
    "C74_grad_helper_returns_iff",
    "C74_evaluation_returns",
    "C74_gradients_total",
    "C74_gradients_total_with_lookups",
    "C74_gradient_of_floor_panics"
   ],
   "note": ""
  },
  {
   "property": "C75",
   "status": "proved",
   "theorems": [
    "C75_identifiers",
    "C75_variable_by_name",
    "C75_array_by_name",
    "C75_listing",
    "C75_same_places",
    "C75_slot_destinations",
    "C75_tensors_by_id"
   ],
   "note": ""
  },
  {
   "property": "C76",
   "status": "proved",
   "theorems": [
    "C76_views_agree",
    "C76_expand_dims",
    "C76_access_elem",
    "C76_access_elem_refuted",
    "C76_reduce_gradient",
    "C76_sum_then_transpose_panics",
    "C76_gather",
    "C76_gather_refuted",
    "C76_gather_gradient",
    "C76_gather_gradient_refuted",
    "C76_setdiff1d",
    "C76_argmax",
    "C76_argmax_refuted",
    "C76_conv2d_transpose_filter",
    "C76_conv2d_transpose_filter_refuted"
   ],
   "note": ""
  },
  {
   "property": "C77",
   "status": "proved",
   "theorems": [
    "C77_evaluation_right",
    "C77_evaluation_returns",
    "C77_gradients_total",
    "C77_gradients_total_with_lookups",
    "C77_access_of_transposed_refuted"
   ],
   "note": ""
  },
  {
   "property": "C78",
   "status": "proved",
   "theorems": [
    "C78_value",
    "C78_usable",
    "C78_gradient"
   ],
   "note": ""
  },
  {
   "property": "C79",
   "status": "proved",
   "theorems": [
    "C79_stream",
    "C79_dropout",
    "C79_default_generators_repeat",
    "C79_epochs_repeat"
   ],
   "note": ""
  },
  {
   "property": "C80",
   "status": "proved",
   "theorems": [
    "C80_accuracy",
    "C80_flat_labels",
    "C80_probabilities"
   ],
   "note": ""
  },
  {
   "property": "C81",
   "status": "proved",
   "theorems": [
    "C81_nth_tensor",
    "C81_nth_of_leaf",
    "C81_sparse_cross_entropy",
    "C81_convolution",
    "C81_max_pool",
    "C81_cross_entropy_one_row",
    "C81_cross_entropy_rows_panic",
    "C81_errors"
   ],
   "note": ""
  },
  {
   "property": "C82",
   "status": "proved",
   "theorems": [
    "C82_tensors_added",
    "C82_gradients_linear",
    "C82_gradients_linear_with_lookups",
    "C82_operations_run"
   ],
   "note": ""
  },
  {
   "property": "C83",
   "status": "proved",
   "theorems": [
    "C83_sparse_label_gradient",
    "C83_dense_label_gradient",
    "C83_convolution",
    "C83_max_pool"
   ],
   "note": ""
  },
  {
   "property": "C84",
   "status": "proved",
   "theorems": [
    "C84_debug_build",
    "C84_array_graphs",
    "C84_pieces_refuted",
    "C84_alone_panics",
    "C84_entropy_refuted"
   ],
   "note": ""
  },
  {
   "property": "C85",
   "status": "proved",
   "theorems": [
    "C85_loss",
    "C85_gradients",
    "C85_step_decreases_loss"
   ],
   "note": ""
  },
  {
   "property": "C86",
   "status": "proved",
   "theorems": [
    "C86_gradients",
    "C86_tall_batches",
    "C86_wide_batches_refuted"
   ],
   "note": ""
  },
  {
   "property": "C87",
   "status": "proved",
   "theorems": [
    "C87_every_order"
   ],
   "note": ""
  },
  {
   "property": "C88",
   "status": "proved",
   "theorems": [
    "C88_max_pool_third_order_lost"
   ],
   "note": ""
  },
  {
   "property": "C89",
   "status": "proved",
   "theorems": [
    "C89_lgamma_gradient",
    "C89_digamma_gradient_lost"
   ],
   "note": ""
  }
 ]
}