{
 "claims": [
  {
   "property": "C01",
   "status": "proved",
   "theorems": [
    "C01_new_accepts",
    "C01_new_panics_otherwise",
    "C01_new_result",
    "C01_equality",
    "C01_new_without_checks",
    "C01_equality_without_checks"
   ],
   "note": ""
  },
  {
   "property": "C02",
   "status": "proved",
   "theorems": [
    "C02_resize_histories",
    "C02_resize_one_dim",
    "C02_reachable_iff_consistent",
    "C02_histories_without_checks",
    "C02_same_without_checks",
    "C02_release_refuted"
   ],
   "note": ""
  },
  {
   "property": "C03",
   "status": "proved",
   "theorems": [
    "C03_lower_volume",
    "C03_lower_volume_without_checks"
   ],
   "note": ""
  },
  {
   "property": "C04",
   "status": "proved",
   "theorems": [
    "C04_has_same_dims",
    "C04_has_same_loo_dims",
    "C04_compatible_batch",
    "C04_is_scalar",
    "C04_is_column_vector",
    "C04_is_matrix"
   ],
   "note": ""
  },
  {
   "property": "C05",
   "status": "proved",
   "theorems": [
    "C05_elementwise",
    "C05_scalar_op",
    "C05_matmul",
    "C05_transpose",
    "C05_matmul_without_checks",
    "C05_transpose_any_build"
   ],
   "note": ""
  },
  {
   "property": "C06",
   "status": "proved",
   "theorems": [
    "C06_broadcast",
    "C06_slice",
    "C06_pick",
    "C06_concat",
    "C06_batch_slice",
    "C06_batch_pick",
    "C06_batch_concat",
    "C06_slice_any_build",
    "C06_pick_any_build",
    "C06_broadcast_without_checks",
    "C06_concat_without_checks",
    "C06_batch_concat_without_checks",
    "C06_release_refuted"
   ],
   "note": ""
  },
  {
   "property": "C07",
   "status": "proved",
   "theorems": [
    "C07_roundtrip",
    "C07_deserialize_consistent",
    "C07_deserialize_without_checks",
    "C07_release_refuted"
   ],
   "note": ""
  },
  {
   "property": "C08",
   "status": "proved",
   "theorems": [
    "C08_new_without_checks",
    "C08_resize_without_checks",
    "C08_same_without_checks",
    "C08_counts_exact_debug",
    "C08_volume_release_refuted",
    "C08_size_release_refuted"
   ],
   "note": "With overflow checks: C08_counts_exact_debug. Without: C08_same_without_checks, C08_new_without_checks, C08_resize_without_checks (exact modulo 2^32, and when that is the count); C08_*_release_refuted are witnesses that the naive claim fails."
  },
  {
   "property": "C09",
   "status": "proved",
   "theorems": [
    "C09_size_class",
    "C09_accepts",
    "C09_shift_is_log2_up"
   ],
   "note": ""
  },
  {
   "property": "C10",
   "status": "proved",
   "theorems": [
    "C10_recycled_big_enough"
   ],
   "note": ""
  },
  {
   "property": "C11",
   "status": "proved",
   "theorems": [
    "C11_one_owner",
    "C11_returned_is_new_owner"
   ],
   "note": ""
  },
  {
   "property": "C12",
   "status": "proved",
   "theorems": [
    "C12_conservation",
    "C12_free_exactly_once",
    "C12_never_frees_twice_or_owned",
    "C12_poisoned_only_by_misuse"
   ],
   "note": ""
  },
  {
   "property": "C13",
   "status": "proved",
   "theorems": [
    "C13_double_drop_detected",
    "C13_owned_drop_returns",
    "C13_pool_unusable_afterwards"
   ],
   "note": "Proved as stated; additionally C13_pool_unusable_afterwards shows that the panic poisons the mem_shift mutex so every later new_handle panics."
  },
  {
   "property": "C14",
   "status": "proved",
   "theorems": [
    "C14_drop",
    "C14_exclusive",
    "C14_all_returned",
    "C14_nothing_lost",
    "C14_replace_reference_refuted",
    "C14_refer_invalid_refuted"
   ],
   "note": "All histories without the two improper operations; C14_replace_reference_refuted and C14_refer_invalid_refuted show both exceptions are needed."
  },
  {
   "property": "C15",
   "status": "proved",
   "theorems": [
    "C15_others_unchanged",
    "C15_value_semantics",
    "C15_reference_refuted"
   ],
   "note": "C15_others_unchanged: every operation leaves every tensor with another root unchanged; C15_value_semantics: on the acted tensor the operation is the value function of Api.v on its view; C15_reference_refuted: the exclusion of tensors connected by references is needed."
  },
  {
   "property": "C16",
   "status": "proved",
   "theorems": [
    "C16_upload_download",
    "C16_wrong_length_panics",
    "C16_constant",
    "C16_copy_reshape_flatten"
   ],
   "note": ""
  },
  {
   "property": "C17",
   "status": "proved",
   "theorems": [
    "C17_unary_functions",
    "C17_const_functions",
    "C17_powi",
    "C17_methods"
   ],
   "note": ""
  },
  {
   "property": "C18",
   "status": "proved",
   "theorems": [
    "C18_binary_functions",
    "C18_scalar_functions",
    "C18_operator_syntax"
   ],
   "note": ""
  },
  {
   "property": "C19",
   "status": "proved",
   "theorems": [
    "C19_unary_gradients",
    "C19_const_gradients",
    "C19_powi_gradient",
    "C19_binary_gradients",
    "C19_accumulation_meaning",
    "C19_powi_of_min_refuted"
   ],
   "note": ""
  },
  {
   "property": "C20",
   "status": "proved",
   "theorems": [
    "C20_sum",
    "C20_max_min",
    "C20_extremum_meaning",
    "C20_logsumexp",
    "C20_bad_dim_panics",
    "C20_extremum_bw"
   ],
   "note": ""
  },
  {
   "property": "C21",
   "status": "proved",
   "theorems": [
    "C21_argmax_argmin"
   ],
   "note": ""
  },
  {
   "property": "C22",
   "status": "proved",
   "theorems": [
    "C22_argsort"
   ],
   "note": ""
  },
  {
   "property": "C23",
   "status": "proved",
   "theorems": [
    "C23_broadcast"
   ],
   "note": ""
  },
  {
   "property": "C24",
   "status": "proved",
   "theorems": [
    "C24_slice",
    "C24_slice_bw"
   ],
   "note": ""
  },
  {
   "property": "C25",
   "status": "proved",
   "theorems": [
    "C25_pick",
    "C25_pick_bw"
   ],
   "note": ""
  },
  {
   "property": "C26",
   "status": "proved",
   "theorems": [
    "C26_concat",
    "C26_concat_covers",
    "C26_split",
    "C26_concat_of_split",
    "C26_slice_of_concat",
    "C26_indivisible_split_panics"
   ],
   "note": ""
  },
  {
   "property": "C27",
   "status": "proved",
   "theorems": [
    "C27_matmul",
    "C27_matmul_bw"
   ],
   "note": ""
  },
  {
   "property": "C28",
   "status": "proved",
   "theorems": [
    "C28_transpose",
    "C28_transpose_involution",
    "C28_triangular",
    "C28_gradients",
    "C28_triangular_huge_k_refuted"
   ],
   "note": ""
  },
  {
   "property": "C29",
   "status": "proved",
   "theorems": [
    "C29_batch_pick_bw_kernel",
    "C29_batch_slice_bw_kernel",
    "C29_batch_slice",
    "C29_batch_pick",
    "C29_batch_sum",
    "C29_batch_concat",
    "C29_batch_split",
    "C29_batch_concat_of_split"
   ],
   "note": ""
  },
  {
   "property": "C30",
   "status": "proved",
   "theorems": [
    "C30_assign",
    "C30_scale"
   ],
   "note": ""
  },
  {
   "property": "C31",
   "status": "proved",
   "theorems": [
    "C31_no_access_out_of_bounds",
    "C31_release_agrees",
    "C31_release_histories",
    "C31_add_assign_refuted",
    "C31_sub_assign_refuted",
    "C31_batch_pick_gradient_refuted",
    "C31_release_wraparound_refuted"
   ],
   "note": "C31_no_access_out_of_bounds over every call and history with overflow checks; C31_add_assign_refuted, C31_sub_assign_refuted, C31_batch_pick_gradient_refuted: the exceptions do write out of bounds; C31_release_histories, C31_release_agrees: without checks; C31_release_wraparound_refuted."
  },
  {
   "property": "C32",
   "status": "proved",
   "theorems": [
    "C32_other_device_panics",
    "C32_cross_entropy_other_device",
    "C32_cross_entropy_panics"
   ],
   "note": "For every call of the tensor API except those that make, fill, read back, copy or move a tensor (copy_tensor and reset_tensor_by_tensor accept a tensor of another device by design); for any contents of the buffers, so the panic precedes every access. softmax_cross_entropy reads its first operand before it looks at the second: C32_cross_entropy_*."
  },
  {
   "property": "C33",
   "status": "proved",
   "theorems": [
    "C33_execution_matches",
    "C33_created_nodes_evaluate",
    "C33_shape_is_stable",
    "C33_shape_of_value",
    "C33_reshape_refuted",
    "C33_triangular_refuted"
   ],
   "note": "Proved for a build with overflow checks (creation in Debug; execution in either build) for every operator, given the conditions node creation does not check; C33_reshape_refuted and C33_triangular_refuted show that without them creation accepts what evaluation refuses."
  },
  {
   "property": "C34",
   "status": "proved",
   "theorems": [
    "C34_cross_entropy_mixed",
    "C34_one_operand",
    "C34_constant_operand",
    "C34_integer_operands",
    "C34_two_operands",
    "C34_concat",
    "C34_split",
    "C34_softmax",
    "C34_elu_computes_prelu",
    "C34_mixed_scalar_refuted",
    "C34_pow",
    "C34_elu_refuted",
    "C34_cross_entropy_mixed_refuted"
   ],
   "note": "Proved for every function except the cases that really differ: C34_elu_refuted (node elu computes prelu: C34_elu_computes_prelu), C34_mixed_scalar_refuted (arithmetic between a scalar node and a non-scalar node is refused at creation, whatever the operands) C34_cross_entropy_mixed with C34_cross_entropy_mixed_refuted (the same for softmax_cross_entropy). C34_pow holds for all operands."
  },
  {
   "property": "C35",
   "status": "proved",
   "theorems": [
    "C35_meaning",
    "C35_forward_evaluates",
    "C35_to_vec",
    "C35_any_tie_order"
   ],
   "note": ""
  },
  {
   "property": "C36",
   "status": "proved",
   "theorems": [
    "C36_at_most_once",
    "C36_arguments_first",
    "C36_values_are_stable"
   ],
   "note": ""
  },
  {
   "property": "C37",
   "status": "proved",
   "theorems": [
    "C37_reverse_mode",
    "C37_values_first",
    "C37_any_tie_order"
   ],
   "note": ""
  },
  {
   "property": "C38",
   "status": "proved",
   "theorems": [
    "C38_directional_derivative",
    "C38_partial_derivatives",
    "C38_programs"
   ],
   "note": ""
  },
  {
   "property": "C39",
   "status": "proved",
   "theorems": [
    "C39_unary_functions",
    "C39_constant_functions",
    "C39_integer_power",
    "C39_binary_functions",
    "C39_softplus_operator"
   ],
   "note": ""
  },
  {
   "property": "C40",
   "status": "proved",
   "theorems": [
    "C40_two_losses_refuted",
    "C40_independent_losses",
    "C40_leftover_gradients",
    "C40_touched_root_refused",
    "C40_shared_parameters"
   ],
   "note": "The sum of the gradients is not what is accumulated: C40_two_losses_refuted (two losses sharing a subgraph: 26 instead of 14). What is, exactly: C40_leftover_gradients (over the reals, any sequence of passes: a pass adds the derivative of the loss plus the outputs it uses weighted with the gradients earlier passes left), C40_shared_parameters (losses sharing only parameters: 2 dL1 + dL2 for the shared ones, dL1 + dL2 for the others), C40_touched_root_refused (a second pass from a node that already has a gradient never succeeds), C40_independent_losses (any number type: operators the loss does not use keep their gradients)."
  },
  {
   "property": "C41",
   "status": "proved",
   "theorems": [
    "C41_unused_output_panics",
    "C41_unused_output_refuted",
    "C41_one_output_refuted",
    "C41_derivative_of_all_outputs",
    "C41_partial_derivatives",
    "C41_outputs_indistinguishable"
   ],
   "note": "That one output alone is differentiated is false (C41_unused_output_refuted, C41_one_output_refuted); what holds: backward on any output of an operator differentiates the sum of all elements of ALL outputs of that operator, for every graph in which the outputs below it are used (C41_derivative_of_all_outputs, C41_partial_derivatives); with an unused, untouched part of a split below the root it never succeeds, for every numeric type, heap order and history (C41_unused_output_panics)."
  },
  {
   "property": "C42",
   "status": "proved",
   "theorems": [
    "C42_dependent_nodes_refuted",
    "C42_backward_runs",
    "C42_backward_contents",
    "C42_neg_refuted",
    "C42_batch_slice_refuted",
    "C42_batch_split_refuted",
    "C42_batch_pick_refuted",
    "C42_sum_past_depth_refuted",
    "C42_batch_pick_wrong_refuted"
   ],
   "note": "C42_backward_runs/C42_backward_contents: every operator outside the exceptions. C42_*_refuted: the exceptions never succeed (BatchPick: any number of ids but two; with two, C42_batch_pick_wrong_refuted). C42_dependent_nodes_refuted: in every graph, no node that depends on Neg, BatchSlice, BatchSplit or such a BatchPick can be differentiated."
  },
  {
   "property": "C43",
   "status": "proved",
   "theorems": [
    "C43_sgd",
    "C43_sgd_weight_decay"
   ],
   "note": ""
  },
  {
   "property": "C44",
   "status": "proved",
   "theorems": [
    "C44_momentum",
    "C44_C45_runs_exist"
   ],
   "note": ""
  },
  {
   "property": "C45",
   "status": "proved",
   "theorems": [
    "C45_adam"
   ],
   "note": ""
  },
  {
   "property": "C46",
   "status": "proved",
   "theorems": [
    "C46_update_parameters",
    "C46_clipped_norm"
   ],
   "note": ""
  },
  {
   "property": "C47",
   "status": "proved",
   "theorems": [
    "C47_setters",
    "C47_configure",
    "C47_configure_twice",
    "C47_unconfigured"
   ],
   "note": ""
  },
  {
   "property": "C48",
   "status": "proved",
   "theorems": [
    "C48_enumeration",
    "C48_once",
    "C48_fields",
    "C48_loop",
    "C48_configure_model",
    "C48_update_model",
    "C48_move_to_device",
    "C48_each_place"
   ],
   "note": ""
  },
  {
   "property": "C49",
   "status": "proved",
   "theorems": [
    "C49_parameter",
    "C49_model",
    "C49_model_can_be_saved",
    "C49_wrong_length",
    "C49_host_tensor",
    "C49_moved_once",
    "C49_skipped_stay",
    "C49_skipped_not_moved",
    "C49_skipped_refuted"
   ],
   "note": ""
  },
  {
   "property": "C50",
   "status": "proved",
   "theorems": [
    "C50_logsumexp",
    "C50_ln_softmax",
    "C50_softmax",
    "C50_softmax_is_a_distribution",
    "C50_ln_softmax_is_its_logarithm",
    "C50_softmax_cross_entropy",
    "C50_sparse_softmax_cross_entropy"
   ],
   "note": ""
  },
  {
   "property": "C51",
   "status": "proved",
   "theorems": [
    "C51_loss_derivative",
    "C51_correct_iff_targets_sum_to_one",
    "C51_target_gradient",
    "C51_sparse_gradient",
    "C51_backward_adds",
    "C51_sparse_backward_adds",
    "C51_unnormalised_target_refuted"
   ],
   "note": "C51_backward_adds and C51_sparse_backward_adds give exactly what the backward functions add; C51_loss_derivative, C51_sparse_gradient, C51_target_gradient give the derivatives; C51_correct_iff_targets_sum_to_one: the gradient of the logits is right exactly when the targets sum to one. C51_unnormalised_target_refuted: a target for which it is wrong."
  },
  {
   "property": "C52",
   "status": "proved",
   "theorems": [
    "C52_mean",
    "C52_batch_mean",
    "C52_batch_normalization",
    "C52_batch_normalization_disabled",
    "C52_layer_normalization",
    "C52_slice_sum",
    "C52_slice_sum_empty",
    "C52_batch_normalization_real",
    "C52_layer_normalization_real",
    "C52_node_mean",
    "C52_node_batch_mean",
    "C52_node_batch_normalization",
    "C52_node_batch_normalization_disabled",
    "C52_node_layer_normalization_refuted",
    "C52_node_slice_sum"
   ],
   "note": "Proved for tensors (all functions) and for nodes (mean, batch_mean, slice_sum, batch_normalization). Node layer_normalization is refused for every operand with more than one element per item: C52_node_layer_normalization_refuted. C52_batch_normalization_real / C52_layer_normalization_real: over the reals the result has mean 0 and variance v/(v+eps)."
  },
  {
   "property": "C53",
   "status": "proved",
   "theorems": [
    "C53_dropout",
    "C53_dropout_dim",
    "C53_all_or_nothing",
    "C53_dropout_real",
    "C53_node_dropout",
    "C53_node_dropout_dim",
    "C53_node_all_or_nothing"
   ],
   "note": ""
  },
  {
   "property": "C54",
   "status": "proved",
   "theorems": [
    "C54_new_parameter",
    "C54_rejected",
    "C54_batched_panics",
    "C54_random_bernoulli",
    "C54_random_uniform_normal",
    "C54_xavier_range"
   ],
   "note": ""
  },
  {
   "property": "C55",
   "status": "proved",
   "theorems": [
    "C55_identity",
    "C55_permute_forward",
    "C55_permute_backward",
    "C55_flip_forward",
    "C55_flip_backward",
    "C55_permute_inverse",
    "C55_flip_twice"
   ],
   "note": ""
  },
  {
   "property": "C56",
   "status": "proved",
   "theorems": [
    "C56_call_runs_latest",
    "C56_unregistered_panics",
    "C56_latest_or_never",
    "C56_others_unaffected",
    "C56_naive_device"
   ],
   "note": ""
  },
  {
   "property": "C57",
   "status": "proved",
   "theorems": [
    "C57_silent_success",
    "C57_normal_passes",
    "C57_never_retried",
    "C57_failed_forward_refuted"
   ],
   "note": "That the operator is run again is false (C57_failed_forward_refuted); what holds: after any forward pass that does not return normally, the operator it stopped at is for ever taken as evaluated, holds no value, and forward on it succeeds at once (C57_silent_success, C57_never_retried; any operators, heap order and history). Graphs on which every pass returned normally hold the right values wherever they claim to (C57_normal_passes)."
  },
  {
   "property": "C58",
   "status": "proved",
   "theorems": [
    "C58_evaluation_stays_in_bounds",
    "C58_backward_stays_in_bounds",
    "C58_creation_stays_in_bounds",
    "C58_functions_with_one_operand",
    "C58_arithmetic",
    "C58_functions_with_more_operands",
    "C58_flatten",
    "C58_softmax",
    "C58_leaves",
    "C58_parameter_refuted",
    "C58_batch_pick_refuted"
   ],
   "note": "C58_evaluation_stays_in_bounds and C58_creation_stays_in_bounds: every graph a session of node functions, evaluations and backward passes can have (also after caught panics), every operator, build with overflow checks. C58_backward_stays_in_bounds: backward from every node that uses no batch_pick. The node functions meet the condition of the sessions (C58_functions_with_one_operand, C58_arithmetic, C58_functions_with_more_operands, C58_flatten, C58_softmax, C58_leaves). Without the conditions it is false: C58_batch_pick_refuted, C58_parameter_refuted (value and gradient of different shapes)."
  },
  {
   "property": "C59",
   "status": "proved",
   "theorems": [
    "C59_step",
    "C59_training",
    "C59_sgd",
    "C59_momentum",
    "C59_adam"
   ],
   "note": ""
  },
  {
   "property": "C60",
   "status": "proved",
   "theorems": [
    "C60_forward",
    "C60_forward_refused",
    "C60_refused_for_good",
    "C60_backward",
    "C60_backward_refused",
    "C60_no_conflict",
    "C60_reading",
    "C60_create",
    "C60_at_most_once",
    "C60_try_again_refuted"
   ],
   "note": "C60_no_conflict, C60_forward/_refused, C60_backward/_refused, C60_reading, C60_create, C60_refused_for_good. C60_try_again_refuted is the concrete case of the last sentence of the property."
  },
  {
   "property": "C61",
   "status": "proved",
   "theorems": [
    "C61_argmax_argmin",
    "C61_max_min",
    "C61_extremum_bw_nan",
    "C61_argsort",
    "C61_argsort_nan_panics",
    "C61_commutes"
   ],
   "note": "For the Flocq model of binary32. The sorting routine is any routine with the documented contract of sort_unstable_by; for the panic it also has to compare an element that is in a slice of length two or more with something (C61_argsort_nan_panics)."
  },
  {
   "property": "C62",
   "status": "proved",
   "theorems": [
    "C62_nearest",
    "C62_operators",
    "C62_neg_abs_sqrt",
    "C62_sum",
    "C62_batch_sum",
    "C62_matmul",
    "C62_integer_sum",
    "C62_integer_matmul",
    "C62_not_associative_refuted"
   ],
   "note": "Flocq's binary32. C62_nearest says what the rounding function of the statements is; C62_not_associative_refuted shows why the exact sums of C20/C27 over other number types do not carry over."
  },
  {
   "property": "C63",
   "status": "proved",
   "theorems": [
    "C63_leaky",
    "C63_relu",
    "C63_softplus_minus_infinity",
    "C63_elu",
    "C63_sigmoid"
   ],
   "note": "The property states the exceptions (minus infinity); C63_sigmoid has the range of tanh as hypothesis, met by a concrete function (C63_applies)."
  },
  {
   "property": "C64",
   "status": "proved",
   "theorems": [
    "C64_logsumexp",
    "C64_broken_lines",
    "C64_minus_infinity_ignored",
    "C64_ln_softmax_broken",
    "C64_accuracy",
    "C64_ln_softmax_accuracy",
    "C64_upper_bound_of_line",
    "C64_order_of_elements_refuted"
   ],
   "note": "exp and ln of f64 are a parameter; the contracts (keeps_nan, decent, accurate eps) are met by correctly rounded functions (libm_r_decent, libm_r_accurate). C64_order_of_elements_refuted: the same elements in another order give NaN and a number."
  },
  {
   "property": "C65",
   "status": "proved",
   "theorems": [
    "C65_release_agrees",
    "C65_first_difference",
    "C65_converse_refuted",
    "C65_gradients",
    "C65_training"
   ],
   "note": "C65_release_agrees, C65_first_difference; C65_gradients and C65_training carry C38 and C59 over to release builds; C65_converse_refuted: the converse fails. The programs end at their first panic; moves and drops of tensors and the memory pool are the matter of C09-C15."
  },
  {
   "property": "C66",
   "status": "proved",
   "theorems": [
    "C66_calls",
    "C66_calls_release",
    "C66_programs",
    "C66_any_build",
    "C66_alloc_refuted"
   ],
   "note": "C66_programs (builds with overflow checks), C66_any_build, C66_calls, C66_calls_release; C66_alloc_refuted: Tensor::alloc shows the contents. The buffer of a tensor is its elements; the unused rest of a block is never accessed (C31, C58). Conditions: arguments safe Rust can pass, and those of C31/C58 under which no call leaves its buffer (no gradient of batch_pick, += on agreeing shapes)."
  },
  {
   "property": "C67",
   "status": "proved",
   "theorems": [
    "C67_enough",
    "C67_peak",
    "C67_no_growth",
    "C67_classes",
    "C67_reuse"
   ],
   "note": "C67_peak, C67_enough, C67_no_growth, C67_reuse, C67_classes; in_use counts owned handles and calls between their critical section and their end. Histories in which the pool mutex was not poisoned."
  },
  {
   "property": "C68",
   "status": "proved",
   "theorems": [
    "C68_transpose_of_product",
    "C68_columns_of_product",
    "C68_rows_of_product",
    "C68_slice_of_slice",
    "C68_triangular_parts",
    "C68_max_of_min",
    "C68_sum_of_transpose",
    "C68_elementwise_and_moves",
    "C68_pick_of_argmax",
    "C68_matmul_associative",
    "C68_sums_commute",
    "C68_matmul_distributes",
    "C68_concat_of_concat",
    "C68_f32_laws",
    "C68_f32_transpose_of_product",
    "C68_f32_max_of_min",
    "C68_f32_triangular_parts_refuted",
    "C68_f32_associativity_refuted",
    "C68_softmax_shift",
    "C68_sum_of_broadcast"
   ],
   "note": "same m r1 r2: both computations succeed with the same shape and the same to_vec. Laws are explicit hypotheses (commutes, adds_up, ring_like); C68_f32_laws discharges those of the first group on f32, R_ring those of the reals; C68_f32_triangular_parts_refuted, C68_f32_associativity_refuted."
  },
  {
   "property": "C69",
   "status": "proved",
   "theorems": [
    "C69_clipped_norm",
    "C69_norm_stagnates",
    "C69_nan_disables_clipping",
    "C69_overflow",
    "C69_never_enlarges",
    "C69_overflow_stops_sgd"
   ],
   "note": "used o x c: gradient after weight decay; steps_with: the bare rule with gradients G gives the result of update_parameters. C69_norm_stagnates shows where the bound of C69_clipped_norm ends."
  },
  {
   "property": "C70",
   "status": "proved",
   "theorems": [
    "C70_nan_stays",
    "C70_nan_statistic",
    "C70_zero_gradient_stays",
    "C70_adam_without_eps"
   ],
   "note": "training: a run of N steps, gradients arbitrary before each; C70_applies shows that a step exists for every value, gradient and statistic, and computes cases."
  },
  {
   "property": "C71",
   "status": "proved",
   "theorems": [
    "C71_value",
    "C71_to_vec",
    "C71_one_by_one",
    "C71_gradients",
    "C71_mean_gradients",
    "C71_batch_mean"
   ],
   "note": "run_on_example: the same operators and arguments with the inputs of one example; all_acceptable lists what node creation does not check. C71_applies: a concrete network with a parameter, a minibatch of two and pick. C71_gradients_applies and C71_batch_mean_applies: the gradients of a concrete network over the reals."
  },
  {
   "property": "C72",
   "status": "proved",
   "theorems": [
    "C72_momentum_bound",
    "C72_momentum_constant",
    "C72_momentum_zero",
    "C72_adam_constant",
    "C72_adam_first_step",
    "C72_adam_bound",
    "C72_adam_bound_all",
    "C72_adam_scale_free",
    "C72_use",
    "C72_goes_on",
    "C72_starts"
   ],
   "note": "Over the reals. C72_use, C72_starts and C72_goes_on: what a program does with a new optimizer; C72_adam_applies: a run of any length with values 1 - 3n/4."
  },
  {
   "property": "C73",
   "status": "proved",
   "theorems": [
    "C73_update",
    "C73_training",
    "C73_resume",
    "C73_optimizer",
    "C73_goes_on",
    "C73_runs",
    "C73_adam_new_optimizer_refuted"
   ],
   "note": "Refuted for Adam with a new optimizer: C73_adam_new_optimizer_refuted. C73_runs: the trainings of C44, C45 and C72 are such trainings; C73_applies: a concrete interrupted training with any optimizer."
  },
  {
   "property": "C74",
   "status": "proved",
   "theorems": [
    "C74_backward",
    "C74_training"
   ],
   "note": "Over the reals. C74_applies: trainings of any length of w*w and of powi(w,2), evaluated in different orders."
  },
  {
   "property": "C75",
   "status": "proved",
   "theorems": [
    "C75_update",
    "C75_steps",
    "C75_training",
    "C75_trainings_exist"
   ],
   "note": "Over the reals. C75_applies: w^2 with decay l and (1 + l/2) w^2 without, any optimizer, any clipping, any number of steps."
  },
  {
   "property": "C76",
   "status": "proved",
   "theorems": [
    "C76_gradients",
    "C76_minibatch",
    "C76_update"
   ],
   "note": "Over the reals. C76_applies: w = (2, 3) with the gradient (10, 20) and the examples (5, 7) and (11, 13): two passes, one after the other, and one pass on the minibatch; the second element of the gradient becomes 20 + 7 + 13."
  },
  {
   "property": "C77",
   "status": "proved",
   "theorems": [
    "C77_accepted",
    "C77_written",
    "C77_for_itself",
    "C77_compiles",
    "C77_refuted"
   ],
   "note": "The header of the generated implementation; which fields are visited is also C48. That rustc rejects defaults in impl<..> and arguments of another kind is the specification well_formed. C77_applies: a struct with a lifetime, a type and a const, one field skipped."
  },
  {
   "property": "C78",
   "status": "proved",
   "theorems": [
    "C78_text_identifies",
    "C78_new_text_identifies",
    "C78_text",
    "C78_release_refuted"
   ],
   "note": "Rust's printing of integers and slices is trusted to be decimal, with commas; it is modelled by the standard library's conversion. C78_applies: [2, 1, 3, 1] with batch 4 prints as Shape { [2, 1, 3], 4 }."
  }
 ]
}