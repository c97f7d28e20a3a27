# Print Assumptions of every theorem

Generated by tools/gen_assumptions.py from the built files. No axiom is of this development: all are of the Coq standard library.

## Closed under the global context

* `C01_new_accepts` (PropsShape.v)
* `C01_new_panics_otherwise` (PropsShape.v)
* `C01_new_result` (PropsShape.v)
* `C01_equality` (PropsShape.v)
* `C01_witness` (PropsShape.v)
* `C02_resize_histories` (PropsShape.v)
* `C02_resize_one_dim` (PropsShape.v)
* `C02_reachable_iff_consistent` (PropsShape.v)
* `C02_witness` (PropsShape.v)
* `C03_lower_volume` (PropsShape.v)
* `C03_witness` (PropsShape.v)
* `C04_has_same_dims` (PropsShape.v)
* `C04_has_same_loo_dims` (PropsShape.v)
* `C04_compatible_batch` (PropsShape.v)
* `C04_is_scalar` (PropsShape.v)
* `C04_is_column_vector` (PropsShape.v)
* `C04_is_matrix` (PropsShape.v)
* `C04_witness` (PropsShape.v)
* `C05_elementwise` (PropsShape.v)
* `C05_scalar_op` (PropsShape.v)
* `C05_matmul` (PropsShape.v)
* `C05_transpose` (PropsShape.v)
* `C05_witness` (PropsShape.v)
* `C06_broadcast` (PropsShape.v)
* `C06_slice` (PropsShape.v)
* `C06_pick` (PropsShape.v)
* `C06_concat` (PropsShape.v)
* `C06_batch_slice` (PropsShape.v)
* `C06_batch_pick` (PropsShape.v)
* `C06_batch_concat` (PropsShape.v)
* `C06_witness` (PropsShape.v)
* `C07_roundtrip` (PropsShape.v)
* `C07_deserialize_consistent` (PropsShape.v)
* `C07_witness` (PropsShape.v)
* `C08_counts_exact_debug` (PropsShape.v)
* `C08_volume_release_refuted` (PropsShape.v)
* `C08_size_release_refuted` (PropsShape.v)
* `C08_witness` (PropsShape.v)
* `C09_size_class` (PropsPool.v)
* `C09_accepts` (PropsPool.v)
* `C09_shift_is_log2_up` (PropsPool.v)
* `C09_witness` (PropsPool.v)
* `C10_recycled_big_enough` (PropsPool.v)
* `C10_witness` (PropsPool.v)
* `C11_one_owner` (PropsPool.v)
* `C11_returned_is_new_owner` (PropsPool.v)
* `C11_witness` (PropsPool.v)
* `C12_conservation` (PropsPool.v)
* `C12_free_exactly_once` (PropsPool.v)
* `C12_never_frees_twice_or_owned` (PropsPool.v)
* `C12_poisoned_only_by_misuse` (PropsPool.v)
* `C12_witness` (PropsPool.v)
* `C13_double_drop_detected` (PropsPool.v)
* `C13_owned_drop_returns` (PropsPool.v)
* `C13_pool_unusable_afterwards` (PropsPool.v)
* `C13_witness` (PropsPool.v)
* `C16_upload_download` (PropsElem.v)
* `C16_wrong_length_panics` (PropsElem.v)
* `C16_constant` (PropsElem.v)
* `C16_copy_reshape_flatten` (PropsElem.v)
* `C17_unary_functions` (PropsElem.v)
* `C17_const_functions` (PropsElem.v)
* `C17_powi` (PropsElem.v)
* `C17_methods` (PropsElem.v)
* `C18_binary_functions` (PropsElem.v)
* `C18_scalar_functions` (PropsElem.v)
* `C18_operator_syntax` (PropsElem.v)
* `C19_unary_gradients` (PropsElem.v)
* `C19_const_gradients` (PropsElem.v)
* `C19_powi_gradient` (PropsElem.v)
* `C19_binary_gradients` (PropsElem.v)
* `C19_accumulation_meaning` (PropsElem.v)
* `C30_assign` (PropsElem.v)
* `C30_scale` (PropsElem.v)
* `C16_witness` (PropsElem.v)
* `C17_witness` (PropsElem.v)
* `C18_witness` (PropsElem.v)
* `C19_witness` (PropsElem.v)
* `C30_witness` (PropsElem.v)
* `C20_sum` (PropsMove.v)
* `C20_max_min` (PropsMove.v)
* `C20_extremum_meaning` (PropsMove.v)
* `C20_logsumexp` (PropsMove.v)
* `C20_bad_dim_panics` (PropsMove.v)
* `C20_extremum_bw` (PropsMove.v)
* `C21_argmax_argmin` (PropsMove.v)
* `C22_argsort` (PropsMove.v)
* `C23_broadcast` (PropsMove.v)
* `C24_slice` (PropsMove.v)
* `C24_slice_bw` (PropsMove.v)
* `C25_pick` (PropsMove.v)
* `C25_pick_bw` (PropsMove.v)
* `C26_concat` (PropsMove.v)
* `C26_concat_covers` (PropsMove.v)
* `C26_split` (PropsMove.v)
* `C26_concat_of_split` (PropsMove.v)
* `C26_slice_of_concat` (PropsMove.v)
* `C26_indivisible_split_panics` (PropsMove.v)
* `C27_matmul` (PropsMove.v)
* `C27_matmul_bw` (PropsMove.v)
* `C28_transpose` (PropsMove.v)
* `C28_transpose_involution` (PropsMove.v)
* `C28_triangular` (PropsMove.v)
* `C28_gradients` (PropsMove.v)
* `C29_batch_slice` (PropsMove.v)
* `C29_batch_pick` (PropsMove.v)
* `C29_batch_sum` (PropsMove.v)
* `C29_batch_concat` (PropsMove.v)
* `C29_batch_split` (PropsMove.v)
* `C29_batch_concat_of_split` (PropsMove.v)
* `C20_witness` (PropsMove.v)
* `C21_witness` (PropsMove.v)
* `C22_witness` (PropsMove.v)
* `C23_witness` (PropsMove.v)
* `C24_witness` (PropsMove.v)
* `C25_witness` (PropsMove.v)
* `C26_witness` (PropsMove.v)
* `C27_witness` (PropsMove.v)
* `C28_witness` (PropsMove.v)
* `C29_witness` (PropsMove.v)
* `C28_triangular_huge_k_refuted` (PropsMove.v)
* `C35_meaning` (PropsGraph.v)
* `C35_forward_evaluates` (PropsGraph.v)
* `C35_to_vec` (PropsGraph.v)
* `C35_any_tie_order` (PropsGraph.v)
* `C36_at_most_once` (PropsGraph.v)
* `C36_arguments_first` (PropsGraph.v)
* `C36_values_are_stable` (PropsGraph.v)
* `C37_reverse_mode` (PropsGraph.v)
* `C37_values_first` (PropsGraph.v)
* `C37_any_tie_order` (PropsGraph.v)
* `C57_never_retried` (PropsGraph.v)
* `C40_two_losses_refuted` (PropsGraph.v)
* `C40_independent_losses` (PropsGraph.v)
* `C41_unused_output_refuted` (PropsGraph.v)
* `C41_one_output_refuted` (PropsGraph.v)
* `C57_failed_forward_refuted` (PropsGraph.v)
* `C60_forward` (PropsBorrow.v)
* `C60_forward_refused` (PropsBorrow.v)
* `C60_refused_for_good` (PropsBorrow.v)
* `C60_backward` (PropsBorrow.v)
* `C60_backward_refused` (PropsBorrow.v)
* `C60_no_conflict` (PropsBorrow.v)
* `C60_reading` (PropsBorrow.v)
* `C60_create` (PropsBorrow.v)
* `C60_at_most_once` (PropsBorrow.v)
* `C60_applies` (PropsBorrow.v)
* `C60_try_again_refuted` (PropsBorrow.v)
* `C34_one_operand` (PropsOps.v)
* `C34_constant_operand` (PropsOps.v)
* `C34_integer_operands` (PropsOps.v)
* `C34_two_operands` (PropsOps.v)
* `C34_concat` (PropsOps.v)
* `C34_split` (PropsOps.v)
* `C34_softmax` (PropsOps.v)
* `C34_elu_computes_prelu` (PropsOps.v)
* `C34_mixed_scalar_refuted` (PropsOps.v)
* `C34_pow` (PropsOps.v)
* `C34_elu_refuted` (PropsOps.v)
* `C34_cross_entropy_mixed_refuted` (PropsOps.v)
* `C34_pow_applies` (PropsOps.v)
* `C34_applies` (PropsOps.v)
* `C34_mixed_applies` (PropsOps.v)
* `C33_execution_matches` (PropsOps.v)
* `C33_created_nodes_evaluate` (PropsOps.v)
* `C33_shape_is_stable` (PropsOps.v)
* `C33_shape_of_value` (PropsOps.v)
* `C33_reshape_refuted` (PropsOps.v)
* `C33_triangular_refuted` (PropsOps.v)
* `C33_applies` (PropsOps.v)
* `C42_backward_runs` (PropsOps.v)
* `C42_backward_contents` (PropsOps.v)
* `C42_neg_refuted` (PropsOps.v)
* `C42_batch_slice_refuted` (PropsOps.v)
* `C42_batch_split_refuted` (PropsOps.v)
* `C42_batch_pick_refuted` (PropsOps.v)
* `C42_sum_past_depth_refuted` (PropsOps.v)
* `C42_batch_pick_wrong_refuted` (PropsOps.v)
* `C42_applies` (PropsOps.v)
* `C42_dependent_nodes_refuted` (PropsBlocked.v)
* `C41_unused_output_panics` (PropsBlocked.v)
* `C34_cross_entropy_mixed` (PropsBlocked.v)
* `C41_panics_applies` (PropsBlocked.v)
* `C42_dependent_applies` (PropsBlocked.v)
* `C57_silent_success` (PropsFailed.v)
* `C57_normal_passes` (PropsFailed.v)
* `C57_applies` (PropsFailed.v)
* `C46_update_parameters` (PropsOptim.v)
* `C43_sgd` (PropsOptim.v)
* `C43_sgd_weight_decay` (PropsOptim.v)
* `C47_setters` (PropsOptim.v)
* `C47_configure` (PropsOptim.v)
* `C47_unconfigured` (PropsOptim.v)
* `C43_applies` (PropsOptim.v)
* `C46_applies` (PropsOptim.v)
* `C14_drop` (PropsLife.v)
* `C14_exclusive` (PropsLife.v)
* `C14_all_returned` (PropsLife.v)
* `C14_nothing_lost` (PropsLife.v)
* `C15_others_unchanged` (PropsLife.v)
* `C15_value_semantics` (PropsLife.v)
* `C14_replace_reference_refuted` (PropsLife.v)
* `C14_refer_invalid_refuted` (PropsLife.v)
* `C14_C15_apply` (PropsLife.v)
* `C15_reference_refuted` (PropsLife.v)
* `C31_no_access_out_of_bounds` (PropsSafe.v)
* `C31_release_agrees` (PropsSafe.v)
* `C31_release_histories` (PropsSafe.v)
* `C32_other_device_panics` (PropsSafe.v)
* `C32_cross_entropy_other_device` (PropsSafe.v)
* `C32_cross_entropy_panics` (PropsSafe.v)
* `C31_add_assign_refuted` (PropsSafe.v)
* `C31_sub_assign_refuted` (PropsSafe.v)
* `C31_batch_pick_gradient_refuted` (PropsSafe.v)
* `C31_release_wraparound_refuted` (PropsSafe.v)
* `C31_applies` (PropsSafe.v)
* `C32_applies` (PropsSafe.v)
* `C58_evaluation_stays_in_bounds` (PropsSafeGraph.v)
* `C58_backward_stays_in_bounds` (PropsSafeGraph.v)
* `C58_creation_stays_in_bounds` (PropsSafeGraph.v)
* `C58_functions_with_one_operand` (PropsSafeGraph.v)
* `C58_arithmetic` (PropsSafeGraph.v)
* `C58_functions_with_more_operands` (PropsSafeGraph.v)
* `C58_flatten` (PropsSafeGraph.v)
* `C58_softmax` (PropsSafeGraph.v)
* `C58_leaves` (PropsSafeGraph.v)
* `C58_applies` (PropsSafeGraph.v)
* `C58_parameter_refuted` (PropsSafeGraph.v)
* `C58_batch_pick_refuted` (PropsSafeGraph.v)
* `C55_permute_forward` (PropsDevice.v)
* `C55_permute_backward` (PropsDevice.v)
* `C55_flip_forward` (PropsDevice.v)
* `C55_flip_backward` (PropsDevice.v)
* `C55_permute_inverse` (PropsDevice.v)
* `C55_flip_twice` (PropsDevice.v)
* `C55_applies` (PropsDevice.v)
* `C56_call_runs_latest` (PropsDevice.v)
* `C56_unregistered_panics` (PropsDevice.v)
* `C56_latest_or_never` (PropsDevice.v)
* `C56_others_unaffected` (PropsDevice.v)
* `C56_naive_device` (PropsDevice.v)
* `C56_applies` (PropsDevice.v)
* `C54_new_parameter` (PropsInit.v)
* `C54_rejected` (PropsInit.v)
* `C54_batched_panics` (PropsInit.v)
* `C54_random_bernoulli` (PropsInit.v)
* `C54_random_uniform_normal` (PropsInit.v)
* `C54_applies` (PropsInit.v)
* `C48_enumeration` (PropsModel.v)
* `C48_once` (PropsModel.v)
* `C48_fields` (PropsModel.v)
* `C48_loop` (PropsModel.v)
* `C48_configure_model` (PropsModel.v)
* `C48_update_model` (PropsModel.v)
* `C48_move_to_device` (PropsModel.v)
* `C48_each_place` (PropsModel.v)
* `C49_parameter` (PropsModel.v)
* `C49_model` (PropsModel.v)
* `C49_model_can_be_saved` (PropsModel.v)
* `C49_wrong_length` (PropsModel.v)
* `C49_host_tensor` (PropsModel.v)
* `C49_moved_once` (PropsModel.v)
* `C48_applies` (PropsModel.v)
* `C49_applies` (PropsModel.v)
* `C52_mean` (PropsContrib.v)
* `C52_batch_mean` (PropsContrib.v)
* `C52_batch_normalization` (PropsContrib.v)
* `C52_batch_normalization_disabled` (PropsContrib.v)
* `C52_layer_normalization` (PropsContrib.v)
* `C52_slice_sum` (PropsContrib.v)
* `C52_slice_sum_empty` (PropsContrib.v)
* `C53_dropout` (PropsContrib.v)
* `C53_dropout_dim` (PropsContrib.v)
* `C53_all_or_nothing` (PropsContrib.v)
* `C52_applies` (PropsContrib.v)
* `C53_applies` (PropsContrib.v)
* `C52_node_mean` (PropsContribNode.v)
* `C52_node_batch_mean` (PropsContribNode.v)
* `C52_node_batch_normalization` (PropsContribNode.v)
* `C52_node_batch_normalization_disabled` (PropsContribNode.v)
* `C52_node_layer_normalization_refuted` (PropsContribNode.v)
* `C52_node_slice_sum` (PropsContribNode.v)
* `C53_node_dropout` (PropsContribNode.v)
* `C53_node_dropout_dim` (PropsContribNode.v)
* `C53_node_all_or_nothing` (PropsContribNode.v)
* `C52_node_applies` (PropsContribNode.v)
* `C65_release_agrees` (PropsRelease.v)
* `C65_first_difference` (PropsRelease.v)
* `C65_applies` (PropsRelease.v)
* `C65_converse_refuted` (PropsRelease.v)
* `C66_calls` (PropsFresh.v)
* `C66_calls_release` (PropsFresh.v)
* `C66_programs` (PropsFresh.v)
* `C66_any_build` (PropsFresh.v)
* `C66_applies` (PropsFresh.v)
* `C66_alloc_refuted` (PropsFresh.v)
* `C08_new_without_checks` (PropsCount.v)
* `C08_resize_without_checks` (PropsCount.v)
* `C08_same_without_checks` (PropsCount.v)
* `C08_wraps` (PropsCount.v)
* `C08_resize_wraps` (PropsCount.v)
* `C67_enough` (PropsPeak.v)
* `C67_peak` (PropsPeak.v)
* `C67_no_growth` (PropsPeak.v)
* `C67_classes` (PropsPeak.v)
* `C67_reuse` (PropsPeak.v)
* `C67_reuse_applies` (PropsPeak.v)
* `C67_peak_applies` (PropsPeak.v)
* `C68_transpose_of_product` (PropsIdent.v)
* `C68_columns_of_product` (PropsIdent.v)
* `C68_rows_of_product` (PropsIdent.v)
* `C68_slice_of_slice` (PropsIdent.v)
* `C68_triangular_parts` (PropsIdent.v)
* `C68_max_of_min` (PropsIdent.v)
* `C68_sum_of_transpose` (PropsIdent.v)
* `C68_elementwise_and_moves` (PropsIdent.v)
* `C68_pick_of_argmax` (PropsIdent.v)
* `C68_matmul_associative` (PropsIdent.v)
* `C68_sums_commute` (PropsIdent.v)
* `C68_matmul_distributes` (PropsIdent.v)
* `C68_concat_of_concat` (PropsIdent.v)
* `C68_ring_applies` (PropsIdent.v)
* `C68_transpose_applies` (PropsIdent.v)
* `C68_columns_applies` (PropsIdent.v)
* `C68_pick_applies` (PropsIdent.v)
* `C19_powi_of_min_refuted` (PropsPowi.v)
* `C19_powi_of_min_applies` (PropsPowi.v)
* `C71_value` (PropsMinibatch.v)
* `C71_to_vec` (PropsMinibatch.v)
* `C71_one_by_one` (PropsMinibatch.v)
* `C71_applies` (PropsMinibatch.v)
* `C73_update` (PropsResume.v)
* `C73_training` (PropsResume.v)
* `C73_resume` (PropsResume.v)
* `C73_optimizer` (PropsResume.v)
* `C73_goes_on` (PropsResume.v)
* `C29_batch_pick_bw_kernel` (PropsByName.v)
* `C29_batch_slice_bw_kernel` (PropsByName.v)
* `C55_identity` (PropsByName.v)
* `C29_bw_kernels_witness` (PropsByName.v)
* `C49_skipped_stay` (PropsSkipped.v)
* `C49_skipped_not_moved` (PropsSkipped.v)
* `C49_skipped_refuted` (PropsSkipped.v)
* `C06_slice_any_build` (PropsShapeRelease.v)
* `C06_pick_any_build` (PropsShapeRelease.v)
* `C05_matmul_without_checks` (PropsShapeRelease.v)
* `C05_transpose_any_build` (PropsShapeRelease.v)
* `C06_broadcast_without_checks` (PropsShapeRelease.v)
* `C06_concat_without_checks` (PropsShapeRelease.v)
* `C06_batch_concat_without_checks` (PropsShapeRelease.v)
* `C06_release_refuted` (PropsShapeRelease.v)
* `C01_new_without_checks` (PropsShapeHistory.v)
* `C01_equality_without_checks` (PropsShapeHistory.v)
* `C02_histories_without_checks` (PropsShapeHistory.v)
* `C02_same_without_checks` (PropsShapeHistory.v)
* `C02_release_refuted` (PropsShapeHistory.v)
* `C07_deserialize_without_checks` (PropsShapeHistory.v)
* `C07_release_refuted` (PropsShapeHistory.v)
* `C03_lower_volume_without_checks` (PropsShapeHistory.v)
* `C03_without_checks_applies` (PropsShapeHistory.v)
* `C77_accepted` (PropsDerive.v)
* `C77_written` (PropsDerive.v)
* `C77_for_itself` (PropsDerive.v)
* `C77_compiles` (PropsDerive.v)
* `C77_refuted` (PropsDerive.v)
* `C77_applies` (PropsDerive.v)
* `C78_text_identifies` (PropsText.v)
* `C78_new_text_identifies` (PropsText.v)
* `C78_text` (PropsText.v)
* `C78_release_refuted` (PropsText.v)
* `C78_applies` (PropsText.v)

## `FunctionalExtensionality.functional_extensionality_dep`

* `C47_configure_twice` (PropsOptim.v)

## `ClassicalDedekindReals.sig_forall_dec`, `ClassicalDedekindReals.sig_not_dec`, `Classical_Prop.classic`, `FunctionalExtensionality.functional_extensionality_dep`

* `C39_unary_functions` (PropsReal.v)
* `C39_constant_functions` (PropsReal.v)
* `C39_integer_power` (PropsReal.v)
* `C39_binary_functions` (PropsReal.v)
* `C39_softplus_operator` (PropsReal.v)
* `C39_applies` (PropsReal.v)
* `C61_argmax_argmin` (PropsNan.v)
* `C61_max_min` (PropsNan.v)
* `C61_extremum_bw_nan` (PropsNan.v)
* `C61_argsort` (PropsNan.v)
* `C61_argsort_nan_panics` (PropsNan.v)
* `C61_commutes` (PropsNan.v)
* `C61_applies` (PropsNan.v)
* `C62_nearest` (PropsFloat.v)
* `C62_operators` (PropsFloat.v)
* `C62_neg_abs_sqrt` (PropsFloat.v)
* `C62_sum` (PropsFloat.v)
* `C62_batch_sum` (PropsFloat.v)
* `C62_matmul` (PropsFloat.v)
* `C62_integer_sum` (PropsFloat.v)
* `C62_integer_matmul` (PropsFloat.v)
* `C63_leaky` (PropsFloat.v)
* `C63_relu` (PropsFloat.v)
* `C63_softplus_minus_infinity` (PropsFloat.v)
* `C63_elu` (PropsFloat.v)
* `C63_sigmoid` (PropsFloat.v)
* `C62_applies` (PropsFloat.v)
* `C62_not_associative_refuted` (PropsFloat.v)
* `C63_applies` (PropsFloat.v)
* `C64_logsumexp` (PropsLse.v)
* `C64_broken_lines` (PropsLse.v)
* `C64_minus_infinity_ignored` (PropsLse.v)
* `C64_ln_softmax_broken` (PropsLse.v)
* `C64_accuracy` (PropsLse.v)
* `C64_ln_softmax_accuracy` (PropsLse.v)
* `C64_upper_bound_of_line` (PropsLse.v)
* `C64_order_of_elements_refuted` (PropsLse.v)
* `C64_applies` (PropsLse.v)
* `C44_momentum` (PropsOptim.v)
* `C45_adam` (PropsOptim.v)
* `C46_clipped_norm` (PropsOptim.v)
* `C44_C45_runs_exist` (PropsOptim.v)
* `C38_directional_derivative` (PropsAutoDiff.v)
* `C38_partial_derivatives` (PropsAutoDiff.v)
* `C38_applies` (PropsAutoDiff.v)
* `C41_derivative_of_all_outputs` (PropsOutputs.v)
* `C41_partial_derivatives` (PropsOutputs.v)
* `C41_outputs_indistinguishable` (PropsOutputs.v)
* `C41_all_outputs_applies` (PropsOutputs.v)
* `C38_programs` (PropsProgram.v)
* `C38_programs_applies` (PropsProgram.v)
* `C59_step` (PropsTrain.v)
* `C59_training` (PropsTrain.v)
* `C59_sgd` (PropsTrain.v)
* `C59_momentum` (PropsTrain.v)
* `C59_adam` (PropsTrain.v)
* `C59_applies` (PropsTrain.v)
* `C40_leftover_gradients` (PropsResidual.v)
* `C40_touched_root_refused` (PropsResidual.v)
* `C40_shared_parameters` (PropsResidual.v)
* `C40_applies` (PropsResidual.v)
* `C50_logsumexp` (PropsSoftmax.v)
* `C50_ln_softmax` (PropsSoftmax.v)
* `C50_softmax` (PropsSoftmax.v)
* `C50_softmax_is_a_distribution` (PropsSoftmax.v)
* `C50_ln_softmax_is_its_logarithm` (PropsSoftmax.v)
* `C50_softmax_cross_entropy` (PropsSoftmax.v)
* `C50_sparse_softmax_cross_entropy` (PropsSoftmax.v)
* `C51_loss_derivative` (PropsSoftmax.v)
* `C51_correct_iff_targets_sum_to_one` (PropsSoftmax.v)
* `C51_target_gradient` (PropsSoftmax.v)
* `C51_sparse_gradient` (PropsSoftmax.v)
* `C51_backward_adds` (PropsSoftmax.v)
* `C51_sparse_backward_adds` (PropsSoftmax.v)
* `C51_unnormalised_target_refuted` (PropsSoftmax.v)
* `C50_C51_apply` (PropsSoftmax.v)
* `C54_xavier_range` (PropsInit.v)
* `C54_xavier_applies` (PropsInit.v)
* `C52_batch_normalization_real` (PropsContrib.v)
* `C52_layer_normalization_real` (PropsContrib.v)
* `C53_dropout_real` (PropsContrib.v)
* `C65_gradients` (PropsReleaseGrad.v)
* `C65_training` (PropsReleaseGrad.v)
* `C65_training_applies` (PropsReleaseGrad.v)
* `C68_f32_laws` (PropsIdent2.v)
* `C68_f32_transpose_of_product` (PropsIdent2.v)
* `C68_f32_max_of_min` (PropsIdent2.v)
* `C68_f32_triangular_parts_refuted` (PropsIdent2.v)
* `C68_f32_associativity_refuted` (PropsIdent2.v)
* `C68_softmax_shift` (PropsIdent2.v)
* `C68_sum_of_broadcast` (PropsIdent2.v)
* `C68_softmax_shift_applies` (PropsIdent2.v)
* `C69_nan_disables_clipping` (PropsOptimF32.v)
* `C69_overflow` (PropsOptimF32.v)
* `C69_never_enlarges` (PropsOptimF32.v)
* `C69_overflow_stops_sgd` (PropsOptimF32.v)
* `C69_clipped_norm` (PropsClip.v)
* `C69_norm_stagnates` (PropsClip.v)
* `C69_applies` (PropsClip.v)
* `C69_stagnation_applies` (PropsClip.v)
* `C70_nan_stays` (PropsFixed.v)
* `C70_nan_statistic` (PropsFixed.v)
* `C70_zero_gradient_stays` (PropsFixed.v)
* `C70_adam_without_eps` (PropsFixed.v)
* `C70_applies` (PropsFixed.v)
* `C71_gradients` (PropsMinibatchGrad.v)
* `C71_mean_gradients` (PropsMinibatchGrad.v)
* `C71_batch_mean` (PropsMinibatchGrad.v)
* `C71_gradients_applies` (PropsMinibatchGrad.v)
* `C71_batch_mean_applies` (PropsMinibatchGrad.v)
* `C72_momentum_bound` (PropsSteps.v)
* `C72_momentum_constant` (PropsSteps.v)
* `C72_momentum_zero` (PropsSteps.v)
* `C72_adam_constant` (PropsSteps.v)
* `C72_adam_first_step` (PropsSteps.v)
* `C72_adam_bound` (PropsSteps.v)
* `C72_adam_bound_all` (PropsSteps.v)
* `C72_adam_scale_free` (PropsSteps.v)
* `C72_use` (PropsSteps.v)
* `C72_followed` (PropsSteps.v)
* `C72_goes_on` (PropsSteps.v)
* `C72_starts` (PropsSteps.v)
* `C72_applies` (PropsSteps.v)
* `C72_adam_applies` (PropsSteps.v)
* `C73_runs` (PropsResume.v)
* `C73_applies` (PropsResume.v)
* `C73_adam_new_optimizer_refuted` (PropsResume.v)
* `C74_backward` (PropsEqual.v)
* `C74_training` (PropsEqual.v)
* `C74_applies` (PropsEqual.v)
* `C75_update` (PropsDecay.v)
* `C75_steps` (PropsDecay.v)
* `C75_training` (PropsDecay.v)
* `C75_trainings_exist` (PropsDecay.v)
* `C75_applies` (PropsDecay.v)
* `C76_gradients` (PropsAccum.v)
* `C76_minibatch` (PropsAccum.v)
* `C76_update` (PropsAccum.v)
* `C76_applies` (PropsAccum.v)
