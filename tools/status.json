{
 "C08": {
  "status": "proved",
  "note": "With overflow checks: C08_counts_exact_debug. Without: C08_same_without_checks, C08_new_without_checks, C08_resize_without_checks (exact modulo 2^32, and when that is the count); C08_*_release_refuted are witnesses that the naive claim fails."
 },
 "C13": {
  "note": "Proved as stated; additionally C13_pool_unusable_afterwards shows that the panic poisons the mem_shift mutex so every later new_handle panics."
 },
 "C40": {
  "status": "proved",
  "note": "The sum of the gradients is not what is accumulated: C40_two_losses_refuted (two losses sharing a subgraph: 26 instead of 14). What is, exactly: C40_leftover_gradients (over the reals, any sequence of passes: a pass adds the derivative of the loss plus the outputs it uses weighted with the gradients earlier passes left), C40_shared_parameters (losses sharing only parameters: 2 dL1 + dL2 for the shared ones, dL1 + dL2 for the others), C40_touched_root_refused (a second pass from a node that already has a gradient never succeeds), C40_independent_losses (any number type: operators the loss does not use keep their gradients)."
 },
 "C41": {
  "status": "proved",
  "note": "That one output alone is differentiated is false (C41_unused_output_refuted, C41_one_output_refuted); what holds: backward on any output of an operator differentiates the sum of all elements of ALL outputs of that operator, for every graph in which the outputs below it are used (C41_derivative_of_all_outputs, C41_partial_derivatives); with an unused, untouched part of a split below the root it never succeeds, for every numeric type, heap order and history (C41_unused_output_panics)."
 },
 "C57": {
  "status": "proved",
  "note": "That the operator is run again is false (C57_failed_forward_refuted); what holds: after any forward pass that does not return normally, the operator it stopped at is for ever taken as evaluated, holds no value, and forward on it succeeds at once (C57_silent_success, C57_never_retried; any operators, heap order and history). Graphs on which every pass returned normally hold the right values wherever they claim to (C57_normal_passes)."
 },
 "C33": {
  "status": "proved",
  "note": "Proved for a build with overflow checks (creation in Debug; execution in either build) for every operator, given the conditions node creation does not check; C33_reshape_refuted and C33_triangular_refuted show that without them creation accepts what evaluation refuses."
 },
 "C34": {
  "status": "proved",
  "note": "Proved for every function except the cases that really differ: C34_elu_refuted (node elu computes prelu: C34_elu_computes_prelu), C34_mixed_scalar_refuted (arithmetic between a scalar node and a non-scalar node is refused at creation, whatever the operands) C34_cross_entropy_mixed with C34_cross_entropy_mixed_refuted (the same for softmax_cross_entropy). C34_pow holds for all operands."
 },
 "C42": {
  "status": "proved",
  "note": "C42_backward_runs/C42_backward_contents: every operator outside the exceptions. C42_*_refuted: the exceptions never succeed (BatchPick: any number of ids but two; with two, C42_batch_pick_wrong_refuted). C42_dependent_nodes_refuted: in every graph, no node that depends on Neg, BatchSlice, BatchSplit or such a BatchPick can be differentiated."
 },
 "C14": {
  "status": "proved",
  "note": "All histories without the two improper operations; C14_replace_reference_refuted and C14_refer_invalid_refuted show both exceptions are needed."
 },
 "C15": {
  "note": "C15_others_unchanged: every operation leaves every tensor with another root unchanged; C15_value_semantics: on the acted tensor the operation is the value function of Api.v on its view; C15_reference_refuted: the exclusion of tensors connected by references is needed."
 },
 "C31": {
  "status": "proved",
  "note": "C31_no_access_out_of_bounds over every call and history with overflow checks; C31_add_assign_refuted, C31_sub_assign_refuted, C31_batch_pick_gradient_refuted: the exceptions do write out of bounds; C31_release_histories, C31_release_agrees: without checks; C31_release_wraparound_refuted."
 },
 "C32": {
  "note": "For every call of the tensor API except those that make, fill, read back, copy or move a tensor (copy_tensor and reset_tensor_by_tensor accept a tensor of another device by design); for any contents of the buffers, so the panic precedes every access. softmax_cross_entropy reads its first operand before it looks at the second: C32_cross_entropy_*."
 },
 "C51": {
  "status": "proved",
  "note": "C51_backward_adds and C51_sparse_backward_adds give exactly what the backward functions add; C51_loss_derivative, C51_sparse_gradient, C51_target_gradient give the derivatives; C51_correct_iff_targets_sum_to_one: the gradient of the logits is right exactly when the targets sum to one. C51_unnormalised_target_refuted: a target for which it is wrong."
 },
 "C52": {
  "status": "proved",
  "note": "Proved for tensors (all functions) and for nodes (mean, batch_mean, slice_sum, batch_normalization). Node layer_normalization is refused for every operand with more than one element per item: C52_node_layer_normalization_refuted. C52_batch_normalization_real / C52_layer_normalization_real: over the reals the result has mean 0 and variance v/(v+eps)."
 },
 "C58": {
  "status": "proved",
  "note": "C58_evaluation_stays_in_bounds and C58_creation_stays_in_bounds: every graph a session of node functions, evaluations and backward passes can have (also after caught panics), every operator, build with overflow checks. C58_backward_stays_in_bounds: backward from every node that uses no batch_pick. The node functions meet the condition of the sessions (C58_functions_with_one_operand, C58_arithmetic, C58_functions_with_more_operands, C58_flatten, C58_softmax, C58_leaves). Without the conditions it is false: C58_batch_pick_refuted, C58_parameter_refuted (value and gradient of different shapes)."
 },
 "C60": {
  "status": "proved",
  "note": "C60_no_conflict, C60_forward/_refused, C60_backward/_refused, C60_reading, C60_create, C60_refused_for_good. C60_try_again_refuted is the concrete case of the last sentence of the property."
 },
 "C61": {
  "status": "proved",
  "note": "For the Flocq model of binary32. The sorting routine is any routine with the documented contract of sort_unstable_by; for the panic it also has to compare an element that is in a slice of length two or more with something (C61_argsort_nan_panics)."
 },
 "C62": {
  "status": "proved",
  "note": "Flocq's binary32. C62_nearest says what the rounding function of the statements is; C62_not_associative_refuted shows why the exact sums of C20/C27 over other number types do not carry over."
 },
 "C63": {
  "status": "proved",
  "note": "The property states the exceptions (minus infinity); C63_sigmoid has the range of tanh as hypothesis, met by a concrete function (C63_applies)."
 },
 "C64": {
  "status": "proved",
  "note": "exp and ln of f64 are a parameter; the contracts (keeps_nan, decent, accurate eps) are met by correctly rounded functions (libm_r_decent, libm_r_accurate). C64_order_of_elements_refuted: the same elements in another order give NaN and a number."
 },
 "C65": {
  "status": "proved",
  "note": "C65_release_agrees, C65_first_difference; C65_gradients and C65_training carry C38 and C59 over to release builds; C65_converse_refuted: the converse fails. The programs end at their first panic; moves and drops of tensors and the memory pool are the matter of C09-C15."
 },
 "C66": {
  "status": "proved",
  "note": "C66_programs (builds with overflow checks), C66_any_build, C66_calls, C66_calls_release; C66_alloc_refuted: Tensor::alloc shows the contents. The buffer of a tensor is its elements; the unused rest of a block is never accessed (C31, C58). Conditions: arguments safe Rust can pass, and those of C31/C58 under which no call leaves its buffer (no gradient of batch_pick, += on agreeing shapes)."
 },
 "C67": {
  "status": "proved",
  "note": "C67_peak, C67_enough, C67_no_growth, C67_reuse, C67_classes; in_use counts owned handles and calls between their critical section and their end. Histories in which the pool mutex was not poisoned."
 },
 "C68": {
  "status": "proved",
  "note": "same m r1 r2: both computations succeed with the same shape and the same to_vec. Laws are explicit hypotheses (commutes, adds_up, ring_like); C68_f32_laws discharges those of the first group on f32, R_ring those of the reals; C68_f32_triangular_parts_refuted, C68_f32_associativity_refuted."
 },
 "C69": {
  "status": "proved",
  "note": "used o x c: gradient after weight decay; steps_with: the bare rule with gradients G gives the result of update_parameters. C69_norm_stagnates shows where the bound of C69_clipped_norm ends."
 },
 "C70": {
  "status": "proved",
  "note": "training: a run of N steps, gradients arbitrary before each; C70_applies shows that a step exists for every value, gradient and statistic, and computes cases."
 },
 "C71": {
  "status": "proved",
  "note": "run_on_example: the same operators and arguments with the inputs of one example; all_acceptable lists what node creation does not check. C71_applies: a concrete network with a parameter, a minibatch of two and pick. C71_gradients_applies and C71_batch_mean_applies: the gradients of a concrete network over the reals."
 },
 "C72": {
  "status": "proved",
  "note": "Over the reals. C72_use, C72_starts and C72_goes_on: what a program does with a new optimizer; C72_adam_applies: a run of any length with values 1 - 3n/4."
 },
 "C73": {
  "status": "proved",
  "note": "Refuted for Adam with a new optimizer: C73_adam_new_optimizer_refuted. C73_runs: the trainings of C44, C45 and C72 are such trainings; C73_applies: a concrete interrupted training with any optimizer."
 },
 "C74": {
  "status": "proved",
  "note": "Over the reals. C74_applies: trainings of any length of w*w and of powi(w,2), evaluated in different orders."
 },
 "C75": {
  "status": "proved",
  "note": "Over the reals. C75_applies: w^2 with decay l and (1 + l/2) w^2 without, any optimizer, any clipping, any number of steps."
 },
 "C76": {
  "status": "proved",
  "note": "Over the reals. C76_applies: w = (2, 3) with the gradient (10, 20) and the examples (5, 7) and (11, 13): two passes, one after the other, and one pass on the minibatch; the second element of the gradient becomes 20 + 7 + 13."
 },
 "C77": {
  "status": "proved",
  "note": "The header of the generated implementation; which fields are visited is also C48. That rustc rejects defaults in impl<..> and arguments of another kind is the specification well_formed. C77_applies: a struct with a lifetime, a type and a const, one field skipped."
 },
 "C78": {
  "status": "proved",
  "note": "Rust's printing of integers and slices is trusted to be decimal, with commas; it is modelled by the standard library's conversion. C78_applies: [2, 1, 3, 1] with batch 4 prints as Shape { [2, 1, 3], 4 }."
 }
}