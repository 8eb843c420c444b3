# What `Print Assumptions` lists for each theorem

Generated from the compiled development. All axioms are the standard library's; none is declared here.

## Closed under the global context (no axioms)

* PropsAg: C01_backward_returns, C01_unguarded_refuted, C09_undersending_hangs, C02_each_contribution_added_once, C02_gradient_is_sum, C02_schedule_independent, C02_reached_listable, C03_called_once_with_complete_gradient, C04_reusable, C06_gradients_stop, C06_blocked_operator_not_reached, C07_error_iff_missing, C07_error_changes_only_seeds, C07_usable_after_error_refuted
* PropsArith: C21_mul, C21_mul_t, C21_dot, C49_binary, C49_in_place_agrees, C49_scalar, C49_unary, C49_clip, C49_sum_cumsum, C49_non_zero, C17_max_min, C17_arg_max
* PropsAsm: C61_add, C61_sub, C61_div, C61_add_const, C61_mul_const, C61_deterministic, C61_runs_on, C62_sum, C62_dot, C62_plain, C62_exact, C62_runs_on, C62_without_sse3_refuted
* PropsCrf: C30_decode_best_rounded, C30_no_positions, C31_labellings
* PropsDense: C18_transpose, C18_in_place_agrees, C18_involutive, C19_at, C19_at_vector, C19_set, C19_set_at, C19_extract, C19_slice, C19_range, C19_range_refuted, C20_reshape, C20_reshape_back, C20_resize, C20_concat, C20_split, C20_split_undoes_concat, C20_concat_undoes_split, C20_split_refuted, C20_stack, C20_append_rows, C20_pad, C20_augment, C20_swap, C20_construct, C19_do_non_zero, C20_set_data
* PropsDiff: C05_values_determined
* PropsDump: C60_dump, C60_dump_succeeds, C60_load, C60_truncated, C60_round_trip_partial, C60_interrupted, C60_close_refuted, C60_replaced_refuted, C60_sequence_refuted
* PropsEmb: C38_exact_partial, C38_none_missed_partial, C38_count_after_optimizer_refuted, C38_direct_refuted, C38_decoded_refuted, C38_encode
* PropsFmt: C45_no_width_partial, C45_panics, C45_width_partial, C45_small_width, C45_refuted, C45_others
* PropsFwd: C08_terminates, C08_values_never_wrong, C08_no_deadlock
* PropsGauss: C70_quick_count, C70_quick_refuted
* PropsGem: C64_axpy, C64_gemv, C64_cumsum_kernel
* PropsGrad: C12_rotate_refuted, C09_copy_refuted, C16_concat_refuted
* PropsHeap: C22_effect, C22_data, C22_independent_partial, C22_shapes, C22_clone_refuted, C22_softmax_refuted, C22_backing_refuted
* PropsMarshal: C23_round_trip_partial, C23_round_trip, C23_reject, C23_refuted
* PropsNn: C37_for_each_param_partial, C37_visits_nothing_else, C37_map_order_irrelevant, C37_for_each_param_refuted, C37_strict_partial, C37_strict_refuted, C37_zero_grad_partial, C37_apply_partial, C37_apply_refuted, C51_complete, C51_in_order, C51_stream_prefix, C51_parameters_prefix_refuted, C51_cancelled_ends
* PropsOps: C47_pad, C47_map2, C47_module_list
* PropsOpt: C34_at_most_once, C34_bounded_concurrency, C34_error_genuine, C34_early_error_waits, C34_terminates, C34_no_deadlock, C34_nil_partial, C34_error_partial, C34_no_panic_partial, C34_update_running_refuted, C34_error_lost_refuted, C34_panic_refuted
* PropsParam: C77_new_param, C77_owned_partial, C77_value, C77_gradient, C77_acc_grad, C77_grad_live, C77_zero_grad, C77_replaced, C77_buffer, C77_dims_refuted, C77_gradient_dims_refuted, C77_precision_refuted, C77_replaced_requires_refuted, C77_replaced_owned_refuted, C77_grad_nil_refuted
* PropsParamPrec: C77_precision_kept, C77_gradient_precision
* PropsRand: C24_period, C24_every_state, C24_exact_arithmetic, C24_save_restore, C25_unbiased, C25_range, C25_panics, C26_shuffle_permutes, C26_shuffle_never_panics, C26_shuffle_choices, C26_shuffle_bijection, C26_perm_permutes, C26_perm_bijection, C27_seed_determines, C27_read_split, C27_read_bytes, C28_distinct_valid, C28_any_choice_partial, C28_returns_partial, C28_zero_refuted, C28_exact_fit_refuted
* PropsRnn: C43_two_parts

## `ClassicalDedekindReals.sig_forall_dec`

* PropsConv: C44_forward
* PropsGrad: C12_values, C12_join_values, C16_append_rows_refuted
* PropsLayer: C55_flatten
* PropsOps: C47_split_vec, C47_split_vec_refuted, C47_separate, C47_views

## `ClassicalDedekindReals.sig_forall_dec`, `FunctionalExtensionality.functional_extensionality_dep`

* PropsConv: C44_conv1d, C44_conv1d_panics, C44_conv2d, C44_conv2d_panics, C44_model1d, C44_depthwise1d, C44_model2d, C44_conv1x1
* PropsCrf: C30_decode_best, C30_decode_best_masked, C30_rounding
* PropsDiff: C05_backward_returns, C05_graph_exists
* PropsGrad: C11_values, C11_product_values, C17_max_min, C17_reduce_max, C17_scalar_max_partial, C17_scalar_max_refuted, C09_scalar_max_refuted, C16_reduce_refuted, C16_max_min_refuted, C48_dropout, C48_zero_is_identity
* PropsLayer: C55_linear, C55_sqrdist, C55_pooling
* PropsOps: C41_mae, C41_mse, C41_quantization, C41_distance, C41_sequences, C41_spg, C42_batch_norm_evaluation, C47_folds, C47_bilinear
* PropsOpt: C32_sgd, C32_sgd_momentum, C32_sgd_nesterov, C32_weighted, C33_average, C35_value_clip, C36_hyperbolic_partial, C36_hyperbolic_refuted
* PropsPool: C17_max_pooling_partial, C09_max_pooling, C16_max_pooling, C17_max_pooling_refuted, C17_max_pooling_tall, C17_max_pooling_wide, C17_max_pooling_sizes
* PropsRand: C29_interval, C29_short_total_refuted
* PropsRnn: C43_birnn
* PropsSparse: C15_projection_partial, C15_projection_only, C15_value, C15_refuted, C53_value, C53_sign

## `ClassicalDedekindReals.sig_forall_dec`, `ClassicalDedekindReals.sig_not_dec`, `FunctionalExtensionality.functional_extensionality_dep`

* PropsAtt: C39_causal_value, C39_causal, C39_unmasked_value, C39_incremental_partial, C39_later_piece_sees_too_little, C39_incremental_refuted, C40_values, C40_operands, C40_acyclic_refuted, C40_operands_partial
* PropsDiff: C05_scalar_root, C05_any_roots
* PropsGrad: C11_add, C11_sub, C11_prod, C11_div, C11_scalar_operand, C11_mul, C11_mul_t, C11_dot, C11_affine, C12_views, C12_slice, C12_rotate, C12_concat, C12_stack, C12_append_rows, C12_reduce, C10_adjoint, C13_shift, C13_gradient_column, C13_gradient, C17_max_min_gradient, C17_reduce_max_gradient, C09_products, C09_rearrangements, C09_elementwise, C16_products, C16_rearrangements, C48_backward
* PropsOpt: C32_foreign_state, C33_adam, C33_lamb, C33_radam, C33_adagrad, C33_rmsprop, C33_bias_correction, C33_no_zero_division, C33_rectification, C33_adam_step, C33_radam_step, C33_adagrad_step, C33_rmsprop_step, C33_lamb_step
* PropsPool: C17_max_pooling_gradient
* PropsRnn: C43_srn, C43_gru, C43_lstm, C43_bilstm, C52_value, C52_outputs_partial, C52_sizes_refuted, C52_candidate_refuted
* PropsRnnBuild: C43_new_bilstm, C43_new_bigru, C43_new_bibilstm
* PropsSparse: C15_gradient_partial, C53_gradient

## `ClassicalDedekindReals.sig_forall_dec`, `ClassicalDedekindReals.sig_not_dec`, `Classical_Prop.classic`, `FunctionalExtensionality.functional_extensionality_dep`

* PropsAct: C46_parse, C46_reject, C46_round_trip, C46_entrywise, C46_missing_params, C46_unknown, C46_softmax, C46_sparse_max_partial, C46_refuted
* PropsAsm: C61_same_as_plain, C62_sum_error, C62_dot_error, C62_sum_finite, C62_dot_finite, C62_close, C62_reproducible_refuted
* PropsAttFloat: C74_weights, C74_attention, C74_causal, C74_nonfinite_leaks, C74_causal_refuted
* PropsClipFloat: C75_value_clip, C75_value_bounds, C75_nan_stays, C75_largest, C75_euclid, C75_nan_unclipped, C75_overflow_erases, C75_direction_refuted
* PropsCrf: C31_negative_log_likelihood, C31_nonnegative, C31_distribution, C31_short_target_refuted
* PropsDiff: C05_partial_derivative
* PropsExp: C63_exp, C63_log, C63_same_on_every_cpu, C63_exp_finite, C63_exp_saturates_refuted, C63_exp_position_refuted, C63_log_zero, C63_log_zero_refuted, C63_log_special_refuted
* PropsFloat: C50_scalar, C50_widen, C50_slice, C50_same, C50_round_trip, C50_set_data, C50_new_dense, C50_matrix_round_trip, C54_equal, C54_equal_flip, C54_refuted, C54_in_delta_partial, C54_nan_refuted
* PropsGauss: C69_no_panic, C69_range_partial, C69_consumes, C69_ends, C69_ends_soon, C69_finite_refuted, C69_next, C69_next_refuted, C70_density_partial, C70_tail_weight, C70_tail_shape, C70_quick, C70_strip, C70_tail
* PropsGem: C64_mul, C64_same_as_plain, C64_mul_t, C64_cumsum, C64_error, C64_finite, C65_one_column_partial, C65_several_columns_partial, C65_mul_t, C65_refuted
* PropsGrad: C10_unary, C10_parametric, C10_swish_b, C10_gelu_partial, C10_gelu_refuted, C10_log_negative, C13_softmax, C09_others, C09_parameters_refuted, C16_others
* PropsInit: C56_uniform, C56_uniform_bounds, C56_xavier_uniform, C56_normal, C56_xavier_normal, C56_achlioptas, C56_constant, C56_gain, C57_float64, C57_float32_partial, C57_float32_refuted
* PropsLambFloat: C76_lamb_step, C76_overflow_refuted, C76_foreign_state
* PropsLayer: C55_highway, C55_highway_params_refuted, C55_sgu, C55_gmlp, C55_gmlp_length_refuted, C55_gmlp_odd_refuted, C55_mixer_partial, C55_mixer_refuted, C55_mixer_long
* PropsLock: C58_linear, C58_progress_partial, C58_shared_out, C58_global, C58_global_progress, C58_panic_blocks, C58_progress_refuted
* PropsLossFloat: C72_cross_entropy_sign, C72_cross_entropy, C72_gradient, C72_slope, C72_weighted, C72_weighted_gradient, C72_perplexity, C72_perplexity_gradient, C72_focal, C72_focal_value, C72_focal_slope, C72_focal_gradient, C72_focal_gradient_partial, C72_focal_gradient_nan, C72_focal_gradient_refuted, C72_lost_refuted, C72_nll_nan, C72_nll_refuted, C72_mae, C72_mse, C72_mae_zero, C72_mse_zero_refuted
* PropsLossFloat2: C72_mae_gradient, C72_mse_gradient, C72_nll_gradient_partial, C72_nll_gradient_refuted
* PropsNorm: C49_norm_partial, C49_norm_2, C49_norm_refuted, C49_normalize2
* PropsNormFloat: C71_fix_norm_partial, C71_scale_norm_partial, C71_rms_norm_partial, C71_fix_gradient_partial, C71_rms_gradient_partial, C71_gain_gradient_partial, C71_small_gradient_refuted, C71_constant_gradient_refuted, C71_large_refuted, C71_constant_refuted
* PropsNormFloat2: C71_layer_norm_simple_partial, C71_layer_norm_partial, C71_ada_norm_partial
* PropsNum: C59_softmax, C59_log_sum_exp, C59_forward, C59_sigmoid, C59_gradient_partial, C59_swish_refuted, C59_swishb_refuted, C59_mish_refuted, C59_gelu_refuted, C59_softplus_refuted, C59_log_softmax_refuted, C59_log_softmax_gradient_refuted, C59_go_math
* PropsOps: C14_log_sum_exp_vector, C14_log_sum_exp_scalars, C14_bounds, C14_log_softmax, C41_nll_one_hot, C41_nll, C41_prob, C41_cross_entropy, C41_weighted_cross_entropy, C41_perplexity, C41_focal_loss, C42_layer_norm, C42_layer_norm_shift, C42_layer_norm_simple, C42_ada_norm, C42_fix_norm, C42_scale_norm, C42_rms_norm, C42_batch_norm_training, C42_batch_norm_history
* PropsOpt: C35_norm_clip, C35_unchanged_refuted, C35_no_gradient_refuted, C36_exponential, C36_exponential_beyond_refuted
* PropsOptFloat: C68_adam, C68_adamw, C68_radam, C68_rmsprop, C68_adagrad, C68_sgd, C68_momentum, C68_rate, C68_radam_guard, C68_adam_frozen_refuted, C68_rmsprop_frozen_refuted, C68_adagrad_frozen_refuted
* PropsRand: C25_float64, C25_float64_returns, C25_float32
* PropsRnnFloat: C73_srn, C73_srn_steps, C73_gru, C73_gru_steps, C73_lstm, C73_lstm_refined, C73_nan_srn, C73_nan_gru, C73_nan_lstm, C73_overflow_refuted, C73_cell_stuck_refuted
* PropsSoft: C66_softmax, C66_softmax_total, C66_softmax_order, C66_sigmoid, C67_sigmoid_partial, C67_softmax_partial, C67_sigmoid_nan_refuted, C67_softmax_nan_refuted, C67_softmax_nan_first_refuted
