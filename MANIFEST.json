{
 "claims": [
  {
   "property": "C01",
   "status": "proved",
   "theorems": [
    "C01_backward_returns",
    "C01_unguarded_refuted"
   ],
   "note": "Proved for every graph whose backward functions hand one gradient per listed gradient-requiring operator operand, and every schedule. The unguarded claim is refuted by ELU-like functions (C01_unguarded_refuted)."
  },
  {
   "property": "C02",
   "status": "proved",
   "theorems": [
    "C02_each_contribution_added_once",
    "C02_gradient_is_sum",
    "C02_schedule_independent",
    "C02_reached_listable"
   ],
   "note": "Exact sum and schedule independence for commutative associative addition; for arbitrary (floating point) addition each contribution is added exactly once in some order."
  },
  {
   "property": "C03",
   "status": "proved",
   "theorems": [
    "C03_called_once_with_complete_gradient"
   ],
   "note": "Ghost log of the calls of fn.Backward."
  },
  {
   "property": "C04",
   "status": "proved",
   "theorems": [
    "C04_reusable"
   ],
   "note": "Histories of node creation, AccGrad, ZeroGrad and successful Backward calls."
  },
  {
   "property": "C05",
   "status": "proved",
   "theorems": [
    "C05_partial_derivative",
    "C05_scalar_root",
    "C05_any_roots",
    "C05_values_determined",
    "C05_backward_returns",
    "C05_graph_exists"
   ],
   "note": "Gradients of all leaves are the derivatives, for every program of functions that are adjoint at their operands and every schedule; over the reals (no float rounding)."
  },
  {
   "property": "C06",
   "status": "proved",
   "theorems": [
    "C06_gradients_stop",
    "C06_blocked_operator_not_reached"
   ],
   "note": ""
  },
  {
   "property": "C07",
   "status": "partial",
   "theorems": [
    "C07_error_iff_missing",
    "C07_error_changes_only_seeds",
    "C07_usable_after_error_refuted"
   ],
   "note": "Error condition and effect on gradients proved; usability of the graph after the error is refuted (C07_usable_after_error_refuted): the code leaves the roots pending."
  },
  {
   "property": "C08",
   "status": "proved",
   "theorems": [
    "C08_terminates",
    "C08_values_never_wrong",
    "C08_no_deadlock"
   ],
   "note": "Step relation over all schedules of any number of builder goroutines and asynchronous executions with a bounded semaphore."
  },
  {
   "property": "C09",
   "status": "partial",
   "theorems": [
    "C09_undersending_hangs",
    "C09_products",
    "C09_rearrangements",
    "C09_others",
    "C09_elementwise",
    "C09_parameters_refuted",
    "C09_scalar_max_refuted",
    "C09_copy_refuted",
    "C09_max_pooling"
   ],
   "note": "Proved for the products, rearrangements, element-wise functions and reductions. Refuted for the parameters of ELU-like functions, ScalarMax and Copy; the engine theorem says that Backward then hangs."
  },
  {
   "property": "C10",
   "status": "partial",
   "theorems": [
    "C10_unary",
    "C10_parametric",
    "C10_swish_b",
    "C10_adjoint",
    "C10_gelu_partial",
    "C10_gelu_refuted",
    "C10_log_negative"
   ],
   "note": "Proved for every function except GELU, whose derivative uses rounded constants (error bound C10_gelu_partial, C10_gelu_refuted). SwishB's own parameter only for vectors (otherwise Backward panics)."
  },
  {
   "property": "C11",
   "status": "proved",
   "theorems": [
    "C11_values",
    "C11_product_values",
    "C11_add",
    "C11_sub",
    "C11_prod",
    "C11_div",
    "C11_scalar_operand",
    "C11_mul",
    "C11_mul_t",
    "C11_dot",
    "C11_affine"
   ],
   "note": ""
  },
  {
   "property": "C12",
   "status": "proved",
   "theorems": [
    "C12_values",
    "C12_join_values",
    "C12_views",
    "C12_slice",
    "C12_rotate",
    "C12_concat",
    "C12_stack",
    "C12_append_rows",
    "C12_reduce",
    "C12_rotate_refuted"
   ],
   "note": "RotateR by 0 and by the size panic (C12_rotate_refuted); Concat and AppendRows as adjoint for column and row vectors respectively (see C16 for the others)."
  },
  {
   "property": "C13",
   "status": "proved",
   "theorems": [
    "C13_softmax",
    "C13_shift",
    "C13_gradient_column",
    "C13_gradient"
   ],
   "note": "Values, normalization, order and shift invariance for every vector, and the gradient. A row is turned into a column by Forward (C22_softmax_refuted); Backward is that of the column."
  },
  {
   "property": "C14",
   "status": "proved",
   "theorems": [
    "C14_log_sum_exp_vector",
    "C14_log_sum_exp_scalars",
    "C14_bounds",
    "C14_log_softmax"
   ],
   "note": ""
  },
  {
   "property": "C15",
   "status": "partial",
   "theorems": [
    "C15_projection_partial",
    "C15_projection_only",
    "C15_value",
    "C15_refuted",
    "C15_gradient_partial"
   ],
   "note": "The result is the projection exactly when the positive parts of the entries sum to at least 1 (C15_projection_partial, C15_projection_only); C15_value gives the exact result everywhere and C15_refuted shows the claim fails otherwise (values cut at the largest entry, panic if all are negative). Gradient proved off the boundaries between supports. Real arithmetic; the library sort is modelled by its result."
  },
  {
   "property": "C16",
   "status": "partial",
   "theorems": [
    "C16_products",
    "C16_rearrangements",
    "C16_others",
    "C16_reduce_refuted",
    "C16_max_min_refuted",
    "C16_concat_refuted",
    "C16_append_rows_refuted",
    "C16_max_pooling"
   ],
   "note": "Proved for the products, rearrangements and element-wise functions; refuted for ReduceSum/ReduceMean/Max/Min off column vectors, Concat of row vectors, AppendRows of column vectors."
  },
  {
   "property": "C17",
   "status": "partial",
   "theorems": [
    "C17_max_min",
    "C17_arg_max",
    "C17_max_min",
    "C17_max_min_gradient",
    "C17_reduce_max",
    "C17_reduce_max_gradient",
    "C17_scalar_max_partial",
    "C17_scalar_max_refuted",
    "C17_max_pooling_partial",
    "C17_max_pooling_gradient",
    "C17_max_pooling_refuted",
    "C17_max_pooling_tall",
    "C17_max_pooling_wide",
    "C17_max_pooling_sizes"
   ],
   "note": "The claim as listed is false: ScalarMax returns a non-maximal operand when none is positive (C17_scalar_max_refuted); MaxPooling returns SmallestNonzeroFloat64 for windows without a positive element (C17_max_pooling_refuted), panics for pools with more rows than columns (C17_max_pooling_tall) and ignores columns of pools with fewer (C17_max_pooling_wide). Everything else is proved, with the gradients."
  },
  {
   "property": "C18",
   "status": "proved",
   "theorems": [
    "C18_transpose",
    "C18_in_place_agrees",
    "C18_involutive"
   ],
   "note": "Any element type; in-place version follows the cycles of the index permutation."
  },
  {
   "property": "C19",
   "status": "proved",
   "theorems": [
    "C19_at",
    "C19_at_vector",
    "C19_set",
    "C19_set_at",
    "C19_extract",
    "C19_slice",
    "C19_range",
    "C19_range_refuted",
    "C19_do_non_zero"
   ],
   "note": "Range proved for matrices without spare capacity; with spare capacity the bounds claim is refuted (C19_range_refuted). View is the data list itself in this model; aliasing is the subject of C22."
  },
  {
   "property": "C20",
   "status": "proved",
   "theorems": [
    "C20_reshape",
    "C20_reshape_back",
    "C20_resize",
    "C20_concat",
    "C20_split",
    "C20_split_undoes_concat",
    "C20_concat_undoes_split",
    "C20_split_refuted",
    "C20_stack",
    "C20_append_rows",
    "C20_pad",
    "C20_augment",
    "C20_swap",
    "C20_construct",
    "C20_set_data"
   ],
   "note": "SplitV proved for vectors without spare capacity; refuted otherwise (C20_split_refuted)."
  },
  {
   "property": "C21",
   "status": "proved",
   "theorems": [
    "C21_mul",
    "C21_mul_t",
    "C21_dot"
   ],
   "note": "Any commutative semiring, both kernels; the product with float rounding is not modelled (skipping a zero coefficient differs from IEEE 0*Inf)."
  },
  {
   "property": "C22",
   "status": "partial",
   "theorems": [
    "C22_effect",
    "C22_data",
    "C22_independent_partial",
    "C22_shapes",
    "C22_clone_refuted",
    "C22_softmax_refuted",
    "C22_backing_refuted"
   ],
   "note": "The claim as listed is false: methods that return a matrix of the same shape share the receiver's shape slice, so ReshapeInPlace, FlattenInPlace and TransposeInPlace change the shape of clones and of their sources (C22_clone_refuted), Softmax of a row vector turns the vector into a column (C22_softmax_refuted), and NewMatrix keeps the raw data it is documented to copy (C22_backing_refuted). Proved for every history: data never changes through another matrix, nothing changes through calls that do not reshape, and exactly which matrices a reshaping call changes."
  },
  {
   "property": "C23",
   "status": "partial",
   "theorems": [
    "C23_round_trip_partial",
    "C23_round_trip",
    "C23_reject",
    "C23_refuted"
   ],
   "note": "Proved for every matrix whose dimensions fit in 32 bits, so for every matrix with elements that fits in a buffer; refuted for matrices without elements with a larger dimension, whose shape is cut to 32 bits (C23_refuted). The flatbuffers package is modelled as a table of optional slots and byte vectors; its layout and its size limit are not."
  },
  {
   "property": "C24",
   "status": "proved",
   "theorems": [
    "C24_period",
    "C24_every_state",
    "C24_exact_arithmetic",
    "C24_save_restore"
   ],
   "note": ""
  },
  {
   "property": "C25",
   "status": "proved",
   "theorems": [
    "C25_unbiased",
    "C25_range",
    "C25_panics",
    "C25_float64",
    "C25_float64_returns",
    "C25_float32"
   ],
   "note": "Float64/Float32 over R with Flocq's IEEE roundings."
  },
  {
   "property": "C26",
   "status": "proved",
   "theorems": [
    "C26_shuffle_permutes",
    "C26_shuffle_never_panics",
    "C26_shuffle_choices",
    "C26_shuffle_bijection",
    "C26_perm_permutes",
    "C26_perm_bijection"
   ],
   "note": ""
  },
  {
   "property": "C27",
   "status": "proved",
   "theorems": [
    "C27_seed_determines",
    "C27_read_split",
    "C27_read_bytes"
   ],
   "note": ""
  },
  {
   "property": "C28",
   "status": "partial",
   "theorems": [
    "C28_distinct_valid",
    "C28_any_choice_partial",
    "C28_returns_partial",
    "C28_zero_refuted",
    "C28_exact_fit_refuted"
   ],
   "note": "Proved except for the number 0, which the code can never return (C28_zero_refuted); with n = max it never returns (C28_exact_fit_refuted)."
  },
  {
   "property": "C29",
   "status": "proved",
   "theorems": [
    "C29_interval",
    "C29_short_total_refuted"
   ],
   "note": "Proved for exact sums and a number drawn below the total weight; for weights whose (rounded) sum is below the number drawn index 0 is returned (C29_short_total_refuted)."
  },
  {
   "property": "C30",
   "status": "proved",
   "theorems": [
    "C30_decode_best",
    "C30_decode_best_masked",
    "C30_decode_best_rounded",
    "C30_rounding",
    "C30_no_positions"
   ],
   "note": "Decode over real scores, scores with -infinity and any monotone (rounded) addition; NaN and +infinity excluded"
  },
  {
   "property": "C31",
   "status": "proved",
   "theorems": [
    "C31_negative_log_likelihood",
    "C31_labellings",
    "C31_nonnegative",
    "C31_distribution",
    "C31_short_target_refuted"
   ],
   "note": "value, non-negativity and normalisation for column-vector emissions and targets of the input's length; C31_short_target_refuted records that a shorter target is accepted and may give a negative loss"
  },
  {
   "property": "C32",
   "status": "proved",
   "theorems": [
    "C32_sgd",
    "C32_sgd_momentum",
    "C32_sgd_nesterov",
    "C32_weighted",
    "C32_foreign_state"
   ],
   "note": "Exact arithmetic (real numbers). Any history of gradients and learning rates; plain, momentum and Nesterov closed forms; state of another optimizer reported as error."
  },
  {
   "property": "C33",
   "status": "proved",
   "theorems": [
    "C33_adam",
    "C33_lamb",
    "C33_radam",
    "C33_adagrad",
    "C33_rmsprop",
    "C33_average",
    "C33_bias_correction",
    "C33_no_zero_division",
    "C33_rectification",
    "C33_adam_step",
    "C33_radam_step",
    "C33_adagrad_step",
    "C33_rmsprop_step",
    "C33_lamb_step"
   ],
   "note": "Exact arithmetic. Step of every optimizer in terms of the moving averages of the whole history; divisors positive; step bounds and signs. Adam's bound needs beta1^2 < beta2, no weight decay. RAdam with ro <= 4 keeps dividing by the second moment (factor 1)."
  },
  {
   "property": "C34",
   "status": "partial",
   "theorems": [
    "C34_at_most_once",
    "C34_bounded_concurrency",
    "C34_error_genuine",
    "C34_early_error_waits",
    "C34_terminates",
    "C34_no_deadlock",
    "C34_nil_partial",
    "C34_error_partial",
    "C34_no_panic_partial",
    "C34_update_running_refuted",
    "C34_error_lost_refuted",
    "C34_panic_refuted"
   ],
   "note": "All schedules of a transition system for Optimize. Safety, termination and no deadlock hold; the full claim holds when every goroutine is finished before errCh is closed, and is refuted otherwise: the code never waits on the normal path (update still running after nil, lost error, send on closed channel)."
  },
  {
   "property": "C35",
   "status": "partial",
   "theorems": [
    "C35_value_clip",
    "C35_norm_clip",
    "C35_unchanged_refuted",
    "C35_no_gradient_refuted"
   ],
   "note": "Value clipping and norm clipping proved for parameters that all have gradients; refuted: a parameter without gradient makes both clippers panic, and a norm within 1e-7 of the maximum is scaled although not above it. Exact arithmetic."
  },
  {
   "property": "C36",
   "status": "partial",
   "theorems": [
    "C36_exponential",
    "C36_hyperbolic_partial",
    "C36_hyperbolic_refuted",
    "C36_exponential_beyond_refuted"
   ],
   "note": "Exponential decay fully proved (exact arithmetic), with the division by zero one step later; hyperbolic decay: non-increasing, closed form, undershoot bounded; staying above final refuted."
  },
  {
   "property": "C37",
   "status": "partial",
   "theorems": [
    "C37_for_each_param_partial",
    "C37_visits_nothing_else",
    "C37_map_order_irrelevant",
    "C37_for_each_param_refuted",
    "C37_strict_partial",
    "C37_strict_refuted",
    "C37_zero_grad_partial",
    "C37_apply_partial",
    "C37_apply_refuted"
   ],
   "note": "ForEachParam, ForEachParamStrict, Apply and ZeroGrad over the tree of values reflection sees. Proved for models whose slices and maps hold only parameters and models; refuted where a nil or other element hides what follows it, where ForEachParamStrict descends into a sub-model with its own TraverseParams, and where Apply panics on a top-level model with its own TraverseParams."
  },
  {
   "property": "C38",
   "status": "partial",
   "theorems": [
    "C38_exact_partial",
    "C38_none_missed_partial",
    "C38_count_after_optimizer_refuted",
    "C38_direct_refuted",
    "C38_decoded_refuted",
    "C38_encode"
   ],
   "note": "Every history. Exact when gradients go through embeddings and the model; with clearing by the optimizer nothing is missed but the count is stale (refuted); accumulating directly on Weights is not seen (refuted); a decoded model panics at the first gradient (refuted)."
  },
  {
   "property": "C39",
   "status": "partial",
   "theorems": [
    "C39_causal_value",
    "C39_causal",
    "C39_unmasked_value",
    "C39_incremental_partial",
    "C39_later_piece_sees_too_little",
    "C39_incremental_refuted"
   ],
   "note": "Causality, the output formula and incremental decoding with a first piece of any length followed by single inputs are proved for all weights and sequences. For later pieces of more than one input the claim is false of the code: the mask ignores the cached inputs (C39_incremental_refuted, C39_later_piece_sees_too_little)."
  },
  {
   "property": "C40",
   "status": "partial",
   "theorems": [
    "C40_values",
    "C40_operands",
    "C40_acyclic_refuted",
    "C40_operands_partial"
   ],
   "note": "The forward values are proved. The graph claim is false of the code for every model and every non-empty sequence: the buffer of operands is shared with the slice of results, so the first Concat is its own operand and RequiresGrad deadlocks (C40_acyclic_refuted); C40_operands characterises every operand exactly."
  },
  {
   "property": "C41",
   "status": "proved",
   "theorems": [
    "C41_mae",
    "C41_mse",
    "C41_nll_one_hot",
    "C41_nll",
    "C41_prob",
    "C41_cross_entropy",
    "C41_weighted_cross_entropy",
    "C41_perplexity",
    "C41_focal_loss",
    "C41_quantization",
    "C41_distance",
    "C41_sequences",
    "C41_spg"
   ],
   "note": ""
  },
  {
   "property": "C42",
   "status": "proved",
   "theorems": [
    "C42_layer_norm",
    "C42_layer_norm_shift",
    "C42_layer_norm_simple",
    "C42_ada_norm",
    "C42_fix_norm",
    "C42_scale_norm",
    "C42_rms_norm",
    "C42_batch_norm_training",
    "C42_batch_norm_evaluation",
    "C42_batch_norm_history"
   ],
   "note": "Over the reals, with the epsilons of the code."
  },
  {
   "property": "C43",
   "status": "proved",
   "theorems": [
    "C43_srn",
    "C43_gru",
    "C43_lstm",
    "C43_two_parts",
    "C43_birnn",
    "C43_bilstm",
    "C43_new_bilstm",
    "C43_new_bigru",
    "C43_new_bibilstm"
   ],
   "note": "SRN, GRU and LSTM each compute their textbook equations for every sequence and are causal; running a sequence in two parts from the last state of the first gives the same states; BiRNN and BiLSTM merge at each position the forward state with the backward state of the same position."
  },
  {
   "property": "C44",
   "status": "proved",
   "theorems": [
    "C44_conv1d",
    "C44_conv1d_panics",
    "C44_conv2d",
    "C44_conv2d_panics",
    "C44_model1d",
    "C44_depthwise1d",
    "C44_model2d",
    "C44_forward",
    "C44_conv1x1"
   ],
   "note": "Values and exact panic conditions of Conv1D and Conv2D for every non-empty kernel, input and integer stride; convolution1d and convolution2d models with masks and depth-wise mode, and conv1x1. A model whose mask lets no channel through panics."
  },
  {
   "property": "C45",
   "status": "partial",
   "theorems": [
    "C45_no_width_partial",
    "C45_panics",
    "C45_width_partial",
    "C45_small_width",
    "C45_refuted",
    "C45_others"
   ],
   "note": "The claim as listed is false (C45_refuted): a width longer than twice an element's text makes the formatter slice its blank buffer out of range and panic. Proved: without a width, and with a width up to the longest text, every element is printed in row order and the points are aligned; the exact condition for the panic (C45_panics); otherwise the layout holds and dotted columns have the width asked for. strconv.AppendFloat is a parameter; what fmt does with %#v and %+v is not modelled."
  },
  {
   "property": "C46",
   "status": "partial",
   "theorems": [
    "C46_parse",
    "C46_reject",
    "C46_round_trip",
    "C46_entrywise",
    "C46_missing_params",
    "C46_unknown",
    "C46_softmax",
    "C46_sparse_max_partial",
    "C46_refuted"
   ],
   "note": "Names round trip for every string and every visiting order of the map; the 21 entry-wise activations and Softmax/LogSoftmax run and compute their functions. Not every activation can be run: SparseMax panics when all entries are negative (C46_refuted, exact condition in C46_sparse_max_partial). ToLower is modelled on ASCII, real arithmetic."
  },
  {
   "property": "C47",
   "status": "proved",
   "theorems": [
    "C47_split_vec",
    "C47_split_vec_refuted",
    "C47_separate",
    "C47_pad",
    "C47_map2",
    "C47_folds",
    "C47_views",
    "C47_bilinear",
    "C47_module_list"
   ],
   "note": "SplitVec for column vectors; for row vectors it always panics (C47_split_vec_refuted)."
  },
  {
   "property": "C48",
   "status": "proved",
   "theorems": [
    "C48_dropout",
    "C48_zero_is_identity",
    "C48_backward"
   ],
   "note": "For every sequence of draws and 0 <= p < 1."
  },
  {
   "property": "C49",
   "status": "partial",
   "theorems": [
    "C49_binary",
    "C49_in_place_agrees",
    "C49_scalar",
    "C49_unary",
    "C49_clip",
    "C49_sum_cumsum",
    "C49_non_zero",
    "C49_norm_partial",
    "C49_norm_2",
    "C49_norm_refuted",
    "C49_normalize2"
   ],
   "note": "Everything listed is proved except that Norm takes powers without absolute values: Norm(p) is the p-norm for even integers p and for vectors without negative elements (C49_norm_partial), Norm(1) of (-1, 1) is 0 (C49_norm_refuted)."
  },
  {
   "property": "C50",
   "status": "proved",
   "theorems": [
    "C50_scalar",
    "C50_widen",
    "C50_slice",
    "C50_same",
    "C50_round_trip",
    "C50_set_data",
    "C50_new_dense",
    "C50_matrix_round_trip"
   ],
   "note": "Over Flocq's binary32 and binary64 with one NaN: payloads of NaNs, which Go leaves open, are not modelled. Sharing of memory between a slice and its conversion to the same type belongs to C22."
  },
  {
   "property": "C51",
   "status": "partial",
   "theorems": [
    "C51_complete",
    "C51_in_order",
    "C51_stream_prefix",
    "C51_parameters_prefix_refuted",
    "C51_cancelled_ends"
   ],
   "note": "Every interleaving of producer, receiver and cancellation. The prefix property after cancellation is proved for StreamParams and refuted for Parameters, which may skip one and deliver a later one."
  },
  {
   "property": "C52",
   "status": "partial",
   "theorems": [
    "C52_value",
    "C52_outputs_partial",
    "C52_sizes_refuted",
    "C52_candidate_refuted"
   ],
   "note": "The full claim is refuted in the model: with InputSize different from OutputSize two or more steps panic (C52_sizes_refuted), and one matrix of the candidate cell takes no part (C52_candidate_refuted). Proved for all lengths and numbers of rounds when the sizes agree: the value (C52_value), and the number and size of the outputs (C52_outputs_partial). The specification follows the code in using the previous sentence state where the paper uses the updated one."
  },
  {
   "property": "C53",
   "status": "proved",
   "theorems": [
    "C53_value",
    "C53_gradient",
    "C53_sign"
   ],
   "note": "Value, sign and gradient of SparseMaxLoss for every non-empty matrix, in real arithmetic."
  },
  {
   "property": "C54",
   "status": "partial",
   "theorems": [
    "C54_equal",
    "C54_equal_flip",
    "C54_refuted",
    "C54_in_delta_partial",
    "C54_nan_refuted"
   ],
   "note": "The claim as listed is false: Equal converts the argument to the receiver's type, so a float32 matrix can equal a float64 one that does not equal it (C54_refuted), and InDelta accepts a NaN against anything (C54_nan_refuted). Proved: exactly when Equal holds, that it is symmetric unless only the argument is float64, and exactly when InDelta holds on finite elements."
  },
  {
   "property": "C55",
   "status": "partial",
   "theorems": [
    "C55_linear",
    "C55_highway",
    "C55_highway_params_refuted",
    "C55_sqrdist",
    "C55_flatten",
    "C55_sgu",
    "C55_gmlp",
    "C55_gmlp_length_refuted",
    "C55_gmlp_odd_refuted",
    "C55_mixer_partial",
    "C55_mixer_refuted",
    "C55_mixer_long",
    "C55_pooling"
   ],
   "note": "Formulas proved for linear, highway, SqrDist, Flatten, pooling, SGU, gMLP and the mixer block. Refuted of the code: highway with an activation that takes parameters panics; gMLP returns SeqLen outputs for a shorter sequence; gMLP with an odd feed-forward size and the mixer on fewer than Channels inputs panic."
  },
  {
   "property": "C56",
   "status": "proved",
   "theorems": [
    "C56_uniform",
    "C56_uniform_bounds",
    "C56_xavier_uniform",
    "C56_normal",
    "C56_xavier_normal",
    "C56_achlioptas",
    "C56_constant",
    "C56_gain"
   ],
   "note": "Values over rounded reals (no overflow, no fused operations); NormFloat64 is a parameter: the theorems say that its successive outputs are used."
  },
  {
   "property": "C57",
   "status": "partial",
   "theorems": [
    "C57_float64",
    "C57_float32_partial",
    "C57_float32_refuted"
   ],
   "note": "float64: proved. float32: C57_float32_partial is exact; a draw from 1-2^-25 on rounds to 1 and gives 2 (C57_float32_refuted)."
  },
  {
   "property": "C58",
   "status": "partial",
   "theorems": [
    "C58_linear",
    "C58_progress_partial",
    "C58_shared_out",
    "C58_global",
    "C58_global_progress",
    "C58_panic_blocks",
    "C58_progress_refuted"
   ],
   "note": "Blocking: C58_progress_partial needs that no call panicked; C58_progress_refuted: a method of LockedRand that panics (Intn, Int63n, Int31n, Uint64n, Perm, Shuffle on a bad argument) keeps the mutex, so after a recovered panic every later call blocks for ever. The rest is proved for all schedules."
  },
  {
   "property": "C59",
   "status": "partial",
   "theorems": [
    "C59_softmax",
    "C59_log_sum_exp",
    "C59_forward",
    "C59_sigmoid",
    "C59_gradient_partial",
    "C59_swish_refuted",
    "C59_swishb_refuted",
    "C59_mish_refuted",
    "C59_gelu_refuted",
    "C59_softplus_refuted",
    "C59_log_softmax_refuted",
    "C59_log_softmax_gradient_refuted",
    "C59_go_math"
   ],
   "note": "Proved for softmax, LogSumExp, sigmoid, all forward activations with usual parameters, and the gradients of all activations (Swish, SwishB, Mish and GELU on a bounded range). The claim is false of the code beyond: see the _refuted theorems (NaN gradients of Swish, SwishB, Mish and GELU at large inputs, LogSoftmax's infinite values and gradients, SoftPlus with a large threshold)."
  },
  {
   "property": "C60",
   "status": "partial",
   "theorems": [
    "C60_dump",
    "C60_dump_succeeds",
    "C60_load",
    "C60_truncated",
    "C60_round_trip_partial",
    "C60_interrupted",
    "C60_close_refuted",
    "C60_replaced_refuted",
    "C60_sequence_refuted"
   ],
   "note": "Proved: Dump delivers exactly the encoding when it returns nil and a prefix at every moment otherwise; Load gives the value for every division and rejects truncated data; DumpToFile then LoadFromFile when Close succeeds; interrupted saves never load as another value. Refuted of the code: the error of Close is lost, the earlier file is truncated first, and consecutive Loads from one stream fail."
  },
  {
   "property": "C61",
   "status": "proved",
   "theorems": [
    "C61_add",
    "C61_sub",
    "C61_div",
    "C61_add_const",
    "C61_mul_const",
    "C61_deterministic",
    "C61_same_as_plain",
    "C61_runs_on"
   ],
   "note": "All ten kernels pairs (AVX/AVX2 and SSE, float32 and float64), any lanes; bit for bit the plain loops in IEEE arithmetic; the chosen code is supported by the processor."
  },
  {
   "property": "C62",
   "status": "proved",
   "theorems": [
    "C62_sum",
    "C62_dot",
    "C62_plain",
    "C62_exact",
    "C62_sum_error",
    "C62_dot_error",
    "C62_sum_finite",
    "C62_dot_finite",
    "C62_close",
    "C62_runs_on",
    "C62_without_sse3_refuted",
    "C62_reproducible_refuted"
   ],
   "note": "Each element exactly once on every processor; exact in exact arithmetic; error bounds in floating point. Findings beside it: SSE3 is used without being asked for, and sums depend on processor and address."
  },
  {
   "property": "C63",
   "status": "partial",
   "theorems": [
    "C63_exp",
    "C63_log",
    "C63_same_on_every_cpu",
    "C63_exp_finite",
    "C63_exp_saturates_refuted",
    "C63_exp_position_refuted",
    "C63_log_zero",
    "C63_log_zero_refuted",
    "C63_log_special_refuted"
   ],
   "note": "Accuracy and memory safety are proved for every processor, length and address. The special values and the independence of the position are refuted: NaN, infinities, overflow, zeros and subnormal numbers differ between whole vectors and the tail."
  },
  {
   "property": "C64",
   "status": "proved",
   "theorems": [
    "C64_axpy",
    "C64_gemv",
    "C64_cumsum_kernel",
    "C64_mul",
    "C64_same_as_plain",
    "C64_mul_t",
    "C64_cumsum",
    "C64_error",
    "C64_finite"
   ],
   "note": "kernels for any arithmetic; Mul, MulT, CumSum in floating point on every processor; error and overflow bounds"
  },
  {
   "property": "C65",
   "status": "partial",
   "theorems": [
    "C65_one_column_partial",
    "C65_several_columns_partial",
    "C65_mul_t",
    "C65_refuted"
   ],
   "note": "refuted: Mul with several columns skips zeros of the left matrix whatever they meet; holds with one column, for MulT, and for nonzero left factors"
  },
  {
   "property": "C66",
   "status": "proved",
   "theorems": [
    "C66_softmax",
    "C66_softmax_total",
    "C66_softmax_order",
    "C66_sigmoid"
   ],
   "note": "All processors and both element types, over the modelled kernels; package math by the stated contract (go_math)."
  },
  {
   "property": "C67",
   "status": "partial",
   "theorems": [
    "C67_sigmoid_partial",
    "C67_softmax_partial",
    "C67_sigmoid_nan_refuted",
    "C67_softmax_nan_refuted",
    "C67_softmax_nan_first_refuted"
   ],
   "note": "Refuted for float32: the vector exponential turns a NaN into 2.4e38. The _partial theorems prove it for float64, and for float32 where the NaN stands in the rest behind the last whole vector."
  },
  {
   "property": "C68",
   "status": "partial",
   "theorems": [
    "C68_adam",
    "C68_adamw",
    "C68_radam",
    "C68_rmsprop",
    "C68_adagrad",
    "C68_sgd",
    "C68_momentum",
    "C68_rate",
    "C68_radam_guard",
    "C68_adam_frozen_refuted",
    "C68_rmsprop_frozen_refuted",
    "C68_adagrad_frozen_refuted"
   ],
   "note": "Bounded and finite for ever: proved for Adam, AdamW, RAdam, RMSProp, AdaGrad and SGD, with the rate of Adam bounded from a contract of math.Pow. That a weight can still be trained after a larger finite gradient is refuted: its average of squares stays infinite and the weight is frozen."
  },
  {
   "property": "C69",
   "status": "partial",
   "theorems": [
    "C69_no_panic",
    "C69_range_partial",
    "C69_consumes",
    "C69_ends",
    "C69_ends_soon",
    "C69_finite_refuted",
    "C69_next",
    "C69_next_refuted"
   ],
   "note": "Ends, no panic, range, independence of later words, Next: proved for every word sequence; finiteness fails (refuted) after two words with 53 zero bits, hence _partial. math.Log and math.Exp by their contract."
  },
  {
   "property": "C70",
   "status": "partial",
   "theorems": [
    "C70_density_partial",
    "C70_tail_weight",
    "C70_tail_shape",
    "C70_quick",
    "C70_strip",
    "C70_tail",
    "C70_quick_count",
    "C70_quick_refuted"
   ],
   "note": "Density of one attempt (strips, tail weight, tail shape) for ideal uniform numbers, and the float decisions for every word: proved. Missing: one statement about the distribution of the float results as counted over all word sequences."
  },
  {
   "property": "C71",
   "status": "partial",
   "theorems": [
    "C71_fix_norm_partial",
    "C71_scale_norm_partial",
    "C71_rms_norm_partial",
    "C71_fix_gradient_partial",
    "C71_rms_gradient_partial",
    "C71_gain_gradient_partial",
    "C71_small_gradient_refuted",
    "C71_constant_gradient_refuted",
    "C71_large_refuted",
    "C71_constant_refuted",
    "C71_layer_norm_simple_partial",
    "C71_layer_norm_partial",
    "C71_ada_norm_partial"
   ],
   "note": "Accuracy of the results of FixNorm, ScaleNorm, RMSNorm for all vectors up to 2^50 (2^440) and of their gradients when one element is at least 2^-56 (2^-480); accuracy of the results of LayerNorm, LayerNormSimple and AdaNorm for all vectors up to 2^48 (2^438). Refuted: no finite gradient for vanishing or (LayerNormSimple, AdaNorm) constant vectors, results all zero when a square overflows, LayerNormSimple of a constant vector need not be 0. Not proved: accuracy of the gradients of LayerNorm, LayerNormSimple and AdaNorm."
  },
  {
   "property": "C72",
   "status": "partial",
   "theorems": [
    "C72_cross_entropy_sign",
    "C72_cross_entropy",
    "C72_gradient",
    "C72_slope",
    "C72_weighted",
    "C72_weighted_gradient",
    "C72_perplexity",
    "C72_perplexity_gradient",
    "C72_focal",
    "C72_focal_value",
    "C72_focal_slope",
    "C72_focal_gradient",
    "C72_focal_gradient_partial",
    "C72_focal_gradient_nan",
    "C72_focal_gradient_refuted",
    "C72_lost_refuted",
    "C72_nll_nan",
    "C72_nll_refuted",
    "C72_mae",
    "C72_mse",
    "C72_mae_zero",
    "C72_mse_zero_refuted",
    "C72_mae_gradient",
    "C72_mse_gradient",
    "C72_nll_gradient_partial",
    "C72_nll_gradient_refuted"
   ],
   "note": "Proved: CrossEntropy, WeightedCrossEntropy, Perplexity and FocalLoss with a parameter from 1 on (value) and their gradients (FocalLoss: parameters from 2 on), MAE and MSE (value and gradient), the gradient of NLL at normal numbers and at 0. Missing: how accurate the gradient of FocalLoss is for parameters between 1 and 2 (it is proved finite). Refuted: the gradient of FocalLoss for parameters below 1, the relative accuracy of CrossEntropy, NLL of a softmax, its gradient at subnormal probabilities, and MSE being 0 for equal vectors only."
  },
  {
   "property": "C73",
   "status": "proved",
   "theorems": [
    "C73_srn",
    "C73_srn_steps",
    "C73_gru",
    "C73_gru_steps",
    "C73_lstm",
    "C73_lstm_refined",
    "C73_nan_srn",
    "C73_nan_gru",
    "C73_nan_lstm",
    "C73_overflow_refuted",
    "C73_cell_stuck_refuted"
   ],
   "note": "Accuracy of a step in terms of the fields of the state before; the contracts of math.Exp and math.Tanh are hypotheses. The backward passes are not part of it (C43, C45 in exact arithmetic)."
  },
  {
   "property": "C74",
   "status": "proved",
   "theorems": [
    "C74_weights",
    "C74_attention",
    "C74_causal",
    "C74_nonfinite_leaks",
    "C74_causal_refuted"
   ],
   "note": "forward pass of ScaledDotProductAttention; the causal mask of a finite input hides later positions bit for bit, of a non-finite one it does not (C74_causal_refuted, C74_nonfinite_leaks); scores above the overflow bound are not covered"
  },
  {
   "property": "C75",
   "status": "proved",
   "theorems": [
    "C75_value_clip",
    "C75_value_bounds",
    "C75_nan_stays",
    "C75_largest",
    "C75_euclid",
    "C75_nan_unclipped",
    "C75_overflow_erases",
    "C75_direction_refuted"
   ],
   "note": "Both clippers, both precisions. Accuracy of NormClipper for the Euclidean and the infinity norm; for other norm types only that sizes and NaN stay (C75_nan_stays). Findings: overflow of the squares erases all gradients (C75_direction_refuted, C75_overflow_erases), one NaN switches clipping off (C75_nan_unclipped)."
  },
  {
   "property": "C76",
   "status": "partial",
   "theorems": [
    "C76_lamb_step",
    "C76_overflow_refuted",
    "C76_foreign_state"
   ],
   "note": "C76_lamb_step: every update of every history succeeds along the direction that floating-point Adam plus decay gives and, for weights in a stated range, has the stated length and accuracy; from weights whose squares all vanish it is the step of Adam. That finite weights stay finite is refuted (C76_overflow_refuted). Not stated: steps from weights between invisible and visible, where the squares lose their accuracy"
  },
  {
   "property": "C77",
   "status": "partial",
   "theorems": [
    "C77_new_param",
    "C77_owned_partial",
    "C77_value",
    "C77_gradient",
    "C77_acc_grad",
    "C77_grad_live",
    "C77_zero_grad",
    "C77_replaced",
    "C77_buffer",
    "C77_dims_refuted",
    "C77_gradient_dims_refuted",
    "C77_precision_refuted",
    "C77_replaced_requires_refuted",
    "C77_replaced_owned_refuted",
    "C77_grad_nil_refuted",
    "C77_precision_kept",
    "C77_gradient_precision"
   ],
   "note": "the dimensions of a parameter are shared with the matrix it was made from, its first gradient may have other dimensions, whether a gradient of the other precision is taken depends on what came before, a replaced value is neither owned nor does it keep the flag, and Grad of a matrix without gradients is not nil (refuted); everything else is proved for all histories"
  }
 ]
}