{"claims": [
 {"property": "C01", "status": "proved", "theorems": ["C01_sample_length"], "note": ""},
 {"property": "C02", "status": "proved", "theorems": ["C02_taps_in_range"], "note": ""},
 {"property": "C03", "status": "proved", "theorems": ["C03_inside_unpad"], "note": ""},
 {"property": "C04", "status": "proved", "theorems": ["C04_valid_padding"], "note": ""},
 {"property": "C05", "status": "proved", "theorems": ["C05_same_padding"], "note": ""},
 {"property": "C06", "status": "proved", "theorems": ["C06_same_is_ceil_iff", "C06_same_is_ceil_refuted"], "note": "the unconditional ceil law is refuted by C06_same_is_ceil_refuted; the exact condition is C06_same_is_ceil_iff"},
 {"property": "C07", "status": "proved", "theorems": ["C07_constructors"], "note": ""},
 {"property": "C08", "status": "proved", "theorems": ["C08_no_wrap_refuted", "C01_sample_length"], "note": "the unguarded law is refuted; under the no-overflow guard it is C01"},
 {"property": "C09", "status": "proved", "theorems": ["C09_image_shapes", "C09_filter_shapes"], "note": ""},
 {"property": "C23", "status": "proved", "theorems": ["C23_mm", "C23_mmt", "C23_mtm", "C23_mv", "C23_vm"], "note": ""},
 {"property": "C24", "status": "proved", "theorems": ["C24_mm", "C24_mmt", "C24_mtm", "C24_mv", "C24_vm"], "note": ""},
 {"property": "C25", "status": "proved", "theorems": ["C25_cblas", "C25_zero_size_refuted"], "note": "gemm/gemv are external: their reference semantics is part of the trusted base"},
 {"property": "C11", "status": "proved", "theorems": ["C11_hwrs", "C11_rshw", "C11_hwrsc", "C11_shapes"], "note": ""},
 {"property": "C12", "status": "proved", "theorems": ["C12_idx_map", "C12_beyond_int", "C12_beyond_int_refuted"], "note": ""},
 {"property": "C13", "status": "proved", "theorems": ["C13_col2im"], "note": ""},
 {"property": "C14", "status": "proved", "theorems": ["C14_adjoint"], "note": ""},
 {"property": "C15", "status": "proved", "theorems": ["C15_shape_inverse"], "note": ""},
 {"property": "C16", "status": "proved", "theorems": ["C16_conv_nhwc"], "note": ""},
 {"property": "C17", "status": "proved", "theorems": ["C17_conv_nchw"], "note": ""},
 {"property": "C18", "status": "proved", "theorems": ["C18_layouts"], "note": ""},
 {"property": "C19", "status": "proved", "theorems": ["C19_infer", "C19_kernels_total"], "note": ""},
 {"property": "C20", "status": "proved", "theorems": ["C20_grad_x", "C20_grad_y"], "note": ""},
 {"property": "C10", "status": "proved", "theorems": ["C10_to_first", "C10_to_last", "C10_shapes", "C10_first_last", "C10_last_first"], "note": ""},
 {"property": "C21", "status": "proved", "theorems": ["C21_conv1d", "C21_im2col_mv", "C21_crop", "C21_shape"], "note": "im2col1d + matrix-vector product agree under ring laws; the value theorem needs no law"},
 {"property": "C22", "status": "proved", "theorems": ["C22_multiplicity", "C22_shape"], "note": ""},
 {"property": "C69", "status": "proved", "theorems": ["C21_shape", "C69_overcrop", "C69_im2col1d_throws", "C69_overcrop_refuted"], "note": ""},
 {"property": "C26", "status": "proved", "theorems": ["C26_matmul", "C26_grad0", "C26_grad1"], "note": ""},
 {"property": "C27", "status": "proved", "theorems": ["C27_pointwise", "C27_identity", "C27_add", "C27_sub", "C27_mul", "C27_div", "C27_axpy"], "note": ""},
 {"property": "C28", "status": "proved", "theorems": ["C28_relu", "C28_idempotent", "C28_grad", "C28_max_Z", "C28_max_R", "C28_derivative", "C28_at_zero"], "note": ""},
 {"property": "C29", "status": "proved", "theorems": ["C29_add0", "C29_add1", "C29_mul0", "C29_mul1"], "note": ""},
 {"property": "C30", "status": "proved", "theorems": ["C30_add_bias", "C30_mul_bias", "C30_shape"], "note": ""},
 {"property": "C31", "status": "proved", "theorems": ["C31_bias0", "C31_bias1_hw", "C31_bias1_nhwc"], "note": ""},
 {"property": "C32", "status": "proved", "theorems": ["C32_bn", "C32_bn_bias", "C32_layouts", "C32_shape", "C32_formula", "C32_bn_real"], "note": ""},
 {"property": "C41", "status": "proved", "theorems": ["C41_nchw", "C41_nhwc", "C41_shape"], "note": "Sizes add modulo 2^32 as in the code."},
 {"property": "C33", "status": "proved", "theorems": ["C33_value", "C33_range", "C33_sum", "C33_sum_unclamped", "C33_shift", "C33_monotone"], "note": "Exact real arithmetic."},
 {"property": "C34", "status": "proved", "theorems": ["C34_pointwise", "C34_relu", "C34_softmax", "C34_softmax_first", "C34_softmax_refuted"], "note": "The general claim is refuted for softmax; its exact in-place result is proved."},
 {"property": "C35", "status": "proved", "theorems": ["C35_grad1", "C35_grad2", "C35_clamped_refuted"], "note": "Exact real arithmetic; also shown wrong when an output is clamped."},
 {"property": "C36", "status": "proved", "theorems": ["C36_value", "C36_grad1", "C36_grad2", "C36_softmax_xentropy"], "note": "Exact real arithmetic."},
 {"property": "C37", "status": "proved", "theorems": ["C37_window", "C37_max_hw", "C37_max_hwc", "C37_mean_hw", "C37_mean_hwc", "C37_mean_real"], "note": ""},
 {"property": "C38", "status": "proved", "theorems": ["C38_shape", "C38_nhwc", "C38_nchw", "C38_right_padding", "C38_padding_refuted"], "note": "The original claim is refuted; the exact behaviour is proved."},
 {"property": "C39", "status": "proved", "theorems": ["C39_value", "C39_refuted"], "note": "The original claim is refuted; the exact condition is proved."},
 {"property": "C40", "status": "proved", "theorems": ["C40_nonempty_iff", "C40_max", "C40_mean", "C40_refuted"], "note": "The original claim is refuted; the exact behaviour is proved."},
 {"property": "C42", "status": "proved", "theorems": ["C42_inner", "C42_outter", "C42_mean", "C42_mean_real"], "note": "Mean for tensors of any rank; generic division, instance over the reals."},
 {"property": "C43", "status": "proved", "theorems": ["C43_min", "C43_max", "C43_span", "C43_span_real", "C43_sum", "C43_mean_real", "C43_variance_real", "C43_std_real", "C43_adj_diff", "C43_adj_diff_zero", "C43_adj_diff_neg", "C43_empty", "C43_scalar_summaries"], "note": "Min, max and span over any strict weak order on the elements (no NaN); the analytic facts over the reals."},
 {"property": "C44", "status": "proved", "theorems": ["C44_summary", "C44_reduce", "C44_refuted"], "note": "The claim as first written is false: the sum is converted to uint32_t before the division. Reworded to the exact condition; C44_refuted is the witness."},
 {"property": "C45", "status": "proved", "theorems": ["C45_onehot"], "note": "Labels of any rank."},
 {"property": "C46", "status": "proved", "theorems": ["C46_value", "C46_refuted"], "note": "The claim as first written is false (class count converted to the label type); reworded to the exact value, C46_refuted is the witness."},
 {"property": "C47", "status": "proved", "theorems": ["C47_argmax", "C47_inverse"], "note": "ttl::argmax is external: assumed to return the first greatest position."},
 {"property": "C48", "status": "proved", "theorems": ["C48_top", "C48_fits", "C48_sort_unique", "C48_throws", "C48_refuted"], "note": "std::sort is modelled by insertion; C48_sort_unique shows every correct sort gives the same list. C48_refuted shows the effect of a narrow index type."},
 {"property": "C49", "status": "proved", "theorems": ["C49_value", "C49_bounds", "C49_one", "C49_symmetric", "C49_shape"], "note": "Over the reals."},
 {"property": "C70", "status": "proved", "theorems": ["C70_cast"], "note": "ttl::cast is external: assumed elementwise."},
 {"property": "C50", "status": "proved", "theorems": ["C50_crc", "C50_op"], "note": ""},
 {"property": "C51", "status": "proved", "theorems": ["C51_burst", "C51_byte", "C51_predefined", "C51_top_bit_needed"], "note": ""},
 {"property": "C52", "status": "proved", "theorems": ["C52_affine", "C52_concat", "C52_concat_inj"], "note": ""},
 {"property": "C53", "status": "proved", "theorems": ["C53_file", "C53_length", "C53_bytes", "C53_roundtrip", "C53_open"], "note": "Little-endian host; device failures while writing not modelled."},
 {"property": "C54", "status": "proved", "theorems": ["C54_mismatch", "C54_accept", "C54_other"], "note": ""},
 {"property": "C55", "status": "proved", "theorems": ["C55_data", "C55_complete", "C55_short_header", "C55_refuted"], "note": "The original claim (truncated files are rejected) is refuted."},
 {"property": "C56", "status": "proved", "theorems": ["C56_found", "C56_unknown", "C56_open"], "note": ""},
 {"property": "C57", "status": "proved", "theorems": ["C57_terminates", "C57_refuted"], "note": "The original claim (always terminates) is refuted."},
 {"property": "C58", "status": "proved", "theorems": ["C58_defined", "C58_overflow", "C58_refuted"], "note": "The original claim (never overflows) is refuted."},
 {"property": "C71", "status": "proved", "theorems": ["C71_overrun"], "note": ""},
 {"property": "C59", "status": "proved", "theorems": ["C59_lexical", "C59_join"], "note": ""},
 {"property": "C60", "status": "proved", "theorems": ["C60_distinct", "C60_injective", "C60_refuted"], "note": "The original claim (distinct paths always give distinct names) is refuted."},
 {"property": "C61", "status": "proved", "theorems": ["C61_compose", "C61_sequential", "C61_pre", "C61_grouping", "C61_fails"], "note": ""},
 {"property": "C62", "status": "proved", "theorems": ["C62_dense", "C62_conv_nhwc", "C62_conv_nchw", "C62_same_padding", "C62_valid_padding"], "note": ""},
 {"property": "C63", "status": "proved", "theorems": ["C63_released", "C63_dense_weight", "C63_dense_bias", "C63_conv_weight", "C63_conv_shape", "C63_conv_bias", "C63_pool_shape", "C63_refuted"], "note": "The original claim (a failing call releases everything) is refuted."},
 {"property": "C72", "status": "proved", "theorems": ["C72_batch_norm", "C72_activation", "C72_identity", "C72_relu", "C72_pool_nhwc", "C72_pool_nchw"], "note": ""},
 {"property": "C73", "status": "proved", "theorems": ["C73_dense_weight", "C73_dense_bias"], "note": ""},
 {"property": "C74", "status": "proved", "theorems": ["C74_dense_softmax", "C74_refuted", "C34_softmax_first"], "note": ""},
 {"property": "C64", "status": "proved", "theorems": ["C64_zeros", "C64_ones", "C64_constant", "C64_uniform", "C64_uniform_sum"], "note": ""},
 {"property": "C65", "status": "proved", "theorems": ["C65_values", "C65_terminates", "C65_in_range", "C65_bounded", "C65_seeded", "C65_nonpositive"], "note": "The engine and distribution are arbitrary functions; no claim about probabilities."},
 {"property": "C66", "status": "proved", "theorems": ["C66_returns", "C66_throws", "C66_elementwise", "C66_unary", "C66_matmul", "C66_bias", "C66_xentropy", "C66_conv", "C66_check"], "note": ""},
 {"property": "C67", "status": "proved", "theorems": ["C67_size", "C67_value", "C67_copy", "C67_inverse", "C67_grad"], "note": ""},
 {"property": "C68", "status": "proved", "theorems": ["C68_endo", "C68_binary", "C68_reduce", "C68_binary_reduce", "C68_vectorize", "C68_inverse"], "note": ""},
 {"property": "C75", "status": "proved", "theorems": ["C75_shape", "C75_step", "C75_update", "C75_descent", "C75_increase_refuted"], "note": "Exact reals; std::exp and std::log are the real functions."},
 {"property": "C76", "status": "proved", "theorems": ["C76_load"], "note": ""},
 {"property": "C77", "status": "proved", "theorems": ["C77_train", "C77_zero_batch", "C77_remainder"], "note": "n_epochs is 1 in the code; progress output is not modelled."},
 {"property": "C78", "status": "proved", "theorems": ["C78_accuracy", "C78_test"], "note": "Float accuracy is computed over the reals."},
 {"property": "C79", "status": "proved", "theorems": ["C79_pool_tiles", "C79_pool_k", "C79_pool", "C79_pool_ks", "C79_pool_kp", "C79_pool_k_shape", "C79_multi", "C79_conv_psr", "C79_conv", "C79_conv_p", "C79_conv_s", "C79_conv_ps"], "note": ""},
 {"property": "C80", "status": "proved", "theorems": ["C80_network", "C80_rejects", "C80_vgg16", "C80_vgg16_rejects", "C80_weights"], "note": "Float is replaced by exact reals; C80_weights discharges the loading hypothesis for archives, for element types with an exact codec. Printing is not modelled."},
 {"property": "C81", "status": "proved", "theorems": ["C81_load", "C81_truncated", "C81_fails", "C81_name"], "note": "A file too short for its header is C55."},
 {"property": "C82", "status": "proved", "theorems": ["C82_names", "C82_name", "C82_no_names", "C82_picture", "C82_no_picture"], "note": "Without OpenCV; the mean values are parameters."},
 {"property": "C83", "status": "proved", "theorems": ["C83_network", "C83_rejects", "C83_program", "C83_fails"], "note": "Float is replaced by exact reals; printf is modelled by its arguments. A broken weights archive is covered by C56-C58 and C63."},
 {"property": "C84", "status": "proved", "theorems": ["C84_matmul", "C84_conv_nhwc", "C84_conv_nchw", "C84_bound", "C84_integers", "C84_integers_nhwc", "C84_layouts_refuted"], "note": "For the built-in engine; overflow is excluded by hypothesis. The two layouts do not agree bit by bit."},
 {"property": "C85", "status": "proved", "theorems": ["C85_order", "C85_matmul", "C85_relu", "C85_max_hw", "C85_max_hwc", "C85_mean_hw", "C85_argmax", "C85_softmax", "C85_softmax_bad", "C85_classify"], "note": "std::exp is a parameter with the special cases of the C standard."},
 {"property": "C86", "status": "proved", "theorems": ["C86_conv_nhwc", "C86_conv_nchw", "C86_pool_nhwc", "C86_pool_nchw", "C86_matmul", "C86_add_bias", "C86_bn", "C86_argmax", "C86_softmax", "C86_scores", "C86_network", "C86_vgg16"], "note": "Pooling for accumulators that always give a value; batch normalisation where the divisor is not 0. Softmax and VGG over the reals."},
 {"property": "C87", "status": "proved", "theorems": ["C87_invoke", "C87_invoke_rejects", "C87_invoke_throws", "C87_new_result_throws", "C87_add", "C87_matmul", "C87_matmul_rejects", "C87_concat_nchw", "C87_concat_nhwc", "C87_concat_rejects_nchw", "C87_concat_rejects_nhwc", "C87_concat_wraps_nchw"], "note": "Concatenation has kernels for two nchw and three nhwc inputs only; the wrap of the channel count is shown for nchw."},
 {"property": "C88", "status": "proved", "theorems": ["C88_instances", "C88_add", "C88_sub", "C88_mul", "C88_matmul", "C88_sum", "C88_conv_nhwc", "C88_conv_nchw", "C88_signed_add", "C88_signed_matmul", "C88_signed_conv_nhwc", "C88_signed_conv_nchw"], "note": "For the built-in engine. uint16_t is excluded: its products may overflow int."},
 {"property": "C89", "status": "proved", "theorems": ["C89_window", "C89_local", "C89_translate", "C89_stride", "C89_padding", "C89_filters", "C89_pointwise_nhwc", "C89_pointwise_nchw", "C89_dense", "C89_linear_image", "C89_linear_filter", "C89_identity", "C89_channels", "C89_dilate", "C89_swap", "C89_fold_bn"], "note": "The filter-as-large-as-the-image case is stated for nhwc only."},
 {"property": "C90", "status": "proved", "theorems": ["C90_prediction", "C90_prediction_refuted", "C90_top", "C90_top_refuted", "C90_loss", "C90_loss_range", "C90_loss_correct", "C90_loss_correct_refuted", "C90_loss_least", "C90_float_loss", "C90_float_finite"], "note": "The refuted variants show that the bounds 1/n and ln 2 and the exclusion of clamping are needed. Of the float log only its value at zero and finiteness on positive numbers are assumed."},
 {"property": "C91", "status": "proved", "theorems": ["C91_step", "C91_optimal", "C91_rate", "C91_threshold_refuted", "C91_optimal_refuted"], "note": "Over exact reals. The clamp must not act along the way; the refuted variants show that the bound 3 and the exclusion of clamped competitors are needed."},
 {"property": "C92", "status": "proved", "theorems": ["C92_products", "C92_products_vector", "C92_conv", "C92_sampling", "C92_sampling1", "C92_others", "C92_elementwise", "C92_bias_bn", "C92_batched", "C92_rows", "C92_transpose", "C92_top", "C92_exact", "C92_elementwise_refuted", "C92_bias_bn_refuted", "C92_batched_refuted", "C92_rows_refuted", "C92_transpose_refuted", "C92_top_refuted", "C92_vector_refuted"], "note": "The left paddings of col2im and of the image gradient are assumed not negative (they are unsigned in the code). The refuted theorems are the calls that write behind their output. batch_norm_with_bias, summaries and truncated_normal are not covered."},
 {"property": "C93", "status": "proved", "theorems": ["C93_conv_nhwc", "C93_conv_nchw", "C93_conv_grads", "C93_product_in_place", "C93_softmax_grad", "C93_pool_nhwc", "C93_pool_nchw", "C93_products_refuted", "C93_conv_refuted", "C93_others_refuted"], "note": "The refuted theorems are the calls that give another result. Aliased operands of the cblas engine are not covered (BLAS forbids them)."},
 {"property": "C94", "status": "proved", "theorems": ["C94_window", "C94_layout", "C94_local", "C94_translate", "C94_yields", "C94_max_monotone", "C94_max_relu", "C94_max_relu_float", "C94_max_twice", "C94_mean_linear", "C94_mean_twice", "C94_mean_bounds", "C94_mean_below_max", "C94_identity", "C94_max_constant", "C94_mean_constant", "C94_twice_refuted", "C94_zeros_refuted"], "note": "Means over exact reals. C94_max_twice and C94_max_monotone ask that incomparable values are equal (integers, reals; floats without signed zeros, see C94_zeros_refuted). Translation for windows inside the image."},
 {"property": "C95", "status": "proved", "theorems": ["C95_orientation", "C95_select", "C95_vector", "C95_linear", "C95_transpose", "C95_identity", "C95_blocks", "C95_shuffle", "C95_associative", "C95_lookup", "C95_dense", "C95_float_refuted", "C95_lookup_refuted", "C95_relu_refuted"], "note": "mv and vm on the builtin engine; C25 has them on cblas."},
 {"property": "C96", "status": "proved", "theorems": ["C96_add", "C96_conv", "C96_pool", "C96_conv1d", "C96_mlp", "C96_layer_mlp", "C96_programs", "C96_uninitialised", "C96_uninitialised_refuted"], "note": "Tensors and parameters are filled by an arbitrary initialiser; without one the programs are undefined (the two last theorems). to_string of a shape is a parameter. The bytes written to the terminal are the returned lines."},
 {"property": "C97", "status": "proved", "theorems": ["C97_mm", "C97_mmt", "C97_mtm", "C97_mv", "C97_vm", "C97_matmul", "C97_add", "C97_bias", "C97_axpy", "C97_transpose", "C97_concat_nhwc", "C97_concat_nchw", "C97_flatten", "C97_col2im1d", "C97_conv1d", "C97_affine_grad", "C97_linear_sample", "C97_reduce"], "note": "Elements are mathematical integers (int without overflow; the float tests use small integers). gtest macros return whether the assertions hold. The Example C97_suite instantiates the theorems at the sizes of the repository; C97_can_fail shows failing variants."},
 {"property": "C98", "status": "proved", "theorems": ["C98_back_axis", "C98_swap_axis", "C98_cover", "C98_tile", "C98_grad_x_is_conv", "C98_grad_x_stride1", "C98_grad_y_is_conv", "C98_linear_x", "C98_linear_y", "C98_batch_y", "C98_fold_unfold", "C98_unfold_fold"], "note": "Gradients exist for nhwc only. Exact arithmetic (commutative ring) except C98_fold_unfold, which holds for any elements."},
 {"property": "C99", "status": "proved", "theorems": ["C99_axis", "C99_stack", "C99_stack_bias", "C99_padding_refuted"], "note": "Exact arithmetic (commutative ring). C99_padding_refuted: the hypothesis that the second convolution does not pad is needed."},
 {"property": "C100", "status": "proved", "theorems": ["C100_add", "C100_sub", "C100_mul", "C100_div", "C100_axpy", "C100_sum", "C100_inner", "C100_bias1_hw", "C100_mean", "C100_mean_rows", "C100_pool_hw", "C100_pool_hwc", "C100_dense", "C100_batch_norm", "C100_integers", "C100_monotone", "C100_bound", "C100_bound_norm", "C100_mean_refuted"], "note": "std::sqrt is taken to be correctly rounded (IEEE 754 requires it). No fused multiply-add, no excess precision. C100_mean_refuted: a 3 x 3 mean pool of a constant image changes the constant."},
 {"property": "C101", "status": "proved", "theorems": ["C101_softmax", "C101_xentropy", "C101_bound"], "note": "std::exp and std::log are parameters of which only the stated relative accuracy is assumed; C101_example shows that the assumption on exp can be met."},
 {"property": "C102", "status": "proved", "theorems": ["C102_bias", "C102_bn", "C102_pool", "C102_argmax", "C102_conv", "C102_hidden", "C102_sum", "C102_softmax", "C102_xentropy", "C102_summaries", "C102_ties_refuted", "C102_float_refuted"], "note": "Convolution and network statements over a commutative ring, softmax, cross entropy and summaries over the reals. C102_ties_refuted, C102_float_refuted: the limits of the claim."},
 {"property": "C103", "status": "proved", "theorems": ["C103_mul", "C103_matmul0", "C103_matmul1", "C103_bias1_nhwc", "C103_conv_y", "C103_conv_x", "C103_softmax", "C103_xentropy", "C103_variance", "C103_bound", "C103_variance_refuted"], "note": "Builtin linear algebra engine, no fused multiply-add, no excess precision; std::sqrt correctly rounded. The softmax gradient is compared with the exact one at the same (rounded) probabilities."},
 {"property": "C104", "status": "proved", "theorems": ["C104_roundtrip", "C104_single", "C104_two_refuted", "C104_relu_scalar", "C104_relu_int", "C104_relu_int_refuted", "C104_pixel", "C104_pixel_order", "C104_softmax", "C104_softmax_test"], "note": "Rounding to nearest, ties to even; NaN payloads not observed. C104_two_refuted and C104_relu_int_refuted: the limits of the claim. Of std::exp only the special cases of the C standard are assumed."},
 {"property": "C105", "status": "proved", "theorems": ["C105_backprop", "C105_step", "C105_inputs", "C105_positive", "C105_train", "C105_unique", "C105_corner_refuted", "C105_environment"], "note": "Exact real arithmetic. The network is a chain of layers with one parameter tensor each and separate memory for every tensor; the driver that calls the operators generalises the loop of example_train_mnist_slp.cpp. C105_environment: the memory hypotheses can be met for every network. C105_corner_refuted: the limit of the claim."},
 {"property": "C106", "status": "proved", "theorems": ["C106_layer", "C106_network", "C106_inputs", "C106_prediction", "C106_loss", "C106_max_pool", "C106_mean_pool", "C106_matmul_tight", "C106_softmax_tight", "C106_margin_refuted"], "note": "Exact real arithmetic; distances are the largest difference of entries. Networks are chains of layers with separate memory for every tensor, as in C105. Exactness of the factors is proved for matmul and softmax only."},
 {"property": "C107", "status": "proved", "theorems": ["C107_network", "C107_prediction", "C107_formats", "C107_margin_refuted"], "note": "Built-in multiplication only: the order of summation inside a CBLAS library is not specified. std::exp is any function with a given relative accuracy (exp_acc), shown to exist; softmax layers need eps <= 1. Networks are chains of layers with separate memory for every tensor, as in C105."},
 {"property": "C108", "status": "proved", "theorems": ["C108_sum", "C108_matmul", "C108_matmul_grad0", "C108_matmul_grad1", "C108_mv", "C108_vm", "C108_conv", "C108_conv_grad", "C108_conv_nchw", "C108_conv_grad_image", "C108_network", "C108_prediction", "C108_libraries", "C108_integers", "C108_in_order", "C108_in_order_sums", "C108_order_refuted"], "note": "The library is a function of the memory, the call, the position and the pairs of factors, constrained only by dot_value (BlasSpec.v). Strassen-like algorithms, flushing of subnormal numbers and accumulation in a wider format are excluded."},
 {"property": "C109", "status": "proved", "theorems": ["C109_network", "C109_layers", "C109_vgg16", "C109_margin_refuted"], "note": "Built-in multiplication only. std::exp is any function with a given relative accuracy (exp_acc); lowest is the smallest finite number, eps at most 1. The first image is classified, as in C80."},
 {"property": "C110", "status": "proved", "theorems": ["C110_finite", "C110_train", "C110_mnist", "C110_stalled_refuted", "C110_zero_eps_refuted"], "note": "Built-in multiplication. The bounds are functions of the sizes, the largest pixel, the accuracy of 1 / n and of std::exp (TrainFloatSpec.v); the hypotheses say that they stay below the largest float at every step (step_room, score_room, ratio_room)."},
 {"property": "C111", "status": "proved", "theorems": ["C111_archive", "C111_main", "C111_no_archive", "C111_unwritable", "C111_data", "C111_no_home_refuted", "C111_stale_refuted"], "note": "system() is a function from file systems to file systems; tar_works says what a working tar does. Devices that fail while writing are not modelled; TRACE_SCOPE and what is printed besides the accuracies are left out. Training labels are arbitrary bytes."},
 {"property": "C112", "status": "proved", "theorems": ["C112_accuracy", "C112_program", "C112_close_refuted"], "note": "Built-in multiplication; the pixels are at most 1. The error is (d + 1) e for the parameters, the rounding bound of C110 for a score, and g d (m + e) for the pixels."},
 {"property": "C113", "status": "proved", "theorems": ["C113_regret", "C113_short", "C113_mistakes", "C113_long_refuted"], "note": "Exact reals with the rate 1 of the code; as in C91 the probabilities of the batches are assumed not to be clamped, for P o and for the competitor."},
 {"property": "C114", "status": "proved", "theorems": ["C114_names", "C114_buffer", "C114_images", "C114_truncated_refuted", "C114_fails", "C114_main", "C114_no_home_refuted"], "note": "What imwrite is called with is modelled, not the PNG encoder; the results of mkdir and imwrite are ignored by the code."}
]}
