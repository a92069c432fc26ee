{
 "claims": [
  {
   "property": "C01",
   "status": "proved",
   "theorems": [
    "C01_operations",
    "C01_division",
    "C01_norm_mult"
   ],
   "note": ""
  },
  {
   "property": "C02",
   "status": "proved",
   "theorems": [
    "C02_add_sub_assign",
    "C02_mul_assign",
    "C02_mul_assign_real",
    "C02_div_assign",
    "C02_refuted"
   ],
   "note": ""
  },
  {
   "property": "C03",
   "status": "proved",
   "theorems": [
    "C03_exact",
    "C03_ieee",
    "C03_equal_but_different"
   ],
   "note": ""
  },
  {
   "property": "C04",
   "status": "proved",
   "theorems": [
    "C04_cf32",
    "C04_cf64",
    "C04_cf64_refuted"
   ],
   "note": ""
  },
  {
   "property": "C05",
   "status": "proved",
   "theorems": [
    "C05_division_panics_iff",
    "C05_nonzero_divisor_panics"
   ],
   "note": ""
  },
  {
   "property": "C06",
   "status": "proved",
   "theorems": [
    "C06_range",
    "C06_first_call",
    "C06_history"
   ],
   "note": ""
  },
  {
   "property": "C07",
   "status": "proved",
   "theorems": [
    "C07_permutation",
    "C07_any_seed",
    "C07_stuck_seed"
   ],
   "note": ""
  },
  {
   "property": "C08",
   "status": "proved",
   "theorems": [
    "C08_f64",
    "C08_f32",
    "C08_f32_refuted"
   ],
   "note": ""
  },
  {
   "property": "C09",
   "status": "proved",
   "theorems": [
    "C09_panics",
    "C09_range",
    "C09_refuted"
   ],
   "note": ""
  },
  {
   "property": "C10",
   "status": "proved",
   "theorems": [
    "C10_disc",
    "C10_normal_draws",
    "C10_methods",
    "C10_real"
   ],
   "note": ""
  },
  {
   "property": "C11",
   "status": "proved",
   "theorems": [
    "C11_zero_draw_not_finite",
    "C11_formula"
   ],
   "note": ""
  },
  {
   "property": "C12",
   "status": "proved",
   "theorems": [
    "C12_one_hot",
    "C12_instances"
   ],
   "note": ""
  },
  {
   "property": "C13",
   "status": "proved",
   "theorems": [
    "C13_elm",
    "C13_addresses_distinct",
    "C13_row",
    "C13_from_body"
   ],
   "note": ""
  },
  {
   "property": "C14",
   "status": "proved",
   "theorems": [
    "C14_elm_write",
    "C14_elm_write_out",
    "C14_row_write"
   ],
   "note": ""
  },
  {
   "property": "C15",
   "status": "proved",
   "theorems": [
    "C15_history",
    "C15_add_after_del",
    "C15_add_after_del_width"
   ],
   "note": ""
  },
  {
   "property": "C16",
   "status": "proved",
   "theorems": [
    "C16_flush",
    "C16_accepted_iff",
    "C16_capacity_refuted",
    "C16_rectangular_refuted",
    "C16_rectangular"
   ],
   "note": ""
  },
  {
   "property": "C17",
   "status": "proved",
   "theorems": [
    "C17_outcome",
    "C17_corrupts",
    "C17_never_extends"
   ],
   "note": ""
  },
  {
   "property": "C18",
   "status": "proved",
   "theorems": [
    "C18_rows",
    "C18_col",
    "C18_row_into_slice",
    "C18_to_matrix"
   ],
   "note": ""
  },
  {
   "property": "C19",
   "status": "proved",
   "theorems": [
    "C19_flip",
    "C19_involution"
   ],
   "note": ""
  },
  {
   "property": "C20",
   "status": "proved",
   "theorems": [
    "C20_pad"
   ],
   "note": ""
  },
  {
   "property": "C21",
   "status": "proved",
   "theorems": [
    "C21_add_mut",
    "C21_neutral",
    "C21_mismatch",
    "C21_scalars",
    "C21_div_scalar"
   ],
   "note": ""
  },
  {
   "property": "C22",
   "status": "proved",
   "theorems": [
    "C22_mul_slice",
    "C22_mul_vec_same"
   ],
   "note": ""
  },
  {
   "property": "C23",
   "status": "proved",
   "theorems": [
    "C23_convolution",
    "C23_too_large",
    "C23_zero_dim",
    "C23_conjugate"
   ],
   "note": ""
  },
  {
   "property": "C24",
   "status": "proved",
   "theorems": [
    "C24_adjoint",
    "C24_bilinear"
   ],
   "note": ""
  },
  {
   "property": "C25",
   "status": "proved",
   "theorems": [
    "C25_blocks",
    "C25_total",
    "C25_errors",
    "C25_partition"
   ],
   "note": ""
  },
  {
   "property": "C26",
   "status": "proved",
   "theorems": [
    "C26_square",
    "C26_shape_kept_iff",
    "C26_general",
    "C26_tall_block_panics",
    "C26_even_kernel",
    "C26_one_kernel_panics"
   ],
   "note": ""
  },
  {
   "property": "C27",
   "status": "proved",
   "theorems": [
    "C27_add_slice_mut",
    "C27_mul_slice_mut",
    "C27_add_slice",
    "C27_mul_slices",
    "C27_scalars",
    "C27_scalar_prod"
   ],
   "note": ""
  },
  {
   "property": "C28",
   "status": "proved",
   "theorems": [
    "C28_csv",
    "C28_display",
    "C28_panic_iff"
   ],
   "note": ""
  },
  {
   "property": "C29",
   "status": "proved",
   "theorems": [
    "C29_pointwise",
    "C29_only_modz",
    "C29_modz_exact"
   ],
   "note": ""
  },
  {
   "property": "C30",
   "status": "proved",
   "theorems": [
    "C30_wirtinger",
    "C30_unique",
    "C30_saturated_refuted"
   ],
   "note": ""
  },
  {
   "property": "C31",
   "status": "proved",
   "theorems": [
    "C31_cf32",
    "C31_cf64",
    "C31_refuted"
   ],
   "note": ""
  },
  {
   "property": "C32",
   "status": "proved",
   "theorems": [
    "C32_range",
    "C32_parts",
    "C32_monotone64",
    "C32_pieces",
    "C32_monotone32_refuted"
   ],
   "note": ""
  },
  {
   "property": "C33",
   "status": "proved",
   "theorems": [
    "C33_in_order",
    "C33_exact",
    "C33_single",
    "C33_empty"
   ],
   "note": ""
  },
  {
   "property": "C34",
   "status": "proved",
   "theorems": [
    "C34_entries",
    "C34_gradient"
   ],
   "note": ""
  },
  {
   "property": "C35",
   "status": "proved",
   "theorems": [
    "C35_in_order",
    "C35_softmax",
    "C35_sign"
   ],
   "note": ""
  },
  {
   "property": "C36",
   "status": "proved",
   "theorems": [
    "C36_training",
    "C36_same_as_mean_square",
    "C36_true_gradient",
    "C36_refuted"
   ],
   "note": ""
  },
  {
   "property": "C37",
   "status": "proved",
   "theorems": [
    "C37_type_check",
    "C37_maps"
   ],
   "note": ""
  },
  {
   "property": "C38",
   "status": "proved",
   "theorems": [
    "C38_release",
    "C38_slices"
   ],
   "note": ""
  },
  {
   "property": "C39",
   "status": "proved",
   "theorems": [
    "C39_init",
    "C39_total",
    "C39_rejects"
   ],
   "note": ""
  },
  {
   "property": "C40",
   "status": "proved",
   "theorems": [
    "C40_forward",
    "C40_total",
    "C40_rejects"
   ],
   "note": ""
  },
  {
   "property": "C41",
   "status": "proved",
   "theorems": [
    "C41_derivatives",
    "C41_rejects",
    "C41_chain_rule",
    "C41_smooth"
   ],
   "note": ""
  },
  {
   "property": "C42",
   "status": "proved",
   "theorems": [
    "C42_dense",
    "C42_conv",
    "C42_reduce_flatten"
   ],
   "note": ""
  },
  {
   "property": "C43",
   "status": "proved",
   "theorems": [
    "C43_init",
    "C43_well_formed",
    "C43_total",
    "C43_rejects"
   ],
   "note": ""
  },
  {
   "property": "C44",
   "status": "proved",
   "theorems": [
    "C44_forward",
    "C44_panic",
    "C44_rejects"
   ],
   "note": ""
  },
  {
   "property": "C45",
   "status": "proved",
   "theorems": [
    "C45_gradients",
    "C45_chain_rule"
   ],
   "note": ""
  },
  {
   "property": "C46",
   "status": "proved",
   "theorems": [
    "C46_formula",
    "C46_sum_is_the_gradient",
    "C46_refuted",
    "C46_exact_without_conjugate"
   ],
   "note": ""
  },
  {
   "property": "C47",
   "status": "proved",
   "theorems": [
    "C47_forward",
    "C47_shapes",
    "C47_rejects",
    "C47_backward"
   ],
   "note": ""
  },
  {
   "property": "C48",
   "status": "proved",
   "theorems": [
    "C48_forward",
    "C48_shapes",
    "C48_training"
   ],
   "note": ""
  },
  {
   "property": "C49",
   "status": "proved",
   "theorems": [
    "C49_invariant",
    "C49_add_input",
    "C49_add",
    "C49_initialised",
    "C49_shapes",
    "C49_declared"
   ],
   "note": ""
  },
  {
   "property": "C50",
   "status": "proved",
   "theorems": [
    "C50_agree",
    "C50_composition",
    "C50_intercept"
   ],
   "note": ""
  },
  {
   "property": "C51",
   "status": "proved",
   "theorems": [
    "C51_total",
    "C51_only_failure",
    "C51_built"
   ],
   "note": ""
  },
  {
   "property": "C52",
   "status": "proved",
   "theorems": [
    "C52_count",
    "C52_init",
    "C52_history",
    "C52_observed"
   ],
   "note": ""
  },
  {
   "property": "C53",
   "status": "proved",
   "theorems": [
    "C53_mvn",
    "C53_missing",
    "C53_rate",
    "C53_empty_batch",
    "C53_dense",
    "C53_short_target"
   ],
   "note": ""
  },
  {
   "property": "C54",
   "status": "proved",
   "theorems": [
    "C54_gradient",
    "C54_step",
    "C54_descends",
    "C54_dense_smooth",
    "C54_cnn_smooth",
    "C54_dense",
    "C54_complex_rate_refuted"
   ],
   "note": ""
  },
  {
   "property": "C55",
   "status": "proved",
   "theorems": [
    "C55_floats_refuted",
    "C55_training",
    "C55_loss",
    "C55_accuracy"
   ],
   "note": ""
  },
  {
   "property": "C56",
   "status": "proved",
   "theorems": [
    "C56_index_exact",
    "C56_index_ieee",
    "C56_index_unique",
    "C56_accuracy",
    "C56_panics",
    "C56_range"
   ],
   "note": ""
  },
  {
   "property": "C57",
   "status": "proved",
   "theorems": [
    "C57_mean",
    "C57_otherwise"
   ],
   "note": ""
  },
  {
   "property": "C58",
   "status": "proved",
   "theorems": [
    "C58_history",
    "C58_add"
   ],
   "note": ""
  },
  {
   "property": "C59",
   "status": "proved",
   "theorems": [
    "C59_in_order",
    "C59_runs_out",
    "C59_stops",
    "C59_bad_label",
    "C59_short_read_refuted"
   ],
   "note": ""
  },
  {
   "property": "C60",
   "status": "proved",
   "theorems": [
    "C60_shape",
    "C60_odd",
    "C60_exact",
    "C60_never_fails",
    "C60_clean",
    "C60_noise",
    "C60_no_noise",
    "C60_seed_refuted",
    "C60_zero_draw"
   ],
   "note": ""
  },
  {
   "property": "C61",
   "status": "proved",
   "theorems": [
    "C61_lines",
    "C61_panics_iff",
    "C61_left_behind"
   ],
   "note": ""
  },
  {
   "property": "C62",
   "status": "proved",
   "theorems": [
    "C62_forward",
    "C62_loss",
    "C62_accuracy",
    "C62_training",
    "C62_rate"
   ],
   "note": ""
  },
  {
   "property": "C63",
   "status": "proved",
   "theorems": [
    "C63_cnn",
    "C63_fully_connected",
    "C63_auto_encoder",
    "C63_assembled",
    "C63_stages",
    "C63_trained",
    "C63_features"
   ],
   "note": ""
  },
  {
   "property": "C64",
   "status": "proved",
   "theorems": [
    "C64_sweep",
    "C64_pipeline",
    "C64_curves",
    "C64_files",
    "C64_program"
   ],
   "note": ""
  },
  {
   "property": "C65",
   "status": "proved",
   "theorems": [
    "C65_epochs",
    "C65_total",
    "C65_explore",
    "C65_program",
    "C65_recorded",
    "C65_mean_refuted"
   ],
   "note": ""
  },
  {
   "property": "C66",
   "status": "proved",
   "theorems": [
    "C66_gradient",
    "C66_exact_iff",
    "C66_cnn_smooth",
    "C66_example_mean",
    "C66_example_backward",
    "C66_example_refuted",
    "C66_training_refuted"
   ],
   "note": ""
  },
  {
   "property": "C67",
   "status": "proved",
   "theorems": [
    "C67_period",
    "C67_cycle",
    "C67_reachable",
    "C67_index",
    "C67_out_of_range",
    "C67_f64_distinct",
    "C67_f32_refuted"
   ],
   "note": ""
  },
  {
   "property": "C68",
   "status": "proved",
   "theorems": [
    "C68_mean_of_moves",
    "C68_repeat",
    "C68_zero_rate",
    "C68_solved",
    "C68_complex_rate_refuted"
   ],
   "note": ""
  },
  {
   "property": "C69",
   "status": "proved",
   "theorems": [
    "C69_f32",
    "C69_f64",
    "C69_dense_f32",
    "C69_dense_f64",
    "C69_gamma",
    "C69_units",
    "C69_platform"
   ],
   "note": ""
  },
  {
   "property": "C70",
   "status": "proved",
   "theorems": [
    "C70_f32",
    "C70_f64",
    "C70_dense",
    "C70_conv",
    "C70_platform"
   ],
   "note": ""
  },
  {
   "property": "C71",
   "status": "proved",
   "theorems": [
    "C71_forward",
    "C71_loss",
    "C71_accuracy",
    "C71_step",
    "C71_two_steps",
    "C71_forever",
    "C71_rectifier"
   ],
   "note": ""
  },
  {
   "property": "C72",
   "status": "proved",
   "theorems": [
    "C72_nonneg",
    "C72_network",
    "C72_vanishes",
    "C72_perfect",
    "C72_perfect_refuted",
    "C72_error",
    "C72_blowup",
    "C72_ce_nonneg",
    "C72_ce_finite"
   ],
   "note": ""
  },
  {
   "property": "C73",
   "status": "proved",
   "theorems": [
    "C73_agrees",
    "C73_agrees_network",
    "C73_empty_kernel",
    "C73_one_row_kernel",
    "C73_pooling_loses_gradient",
    "C73_pooling_zero",
    "C73_still_panics",
    "C73_evaluation",
    "C73_training",
    "C73_fitting_networks"
   ],
   "note": ""
  },
  {
   "property": "C74",
   "status": "proved",
   "theorems": [
    "C74_crop",
    "C74_shift",
    "C74_odd_shift_refuted"
   ],
   "note": ""
  },
  {
   "property": "C75",
   "status": "proved",
   "theorems": [
    "C75_f32",
    "C75_f64",
    "C75_dense_f32",
    "C75_dense_f64",
    "C75_bound_refuted"
   ],
   "note": ""
  },
  {
   "property": "C76",
   "status": "proved",
   "theorems": [
    "C76_silent",
    "C76_step",
    "C76_filter_step",
    "C76_forever",
    "C76_filter_forever",
    "C76_ieee_step",
    "C76_ieee_filter_step",
    "C76_ieee_forever",
    "C76_ieee_filter_forever",
    "C76_nan_refuted"
   ],
   "note": ""
  },
  {
   "property": "C77",
   "status": "proved",
   "theorems": [
    "C77_same_output",
    "C77_forever",
    "C77_filters",
    "C77_constant",
    "C77_outgoing_refuted"
   ],
   "note": ""
  },
  {
   "property": "C78",
   "status": "proved",
   "theorems": [
    "C78_forward",
    "C78_training",
    "C78_float_refuted"
   ],
   "note": ""
  },
  {
   "property": "C79",
   "status": "proved",
   "theorems": [
    "C79_pair",
    "C79_run",
    "C79_rectifier_refuted"
   ],
   "note": ""
  },
  {
   "property": "C80",
   "status": "proved",
   "theorems": [
    "C80_rectifiers",
    "C80_direction",
    "C80_tanh_refuted"
   ],
   "note": ""
  },
  {
   "property": "C81",
   "status": "proved",
   "theorems": [
    "C81_full_kernel"
   ],
   "note": ""
  },
  {
   "property": "C82",
   "status": "proved",
   "theorems": [
    "C82_forward",
    "C82_training",
    "C82_loss",
    "C82_accuracy",
    "C82_only_refuted",
    "C82_floats_forward",
    "C82_floats_training",
    "C82_floats_loss"
   ],
   "note": ""
  },
  {
   "property": "C83",
   "status": "proved",
   "theorems": [
    "C83_forward",
    "C83_training",
    "C83_sigmoid_refuted",
    "C83_floats"
   ],
   "note": ""
  },
  {
   "property": "C84",
   "status": "proved",
   "theorems": [
    "C84_forward",
    "C84_training",
    "C84_loss",
    "C84_accuracy"
   ],
   "note": ""
  },
  {
   "property": "C85",
   "status": "proved",
   "theorems": [
    "C85_products",
    "C85_updates",
    "C85_shapes",
    "C85_slices",
    "C85_scalars",
    "C85_divide_by_zero"
   ],
   "note": ""
  },
  {
   "property": "C86",
   "status": "proved",
   "theorems": [
    "C86_converges",
    "C86_limit",
    "C86_any_order",
    "C86_large_rate_refuted"
   ],
   "note": ""
  },
  {
   "property": "C87",
   "status": "proved",
   "theorems": [
    "C87_feature",
    "C87_channel",
    "C87_feature_forever",
    "C87_channel_forever",
    "C87_ieee_feature",
    "C87_ieee_channel",
    "C87_ieee_feature_forever",
    "C87_ieee_channel_forever",
    "C87_nan_refuted"
   ],
   "note": ""
  },
  {
   "property": "C88",
   "status": "proved",
   "theorems": [
    "C88_spread",
    "C88_attained",
    "C88_mean_pool",
    "C88_certified",
    "C88_accuracy",
    "C88_zrelu_refuted"
   ],
   "note": ""
  },
  {
   "property": "C89",
   "status": "proved",
   "theorems": [
    "C89_comparison",
    "C89_f32",
    "C89_f64",
    "C89_accuracy_f32",
    "C89_accuracy_f64",
    "C89_close_refuted"
   ],
   "note": ""
  },
  {
   "property": "C90",
   "status": "proved",
   "theorems": [
    "C90_step",
    "C90_loop"
   ],
   "note": ""
  },
  {
   "property": "C91",
   "status": "proved",
   "theorems": [
    "C91_forward",
    "C91_training",
    "C91_loss",
    "C91_accuracy",
    "C91_classes_floats",
    "C91_tie_refuted"
   ],
   "note": ""
  },
  {
   "property": "C92",
   "status": "proved",
   "theorems": [
    "C92_forward",
    "C92_training",
    "C92_loss",
    "C92_accuracy",
    "C92_fourier",
    "C92_input",
    "C92_layer",
    "C92_scaling_refuted",
    "C92_complex_rate_refuted"
   ],
   "note": ""
  },
  {
   "property": "C93",
   "status": "proved",
   "theorems": [
    "C93_forward",
    "C93_training",
    "C93_loss",
    "C93_layer",
    "C93_accuracy_refuted"
   ],
   "note": ""
  },
  {
   "property": "C94",
   "status": "proved",
   "theorems": [
    "C94_mixes",
    "C94_one_layer",
    "C94_mean",
    "C94_no_xor",
    "C94_rectifier_xor"
   ],
   "note": ""
  },
  {
   "property": "C95",
   "status": "proved",
   "theorems": [
    "C95_memory",
    "C95_perfect",
    "C95_conflict"
   ],
   "note": ""
  },
  {
   "property": "C96",
   "status": "proved",
   "theorems": [
    "C96_zero_rate",
    "C96_solved",
    "C96_zero_rate_refuted"
   ],
   "note": ""
  },
  {
   "property": "C97",
   "status": "proved",
   "theorems": [
    "C97_step",
    "C97_forever",
    "C97_exact_moves"
   ],
   "note": ""
  },
  {
   "property": "C98",
   "status": "proved",
   "theorems": [
    "C98_gradient_f32",
    "C98_gradient_f64",
    "C98_batch",
    "C98_update"
   ],
   "note": ""
  },
  {
   "property": "C99",
   "status": "proved",
   "theorems": [
    "C99_approx",
    "C99_rate",
    "C99_plain_refuted"
   ],
   "note": ""
  },
  {
   "property": "C100",
   "status": "proved",
   "theorems": [
    "C100_universal",
    "C100_jump_refuted"
   ],
   "note": ""
  },
  {
   "property": "C101",
   "status": "proved",
   "theorems": [
    "C101_conversion",
    "C101_outputs",
    "C101_class",
    "C101_accuracy",
    "C101_class_refuted",
    "C101_overflow_refuted"
   ],
   "note": ""
  },
  {
   "property": "C102",
   "status": "proved",
   "theorems": [
    "C102_gradient",
    "C102_step",
    "C102_training",
    "C102_sigmoid_refuted",
    "C102_phase_refuted"
   ],
   "note": ""
  },
  {
   "property": "C103",
   "status": "proved",
   "theorems": [
    "C103_targets",
    "C103_mean_square",
    "C103_cross_entropy",
    "C103_attained",
    "C103_converse_refuted"
   ],
   "note": ""
  },
  {
   "property": "C104",
   "status": "proved",
   "theorems": [
    "C104_loss",
    "C104_accuracy",
    "C104_equal",
    "C104_unequal_refuted",
    "C104_sweep",
    "C104_reported",
    "C104_program"
   ],
   "note": ""
  },
  {
   "property": "C105",
   "status": "proved",
   "theorems": [
    "C105_close",
    "C105_reached",
    "C105_limit",
    "C105_training_refuted"
   ],
   "note": ""
  },
  {
   "property": "C106",
   "status": "proved",
   "theorems": [
    "C106_weighted",
    "C106_mean",
    "C106_influence",
    "C106_sizes_refuted"
   ],
   "note": ""
  },
  {
   "property": "C107",
   "status": "proved",
   "theorems": [
    "C107_loss",
    "C107_mistakes",
    "C107_eventually",
    "C107_noise_refuted"
   ],
   "note": ""
  },
  {
   "property": "C108",
   "status": "proved",
   "theorems": [
    "C108_fixed",
    "C108_geometric",
    "C108_unique",
    "C108_exists",
    "C108_limit",
    "C108_flat_refuted"
   ],
   "note": ""
  },
  {
   "property": "C109",
   "status": "proved",
   "theorems": [
    "C109_no_drift",
    "C109_together",
    "C109_answers",
    "C109_large_rate_refuted"
   ],
   "note": ""
  },
  {
   "property": "C110",
   "status": "proved",
   "theorems": [
    "C110_sum",
    "C110_fades",
    "C110_ball",
    "C110_example",
    "C110_best",
    "C110_answers",
    "C110_piles_up_refuted"
   ],
   "note": "Exact arithmetic; the disturbances are arbitrary within their bounds, not derived from the rounding bounds of C98. B in C110_example is a bound along the run; C110_best needs the pull at the best layer of the second set only. C110_ball, C110_example, C110_best and C110_answers are for layers with at least two outputs (with one output the mean-square loss divides by zero)."
  }
 ]
}