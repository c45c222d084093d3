{
 "claims": [
  {
   "property": "C01",
   "status": "proved",
   "theorems": [
    "C01_interp1d_reproduces_samples"
   ],
   "note": ""
  },
  {
   "property": "C02",
   "status": "proved",
   "theorems": [
    "C02_interp1d_chord"
   ],
   "note": ""
  },
  {
   "property": "C03",
   "status": "proved",
   "theorems": [
    "C03_interp1d_linear_guard"
   ],
   "note": ""
  },
  {
   "property": "C04",
   "status": "proved",
   "theorems": [
    "C04_interp1d_saturate"
   ],
   "note": ""
  },
  {
   "property": "C05",
   "status": "proved",
   "theorems": [
    "C05_interp1d_extrapolate_below"
   ],
   "note": ""
  },
  {
   "property": "C06",
   "status": "proved",
   "theorems": [
    "C06_interp1d_extrapolate_above_throws",
    "C06_extrapolation_above_refuted"
   ],
   "note": "Defect of the code: the intended claim is refuted (witness), the actual behaviour is proved for every table and point."
  },
  {
   "property": "C07",
   "status": "proved",
   "theorems": [
    "C07_interp1d_monotone",
    "C07_interp1d_lipschitz"
   ],
   "note": ""
  },
  {
   "property": "C08",
   "status": "proved",
   "theorems": [
    "C08_interp1d_vector_eval"
   ],
   "note": ""
  },
  {
   "property": "C09",
   "status": "proved",
   "theorems": [
    "C09_interp1d_complex"
   ],
   "note": ""
  },
  {
   "property": "C10",
   "status": "proved",
   "theorems": [
    "C10_interp1d_reinitialize_stale",
    "C10_last_initialize_wins_refuted"
   ],
   "note": "Defect of the code: the intended claim is refuted (witness), the actual behaviour is proved for every pair of tables."
  },
  {
   "property": "C11",
   "status": "proved",
   "theorems": [
    "C11_interp1d_debug_guard",
    "C11_interp1d_empty_throws",
    "C11_interp1d_release_guard",
    "C11_interp1d_single_sample_unusable"
   ],
   "note": ""
  },
  {
   "property": "C12",
   "status": "proved",
   "theorems": [
    "C12_interp1d_no_ub"
   ],
   "note": ""
  },
  {
   "property": "C13",
   "status": "proved",
   "theorems": [
    "C13_interp2d_reproduces_samples"
   ],
   "note": ""
  },
  {
   "property": "C14",
   "status": "proved",
   "theorems": [
    "C14_interp2d_bilinear",
    "C14_vector_eval",
    "C14_vector_eval_stops",
    "C14_vector_eval_short_point"
   ],
   "note": ""
  },
  {
   "property": "C15",
   "status": "proved",
   "theorems": [
    "C15_interp2d_debug_guard",
    "C15_interp2d_release_below",
    "C15_interp2d_release_x_above",
    "C15_interp2d_release_y_above",
    "C15_interp2d_release_refuted"
   ],
   "note": ""
  },
  {
   "property": "C16",
   "status": "proved",
   "theorems": [
    "C16_interp2d_debug_sorted",
    "C16_interp2d_data_size",
    "C16_interp2d_empty_axis",
    "C16_interp2d_other_methods",
    "C16_interp2d_no_ub"
   ],
   "note": ""
  },
  {
   "property": "C17",
   "status": "proved",
   "theorems": [
    "C17_lut1_is_a_map"
   ],
   "note": ""
  },
  {
   "property": "C18",
   "status": "proved",
   "theorems": [
    "C18_lut1_add"
   ],
   "note": ""
  },
  {
   "property": "C19",
   "status": "proved",
   "theorems": [
    "C19_lut1_set_x"
   ],
   "note": ""
  },
  {
   "property": "C20",
   "status": "proved",
   "theorems": [
    "C20_lut1_failed_add",
    "C20_lut1_failed_add_eval_all",
    "C20_lut1_failed_add_refuted"
   ],
   "note": "Defect of the code: the actual behaviour is proved for all inputs; where a _refuted theorem is listed it refutes the intended claim with a witness."
  },
  {
   "property": "C21",
   "status": "proved",
   "theorems": [
    "C21_lut1_move_assign",
    "C21_lut1_move_ctor",
    "C21_lut1_move_refuted"
   ],
   "note": "Defect of the code: the actual behaviour is proved for all inputs; where a _refuted theorem is listed it refutes the intended claim with a witness."
  },
  {
   "property": "C22",
   "status": "proved",
   "theorems": [
    "C22_lut1_eval_all"
   ],
   "note": ""
  },
  {
   "property": "C23",
   "status": "proved",
   "theorems": [
    "C23_lut2_is_a_map"
   ],
   "note": ""
  },
  {
   "property": "C24",
   "status": "proved",
   "theorems": [
    "C24_lut2_other_method_throws",
    "C24_lut2_failed_add",
    "C24_lut2_failed_add_refuted"
   ],
   "note": "Defect of the code: the actual behaviour is proved for all inputs; where a _refuted theorem is listed it refutes the intended claim with a witness."
  },
  {
   "property": "C25",
   "status": "proved",
   "theorems": [
    "C25_grid_reproduces_nodes"
   ],
   "note": ""
  },
  {
   "property": "C26",
   "status": "proved",
   "theorems": [
    "C26_grid_multilinear_blend",
    "C26_grid_exact_on_multi_affine",
    "C26_grid_1d_chord",
    "C26_grid_2d_is_interp2d"
   ],
   "note": ""
  },
  {
   "property": "C27",
   "status": "proved",
   "theorems": [
    "C27_grid_clamps"
   ],
   "note": ""
  },
  {
   "property": "C28",
   "status": "proved",
   "theorems": [
    "C28_grid_bound_check"
   ],
   "note": ""
  },
  {
   "property": "C29",
   "status": "proved",
   "theorems": [
    "C29_grid_history",
    "C29_grid_next_call",
    "C29_is_valid_means_usable_refuted"
   ],
   "note": ""
  },
  {
   "property": "C30",
   "status": "proved",
   "theorems": [
    "C30_grid_copy",
    "C30_grid_copy_incomplete",
    "C30_grid_copy_no_data"
   ],
   "note": ""
  },
  {
   "property": "C31",
   "status": "proved",
   "theorems": [
    "C31_nearest"
   ],
   "note": ""
  },
  {
   "property": "C32",
   "status": "proved",
   "theorems": [
    "C32_surrounding_nodes_inside"
   ],
   "note": ""
  },
  {
   "property": "C33",
   "status": "proved",
   "theorems": [
    "C33_surrounding_nodes_outside",
    "C33_below_saturates_refuted"
   ],
   "note": "Defect of the code: the actual behaviour is proved for all inputs; where a _refuted theorem is listed it refutes the intended claim with a witness."
  },
  {
   "property": "C34",
   "status": "proved",
   "theorems": [
    "C34_simplex_nodes",
    "C34_simplex_affine",
    "C34_simplex_range",
    "C34_simplex_1d"
   ],
   "note": ""
  },
  {
   "property": "C35",
   "status": "proved",
   "theorems": [
    "C35_normalize_0_360",
    "C35_normalize_0_2pi",
    "C35_normalize_180",
    "C35_normalize_pi",
    "C35_normalize_same",
    "C35_normalize_fixpoints"
   ],
   "note": ""
  },
  {
   "property": "C36",
   "status": "proved",
   "theorems": [
    "C36_normalize_0_360_double",
    "C36_half_open_range_refuted",
    "C36_normalize_0_2pi_double"
   ],
   "note": "Defect of the code: the actual behaviour is proved for all inputs; where a _refuted theorem is listed it refutes the intended claim with a witness."
  },
  {
   "property": "C37",
   "status": "proved",
   "theorems": [
    "C37_normalize_180_double",
    "C37_normalize_pi_double"
   ],
   "note": ""
  },
  {
   "property": "C38",
   "status": "proved",
   "theorems": [
    "C38_velocity_meaning",
    "C38_velocity_compose",
    "C38_velocity_helpers"
   ],
   "note": ""
  },
  {
   "property": "C39",
   "status": "proved",
   "theorems": [
    "C39_period_rads",
    "C39_frequency_meaning",
    "C39_frequency_compose",
    "C39_angle_vectors"
   ],
   "note": ""
  },
  {
   "property": "C40",
   "status": "proved",
   "theorems": [
    "C40_linspace",
    "C40_linspace_precondition"
   ],
   "note": ""
  },
  {
   "property": "C41",
   "status": "proved",
   "theorems": [
    "C41_logspace"
   ],
   "note": ""
  },
  {
   "property": "C42",
   "status": "proved",
   "theorems": [
    "C42_arange",
    "C42_arange_abort",
    "C42_arange_step_refuted"
   ],
   "note": "Defect of the code: the actual behaviour is proved for all inputs; where a _refuted theorem is listed it refutes the intended claim with a witness."
  },
  {
   "property": "C43",
   "status": "proved",
   "theorems": [
    "C43_binary",
    "C43_unary"
   ],
   "note": ""
  },
  {
   "property": "C44",
   "status": "proved",
   "theorems": [
    "C44_heaviside",
    "C44_door"
   ],
   "note": ""
  },
  {
   "property": "C45",
   "status": "proved",
   "theorems": [
    "C45_ramp",
    "C45_ramp_precondition"
   ],
   "note": ""
  },
  {
   "property": "C46",
   "status": "proved",
   "theorems": [
    "C46_sinc",
    "C46_sinc_range"
   ],
   "note": ""
  },
  {
   "property": "C47",
   "status": "proved",
   "theorems": [
    "C47_isclose_vector_release",
    "C47_assert_is_close",
    "C47_assert_is_close_vector",
    "C47_isclose",
    "C47_isclose_meaning",
    "C47_isclose_symmetric_refuted",
    "C47_isclose_vector"
   ],
   "note": ""
  },
  {
   "property": "C48",
   "status": "proved",
   "theorems": [
    "C48_parity"
   ],
   "note": ""
  },
  {
   "property": "C49",
   "status": "proved",
   "theorems": [
    "C49_sgn",
    "C49_saturate",
    "C49_sgnsqrt"
   ],
   "note": ""
  },
  {
   "property": "C50",
   "status": "proved",
   "theorems": [
    "C50_saturate_int64",
    "C50_saturate_exact",
    "C50_saturate_identity_refuted"
   ],
   "note": "Defect of the code: the actual behaviour is proved for all inputs; where a _refuted theorem is listed it refutes the intended claim with a witness."
  },
  {
   "property": "C51",
   "status": "proved",
   "theorems": [
    "C51_horner"
   ],
   "note": ""
  },
  {
   "property": "C52",
   "status": "proved",
   "theorems": [
    "C52_horner_derivative"
   ],
   "note": ""
  },
  {
   "property": "C53",
   "status": "proved",
   "theorems": [
    "C53_powerseries1d_closed",
    "C53_powerseries1d_opened",
    "C53_segment_coordinate",
    "C53_halfline_coordinate"
   ],
   "note": ""
  },
  {
   "property": "C54",
   "status": "proved",
   "theorems": [
    "C54_powerseries2d_closed",
    "C54_powerseries2d_opened",
    "C54_powerseries2d_mixed"
   ],
   "note": ""
  },
  {
   "property": "C55",
   "status": "proved",
   "theorems": [
    "C55_powerseries3d_closed",
    "C55_powerseries3d_yz_opened",
    "C55_powerseries3d_z_opened"
   ],
   "note": ""
  },
  {
   "property": "C56",
   "status": "proved",
   "theorems": [
    "C56_fixed_z",
    "C56_fixed_z_infinite"
   ],
   "note": ""
  },
  {
   "property": "C57",
   "status": "proved",
   "theorems": [
    "C57_dy_fixed_z_closed",
    "C57_dy_fixed_z_opened",
    "C57_dy_fixed_z_refuted"
   ],
   "note": "Defect of the code: the actual behaviour is proved for all inputs; where a _refuted theorem is listed it refutes the intended claim with a witness."
  },
  {
   "property": "C58",
   "status": "proved",
   "theorems": [
    "C58_zinf_is_limit"
   ],
   "note": ""
  },
  {
   "property": "C59",
   "status": "proved",
   "theorems": [
    "C59_chebyshev_polynomials",
    "C59_specification_polynomials",
    "C59_evaluate_1d",
    "C59_evaluate_2d",
    "C59_evaluate_3d"
   ],
   "note": ""
  },
  {
   "property": "C60",
   "status": "proved",
   "theorems": [
    "C60_nodes_closed_1d",
    "C60_nodes_opened_1d",
    "C60_nodes_classes_2d",
    "C60_nodes_classes_3d",
    "C60_nodes_1d",
    "C60_nodes_2d",
    "C60_nodes_3d",
    "C60_nodes_exist",
    "C60_exact_1d",
    "C60_exact_2d",
    "C60_exact_3d"
   ],
   "note": ""
  },
  {
   "property": "C61",
   "status": "proved",
   "theorems": [
    "C61_derivative_1d",
    "C61_derivative_2d",
    "C61_derivative_3d"
   ],
   "note": ""
  },
  {
   "property": "C62",
   "status": "proved",
   "theorems": [
    "C62_conversion_1d",
    "C62_conversion_2d",
    "C62_conversion_3d",
    "C62_transformation_coefficients"
   ],
   "note": ""
  },
  {
   "property": "C63",
   "status": "proved",
   "theorems": [
    "C63_repeated_1d",
    "C63_repeated_2d",
    "C63_repeated_3d",
    "C63_second_call_1d",
    "C63_second_call_2d",
    "C63_second_call_3d",
    "C63_recompute_refuted"
   ],
   "note": "Defect of the code: the actual behaviour is proved for all inputs; where a _refuted theorem is listed it refutes the intended claim with a witness."
  },
  {
   "property": "C64",
   "status": "proved",
   "theorems": [
    "C64_trapz_uniform",
    "C64_trapz_uniform_short",
    "C64_trapz",
    "C64_trapz_debug_guard",
    "C64_trapz_release_short",
    "C64_trapz_agree",
    "C64_trapz_linear",
    "C64_trapz_uniform_linear",
    "C64_trapz_additive",
    "C64_trapz_affine",
    "C64_trapz_monotone",
    "C64_trapz_error"
   ],
   "note": ""
  },
  {
   "property": "C65",
   "status": "proved",
   "theorems": [
    "C65_integrate1d_function_history",
    "C65_integrate1d_vector_history",
    "C65_integrate1d_error"
   ],
   "note": ""
  },
  {
   "property": "C66",
   "status": "proved",
   "theorems": [
    "C66_method_change_ignored",
    "C66_get_follows_method_refuted"
   ],
   "note": "Defect of the code: the actual behaviour is proved for all inputs; where a _refuted theorem is listed it refutes the intended claim with a witness."
  },
  {
   "property": "C67",
   "status": "proved",
   "theorems": [
    "C67_triangle_degree",
    "C67_triangle_degree_sharp",
    "C67_specification_area"
   ],
   "note": ""
  },
  {
   "property": "C68",
   "status": "proved",
   "theorems": [
    "C68_triangle_linear",
    "C68_triangle_componentwise",
    "C68_triangle_orientation",
    "C68_triangle_local",
    "C68_triangle_bound",
    "C68_triangle_positive",
    "C68_triangle_order3_positive_refuted",
    "C68_triangle_order_range"
   ],
   "note": ""
  },
  {
   "property": "C69",
   "status": "proved",
   "theorems": [
    "C69_convolution_value",
    "C69_convolution_degenerate",
    "C69_convolution_short",
    "C69_convolution_reverse",
    "C69_convolution_linear_kernel",
    "C69_convolution_linear_signal",
    "C69_convolution_commutes"
   ],
   "note": ""
  },
  {
   "property": "C70",
   "status": "proved",
   "theorems": [
    "C70_frequency_vector"
   ],
   "note": ""
  },
  {
   "property": "C71",
   "status": "proved",
   "theorems": [
    "C71_euler_rotation",
    "C71_euler_product"
   ],
   "note": ""
  },
  {
   "property": "C72",
   "status": "proved",
   "theorems": [
    "C72_euler_unit",
    "C72_quaternion_rotation",
    "C72_quaternion_action",
    "C72_quaternion_product",
    "C72_quaternion_opposite",
    "C72_quaternion_only_opposite",
    "C72_euler_agree"
   ],
   "note": ""
  },
  {
   "property": "C73",
   "status": "proved",
   "theorems": [
    "C73_matrix_angles",
    "C73_quaternion_angles",
    "C73_angles_matrix",
    "C73_gimbal_lock_matrix",
    "C73_gimbal_lock_quaternion",
    "C73_every_matrix_refuted"
   ],
   "note": "away from gimbal lock the angles are recovered; at gimbal lock only the rotation is characterised and the claim that roll and yaw are recovered is refuted"
  },
  {
   "property": "C74",
   "status": "proved",
   "theorems": [
    "C74_local_on_ned",
    "C74_inverse",
    "C74_isometry",
    "C74_compose_local",
    "C74_compose_ned",
    "C74_components",
    "C74_units",
    "C74_output_reference"
   ],
   "note": ""
  },
  {
   "property": "C75",
   "status": "proved",
   "theorems": [
    "C75_transport",
    "C75_transport_out",
    "C75_transport_function",
    "C75_transport_compose",
    "C75_transport_aliased",
    "C75_transport_out_aliased",
    "C75_transport_any_point_refuted"
   ],
   "note": "Defect of the code under aliasing: the actual behaviour is proved for all inputs; the claim without the aliasing hypothesis is refuted."
  },
  {
   "property": "C76",
   "status": "proved",
   "theorems": [
    "C76_inf_norm_vec3",
    "C76_inf_norm_value",
    "C76_inf_norm_iff",
    "C76_inf_norm_negative",
    "C76_inf_norm_refuted",
    "C76_inf_norm_others",
    "C76_inf_norm_unique"
   ],
   "note": "Defect of the code: the actual behaviour is proved for all inputs; where a _refuted theorem is listed it refutes the intended claim with a witness."
  },
  {
   "property": "C77",
   "status": "proved",
   "theorems": [
    "C77_amplitude_phase",
    "C77_lengths"
   ],
   "note": ""
  },
  {
   "property": "C78",
   "status": "proved",
   "theorems": [
    "C78_cholesky_ignores_the_upper_triangle",
    "C78_cholesky_rejects_non_square",
    "C78_IsSymmetric_refuted",
    "C78_cholesky_guard_refuted"
   ],
   "note": "Defect of the code: the actual behaviour is proved for all inputs; where a _refuted theorem is listed it refutes the intended claim with a witness."
  },
  {
   "property": "C79",
   "status": "proved",
   "theorems": [
    "C79_pseudo_inverse",
    "C79_pseudo_inverse_of_truncated",
    "C79_moore_penrose_unique",
    "C79_invertible_refuted"
   ],
   "note": "Moore-Penrose iff every non-zero singular value exceeds the tolerance; the claim for all invertible matrices is refuted for every positive tolerance. Assumes a correct thin SVD."
  },
  {
   "property": "C80",
   "status": "proved",
   "theorems": [
    "C80_constrained_least_squares",
    "C80_contracts_satisfiable",
    "C80_minimiser_unique",
    "C80_feasible",
    "C80_rank_deficient_refuted",
    "C80_debug_abort"
   ],
   "note": "assumes Eigen's QR, LU solve and least squares solve contracts; without full row rank the optimality claim is refuted"
  },
  {
   "property": "C81",
   "status": "proved",
   "theorems": [
    "C81_make_symmetric",
    "C81_make_symmetric_keeps_symmetric",
    "C81_sort",
    "C81_sort_determined",
    "C81_reverse",
    "C81_square_and_diagonal"
   ],
   "note": ""
  },
  {
   "property": "C82",
   "status": "proved",
   "theorems": [
    "C82_bessel_derivative",
    "C82_bessel_i_derivative",
    "C82_bessel_k_derivative",
    "C82_hankel_derivative",
    "C82_relations_J",
    "C82_relations_I",
    "C82_relations_K",
    "C82_integer_arguments",
    "C82_integer_order_zero",
    "C82_integer_zero",
    "C82_integer_arguments_refuted"
   ],
   "note": "Boost functions are parameters constrained only by the classical relations, which Bessel integrals are shown to satisfy (relations_J, relations_I) for integer orders; integer argument types truncate order/x (refuted theorem)."
  },
  {
   "property": "C83",
   "status": "proved",
   "theorems": [
    "C83_E1_outcome",
    "C83_Ei_outcome",
    "C83_E1_defined",
    "C83_Ei_defined_except_once",
    "C83_Ei_defined_refuted",
    "C83_expEi_scaled",
    "C83_expEi_defined"
   ],
   "note": "Intended claim for Ei (defined for every accepted x) is refuted at one real number near 18.03; harmless in IEEE arithmetic, where the infinity is absorbed."
  },
  {
   "property": "C84",
   "status": "proved",
   "theorems": [
    "C84_interp2d_reinitialize_stale",
    "C84_interp2d_reinitialize_refuted"
   ],
   "note": "Defect of the code: the actual behaviour is proved for all inputs; where a _refuted theorem is listed it refutes the intended claim with a witness."
  },
  {
   "property": "C85",
   "status": "proved",
   "theorems": [
    "C85_grid_shape_not_checked",
    "C85_interp_agrees_with_eval_at_indice_refuted"
   ],
   "note": "Defect of the code: the actual behaviour is proved for all inputs; where a _refuted theorem is listed it refutes the intended claim with a witness."
  },
  {
   "property": "C86",
   "status": "proved",
   "theorems": [
    "C86_grid_interp_total"
   ],
   "note": ""
  },
  {
   "property": "C87",
   "status": "proved",
   "theorems": [
    "C87_linspace_double",
    "C87_linspace_subnormal_refuted"
   ],
   "note": ""
  },
  {
   "property": "C88",
   "status": "proved",
   "theorems": [
    "C88_get_trigo",
    "C88_string2angle"
   ],
   "note": ""
  },
  {
   "property": "C89",
   "status": "proved",
   "theorems": [
    "C89_interp1d_factory"
   ],
   "note": ""
  },
  {
   "property": "C90",
   "status": "proved",
   "theorems": [
    "C90_vector_size_mismatch",
    "C90_no_points",
    "C90_size_checked_refuted"
   ],
   "note": "Defect of the code: the actual behaviour is proved for all inputs; where a _refuted theorem is listed it refutes the intended claim with a witness."
  },
  {
   "property": "C91",
   "status": "proved",
   "theorems": [
    "C91_matrix_to_quaternion",
    "C91_quaternion_round_trip"
   ],
   "note": ""
  },
  {
   "property": "C92",
   "status": "proved",
   "theorems": [
    "C92_same_unit",
    "C92_ned_velocity",
    "C92_set_ned"
   ],
   "note": ""
  },
  {
   "property": "C93",
   "status": "proved",
   "theorems": [
    "C93_projected_angles"
   ],
   "note": ""
  },
  {
   "property": "C94",
   "status": "proved",
   "theorems": [
    "C94_normalize",
    "C94_normalize_zero",
    "C94_is_unit",
    "C94_outer_inner"
   ],
   "note": ""
  },
  {
   "property": "C95",
   "status": "proved",
   "theorems": [
    "C95_thin_qr",
    "C95_full_qr",
    "C95_wide_matrix",
    "C95_lu"
   ],
   "note": ""
  },
  {
   "property": "C96",
   "status": "proved",
   "theorems": [
    "C96_positive_semi_definite",
    "C96_not_square",
    "C96_nonsymmetric_refuted"
   ],
   "note": "for non-symmetric matrices the claim is refuted"
  },
  {
   "property": "C97",
   "status": "proved",
   "theorems": [
    "C97_specification_E1",
    "C97_E1_accuracy_below_1",
    "C97_E1_accuracy_1_to_4",
    "C97_E1_accuracy_above_4"
   ],
   "note": "Real arithmetic on the decimal coefficients in the source; rounding is C124."
  },
  {
   "property": "C98",
   "status": "proved",
   "theorems": [
    "C98_E1_accuracy_refuted",
    "C98_E1_at_4_refuted",
    "C98_changed_1_to_4",
    "C98_changed_above_4"
   ],
   "note": "Defect: four mistyped coefficients (lines 487, 491, 533, 537)."
  },
  {
   "property": "C99",
   "status": "proved",
   "theorems": [
    "C99_specification_Ei",
    "C99_specification_derivative",
    "C99_Ei_accuracy_below_6",
    "C99_Ei_accuracy_6_to_12",
    "C99_Ei_accuracy_above_12",
    "C99_expEi_accuracy"
   ],
   "note": "Real arithmetic on the decimal coefficients in the source; rounding is C125."
  },
  {
   "property": "C100",
   "status": "proved",
   "theorems": [
    "C100_Ei_accuracy_refuted",
    "C100_changed_6_to_12"
   ],
   "note": "Defect: mistyped coefficient (line 292)."
  },
  {
   "property": "C101",
   "status": "proved",
   "theorems": [
    "C101_order_0",
    "C101_order_1",
    "C101_derivative",
    "C101_exit",
    "C101_parity",
    "C101_all_arguments_refuted",
    "C101_defined"
   ],
   "note": "Real arithmetic; Boost cyl_neumann enters through its error at x. Defect: negative arguments terminate the program with status 0."
  },
  {
   "property": "C102",
   "status": "proved",
   "theorems": [
    "C102_fft_values",
    "C102_empty",
    "C102_flags",
    "C102_round_trip",
    "C102_round_trip_odd",
    "C102_round_trip_refuted",
    "C102_parseval",
    "C102_tone"
   ],
   "note": "Eigen's vector-level FFT class modelled from its published source; the transform engine is a contract. Defect: odd lengths lose a sample with the half spectrum."
  },
  {
   "property": "C103",
   "status": "proved",
   "theorems": [
    "C103_integer_abs_overflow",
    "C103_impulse",
    "C103_midway",
    "C103_decreasing",
    "C103_values",
    "C103_irregular_refuted",
    "C103_short",
    "C103_integer_abs",
    "C103_integer_abs_wide"
   ],
   "note": "Defects: lost impulse midway between samples, overload of abs."
  },
  {
   "property": "C104",
   "status": "proved",
   "theorems": [
    "C104_nodes",
    "C104_affine",
    "C104_single",
    "C104_empty"
   ],
   "note": "Eigen's spline fitting is a contract."
  },
  {
   "property": "C105",
   "status": "proved",
   "theorems": [
    "C105_update",
    "C105_failure_reported_refuted",
    "C105_in_place_twice",
    "C105_in_place_twice_refuted",
    "C105_inverse"
   ],
   "note": "Eigen's LLT, rankUpdate and inverse are contracts. Defects: failures ignored; in-place update not repeatable."
  },
  {
   "property": "C106",
   "status": "proved",
   "theorems": [
    "C106_horner_double",
    "C106_horner_derivative_double",
    "C106_horner_integers_exact"
   ],
   "note": "Binary64 (Flocq). Includes the exactness on integers."
  },
  {
   "property": "C107",
   "status": "proved",
   "theorems": [
    "C107_interp1d_double",
    "C107_interp1d_integers_exact",
    "C107_interp1d_nan_query",
    "C107_interp1d_samples_refuted",
    "C107_interp1d_constant_refuted",
    "C107_interp1d_wide_cell_refuted",
    "C107_interp1d_nan_table_refuted"
   ],
   "note": "Binary64. Error bound and finiteness condition proved; four intended claims refuted with witnesses."
  },
  {
   "property": "C108",
   "status": "proved",
   "theorems": [
    "C108_velocity_double",
    "C108_velocity_roundtrip",
    "C108_frequency_double",
    "C108_frequency_roundtrip",
    "C108_degrees_double",
    "C108_velocity_same_unit_refuted",
    "C108_degrees_roundtrip_refuted"
   ],
   "note": "Binary64 against the exact factors and the exact pi; two intended identities refuted."
  },
  {
   "property": "C109",
   "status": "proved",
   "theorems": [
    "C109_is_equal",
    "C109_is_equal_sizes",
    "C109_matrix_is_equal",
    "C109_is_equal_invariance",
    "C109_is_equal_zero",
    "C109_is_equal_absolute_refuted",
    "C109_is_equal_transitive_refuted",
    "C109_is_identity",
    "C109_identity_square_refuted",
    "C109_is_equal_double",
    "C109_is_equal_nonfinite",
    "C109_zero_tolerance_refuted"
   ],
   "note": "Eigen's isApprox and isIdentity transcribed; the binary64 part adds the squares from left to right. Four intended claims refuted with witnesses."
  },
  {
   "property": "C110",
   "status": "proved",
   "theorems": [
    "C110_isclose_double",
    "C110_isclose_nan",
    "C110_isclose_infinity_itself",
    "C110_isclose_infinity_finite",
    "C110_isclose_finite_infinity",
    "C110_isclose_infinity_refuted",
    "C110_saturate_double",
    "C110_sgn_double",
    "C110_heaviside_double",
    "C110_ramp_double",
    "C110_ramp_end_refuted"
   ],
   "note": "Binary64 counterparts of the exact statements on the same functions, with NaN and infinities; two intended claims refuted with witnesses."
  },
  {
   "property": "C111",
   "status": "proved",
   "theorems": [
    "C111_grid_double",
    "C111_grid_double_nodes",
    "C111_grid_double_constant",
    "C111_grid_double_bound_check",
    "C111_grid_double_nan",
    "C111_nan_query_refuted",
    "C111_range_refuted",
    "C111_node_overflow_refuted"
   ],
   "note": "Binary64 counterpart of C25-C28; three intended claims refuted with witnesses (NaN query, range, overflow at a node)."
  },
  {
   "property": "C112",
   "status": "proved",
   "theorems": [
    "C112_interp2d_double",
    "C112_interp2d_integers_exact",
    "C112_interp2d_nan_query",
    "C112_interp2d_nodes_refuted",
    "C112_interp2d_constant_refuted"
   ],
   "note": "Binary64 counterpart of C13-C16; two intended claims (nodes, constants) refuted with witnesses."
  },
  {
   "property": "C113",
   "status": "proved",
   "theorems": [
    "C113_arange_double",
    "C113_arange_integers_exact",
    "C113_arange_nan",
    "C113_count_refuted",
    "C113_decimal_count_refuted"
   ],
   "note": "Binary64 counterpart of C42; the two readings of the count are refuted with witnesses."
  },
  {
   "property": "C114",
   "status": "proved",
   "theorems": [
    "C114_trapz_uniform_double",
    "C114_trapz_xy_double",
    "C114_convolution_double",
    "C114_trapz_integers_exact",
    "C114_trapz_nan",
    "C114_rules_agree_refuted"
   ],
   "note": "Binary64 counterpart of the trapezoidal and convolution claims; the agreement of the two rules is refuted with a witness."
  },
  {
   "property": "C115",
   "status": "proved",
   "theorems": [
    "C115_frequency_double",
    "C115_frequency_increasing",
    "C115_integrate_vector_double",
    "C115_integrate_function_double",
    "C115_nyquist_refuted",
    "C115_inside_interval_refuted"
   ],
   "note": "Binary64 counterpart of C70 and of the Integrate1d claims; the two exactness readings are refuted with witnesses."
  },
  {
   "property": "C116",
   "status": "proved",
   "theorems": [
    "C116_norm_double",
    "C116_normalize_double",
    "C116_normalize_tiny",
    "C116_normalize_overflow",
    "C116_normalize_nan",
    "C116_normalize_refuted",
    "C116_cross_double",
    "C116_cross_antisymmetric",
    "C116_inner_double",
    "C116_orthogonal_refuted",
    "C116_infNorm_exact",
    "C116_amplitude_double",
    "C116_amplitude_refuted",
    "C116_sgnsqrt_double"
   ],
   "note": "Binary64 counterpart of C75-C77; hypothesis ieee_sqrt says that std::sqrt is correctly rounded (IEEE 754), nothing is assumed of other library functions. Eigen's order of the two additions is not in /repo; the other order is this one with the coordinates permuted, and the bounds are symmetric."
  },
  {
   "property": "C117",
   "status": "proved",
   "theorems": [
    "C117_euler_matrix_double",
    "C117_euler_orthogonal_double",
    "C117_euler_quaternion_double",
    "C117_quaternion_matrix_double",
    "C117_quaternion_matrix_euler_double",
    "C117_pitch_refuted",
    "C117_project_double",
    "C117_axes_double",
    "C117_project_back_double"
   ],
   "note": "Binary64 counterpart of C71-C74. Hypothesis libm_near bounds the absolute error of std::sin and std::cos (met by a correctly rounded library, shown as an example); asin_domain, used in the refutation only, is the C rule that asin beyond 1 is NaN."
  },
  {
   "property": "C118",
   "status": "proved",
   "theorems": [
    "C118_nearest_double",
    "C118_nearest_excess_double",
    "C118_nearest_at_node_refuted",
    "C118_nearest_overflow_refuted",
    "C118_nearest_nan_undefined",
    "C118_surrounding_inside_double",
    "C118_surrounding_outside_double"
   ],
   "note": "Binary64 counterpart of C31-C33."
  },
  {
   "property": "C119",
   "status": "proved",
   "theorems": [
    "C119_power_series_1d_double",
    "C119_power_series_2d_double",
    "C119_power_series_3d_double",
    "C119_chebyshev_series_1d_double",
    "C119_chebyshev_series_2d_double",
    "C119_chebyshev_series_3d_double",
    "C119_short_segment_refuted"
   ],
   "note": "Binary64 counterpart of C53-C55 and C59 for Evaluate; the derivatives in binary64 are C127 and C129."
  },
  {
   "property": "C120",
   "status": "proved",
   "theorems": [
    "C120_empty_table",
    "C120_short_table",
    "C120_retry",
    "C120_strong_guarantee_refuted",
    "C120_empty_x_2d",
    "C120_empty_y_2d",
    "C120_short_table_2d"
   ],
   "note": "Debug builds stop on unequal lengths (C11), so the short table is a release-build case."
  },
  {
   "property": "C121",
   "status": "proved",
   "theorems": [
    "C121_interpolator_limits",
    "C121_nearest_limits",
    "C121_beyond_dimension",
    "C121_before_data",
    "C121_nearest_before_data",
    "C121_nearest_calls"
   ],
   "note": "An empty axis of RegularGridNearest dereferences the end iterator: undefined behaviour."
  },
  {
   "property": "C122",
   "status": "proved",
   "theorems": [
    "C122_table_size"
   ],
   "note": "Products are assumed to fit the size type."
  },
  {
   "property": "C123",
   "status": "proved",
   "theorems": [
    "C123_pow2"
   ],
   "note": "1 << 31 is read as 2^31 (two's complement conversion)."
  },
  {
   "property": "C124",
   "status": "proved",
   "theorems": [
    "C124_E1_double_exit",
    "C124_E1_double_below_1",
    "C124_E1_double_1_to_4",
    "C124_E1_double_above_4",
    "C124_E1_double_inaccurate",
    "C124_any_rounding_below_1",
    "C124_any_rounding_1_to_4",
    "C124_any_rounding_above_4"
   ],
   "note": "T = double. The library's exp and log are assumed within 4 times 2^-53 (relative); x above 690 (near underflow), infinities and NaN are not covered by the accuracy statements."
  },
  {
   "property": "C125",
   "status": "proved",
   "theorems": [
    "C125_Ei_double_exit",
    "C125_Ei_double_below_6",
    "C125_Ei_double_6_to_12",
    "C125_Ei_double_12_to_24",
    "C125_Ei_double_above_24",
    "C125_expEi_double",
    "C125_any_rounding_6_to_12",
    "C125_any_rounding_12_to_24",
    "C125_any_rounding_above_24"
   ],
   "note": "T = double. The library's exp and log are assumed within 4 times 2^-53 (relative); x above 690 (near overflow) for Ei_approximation, infinities, NaN and expEi below 24 (a product with boost's expint) are not covered by the accuracy statements."
  },
  {
   "property": "C126",
   "status": "proved",
   "theorems": [
    "C126_no_matrix",
    "C126_hollow_matrix",
    "C126_ragged_value",
    "C126_short_matrix",
    "C126_cij_smaller",
    "C126_predefined_short",
    "C126_agreement_refuted"
   ],
   "note": "C56 proves that the two ways agree on equal shapes; C126_agreement_refuted gives shapes on which they do not."
  },
  {
   "property": "C127",
   "status": "proved",
   "theorems": [
    "C127_derivative_1d_double",
    "C127_derivative_x_2d_double",
    "C127_derivative_y_2d_double",
    "C127_derivatives_3d_double",
    "C127_combined_call",
    "C127_combined_call_fixed_z",
    "C127_far_halfline_refuted"
   ],
   "note": "The range condition on a half-line (start at least 2^-300, coordinate at most 2^300) is necessary in some form: C127_far_halfline_refuted."
  },
  {
   "property": "C128",
   "status": "proved",
   "theorems": [
    "C128_triangle_double",
    "C128_triangle_polynomial_double",
    "C128_sliver_refuted"
   ],
   "note": "The absolute part of the error is necessary: C128_sliver_refuted."
  },
  {
   "property": "C129",
   "status": "proved",
   "theorems": [
    "C129_chebyshev_derivative_1d_double",
    "C129_chebyshev_derivatives_2d_double",
    "C129_chebyshev_derivatives_3d_double"
   ],
   "note": "The range condition on a half-line is the one of C127 (refuted without it there). The Boost polynomials are modelled by their three-term recurrence."
  },
  {
   "property": "C130",
   "status": "proved",
   "theorems": [
    "C130_simplex_double_range",
    "C130_simplex_double_affine",
    "C130_simplex_double_nodes",
    "C130_simplex_double_constant",
    "C130_simplex_double_exact_nodes_refuted"
   ],
   "note": "The reference is the range, the affine functions, the constants and the nodes, not the exact simplex interpolant of arbitrary data (in double nearly tied coordinates may be sorted the other way round). Exact reproduction of nodes is refuted. Accuracy on sampled functions, of which this is the rounding part, is C143."
  },
  {
   "property": "C131",
   "status": "proved",
   "theorems": [
    "C131_logspace_double",
    "C131_sinc_double",
    "C131_sinc_range_double",
    "C131_transport_double",
    "C131_transport_out_double",
    "C131_transport_function_double"
   ],
   "note": "kappa is the accuracy of the sine and pow of the mathematical library (glibc: less than 2); a library meeting both hypotheses is exhibited (exact_sinpow_near)."
  },
  {
   "property": "C132",
   "status": "proved",
   "theorems": [
    "C132_chebyshev_interpolation_1d_double",
    "C132_chebyshev_interpolation_2d_double",
    "C132_chebyshev_interpolation_3d_double"
   ],
   "note": "kappa is the accuracy of the cosine of the mathematical library (glibc: less than 1); a library meeting the hypothesis is exhibited (exact_trig)."
  },
  {
   "property": "C133",
   "status": "proved",
   "theorems": [
    "C133_coefficients_exact",
    "C133_integers",
    "C133_conversion_1d_double",
    "C133_conversion_2d_double",
    "C133_conversion_3d_double"
   ],
   "note": "pow enters the table only on integers; that it is exact there is a hypothesis (true of glibc) and a library meeting it is exhibited (exact_pow)."
  },
  {
   "property": "C134",
   "status": "proved",
   "theorems": [
    "C134_coefficients_fixed_z",
    "C134_calls_fixed_z",
    "C134_coefficients_infinite_z",
    "C134_calls_infinite_z",
    "C134_direct_infinite_z"
   ],
   "note": "The separate y derivative with a predefined matrix is claimed only for a segment y axis: on a half-line it is wrong even in exact arithmetic (C57). Derivatives assume coordinates for which the rate of the unit coordinate is moderate."
  },
  {
   "property": "C135",
   "status": "proved",
   "theorems": [
    "C135_ned_velocity_double",
    "C135_projected_angles_double",
    "C135_bessel_derivative_double",
    "C135_hankel_derivative_double",
    "C135_dirac_double",
    "C135_dirac_linspace_double"
   ],
   "note": "The libraries meeting the hypotheses are exhibited (correctly rounded functions). Non-integer orders are not covered: order - 1 is then rounded. The C integer overload of abs is covered in exact arithmetic only (C103)."
  },
  {
   "property": "C136",
   "status": "proved",
   "theorems": [
    "C136_interp1d_error",
    "C136_interp1d_error_lipschitz",
    "C136_interp2d_error",
    "C136_interp2d_error_lipschitz",
    "C136_grid_error",
    "C136_grid_error_lipschitz",
    "C136_nearest_error",
    "C136_interp1d_double_error"
   ],
   "note": "Examples show the constants 1/8 and 1/2 are attained. The bounds are for multilinear interpolation; simplex interpolation is C141. Derivatives are two-sided at the ends of the table."
  },
  {
   "property": "C137",
   "status": "proved",
   "theorems": [
    "C137_error_1d",
    "C137_error_segment",
    "C137_sensitivity",
    "C137_error_2d",
    "C137_error_3d",
    "C137_double_1d",
    "C137_double_2d",
    "C137_double_3d"
   ],
   "note": "An example shows the one-variable bound is attained. The factor 2n+1 bounds the Lebesgue constant of the nodes and is not sharp. On half-lines the derivatives are with respect to the unit coordinate 1 - 2*xmin/x."
  },
  {
   "property": "C138",
   "status": "proved",
   "theorems": [
    "C138_convolution_integral",
    "C138_trapz_xy_double",
    "C138_trapz_uniform_double",
    "C138_integrate_double",
    "C138_convolution_double"
   ],
   "note": "An example shows the convolution bound is attained. The real-arithmetic statements for the trapezoidal rule and Integrate1d are C64_trapz_error and C65_integrate1d_error. For Integrate1d in double the function must be finite and bounded on all finite doubles, and xmin <= xmax."
  },
  {
   "property": "C139",
   "status": "proved",
   "theorems": [
    "C139_interp1d_modulus",
    "C139_interp1d_converges",
    "C139_interp2d_converges",
    "C139_grid_converges",
    "C139_nearest_converges",
    "C139_trapz_converges",
    "C139_integrate_modulus",
    "C139_integrate_converges",
    "C139_convolution_converges",
    "C139_chebyshev_rate_1d",
    "C139_chebyshev_rate_2d",
    "C139_chebyshev_rate_3d",
    "C139_chebyshev_converges_1d",
    "C139_chebyshev_converges_2d",
    "C139_chebyshev_converges_3d"
   ],
   "note": "Real arithmetic. C139_integrate_converges is restricted to fewer than 2^32 points (the size type of the class), so it says nothing when the tolerance would need more; C139_integrate_modulus is its explicit form for every number of points. The Chebyshev statements in 2D and 3D take equal orders."
  },
  {
   "property": "C140",
   "status": "proved",
   "theorems": [
    "C140_triangle_best",
    "C140_triangle_oscillation",
    "C140_mesh_converges",
    "C140_triangle_best_double"
   ],
   "note": "The integral over a mesh is the sum of the integrals over its triangles; that the triangles do not overlap is not assumed. The existence of the iterated integral is proved from continuity. Additivity over the parts of a triangle is C145."
  },
  {
   "property": "C141",
   "status": "proved",
   "theorems": [
    "C141_simplex_any_sort",
    "C141_simplex_error",
    "C141_smooth_functions",
    "C141_simplex_error_lipschitz",
    "C141_simplex_converges",
    "C141_same_as_multilinear_refuted"
   ],
   "note": "Real arithmetic; rounding of the simplex method is C130 and C143."
  },
  {
   "property": "C142",
   "status": "proved",
   "theorems": [
    "C142_grid_slopes",
    "C142_simplex_slopes",
    "C142_grid_lipschitz",
    "C142_simplex_lipschitz"
   ],
   "note": ""
  },
  {
   "property": "C143",
   "status": "proved",
   "theorems": [
    "C143_simplex_double_exact",
    "C143_simplex_double_any_sort",
    "C143_simplex_double_error",
    "C143_simplex_double_error_lipschitz",
    "C143_grid_double_error",
    "C143_grid_double_error_lipschitz"
   ],
   "note": ""
  },
  {
   "property": "C144",
   "status": "proved",
   "theorems": [
    "C144_interp2d_double_error",
    "C144_interp2d_double_error_lipschitz",
    "C144_interp2d_slopes_x",
    "C144_interp2d_slopes_y",
    "C144_table1d_error",
    "C144_table1d_error_lipschitz",
    "C144_table2d_error",
    "C144_table2d_error_lipschitz",
    "C144_table1d_double_error",
    "C144_table2d_double_error"
   ],
   "note": ""
  },
  {
   "property": "C145",
   "status": "proved",
   "theorems": [
    "C145_integral_symmetric",
    "C145_integral_cut",
    "C145_quadrature_cut",
    "C145_quadrature_cut_polynomial",
    "C145_refine_converges",
    "C145_refine_rate"
   ],
   "note": ""
  },
  {
   "property": "C146",
   "status": "proved",
   "theorems": [
    "C146_nearest_double_error",
    "C146_table2d_double_error_lipschitz",
    "C146_table1d_converges",
    "C146_table2d_converges"
   ],
   "note": ""
  },
  {
   "property": "C147",
   "status": "proved",
   "theorems": [
    "C147_superposition",
    "C147_delay",
    "C147_mean",
    "C147_mirror",
    "C147_determines",
    "C147_cyclic",
    "C147_fast_convolution",
    "C147_naive_convolution"
   ],
   "note": "Real arithmetic; Eigen's transform engine is the contract of C102."
  },
  {
   "property": "C148",
   "status": "proved",
   "theorems": [
    "C148_least_squares",
    "C148_solves",
    "C148_left_inverse",
    "C148_right_inverse",
    "C148_inverse",
    "C148_involution",
    "C148_any_decomposition",
    "C148_bounded",
    "C148_consistent",
    "C148_residual"
   ],
   "note": "Assumes a correct thin SVD (C79). The last bound is stated on squared norms with a weight t > 0, which amounts to the triangle inequality."
  },
  {
   "property": "C149",
   "status": "proved",
   "theorems": [
    "C149_lu_determinant",
    "C149_qr_determinant",
    "C149_qr_signs",
    "C149_cholesky",
    "C149_cholesky_unique",
    "C149_cholesky_positive"
   ],
   "note": "Assumes the contracts of Eigen's factorisations (C78, C95, C96)."
  },
  {
   "property": "C150",
   "status": "proved",
   "theorems": [
    "C150_linear_1d",
    "C150_linear_2d",
    "C150_linear_3d",
    "C150_local_1d",
    "C150_local_2d",
    "C150_local_3d",
    "C150_product_2d",
    "C150_product_3d",
    "C150_reflection",
    "C150_energy",
    "C150_recover",
    "C150_coefficients_unique",
    "C150_recover_2d",
    "C150_recover_3d"
   ],
   "note": "Exact arithmetic; freshly made series whose coefficients were computed once."
  },
  {
   "property": "C151",
   "status": "proved",
   "theorems": [
    "C151_interp1d_combination",
    "C151_interp2d_combination",
    "C151_grid_combination",
    "C151_interp1d_order",
    "C151_interp1d_perturbation",
    "C151_interp2d_difference",
    "C151_grid_difference",
    "C151_interp1d_insertion",
    "C151_interp1d_rescaling",
    "C151_interp2d_transposition"
   ],
   "note": "Exact arithmetic; points inside the range of the samples."
  },
  {
   "property": "C152",
   "status": "proved",
   "theorems": [
    "C152_integral_of_interpolant",
    "C152_integral_between_samples",
    "C152_sample_on_chord"
   ],
   "note": "Exact arithmetic."
  },
  {
   "property": "C153",
   "status": "proved",
   "theorems": [
    "C153_axis_by_axis",
    "C153_on_a_slab",
    "C153_constant_axis"
   ],
   "note": "Exact arithmetic; multilinear interpolation (interp); first axis, points inside the grid."
  }
 ]
}