{
 "claims": [
  {
   "property": "C01",
   "status": "proved",
   "theorems": [
    "C01_eval_is_power_sum",
    "C01_eval_ignores_trailing_zeros",
    "C01_from_coefficients"
   ],
   "note": "Polynomial evaluation is the power sum"
  },
  {
   "property": "C02",
   "status": "proved",
   "theorems": [
    "C02_additions_are_coefficientwise"
   ],
   "note": "Every form of polynomial addition adds coefficientwise"
  },
  {
   "property": "C03",
   "status": "proved",
   "theorems": [
    "C03_subtractions_are_coefficientwise"
   ],
   "note": "Every form of polynomial subtraction subtracts coefficientwise"
  },
  {
   "property": "C04",
   "status": "proved",
   "theorems": [
    "C04_product_is_convolution"
   ],
   "note": "Polynomial multiplication is the convolution"
  },
  {
   "property": "C05",
   "status": "proved",
   "theorems": [
    "C05_evaluation_is_a_homomorphism",
    "C05_product_law_needs_commutation_refuted"
   ],
   "note": "Evaluation is a ring homomorphism"
  },
  {
   "property": "C06",
   "status": "proved",
   "theorems": [
    "C06_polynomials_form_a_ring"
   ],
   "note": "Polynomial<T> obeys the ring laws promised by the Ring trait"
  },
  {
   "property": "C07",
   "status": "proved",
   "theorems": [
    "C07_eq_implies_same_polynomial",
    "C07_additive_inverse_refuted",
    "C07_other_laws_hold_literally"
   ],
   "note": "The == operator on polynomials against the ring laws"
  },
  {
   "property": "C08",
   "status": "proved",
   "theorems": [
    "C08_complex_is_a_ring",
    "C08_i_squared",
    "C08_operator_forms_agree"
   ],
   "note": "Complex<T> is a ring over any ring"
  },
  {
   "property": "C09",
   "status": "proved",
   "theorems": [
    "C09_conj_is_an_involutive_automorphism",
    "C09_norm_laws",
    "C09_scalar_multiplication"
   ],
   "note": "Conjugation and squared norm"
  },
  {
   "property": "C10",
   "status": "proved",
   "theorems": [
    "C10_division_inverts_multiplication",
    "C10_scalar_division"
   ],
   "note": "Complex division inverts multiplication"
  },
  {
   "property": "C11",
   "status": "proved",
   "theorems": [
    "C11_field_iff_no_root_of_minus_one",
    "C11_complex_over_reals_is_a_field",
    "C11_nested_complex_refuted"
   ],
   "note": "When Complex<T> really is a Field"
  },
  {
   "property": "C12",
   "status": "proved",
   "theorems": [
    "C12_abs_is_a_multiplicative_norm"
   ],
   "note": "Absolute value is a multiplicative norm"
  },
  {
   "property": "C13",
   "status": "proved",
   "theorems": [
    "C13_exponential_laws"
   ],
   "note": "Complex exponential"
  },
  {
   "property": "C14",
   "status": "proved",
   "theorems": [
    "C14_logarithm_is_principal",
    "C14_ln_of_exp"
   ],
   "note": "Complex logarithm is the principal logarithm"
  },
  {
   "property": "C15",
   "status": "proved",
   "theorems": [
    "C15_square_root_is_principal",
    "C15_branches_agree"
   ],
   "note": "Complex square root is the principal root"
  },
  {
   "property": "C16",
   "status": "proved",
   "theorems": [
    "C16_definitions_by_exponentials",
    "C16_identities"
   ],
   "note": "Complex sine, cosine, hyperbolic functions"
  },
  {
   "property": "C17",
   "status": "proved",
   "theorems": [
    "C17_tangent",
    "C17_tangent_addition"
   ],
   "note": "Complex tangent"
  },
  {
   "property": "C18",
   "status": "proved",
   "theorems": [
    "C18_polar_form",
    "C18_arg_unique"
   ],
   "note": "Argument and polar form"
  },
  {
   "property": "C19",
   "status": "proved",
   "theorems": [
    "C19_entrywise",
    "C19_module_laws"
   ],
   "note": "SVector is a module over T in every dimension"
  },
  {
   "property": "C20",
   "status": "proved",
   "theorems": [
    "C20_dot_is_sum_of_products",
    "C20_dot_biadditive_and_symmetric",
    "C20_dot_positive_definite"
   ],
   "note": "SVector dot product"
  },
  {
   "property": "C21",
   "status": "proved",
   "theorems": [
    "C21_dvector_index",
    "C21_dvector_index_set",
    "C21_dvector_write_history",
    "C21_svector_index",
    "C21_svector_index_set",
    "C21_svector_write_history"
   ],
   "note": "SVector/DVector indexing"
  },
  {
   "property": "C22",
   "status": "proved",
   "theorems": [
    "C22_square_smatrix_is_ring",
    "C22_forms_agree"
   ],
   "note": "Square SMatrix is a ring in every dimension"
  },
  {
   "property": "C23",
   "status": "proved",
   "theorems": [
    "C23_product_entries",
    "C23_mul_assign_entries",
    "C23_product_laws"
   ],
   "note": "Rectangular SMatrix product"
  },
  {
   "property": "C24",
   "status": "proved",
   "theorems": [
    "C24_matrix_vector_entries",
    "C24_matrix_vector_laws"
   ],
   "note": "SMatrix times SVector"
  },
  {
   "property": "C25",
   "status": "proved",
   "theorems": [
    "C25_entrywise",
    "C25_conj_laws"
   ],
   "note": "SMatrix conjugation and entrywise operations"
  },
  {
   "property": "C26",
   "status": "proved",
   "theorems": [
    "C26_vector_expression_meaning",
    "C26_matrix_expression_meaning"
   ],
   "note": "Every dynamic vector/matrix expression evaluates to its mathematical meaning"
  },
  {
   "property": "C27",
   "status": "proved",
   "theorems": [
    "C27_vector_shape_check",
    "C27_matrix_shape_check",
    "C27_reference_operators_and_product"
   ],
   "note": "Shape checks of the non-assigning operators"
  },
  {
   "property": "C28",
   "status": "proved",
   "theorems": [
    "C28_dvector_assign_is_operator",
    "C28_dmatrix_assign_is_operator"
   ],
   "note": "Compound assignment on DVector/DMatrix with equal shapes"
  },
  {
   "property": "C29",
   "status": "proved",
   "theorems": [
    "C29_dvector_assign_any_length",
    "C29_dmatrix_assign_any_shape",
    "C29_mismatched_shapes_rejected_refuted"
   ],
   "note": "Compound assignment with mismatched shapes is not rejected"
  },
  {
   "property": "C30",
   "status": "proved",
   "theorems": [
    "C30_read_write",
    "C30_invariant_any_history",
    "C30_history_refines_mathematical_matrix"
   ],
   "note": "DMatrix indexing is a faithful row-major store"
  },
  {
   "property": "C31",
   "status": "proved",
   "theorems": [
    "C31_index_characterised",
    "C31_consequences",
    "C31_out_of_range_rejected_refuted"
   ],
   "note": "Out-of-range DMatrix indices are not always rejected"
  },
  {
   "property": "C32",
   "status": "proved",
   "theorems": [
    "C32_transpose",
    "C32_transpose_of_product",
    "C32_hermitian_transpose",
    "C32_hermitian_additive",
    "C32_hermitian_of_product"
   ],
   "note": "Transpose and Hermitian transpose"
  },
  {
   "property": "C33",
   "status": "proved",
   "theorems": [
    "C33_product_entries",
    "C33_product_laws",
    "C33_agrees_with_smatrix_product"
   ],
   "note": "DMatrix product"
  },
  {
   "property": "C34",
   "status": "proved",
   "theorems": [
    "C34_inner_dimension_zero",
    "C34_agrees_with_smatrix_refuted"
   ],
   "note": "DMatrix product with inner dimension zero panics"
  },
  {
   "property": "C35",
   "status": "proved",
   "theorems": [
    "C35_dot_is_sum_of_products",
    "C35_dot_ignores_surplus_entries",
    "C35_dot_additive",
    "C35_dot_sesquilinear",
    "C35_dot_positive_definite",
    "C35_conjugate",
    "C35_unequal_lengths_rejected_refuted"
   ],
   "note": "DVector inner product"
  },
  {
   "property": "C36",
   "status": "proved",
   "theorems": [
    "C36_vector_to_diagonal_matrix",
    "C36_matrix_diagonal",
    "C36_diag_of_diag",
    "C36_eye_and_constants"
   ],
   "note": "diag, eye, zeros, ones, same"
  },
  {
   "property": "C37",
   "status": "proved",
   "theorems": [
    "C37_early_evaluation",
    "C37_eval_overrides_agree_with_default"
   ],
   "note": "Lazy and eager evaluation agree"
  },
  {
   "property": "C38",
   "status": "proved",
   "theorems": [
    "C38_best_of_final_population",
    "C38_knockout"
   ],
   "note": "Differential evolution returns a best member of its final population"
  },
  {
   "property": "C39",
   "status": "proved",
   "theorems": [
    "C39_never_worse",
    "C39_more_iterations",
    "C39_more_iterations_slots",
    "C39_objective",
    "C39_float_objective"
   ],
   "note": "Differential evolution never gets worse"
  },
  {
   "property": "C40",
   "status": "proved",
   "theorems": [
    "C40_invalid_arguments",
    "C40_valid_arguments",
    "C40_nan_arguments",
    "C40_float_arguments",
    "C40_no_dimensions"
   ],
   "note": "Differential evolution argument validation"
  },
  {
   "property": "C41",
   "status": "proved",
   "theorems": [
    "C41_trials",
    "C41_full_crossover",
    "C41_no_crossover"
   ],
   "note": "Donor indices are distinct and in range"
  },
  {
   "property": "C42",
   "status": "proved",
   "theorems": [
    "C42_fair_terminates",
    "C42_stuck_generator_refuted",
    "C42_why_four"
   ],
   "note": "Differential evolution termination"
  },
  {
   "property": "C43",
   "status": "proved",
   "theorems": [
    "C43_start_in_bounds",
    "C43_bounds_respected_refuted"
   ],
   "note": "The result can leave the bounds"
  },
  {
   "property": "C44",
   "status": "proved",
   "theorems": [
    "C44_logging_is_transparent",
    "C44_number_of_calls"
   ],
   "note": "Number of comparator calls"
  },
  {
   "property": "C45",
   "status": "proved",
   "theorems": [
    "C45_unbeaten_first_point_wins",
    "C45_nan_wins_refuted"
   ],
   "note": "NaN objective values can win"
  },
  {
   "property": "C46",
   "status": "proved",
   "theorems": [
    "C46_formula",
    "C46_minimum",
    "C46_upper_bound",
    "C46_symmetries",
    "C46_f32_symmetries"
   ],
   "note": "Ackley function"
  },
  {
   "property": "C47",
   "status": "proved",
   "theorems": [
    "C47_overflow_exactly_out_of_range",
    "C47_polynomials_exact",
    "C47_complex_exact",
    "C47_vectors_exact",
    "C47_matrices_exact",
    "C47_dynamic_matrix_product_exact"
   ],
   "note": "Fixed-width integers: overflow-checked results are exact"
  },
  {
   "property": "C48",
   "status": "proved",
   "theorems": [
    "C48_polynomials_wrap",
    "C48_complex_wrap",
    "C48_vectors_wrap",
    "C48_matrices_wrap",
    "C48_dynamic_matrix_product_wrap",
    "C48_wrapping_integers_are_a_ring",
    "C48_wrap_is_reduction",
    "C48_checked_results_survive",
    "C48_checked_results_survive_everywhere"
   ],
   "note": "Fixed-width integers: wrapping results are exact modulo 2^w"
  },
  {
   "property": "C49",
   "status": "proved",
   "theorems": [
    "C49_when_operations_return",
    "C49_sub_returns_implies_sub_assign",
    "C49_sub_forms_agree_refuted"
   ],
   "note": "Polynomial subtraction forms disagree on checked integers"
  },
  {
   "property": "C50",
   "status": "proved",
   "theorems": [
    "C50_every_nesting_is_a_ring",
    "C50_commutative_nestings",
    "C50_big_matrices_do_not_commute",
    "C50_checked_integers",
    "C50_wrapping_integers"
   ],
   "note": "All nestings of the ring constructors are rings"
  },
  {
   "property": "C51",
   "status": "proved",
   "theorems": [
    "C51_horner_error",
    "C51_horner_gamma",
    "C51_finite"
   ],
   "note": "Floating-point Horner evaluation error bound"
  },
  {
   "property": "C52",
   "status": "proved",
   "theorems": [
    "C52_svector_dot_error",
    "C52_svector_dot_finite",
    "C52_dvector_dot_error",
    "C52_smatrix_product_error",
    "C52_smatrix_vector_error",
    "C52_dmatrix_product_error"
   ],
   "note": "Floating-point dot product error bound"
  },
  {
   "property": "C53",
   "status": "proved",
   "theorems": [
    "C53_mul_commutative",
    "C53_conj_of_product",
    "C53_mul_error"
   ],
   "note": "Floating-point complex multiplication"
  },
  {
   "property": "C54",
   "status": "proved",
   "theorems": [
    "C54_abs_accurate",
    "C54_abs_overflow_refuted",
    "C54_abs_underflow_refuted",
    "C54_div_overflow_refuted",
    "C54_div_underflow_refuted",
    "C54_doubles_refuted"
   ],
   "note": "Intermediate overflow/underflow in Complex<f64>"
  },
  {
   "property": "C55",
   "status": "proved",
   "theorems": [
    "C55_nested_homomorphisms",
    "C55_functions_commute",
    "C55_more_functions_commute",
    "C55_eval_commutes_with_conj"
   ],
   "note": "Generic code commutes with ring homomorphisms"
  },
  {
   "property": "C56",
   "status": "proved",
   "theorems": [
    "C56_machine_integers_exact_while_small"
   ],
   "note": "Machine-integer results are exact while small"
  },
  {
   "property": "C57",
   "status": "proved",
   "theorems": [
    "C57_float_integers_exact_while_small",
    "C57_every_nesting",
    "C57_f64"
   ],
   "note": "Integer-valued floats compute exactly up to 2^prec"
  },
  {
   "property": "C58",
   "status": "proved",
   "theorems": [
    "C58_closed_sets",
    "C58_growth",
    "C58_weight_zero"
   ],
   "note": "How far differential evolution can leave the bounds"
  },
  {
   "property": "C59",
   "status": "proved",
   "theorems": [
    "C59_only_verdicts",
    "C59_rescaled_objective",
    "C59_same_calls"
   ],
   "note": "The result of differential evolution depends on the comparator only through its verdicts"
  },
  {
   "property": "C60",
   "status": "proved",
   "theorems": [
    "C60_requests",
    "C60_counts"
   ],
   "note": "What differential evolution asks of its random number generator"
  },
  {
   "property": "C61",
   "status": "proved",
   "theorems": [
    "C61_remainder",
    "C61_factor",
    "C61_number_of_roots",
    "C61_identity",
    "C61_degree_of_product",
    "C61_product_zero",
    "C61_wrapping_identity_refuted"
   ],
   "note": "Roots, degrees and equality of polynomials as functions"
  },
  {
   "property": "C62",
   "status": "proved",
   "theorems": [
    "C62_same_operations",
    "C62_polynomial_add_sub_ref",
    "C62_polynomial_add_value",
    "C62_polynomial_sub_value",
    "C62_mul_assign_all_or_nothing",
    "C62_complex_add_sub",
    "C62_svector",
    "C62_smatrix",
    "C62_old_or_new"
   ],
   "note": "What a compound assignment leaves behind when the element type panics"
  },
  {
   "property": "C63",
   "status": "proved",
   "theorems": [
    "C63_equality_is_pointwise",
    "C63_equality_laws",
    "C63_is_empty"
   ],
   "note": "Equality of containers is entrywise equality of the same shape"
  },
  {
   "property": "C64",
   "status": "proved",
   "theorems": [
    "C64_product_error",
    "C64_product_finite",
    "C64_sums",
    "C64_differences",
    "C64_multiplication_commutes_refuted"
   ],
   "note": "Products and sums of floating-point polynomials"
  },
  {
   "property": "C65",
   "status": "proved",
   "theorems": [
    "C65_eval",
    "C65_eval_at_infinity_refuted",
    "C65_polynomial_product",
    "C65_dot_products",
    "C65_static_products",
    "C65_dynamic_product",
    "C65_complex",
    "C65_complex_norms",
    "C65_infinity_times_one_refuted"
   ],
   "note": "A NaN never disappears from a float computation"
  },
  {
   "property": "C66",
   "status": "proved",
   "theorems": [
    "C66_identity_matrix",
    "C66_dynamic_identity_matrix",
    "C66_complex_one",
    "C66_polynomial_one",
    "C66_eval_at_zero",
    "C66_dot_symmetric",
    "C66_transpose_of_product",
    "C66_squares_nonnegative",
    "C66_conj_times_self",
    "C66_vector_sums",
    "C66_negation_involutive"
   ],
   "note": "Identities that hold exactly in floating point"
  },
  {
   "property": "C67",
   "status": "proved",
   "theorems": [
    "C67_dot_products",
    "C67_vector_sums",
    "C67_matrix_sums",
    "C67_matrix_vector",
    "C67_dot_is_a_matrix_product",
    "C67_matrix_products",
    "C67_float_matrix_products",
    "C67_bit_for_bit_refuted",
    "C67_integer_matrix_products"
   ],
   "note": "Static and dynamic containers compute the same thing"
  },
  {
   "property": "C68",
   "status": "proved",
   "theorems": [
    "C68_cauchy_schwarz",
    "C68_lengths",
    "C68_complex_cauchy_schwarz",
    "C68_complex_triangle",
    "C68_matrix_vector_bound",
    "C68_matrix_product_bound"
   ],
   "note": "Euclidean geometry of the inner products"
  },
  {
   "property": "C69",
   "status": "proved",
   "theorems": [
    "C69_ln_of_product",
    "C69_ln_parts",
    "C69_sqrt_is_half_ln",
    "C69_sqrt_of_product",
    "C69_conjugate",
    "C69_branch_cut"
   ],
   "note": "Branches of the complex logarithm and square root"
  },
  {
   "property": "C70",
   "status": "proved",
   "theorems": [
    "C70_exp_fibres",
    "C70_zeros",
    "C70_tan_domain",
    "C70_symmetries",
    "C70_equal_values",
    "C70_surjective",
    "C70_real_arguments"
   ],
   "note": "Zeros, periods and symmetries of the complex functions"
  },
  {
   "property": "C71",
   "status": "proved",
   "theorems": [
    "C71_constants",
    "C71_f32_nonnegative",
    "C71_f32_origin",
    "C71_f32_error",
    "C71_rounded_libm_in_range",
    "C71_rounded_libm_accurate",
    "C71_f32_error_on_domain"
   ],
   "note": "Ackley in f32 is non-negative and close to the formula"
  },
  {
   "property": "C72",
   "status": "proved",
   "theorems": [
    "C72_sqrt_accurate",
    "C72_sqrt_half_plane",
    "C72_sqrt_f32",
    "C72_sqrt_f64",
    "C72_negative_zero_refuted",
    "C72_sqrt_error_reached",
    "C72_sqrt_any_component",
    "C72_sqrt_normwise",
    "C72_sqrt_closed_half_plane",
    "C72_sqrt_any_f32",
    "C72_sqrt_any_f64",
    "C72_sqrt_tiny_component_refuted"
   ],
   "note": "Accuracy of the square root of Complex<f32> and Complex<f64>"
  },
  {
   "property": "C73",
   "status": "proved",
   "theorems": [
    "C73_div_normwise",
    "C73_normwise",
    "C73_error_reached",
    "C73_div_accurate",
    "C73_self_quotient",
    "C73_self_quotient_one_refuted",
    "C73_div_f32",
    "C73_div_f64"
   ],
   "note": "Accuracy of Complex<f32> and Complex<f64> division"
  },
  {
   "property": "C74",
   "status": "proved",
   "theorems": [
    "C74_exp",
    "C74_sin",
    "C74_cos",
    "C74_sinh",
    "C74_cosh",
    "C74_ln",
    "C74_tan",
    "C74_ln_relative_refuted",
    "C74_rounded_ln",
    "C74_rounded_exp"
   ],
   "note": "Accuracy of the elementary functions of Complex<f32> and Complex<f64>, given the accuracy of libm"
  },
  {
   "property": "C75",
   "status": "proved",
   "theorems": [
    "C75_vector_calls",
    "C75_matrix_calls",
    "C75_pure_closures",
    "C75_no_calls_on_mismatch",
    "C75_at_most_once",
    "C75_exactly_once",
    "C75_vector_assign",
    "C75_matrix_assign",
    "C75_lazy_transpose_refuted"
   ],
   "note": "Lazy expressions call closures once per entry, in row-major order, operands left to right"
  },
  {
   "property": "C76",
   "status": "proved",
   "theorems": [
    "C76_terminates_almost_surely",
    "C76_iteration",
    "C76_donors_uniform",
    "C76_donors_only",
    "C76_donors_undecided",
    "C76_expected_draws",
    "C76_crossover",
    "C76_crossover_probability"
   ],
   "note": "Differential evolution with ideal randomness: ends with probability 1, donors uniform, crossover as specified"
  },
  {
   "property": "C77",
   "status": "proved",
   "theorems": [
    "C77_polynomial_product",
    "C77_polynomial_product_succeeds",
    "C77_polynomial_sums",
    "C77_evaluation",
    "C77_polynomial_product_local",
    "C77_dot_product",
    "C77_matrix_product",
    "C77_matrix_vector_product",
    "C77_matrix_product_local",
    "C77_dynamic_dot_product",
    "C77_dynamic_product"
   ],
   "note": "Every entry of a result is a fixed formula, evaluated in a fixed order"
  },
  {
   "property": "C78",
   "status": "proved",
   "theorems": [
    "C78_corresponding_runs",
    "C78_change_of_variables",
    "C78_affine",
    "C78_affine_uniform",
    "C78_mirror"
   ],
   "note": "Differential evolution does not depend on the coordinates the problem is written in"
  },
  {
   "property": "C79",
   "status": "proved",
   "theorems": [
    "C79_eval_monotone",
    "C79_dot_monotone",
    "C79_dvector_dot_monotone",
    "C79_smatrix_product_monotone",
    "C79_smatrix_vector_monotone",
    "C79_dmatrix_product_monotone",
    "C79_poly_product_monotone",
    "C79_poly_sum_monotone",
    "C79_poly_difference_monotone",
    "C79_abs_monotone"
   ],
   "note": "f32/f64 computations with non-negative numbers are monotone"
  },
  {
   "property": "C80",
   "status": "proved",
   "theorems": [
    "C80_complex_products",
    "C80_complex_quotients",
    "C80_norms",
    "C80_times_i",
    "C80_dot_products",
    "C80_dot_sign_pattern",
    "C80_static_products",
    "C80_dynamic_products",
    "C80_dvector_dot",
    "C80_static_sign_patterns",
    "C80_dynamic_sign_patterns",
    "C80_evaluation",
    "C80_poly_products",
    "C80_poly_sums"
   ],
   "note": "Changing signs commutes with f32/f64 computations"
  },
  {
   "property": "C81",
   "status": "proved",
   "theorems": [
    "C81_evaluation",
    "C81_products",
    "C81_linear_algebra",
    "C81_scaling",
    "C81_abs_on_axes",
    "C81_abs_at_least_components",
    "C81_sqrt_on_real_axis",
    "C81_sqrt_on_imaginary_axis",
    "C81_functions_on_real_axis",
    "C81_exp_overflow_refuted"
   ],
   "note": "On the real axis Complex<f32>/Complex<f64> agrees with f32/f64"
  },
  {
   "property": "C82",
   "status": "proved",
   "theorems": [
    "C82_horner_backward",
    "C82_computed_root",
    "C82_svector_dot_backward",
    "C82_dvector_dot_backward",
    "C82_smatrix_vector_backward",
    "C82_smatrix_product_backward",
    "C82_dmatrix_product_backward"
   ],
   "note": "Backward stability of polynomial evaluation, dot products and matrix products"
  },
  {
   "property": "C83",
   "status": "proved",
   "theorems": [
    "C83_add_accurate",
    "C83_sub_accurate",
    "C83_mul_accurate",
    "C83_horner_accurate",
    "C83_svector_dot_accurate",
    "C83_dvector_dot_accurate",
    "C83_smatrix_product_accurate",
    "C83_smatrix_vector_accurate",
    "C83_dmatrix_product_accurate",
    "C83_mul_error_reached"
   ],
   "note": "Normwise accuracy of Complex<f32>/Complex<f64> computations"
  },
  {
   "property": "C84",
   "status": "proved",
   "theorems": [
    "C84_closed_coordinate",
    "C84_constant_coordinate_float",
    "C84_recombination",
    "C84_linear_constraints",
    "C84_never_better",
    "C84_collapsed_population"
   ],
   "note": "What a run of differential evolution cannot change"
  },
  {
   "property": "C85",
   "status": "proved",
   "theorems": [
    "C85_svector_sums",
    "C85_smatrix_sums",
    "C85_poly_sums",
    "C85_svector_dot",
    "C85_smatrix_product",
    "C85_smatrix_vector",
    "C85_dmatrix_product",
    "C85_evaluation",
    "C85_poly_product",
    "C85_complex_sums",
    "C85_complex_product",
    "C85_complex_norms",
    "C85_complex_quotient"
   ],
   "note": "Powers of two: rounding does not depend on the unit of measurement"
  },
  {
   "property": "C86",
   "status": "proved",
   "theorems": [
    "C86_composition",
    "C86_composition_with_x",
    "C86_composition_associative",
    "C86_eigenvalues",
    "C86_complex_as_matrices",
    "C86_composition_everywhere_refuted"
   ],
   "note": "Substitution: composition of polynomials, polynomials of matrices, complex numbers as matrices"
  },
  {
   "property": "C87",
   "status": "proved",
   "theorems": [
    "C87_polynomials_of_complex_numbers",
    "C87_matrices_of_complex_numbers",
    "C87_polynomials_of_matrices",
    "C87_polynomials_of_polynomials",
    "C87_matrices_of_matrices",
    "C87_inside_every_nesting",
    "C87_exchanges_compose"
   ],
   "note": "Nested number types can be written the other way round"
  },
  {
   "property": "C88",
   "status": "proved",
   "theorems": [
    "C88_entire_functions",
    "C88_tangent",
    "C88_logarithm",
    "C88_square_root",
    "C88_logarithm_branch_cut",
    "C88_square_root_branch_cut",
    "C88_polynomials",
    "C88_rules",
    "C88_derivative_is_unique",
    "C88_conjugation_is_not_holomorphic"
   ],
   "note": "Complex functions and polynomials are differentiable with the textbook derivatives"
  },
  {
   "property": "C89",
   "status": "proved",
   "theorems": [
    "C89_sqrt_squared",
    "C89_sqrt_test_passes",
    "C89_repo_test",
    "C89_repo_test_f64",
    "C89_tiny_refuted"
   ],
   "note": "Squaring a complex square root gives the argument back; the crate's randomized sqrt test cannot fail"
  },
  {
   "property": "C90",
   "status": "proved",
   "theorems": [
    "C90_consistent_verdicts",
    "C90_objective_without_nan",
    "C90_doc_call_returns",
    "C90_doc_call_never_worse",
    "C90_doc_assertions_refuted"
   ],
   "note": "The documented optimizer call: it always returns, nothing it computed is below its result, but its assertions are not guaranteed"
  },
  {
   "property": "C91",
   "status": "proved",
   "theorems": [
    "C91_error_bars",
    "C91_ring_identities",
    "C91_commutative_identities",
    "C91_operations",
    "C91_scalar_laws",
    "C91_matrix_associative",
    "C91_matrix_distributive"
   ],
   "note": "Error bars: float results stay within bars computed by the same code, and the ring laws hold up to rounding"
  },
  {
   "property": "C92",
   "status": "proved",
   "theorems": [
    "C92_nested_expressions",
    "C92_expressions",
    "C92_eval",
    "C92_static_products",
    "C92_dynamic_products",
    "C92_complex",
    "C92_complex_norms",
    "C92_complex_sqrt",
    "C92_finite_by_infinite_refuted"
   ],
   "note": "Infinities and NaN never disappear: finite results come only from finite inputs"
  },
  {
   "property": "C93",
   "status": "proved",
   "theorems": [
    "C93_sinh_test_passes",
    "C93_sin_test_passes",
    "C93_cos_test_passes",
    "C93_cosh_test_passes",
    "C93_repo_sin",
    "C93_repo_sinh",
    "C93_repo_cos",
    "C93_repo_cosh",
    "C93_repo_tests"
   ],
   "note": "sin, cos, sinh and cosh agree with their exponential formulas up to rounding: the crate's own tests pass at every argument"
  },
  {
   "property": "C94",
   "status": "proved",
   "theorems": [
    "C94_ln_test_passes",
    "C94_repo_test",
    "C94_angle_unchecked_refuted",
    "C94_zero_sample_refuted"
   ],
   "note": "ln(ab) = ln a + ln b for Complex<f32>, up to rounding and multiples of 2 pi i"
  },
  {
   "property": "C95",
   "status": "proved",
   "theorems": [
    "C95_divide_then_multiply",
    "C95_multiply_then_divide",
    "C95_reciprocal_twice",
    "C95_abs_of_product",
    "C95_abs_of_quotient",
    "C95_f32_undo",
    "C95_f64_undo"
   ],
   "note": "Multiplying and dividing complex floats undo each other up to a few roundings"
  },
  {
   "property": "C96",
   "status": "proved",
   "theorems": [
    "C96_exp_of_ln",
    "C96_ln_of_exp",
    "C96_exp_of_sum",
    "C96_f32",
    "C96_f64"
   ],
   "note": "exp and ln of complex floats are inverse to each other, and exp turns sums into products, up to rounding"
  },
  {
   "property": "C97",
   "status": "proved",
   "theorems": [
    "C97_horner_backward",
    "C97_computed_root",
    "C97_svector_dot_backward",
    "C97_dvector_dot_backward",
    "C97_smatrix_vector_backward",
    "C97_smatrix_product_backward",
    "C97_dmatrix_product_backward"
   ],
   "note": "Backward stability of Complex<f32>/Complex<f64> computations"
  },
  {
   "property": "C98",
   "status": "proved",
   "theorems": [
    "C98_add",
    "C98_sub",
    "C98_mul",
    "C98_horner",
    "C98_svector_dot",
    "C98_dvector_dot",
    "C98_smatrix_product",
    "C98_smatrix_vector",
    "C98_dmatrix_product",
    "C98_real_dvector_dot",
    "C98_real_smatrix_product",
    "C98_real_smatrix_vector",
    "C98_real_dmatrix_product",
    "C98_rule_of_thumb",
    "C98_rule_of_thumb_real",
    "C98_f64_matrix",
    "C98_f32_matrix"
   ],
   "note": "Sums and products of (complex) floats do not overflow before their exact bounds do"
  },
  {
   "property": "C99",
   "status": "proved",
   "theorems": [
    "C99_dot_conjugate_symmetric",
    "C99_dot_self",
    "C99_hermitian_of_product",
    "C99_gram_hermitian",
    "C99_cogram_hermitian",
    "C99_real_gram_symmetric"
   ],
   "note": "Complex float inner products are conjugate symmetric and Gram matrices exactly Hermitian"
  },
  {
   "property": "C100",
   "status": "proved",
   "theorems": [
    "C100_sign",
    "C100_no_false_alarm",
    "C100_root",
    "C100_all_roots",
    "C100_dot_sign"
   ],
   "note": "Computed values that are large compared to their rounding error prove signs and locate roots"
  },
  {
   "property": "C101",
   "status": "proved",
   "theorems": [
    "C101_complex_triangle",
    "C101_complex_parallelogram",
    "C101_dvector_length",
    "C101_cauchy_schwarz",
    "C101_distance",
    "C101_triangle",
    "C101_complex_distance"
   ],
   "note": "Computed lengths and distances are accurate and obey Cauchy-Schwarz and the triangle inequality up to rounding"
  },
  {
   "property": "C102",
   "status": "proved",
   "theorems": [
    "C102_float_reach",
    "C102_level_set",
    "C102_doc_call",
    "C102_stays_finite_refuted"
   ],
   "note": "Where a differential evolution run can go in f32/f64; the documented call stays in a small box and computes no NaN"
  },
  {
   "property": "C103",
   "status": "proved",
   "theorems": [
    "C103_tangent_accuracy",
    "C103_addition_test",
    "C103_zero_denominator_refuted"
   ],
   "note": "The complex tangent of f32 numbers and the addition theorem its randomized test checks"
  },
  {
   "property": "C104",
   "status": "proved",
   "theorems": [
    "C104_conjugation",
    "C104_parity",
    "C104_rotation",
    "C104_logarithm",
    "C104_square_root",
    "C104_sqrt_conjugation_refuted",
    "C104_sqrt_against_ln_refuted"
   ],
   "note": "Reflection symmetries of the complex elementary functions hold bit for bit in floats; the square root ignores the sign of a zero imaginary part"
  },
  {
   "property": "C105",
   "status": "proved",
   "theorems": [
    "C105_modulus_of_exp",
    "C105_exp_times_exp_minus",
    "C105_polar_form",
    "C105_sqrt_is_exp_of_half_ln",
    "C105_sin2_plus_cos2",
    "C105_cosh2_minus_sinh2",
    "C105_f32"
   ],
   "note": "Identities between the complex elementary functions of floats: |e^z| = e^Re z, polar form, e^z e^-z = 1, sqrt z = e^(ln(z)/2), sin^2 + cos^2 = 1, cosh^2 - sinh^2 = 1, up to rounding"
  },
  {
   "property": "C106",
   "status": "proved",
   "theorems": [
    "C106_sin_cos_of_sum",
    "C106_sinh_cosh_of_sum",
    "C106_f32"
   ],
   "note": "The addition theorems of sin, cos, sinh and cosh hold for complex floats up to rounding"
  },
  {
   "property": "C107",
   "status": "proved",
   "theorems": [
    "C107_eval_condition",
    "C107_dot_condition",
    "C107_dynamic_dot_condition",
    "C107_eval_relative",
    "C107_dot_relative",
    "C107_dynamic_dot_relative",
    "C107_matrix_product_relative",
    "C107_matrix_vector_relative",
    "C107_dynamic_product_relative",
    "C107_eval_growth",
    "C107_dot_growth",
    "C107_dynamic_dot_growth",
    "C107_sign_refuted"
   ],
   "note": "Without cancellation float results have a small relative error, which does grow with the number of terms; with cancellation not even the sign is right"
  },
  {
   "property": "C108",
   "status": "proved",
   "theorems": [
    "C108_exact_tangent",
    "C108_far_nan_refuted",
    "C108_tangent_accurate",
    "C108_f32",
    "C108_f64",
    "C108_far_nan_f32_f64_refuted",
    "C108_tangent_near_zeros",
    "C108_f32_strip",
    "C108_f64_strip"
   ],
   "note": "The complex tangent is accurate in a wide strip around the real axis and NaN far from it, where the exact tangent is i or -i"
  },
  {
   "property": "C109",
   "status": "proved",
   "theorems": [
    "C109_sqrt_infinite_refuted",
    "C109_sqrt_nan_refuted",
    "C109_sqrt_wrong_refuted",
    "C109_ln_infinite_refuted",
    "C109_sqrt_f32_f64_refuted"
   ],
   "note": "Square roots and logarithms of complex floats that are large or small: infinite, NaN or wrong by a factor of sqrt 2 although the exact results are moderate"
  },
  {
   "property": "C110",
   "status": "proved",
   "theorems": [
    "C110_finite_iff",
    "C110_spurious_overflow_refuted",
    "C110_f32_f64_refuted"
   ],
   "note": "Complex exp, sin, cos, sinh, cosh are finite exactly where the real functions they call are, and overflow in both components although the exact result is representable"
  },
  {
   "property": "C111",
   "status": "proved",
   "theorems": [
    "C111_square_of_root",
    "C111_root_of_square",
    "C111_root_of_product",
    "C111_root_of_quotient",
    "C111_abs_of_root",
    "C111_f32",
    "C111_f64",
    "C111_sign_needed_refuted"
   ],
   "note": "The laws of square roots hold for complex floats up to rounding and, where the principal branch demands it, up to sign"
  },
  {
   "property": "C112",
   "status": "proved",
   "theorems": [
    "C112_ln_of_product",
    "C112_ln_of_quotient",
    "C112_ln_of_root",
    "C112_negative_axis_refuted",
    "C112_arg_laws",
    "C112_f32",
    "C112_f64"
   ],
   "note": "The laws of logarithms hold for complex floats up to rounding and full turns"
  }
 ]
}