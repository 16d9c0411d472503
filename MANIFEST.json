{
 "claims": [
  {
   "property": "C01",
   "status": "proved",
   "theorems": [
    "C01_vpa_value",
    "C01_vpa_value_conv",
    "C01_vpa_exact"
   ],
   "note": "every arithmetic; exact reals give the mathematical value"
  },
  {
   "property": "C02",
   "status": "proved",
   "theorems": [
    "C02_vpa_errors",
    "C02_vpa_result_valid",
    "C02_vpa_literal_unchecked",
    "C02_vpa_variable",
    "C02_vpa_total"
   ],
   "note": ""
  },
  {
   "property": "C03",
   "status": "proved",
   "theorems": [
    "C03_vpa_nothrow"
   ],
   "note": ""
  },
  {
   "property": "C04",
   "status": "proved",
   "theorems": [
    "C04_calc",
    "C04_calc_idempotent"
   ],
   "note": ""
  },
  {
   "property": "C05",
   "status": "proved",
   "theorems": [
    "C05_equal_structural",
    "C05_equal_refl",
    "C05_equal_sym",
    "C05_equal_trans",
    "C05_equal_b64",
    "C05_equal_b64_sym",
    "C05_equal_b64_trans",
    "C05_nan_clone_not_equal"
   ],
   "note": ""
  },
  {
   "property": "C06",
   "status": "proved",
   "theorems": [
    "C06_clone_fresh",
    "C06_clone_independent"
   ],
   "note": "on the heap model, every allocator, every later program"
  },
  {
   "property": "C07",
   "status": "proved",
   "theorems": [
    "C07_all_var_names"
   ],
   "note": ""
  },
  {
   "property": "C08",
   "status": "proved",
   "theorems": [
    "C08_binary",
    "C08_unary",
    "C08_compound",
    "C08_prvalues",
    "C08_compound_self",
    "C08_moved_and_used",
    "C08_empty_operand",
    "C08_lvalue_and_Move",
    "C08_value_unary",
    "C08_value_binary",
    "C08_value_empty",
    "C08_op"
   ],
   "note": "on the heap model, after every history"
  },
  {
   "property": "C09",
   "status": "proved",
   "theorems": [
    "C09_var_names",
    "C09_as_written"
   ],
   "note": "C09_as_written: the regular expression of VarNameIsLegal matched literally (RegexModel.v)"
  },
  {
   "property": "C10",
   "status": "proved",
   "theorems": [
    "C10_parse_complete",
    "C10_grammar_unambiguous",
    "C10_tokens_unique"
   ],
   "note": ""
  },
  {
   "property": "C11",
   "status": "proved",
   "theorems": [
    "C11_parse_sound"
   ],
   "note": ""
  },
  {
   "property": "C12",
   "status": "proved",
   "theorems": [
    "C12_white_space"
   ],
   "note": "texts must be non-empty: the empty text throws while white space alone is undefined behaviour"
  },
  {
   "property": "C13",
   "status": "proved",
   "theorems": [
    "C13_parse_outcome",
    "C13_parse_undefined",
    "C13_bad_word",
    "C13_unopened",
    "C13_unclosed"
   ],
   "note": ""
  },
  {
   "property": "C14",
   "status": "proved",
   "theorems": [
    "C14_roundtrip",
    "C14_identity",
    "C14_any_literals",
    "C14_value",
    "C14_inverse_functions",
    "C14_exponents",
    "C14_sixteen_decimals",
    "C14_float_value"
   ],
   "note": "the last four are computed counterexamples showing that each restriction is needed"
  },
  {
   "property": "C15",
   "status": "proved",
   "theorems": [
    "C15_to_string",
    "C15_recursive",
    "C15_recursive_loses_parentheses"
   ],
   "note": ""
  },
  {
   "property": "C16",
   "status": "proved",
   "theorems": [
    "C16_text",
    "C16_read",
    "C16_exact",
    "C16_as_written"
   ],
   "note": "C16_as_written: the code as written (printf formats, 64-character buffer, regular expressions; RegexModel.v) gives the text the other theorems are about"
  },
  {
   "property": "C17",
   "status": "proved",
   "theorems": [
    "C17_simplify_value",
    "C17_zero_power_wrong",
    "C17_domain_extended"
   ],
   "note": "over exact reals; the excluded case 0^0 is shown to be really wrong"
  },
  {
   "property": "C18",
   "status": "proved",
   "theorems": [
    "C18_simplify_normal"
   ],
   "note": ""
  },
  {
   "property": "C19",
   "status": "proved",
   "theorems": [
    "C19_simplify_refines",
    "C19_simplify_terminates_iff",
    "C19_simplify_lenient"
   ],
   "note": ""
  },
  {
   "property": "C20",
   "status": "proved",
   "theorems": [
    "C20_diff",
    "C20_partial_unique",
    "C20_exp_of_other_variable",
    "C20_exp_of_other_variable_wrong"
   ],
   "note": "over exact reals with the derivative of Coquelicot; the excluded case exp(y) is shown to be really wrong"
  },
  {
   "property": "C21",
   "status": "proved",
   "theorems": [
    "C21_diff_n",
    "C21_diff_n_outcome",
    "C21_diff_n_returns"
   ],
   "note": "over exact reals, Coquelicot is_derive_n; a terminating case is shown by example; exp of a bare other variable excluded as in C20"
  },
  {
   "property": "C22",
   "status": "proved",
   "theorems": [
    "C22_diff_throws_iff",
    "C22_diff_outcome",
    "C22_diff_order",
    "C22_diff_zero_power_terminates"
   ],
   "note": ""
  },
  {
   "property": "C23",
   "status": "proved",
   "theorems": [
    "C23_absent_variable",
    "C23_laws_R",
    "C23_laws_b64"
   ],
   "note": ""
  },
  {
   "property": "C24",
   "status": "proved",
   "theorems": [
    "C24_subs_dict",
    "C24_subs_single",
    "C24_subs_vec",
    "C24_subs_vec_mismatch",
    "C24_subs_values",
    "C24_subs_value",
    "C24_subs_no_value",
    "C24_subs_absent"
   ],
   "note": ""
  },
  {
   "property": "C25",
   "status": "proved",
   "theorems": [
    "C25_subs_vars",
    "C25_subs_numbers",
    "C25_subs_vpa"
   ],
   "note": ""
  },
  {
   "property": "C26",
   "status": "proved",
   "theorems": [
    "C26_det",
    "C26_det_leading",
    "C26_det_zero"
   ],
   "note": ""
  },
  {
   "property": "C27",
   "status": "proved",
   "theorems": [
    "C27_inverse",
    "C27_adjoint"
   ],
   "note": "exact reals"
  },
  {
   "property": "C28",
   "status": "proved",
   "theorems": [
    "C28_add",
    "C28_sub",
    "C28_neg",
    "C28_scale",
    "C28_mul",
    "C28_transpose",
    "C28_shape",
    "C28_shape_mul",
    "C28_identity",
    "C28_real_add",
    "C28_real_sub",
    "C28_real_neg",
    "C28_real_scale",
    "C28_real_mul",
    "C28_real_transpose",
    "C28_mul_assoc",
    "C28_mul_add",
    "C28_mul_transpose",
    "C28_each_divide_wrong",
    "C28_init",
    "C28_mx_is_exists"
   ],
   "note": "entry formulas hold for every arithmetic; the algebraic laws for exact reals; EachDivide is shown to ignore its first operand"
  },
  {
   "property": "C29",
   "status": "proved",
   "theorems": [
    "C29_swap_row",
    "C29_swap_col",
    "C29_swap_range",
    "C29_swap_twice",
    "C29_resize"
   ],
   "note": ""
  },
  {
   "property": "C30",
   "status": "proved",
   "theorems": [
    "C30_eq",
    "C30_eq_num",
    "C30_is_zero",
    "C30_all_less",
    "C30_max_abs_row"
   ],
   "note": "exact reals"
  },
  {
   "property": "C31",
   "status": "proved",
   "theorems": [
    "C31_minors",
    "C31_positive_definite",
    "C31_not_symmetric",
    "C31_not_square"
   ],
   "note": "exact reals"
  },
  {
   "property": "C32",
   "status": "proved",
   "theorems": [
    "C32_solve_linear",
    "C32_solve_wide",
    "C32_residual",
    "C32_exact"
   ],
   "note": "exact reals; backward-error form: the answer is exact for some matrix within epsilon, entry by entry"
  },
  {
   "property": "C33",
   "status": "proved",
   "theorems": [
    "C33_over_determined",
    "C33_size_mismatch",
    "C33_indeterminate",
    "C33_singular",
    "C33_infinity",
    "C33_outcome",
    "C33_undetected_square",
    "C33_undetected_wide"
   ],
   "note": "the two undetected cases are computed in binary64"
  },
  {
   "property": "C34",
   "status": "proved",
   "theorems": [
    "C34_of_mat",
    "C34_to_mat",
    "C34_to_mat_error",
    "C34_clone",
    "C34_to_symvec",
    "C34_sub",
    "C34_sub_mismatch",
    "C34_mul",
    "C34_mul_mismatch",
    "C34_mul_value",
    "C34_subs",
    "C34_subs_table",
    "C34_calc",
    "C34_calc_error",
    "C34_all_var_names",
    "C34_equal",
    "C34_value_at",
    "C34_init",
    "C34_init_rect",
    "C34_vec_of",
    "C34_to_vec",
    "C34_to_vec_error",
    "C34_vec_sub",
    "C34_make"
   ],
   "note": ""
  },
  {
   "property": "C35",
   "status": "proved",
   "theorems": [
    "C35_jacobian",
    "C35_jacobian_value",
    "C35_jacobian_terminates"
   ],
   "note": "the value theorem is for exact reals"
  },
  {
   "property": "C36",
   "status": "proved",
   "theorems": [
    "C36_make",
    "C36_make_bad",
    "C36_of_map",
    "C36_init",
    "C36_set_values",
    "C36_set_values_bad",
    "C36_history",
    "C36_to_string",
    "C36_empty"
   ],
   "note": ""
  },
  {
   "property": "C37",
   "status": "proved",
   "theorems": [
    "C37_lookup",
    "C37_equal"
   ],
   "note": ""
  },
  {
   "property": "C38",
   "status": "proved",
   "theorems": [
    "C38_newton_root",
    "C38_solve_root",
    "C38_solve1_root",
    "C38_real_root"
   ],
   "note": "for every arithmetic; C38_real_root reads it over exact reals"
  },
  {
   "property": "C39",
   "status": "proved",
   "theorems": [
    "C39_newton_ends",
    "C39_newton_result",
    "C39_newton_limit"
   ],
   "note": ""
  },
  {
   "property": "C40",
   "status": "proved",
   "theorems": [
    "C40_variables_kept",
    "C40_solve_all_variables"
   ],
   "note": ""
  },
  {
   "property": "C41",
   "status": "proved",
   "theorems": [
    "C41_lm_root",
    "C41_lm_descends"
   ],
   "note": ""
  },
  {
   "property": "C42",
   "status": "proved",
   "theorems": [
    "C42_lm_ends",
    "C42_lm_hangs_on_nan",
    "C42_lm_hangs_on_overflow"
   ],
   "note": "the two hanging runs show that the condition on the line search is needed"
  },
  {
   "property": "C43",
   "status": "proved",
   "theorems": [
    "C43_newton_affine",
    "C43_newton_affine_defaults",
    "C43_conditioned_by_inverse",
    "C43_linear_expr_affine"
   ],
   "note": "exact reals; conditioning is stated with the norm of the inverse"
  },
  {
   "property": "C44",
   "status": "proved",
   "theorems": [
    "C44_every_history",
    "C44_terminates",
    "C44_until_undefined",
    "C44_all_freed",
    "C44_ends"
   ],
   "note": "programs over Node variables built from the API of node.h, functions.h, parse.h, diff.h, subs.h, simplify.h; SymMat variables are in C60"
  },
  {
   "property": "C45",
   "status": "proved",
   "theorems": [
    "C45_line_search_ends",
    "C45_lm_terminates"
   ],
   "note": "binary64"
  },
  {
   "property": "C46",
   "status": "proved",
   "theorems": [
    "C46_solve_linear_ends"
   ],
   "note": ""
  },
  {
   "property": "C47",
   "status": "proved",
   "theorems": [
    "C47_norm2",
    "C47_norm2_real",
    "C47_norm2_zero",
    "C47_norm_infinity",
    "C47_norm_neg_infinity",
    "C47_min",
    "C47_norm_infinity_triangle",
    "C47_norm_infinity_zero",
    "C47_dot",
    "C47_cauchy_schwarz",
    "C47_norm_infinity_64",
    "C47_norm_neg_infinity_64",
    "C47_min_64"
   ],
   "note": ""
  },
  {
   "property": "C48",
   "status": "proved",
   "theorems": [
    "C48_find_alpha_is_one",
    "C48_find_alpha_ends",
    "C48_find_alpha_rounds",
    "C48_each_divide",
    "self_division_R",
    "self_division_64",
    "C48_ex_one",
    "C48_ex_nan"
   ],
   "note": "self_division is shown for both arithmetics"
  },
  {
   "property": "C49",
   "status": "proved",
   "theorems": [
    "C49_lm_result",
    "C49_lm_limit",
    "C49_lm_not_square",
    "C49_lm_more_fuel",
    "C49_lm_endless"
   ],
   "note": "the iff statements quantify existentially over the model's fuel (loop bounds); C49_lm_more_fuel: more fuel never changes a result; C49_lm_endless: a sufficient condition for never returning, met in C65_order_matters"
  },
  {
   "property": "C50",
   "status": "proved",
   "theorems": [
    "C50_newton_converges",
    "C50_newton_from_zero",
    "C50_quadratic",
    "C50_step_unique",
    "C50_ex"
   ],
   "note": "exact reals; the solver's epsilon-pivoting is accounted for by the terms n*epsilon; C50_ex runs the hypotheses on a nonlinear 2x2 system"
  },
  {
   "property": "C51",
   "status": "proved",
   "theorems": [
    "C51_mat",
    "C51_symmat",
    "C51_table",
    "C51_grid_unique",
    "C51_number_text",
    "C51_expr_text",
    "C51_mat_unique",
    "C51_symmat_unique",
    "C51_mat_determined",
    "C51_table_unique"
   ],
   "note": "layout for any number system; uniqueness for binary64"
  },
  {
   "property": "C52",
   "status": "proved",
   "theorems": [
    "C52_make",
    "C52_make_empty",
    "C52_vec_make",
    "C52_vec_of",
    "C52_vec_of_empty",
    "C52_init_empty",
    "C52_set_value",
    "C52_row",
    "C52_col",
    "C52_set_row",
    "C52_set_col",
    "C52_out_of_range",
    "C52_vec_get",
    "C52_vec_set",
    "C52_fill",
    "C52_ones_not_square",
    "C52_resize_empty",
    "C52_vec_resize",
    "C52_vec_resize_empty",
    "C52_to_vec",
    "C52_to_vec_error",
    "C52_vec_arith",
    "C52_vec_scale",
    "C52_mat_scale_l",
    "C52_vec_less",
    "C52_vec_mismatch",
    "C52_mat_mismatch",
    "C52_inverse_not_square",
    "C52_all_less"
   ],
   "note": "for every number system (K)"
  },
  {
   "property": "C53",
   "status": "proved",
   "theorems": [
    "C53_hash",
    "C53_hash_ascii",
    "C53_one_letter",
    "C53_short_words",
    "C53_number_names",
    "C53_number_word",
    "C53_function_word",
    "C53_variable_iff",
    "C53_short_variable",
    "C53_collision"
   ],
   "note": "the short words are covered by a meet-in-the-middle computation over all 63^5 words, run by the kernel's VM and proved sound; C53_collision shows that the bound on the length is needed"
  },
  {
   "property": "C54",
   "status": "proved",
   "theorems": [
    "C54_parse_error",
    "C54_mark",
    "C54_title_one_line",
    "C54_mark_of_word",
    "C54_math_error_text",
    "C54_vpa_error"
   ],
   "note": "reports about several places: the order is fixed only by an example"
  },
  {
   "property": "C55",
   "status": "proved",
   "theorems": [
    "C55_text",
    "C55_read",
    "C55_injective",
    "C55_special"
   ],
   "note": "NaN is modelled with the text \"nan\" (its sign is not modelled)"
  },
  {
   "property": "C56",
   "status": "proved",
   "theorems": [
    "C56_simplify_doubles",
    "C56_constants",
    "C56_sign_of_zero",
    "C56_zero_to_zero",
    "correct_libm_ieee"
   ],
   "note": "binary64; hypotheses on libm are met by a correctly rounded one; the sign of zero and 0^0 are shown to be real exceptions"
  },
  {
   "property": "C57",
   "status": "proved",
   "theorems": [
    "C57_vpa",
    "C57_det",
    "C57_mul",
    "C57_inverse",
    "C57_minors",
    "C57_positive_definite",
    "C57_init",
    "C57_sharp"
   ],
   "note": "binary64 with any libm; determinants and inverses are those of mathcomp"
  },
  {
   "property": "C58",
   "status": "proved",
   "theorems": [
    "C58_linear_same",
    "C58_newton_same",
    "C58_lm_same",
    "C58_solve_same",
    "C58_quiet",
    "C58_default",
    "C58_newton_text",
    "C58_lm_text",
    "C58_find_alpha_same",
    "C58_find_alpha_silent",
    "C58_stream_node",
    "C58_stream_mat",
    "C58_stream_symmat",
    "C58_stream_table",
    "C58_ex",
    "C58_ex_trace"
   ],
   "note": "Model LogModel.v repeats the solvers with their output. How the stream writes a double by itself (only in LM at TRACE) is an arbitrary function. The texts of LM at TRACE/ALL are modelled and shown not to influence the result; their layout is not specified further. Finding: the header of LM claims Newton Raphson."
  },
  {
   "property": "C59",
   "status": "proved",
   "theorems": [
    "C59_standard_model",
    "C59_accuracy",
    "C59_neg",
    "C59_add",
    "C59_sub",
    "C59_times",
    "C59_div",
    "C59_sqrt",
    "C59_sin",
    "C59_cos",
    "C59_exp",
    "C59_log",
    "C59_dot",
    "C59_norm2",
    "C59_mul",
    "C59_det",
    "C59_det_bounded",
    "C59_root",
    "C59_libm_exists",
    "C59_ex",
    "C59_det_ex",
    "C59_inverse",
    "C59_inverse_ex",
    "C59_atan",
    "C59_tan",
    "C59_asin",
    "C59_acos",
    "C59_log2",
    "C59_log10",
    "C59_pow",
    "C59_pow_nat",
    "C59_int",
    "C59_fun_ex"
   ],
   "note": "Model and libm as in C01 over binary64 (Flocq). The rules C59_neg ... C59_log and C59_atan ... C59_int derive the error analysis of every operator (pow: positive base, or exact natural exponent; & | %: exact operands). C59_libm_exists shows that a C library meeting the assumption exists (correctly rounded functions). C59_ex: sin(x*x) at 3/2 is within 4e-16; C59_inverse_ex: every 3x3 matrix with entries in [-10,10] and |det| >= 1 is inverted to within 2e-9; C59_det_ex: determinants of 3x3 matrices with entries up to 10 are within 5e-12."
  },
  {
   "property": "C60",
   "status": "proved",
   "theorems": [
    "C60_every_history",
    "C60_terminates",
    "C60_until_undefined",
    "C60_all_freed",
    "C60_matrices_independent",
    "tale_seen",
    "tale_heap",
    "tale_apart"
   ],
   "note": "SymMat and SymVec objects on the heap of C44; initializer lists are evaluated left to right into an array whose elements are then moved out (the const_cast of symmat.cpp:34 is taken to work). Assertions are assumed to be on (debug build); a failing assertion has no meaning. References are bound within one statement."
  },
  {
   "property": "C61",
   "status": "proved",
   "theorems": [
    "C61_far_from_singular",
    "C61_residual",
    "C61_solves",
    "C61_error",
    "C61_failure",
    "C61_example"
   ],
   "note": "Model: LinearModel over binary64 (Flocq). far_from_singular is stated as |A z|_max > d |z|_1 for z <> 0; C61_far_from_singular shows that this says exactly that no matrix within d is singular. The growth of entries under partial pivoting enters as 2^n. C61_example: 2x+y=3, x+3y=5 with the default configuration is solved within 1e-6 of (4/5, 7/5)."
  },
  {
   "property": "C62",
   "status": "proved",
   "theorems": [
    "C62_completes",
    "C62_threads",
    "C62_until_then",
    "C62_any_schedule"
   ],
   "note": "a call is one step of the schedule; calls of different threads touch disjoint objects or only read (C44: nothing is shared), and data races are excluded by hypothesis (race_free). The dependence on Config is shown by the example config_is_shared"
  },
  {
   "property": "C63",
   "status": "proved",
   "theorems": [
    "C63_rules",
    "C63_diff_doubles",
    "C63_accuracy",
    "C63_jacobian",
    "C63_ex"
   ],
   "note": "first derivatives. The rules are written in DerivSpec.v (deriv) and proved to be the mathematical derivative (C63_rules). With throwOnInvalidValue on and no 0^0 in the derivative (see C56)"
  },
  {
   "property": "C64",
   "status": "proved",
   "theorems": [
    "C64_newton_converges",
    "C64_newton_from_zero",
    "C64_ex"
   ],
   "note": "combines C59 (evaluation), C63 (derivatives) and C61 (linear solver). C64_ex: x*x + 4*x - 1 = 0 from 0 with the default settings gives sqrt 5 - 2 up to 10^-8"
  },
  {
   "property": "C65",
   "status": "proved",
   "theorems": [
    "C65_lm_converges",
    "C65_ex",
    "C65_order_matters"
   ],
   "note": "C65_ex: 200 x + sin x + y = 0, x + 200 y = 0 from (1,1) with the default settings; C65_order_matters: the two orders of the same equations"
  },
  {
   "property": "C66",
   "status": "proved",
   "theorems": [
    "C66_simplify",
    "C66_diff",
    "C66_diff_names",
    "C66_diff_evaluates",
    "C66_jacobian",
    "C66_ex"
   ],
   "note": "C66_ex: d/dx of x*sin(y) in doubles has the variable y only. Subs: see C25_subs_vars."
  },
  {
   "property": "C67",
   "status": "proved",
   "theorems": [
    "C67_vpa",
    "C67_vpa_order",
    "C67_vpa_order_ex",
    "C67_clone",
    "C67_operator"
   ],
   "note": "compare C01/C02 for Vpa, C06_clone_fresh for Clone"
  },
  {
   "property": "C68",
   "status": "proved",
   "theorems": [
    "C68_parse_size",
    "C68_subs_size",
    "C68_subs1_size",
    "C68_simplify_size",
    "C68_diff_size",
    "C68_diff_n_size",
    "C68_ex"
   ],
   "note": "size = number of nodes"
  },
  {
   "property": "C69",
   "status": "proved",
   "theorems": [
    "C69_mixed",
    "C69_simplified",
    "C69_ex",
    "C69_exp_breaks"
   ],
   "note": "exact real values; the exp(bare variable) defect of Diff (see C20) is excluded and shown to break the claim"
  },
  {
   "property": "C70",
   "status": "proved",
   "theorems": [
    "C70_exact",
    "C70_doubles",
    "C70_from_text",
    "C70_ex"
   ],
   "note": "root by a Newton-Kantorovich iteration in the proof; conditioned, system, accuracy as in C43, C50, C59"
  },
  {
   "property": "C71",
   "status": "proved",
   "theorems": [
    "C71_settles",
    "C71_too_small",
    "C71_negative_literal",
    "C71_ex_storable",
    "C71_ex_text"
   ],
   "note": "binary64; C71_too_small shows the lower bound cannot be relaxed; C71_negative_literal shows why the text clause excludes negative literals"
  },
  {
   "property": "C72",
   "status": "proved",
   "theorems": [
    "C72_vpa",
    "C72_simplify",
    "C72_diff",
    "C72_jacobian",
    "C72_linear",
    "C72_solve",
    "C72_solve1",
    "C72_ex",
    "C72_negative_limit",
    "C72_tolerance"
   ],
   "note": "for every arithmetic (doubles with any C library, exact reals); C72_negative_limit and C72_tolerance show that the conditions on the limit and the tolerance are needed"
  },
  {
   "property": "C73",
   "status": "proved",
   "theorems": [
    "C73_vpa",
    "C73_simplify",
    "C73_diff",
    "C73_subs",
    "C73_subs1",
    "C73_equal",
    "C73_jacobian",
    "C73_solve",
    "C73_names",
    "C73_all_names",
    "C73_solve1",
    "C73_ex",
    "C73_order_matters"
   ],
   "note": "the expressions are trees: parsing (where names such as sin are reserved) is not part of this property, see C10, C11"
  },
  {
   "property": "C74",
   "status": "proved",
   "theorems": [
    "C74_newton",
    "C74_newton_limit",
    "C74_lm",
    "C74_lm_limit",
    "C74_solve",
    "C74_solve_limit",
    "C74_solve1",
    "C74_ex",
    "C74_ex_solved"
   ],
   "note": "exact reals (Rops); in doubles the two ways of writing round differently. throwOnInvalidValue is on, as by default"
  },
  {
   "property": "C75",
   "status": "proved",
   "theorems": [
    "C75_read_word",
    "C75_round",
    "C75_every_input",
    "C75_end_of_input",
    "C75_conversation",
    "C75_derivative",
    "C75_ex_session",
    "C75_ex_spaces",
    "C75_ex_usage",
    "C75_ex_derivative"
   ],
   "note": "the state bits of cin are not modelled: after the end of the input every read gives the empty word. In a build with NDEBUG a constant expression does not end the program"
  },
  {
   "property": "C76",
   "status": "proved",
   "theorems": [
    "C76_check",
    "C76_again",
    "C76_solve1",
    "C76_ex_program"
   ],
   "note": "C76_ex_program runs examples/set_initial_values: from (5,-5) the library finds (-4,3) and not the nearby (4,-3), because the start is forgotten after the first step (see C38, C39)"
  },
  {
   "property": "C77",
   "status": "proved",
   "theorems": [
    "C77_subs_subs",
    "C77_subs_commute",
    "C77_rename_back",
    "C77_subs_again",
    "C77_chain_rule",
    "C77_diff_of_subs",
    "C77_chain_rule_1",
    "C77_ex_order",
    "C77_ex_chain"
   ],
   "note": "exact real values; where Diff is wrong (exp of a bare other variable, C20) the expression does not meet the hypothesis smooth"
  },
  {
   "property": "C78",
   "status": "proved",
   "theorems": [
    "C78_replace",
    "C78_subs",
    "C78_parens",
    "C78_binary",
    "C78_sign",
    "C78_function",
    "C78_ex_context",
    "C78_ex_read",
    "C78_ex_needed"
   ],
   "note": "the context must be well-formed (C78_ex_needed: in the accepted but ill-formed \"- x y +\" parentheses change the meaning); the replacements need not be"
  },
  {
   "property": "C79",
   "status": "proved",
   "theorems": [
    "C79_number_words",
    "C79_bound",
    "C79_normal",
    "C79_one_value",
    "C79_parse_number",
    "C79_parse_invalid",
    "C79_numeral_word",
    "C79_read",
    "C79_unread",
    "C79_ex_dec",
    "C79_ex_hex",
    "C79_ex_read",
    "C79_ex_large",
    "C79_ex_small",
    "C79_ex_inf"
   ],
   "note": "std::stod as in glibc (throws on ERANGE); just below 2^-1022 (by less than 2^-1075) the C library may or may not report ERANGE, the model reads the word; rejected numerals whose hash collides with a function name are excluded by hypothesis"
  },
  {
   "property": "C80",
   "status": "proved",
   "theorems": [
    "C80_det_mul",
    "C80_det_transpose",
    "C80_det_scale",
    "C80_det_neg",
    "C80_det_swap",
    "C80_inverse_iff",
    "C80_det_inverse",
    "C80_inverse_inverse",
    "C80_inverse_mul",
    "C80_inverse_transpose",
    "C80_solve_inverse",
    "C80_solve_inverse_exact",
    "C80_ex"
   ],
   "note": "exact real arithmetic; C80_solve_inverse assumes that A stays regular under perturbations below epsilon, as C32_residual does"
  },
  {
   "property": "C81",
   "status": "proved",
   "theorems": [
    "C81_finds_root",
    "C81_any_start",
    "C81_ex_sqrt",
    "C81_ex_soft",
    "C81_cycle"
   ],
   "note": "exact real arithmetic; C64 treats rounding near a regular root; the root is assumed to exist"
  },
  {
   "property": "C82",
   "status": "proved",
   "theorems": [
    "C82_first_passing",
    "C82_throws",
    "C82_runs_for_ever",
    "C82_value",
    "C82_no_value",
    "C82_ends",
    "C82_ends_symmetric",
    "C82_ends_newton",
    "C82_ex_square",
    "C82_ex_ends",
    "C82_ex_uphill",
    "C82_ex_increase"
   ],
   "note": "C45 treats doubles"
  },
  {
   "property": "C83",
   "status": "proved",
   "theorems": [
    "C83_destroy",
    "C83_one_is_not_enough",
    "C83_without_release",
    "C83_more_room",
    "C83_any_depth",
    "C83_example"
   ],
   "note": "C44 runs every program with room for two"
  },
  {
   "property": "C84",
   "status": "proved",
   "theorems": [
    "C84_linear",
    "C84_dominant",
    "C84_root",
    "C84_small",
    "C84_solve",
    "C84_ex"
   ],
   "note": "the general theorem's inequalities are discharged by C84_small for n <= 4 and coefficients up to 10"
  },
  {
   "property": "C85",
   "status": "proved",
   "theorems": [
    "C85_pi",
    "C85_radians",
    "C85_degrees",
    "C85_round_trip",
    "C85_monotone",
    "C85_invalid",
    "C85_int",
    "C85_int_ex",
    "C85_degrees_overflow"
   ],
   "note": ""
  },
  {
   "property": "C86",
   "status": "proved",
   "theorems": [
    "C86_vpa",
    "C86_simplify",
    "C86_diff",
    "C86_doubles",
    "C86_reals",
    "C86_solve",
    "C86_solve1",
    "C86_identical",
    "C86_identical_subs",
    "C86_literals_matter",
    "C86_association_matters",
    "C86_ex",
    "C86_identical_ex"
   ],
   "note": ""
  },
  {
   "property": "C87",
   "status": "proved",
   "theorems": [
    "C87_linear",
    "C87_newton",
    "C87_solve1",
    "C87_doubles",
    "C87_reals",
    "C87_ex",
    "C87_ex_solved",
    "C87_ties_matter"
   ],
   "note": ""
  },
  {
   "property": "C88",
   "status": "proved",
   "theorems": [
    "C88_linear",
    "C88_newton",
    "C88_reversed",
    "C88_derivatives",
    "C88_solve",
    "C88_solve1",
    "C88_ex",
    "C88_ex_solved"
   ],
   "note": ""
  },
  {
   "property": "C89",
   "status": "proved",
   "theorems": [
    "C89_linear",
    "C89_newton",
    "C89_solve",
    "C89_solve1",
    "C89_ex",
    "C89_ex_solved",
    "C89_small_matters",
    "C89_weaker"
   ],
   "note": "If a pivot column is small and the elimination goes on (a singular square system that is not detected) the small entries left of the pivot are not normalised, and the claim would be false (C89_small_matters). C89_weaker: the condition of C88 implies this one."
  }
 ]
}