# Print Assumptions for the theorems of MANIFEST.json

Generated by tools/assumptions.py. "-" means closed under the global context.

| property | theorem | file | assumptions |
|---|---|---|---|
| C01 | C01_vpa_exact | Thm_Node.v | ClassicalDedekindReals.sig_forall_dec, ClassicalDedekindReals.sig_not_dec, Classical_Prop.classic, FunctionalExtensionality.functional_extensionality_dep |
| C01 | C01_vpa_value | Thm_Node.v | - |
| C01 | C01_vpa_value_conv | Thm_Node.v | - |
| C02 | C02_vpa_errors | Thm_Node.v | - |
| C02 | C02_vpa_literal_unchecked | Thm_Node.v | - |
| C02 | C02_vpa_result_valid | Thm_Node.v | - |
| C02 | C02_vpa_total | Thm_Node.v | - |
| C02 | C02_vpa_variable | Thm_Node.v | - |
| C03 | C03_vpa_nothrow | Thm_Node.v | - |
| C04 | C04_calc | Thm_Node.v | - |
| C04 | C04_calc_idempotent | Thm_Node.v | - |
| C05 | C05_equal_b64 | Thm_Node.v | ClassicalDedekindReals.sig_forall_dec, ClassicalDedekindReals.sig_not_dec, Classical_Prop.classic, FunctionalExtensionality.functional_extensionality_dep |
| C05 | C05_equal_b64_sym | Thm_Node.v | ClassicalDedekindReals.sig_forall_dec, ClassicalDedekindReals.sig_not_dec, Classical_Prop.classic, FunctionalExtensionality.functional_extensionality_dep |
| C05 | C05_equal_b64_trans | Thm_Node.v | ClassicalDedekindReals.sig_forall_dec, ClassicalDedekindReals.sig_not_dec, Classical_Prop.classic, FunctionalExtensionality.functional_extensionality_dep |
| C05 | C05_equal_refl | Thm_Node.v | - |
| C05 | C05_equal_structural | Thm_Node.v | - |
| C05 | C05_equal_sym | Thm_Node.v | - |
| C05 | C05_equal_trans | Thm_Node.v | - |
| C05 | C05_nan_clone_not_equal | Thm_Node.v | ClassicalDedekindReals.sig_forall_dec, ClassicalDedekindReals.sig_not_dec, Classical_Prop.classic, FunctionalExtensionality.functional_extensionality_dep |
| C06 | C06_clone_fresh | Thm_Api.v | - |
| C06 | C06_clone_independent | Thm_Api.v | - |
| C07 | C07_all_var_names | Thm_Node.v | - |
| C08 | C08_binary | Thm_Api.v | - |
| C08 | C08_compound | Thm_Api.v | - |
| C08 | C08_compound_self | Thm_Api.v | - |
| C08 | C08_empty_operand | Thm_Api.v | - |
| C08 | C08_lvalue_and_Move | Thm_Api.v | - |
| C08 | C08_moved_and_used | Thm_Api.v | - |
| C08 | C08_op | Thm_Node.v | - |
| C08 | C08_prvalues | Thm_Api.v | - |
| C08 | C08_unary | Thm_Api.v | - |
| C08 | C08_value_binary | Thm_Node.v | - |
| C08 | C08_value_empty | Thm_Node.v | - |
| C08 | C08_value_unary | Thm_Node.v | - |
| C09 | C09_as_written | Thm_Regex.v | - |
| C09 | C09_var_names | Thm_Node.v | - |
| C10 | C10_grammar_unambiguous | Thm_Parse.v | - |
| C10 | C10_parse_complete | Thm_Parse.v | - |
| C10 | C10_tokens_unique | Thm_Parse.v | - |
| C11 | C11_parse_sound | Thm_Parse.v | - |
| C12 | C12_white_space | Thm_Parse.v | - |
| C13 | C13_bad_word | Thm_Parse.v | - |
| C13 | C13_parse_outcome | Thm_Parse.v | - |
| C13 | C13_parse_undefined | Thm_Parse.v | - |
| C13 | C13_unclosed | Thm_Parse.v | - |
| C13 | C13_unopened | Thm_Parse.v | - |
| C14 | C14_any_literals | Thm_Text.v | ClassicalDedekindReals.sig_forall_dec, ClassicalDedekindReals.sig_not_dec, Classical_Prop.classic, FunctionalExtensionality.functional_extensionality_dep |
| C14 | C14_exponents | Thm_Text.v | ClassicalDedekindReals.sig_forall_dec, ClassicalDedekindReals.sig_not_dec, Classical_Prop.classic, FunctionalExtensionality.functional_extensionality_dep |
| C14 | C14_float_value | Thm_Text.v | ClassicalDedekindReals.sig_forall_dec, ClassicalDedekindReals.sig_not_dec, Classical_Prop.classic, FunctionalExtensionality.functional_extensionality_dep |
| C14 | C14_identity | Thm_Text.v | ClassicalDedekindReals.sig_forall_dec, ClassicalDedekindReals.sig_not_dec, Classical_Prop.classic, FunctionalExtensionality.functional_extensionality_dep |
| C14 | C14_inverse_functions | Thm_Text.v | ClassicalDedekindReals.sig_forall_dec, ClassicalDedekindReals.sig_not_dec, Classical_Prop.classic, FunctionalExtensionality.functional_extensionality_dep |
| C14 | C14_roundtrip | Thm_Text.v | ClassicalDedekindReals.sig_forall_dec, ClassicalDedekindReals.sig_not_dec, Classical_Prop.classic, FunctionalExtensionality.functional_extensionality_dep |
| C14 | C14_sixteen_decimals | Thm_Text.v | ClassicalDedekindReals.sig_forall_dec, ClassicalDedekindReals.sig_not_dec, Classical_Prop.classic, FunctionalExtensionality.functional_extensionality_dep |
| C14 | C14_value | Thm_Text.v | ClassicalDedekindReals.sig_forall_dec, ClassicalDedekindReals.sig_not_dec, Classical_Prop.classic, FunctionalExtensionality.functional_extensionality_dep |
| C15 | C15_recursive | Thm_Text.v | - |
| C15 | C15_recursive_loses_parentheses | Thm_Text.v | - |
| C15 | C15_to_string | Thm_Text.v | - |
| C16 | C16_as_written | Thm_Regex.v | ClassicalDedekindReals.sig_forall_dec, ClassicalDedekindReals.sig_not_dec, Classical_Prop.classic, FunctionalExtensionality.functional_extensionality_dep |
| C16 | C16_exact | Thm_Text.v | ClassicalDedekindReals.sig_forall_dec, ClassicalDedekindReals.sig_not_dec, Classical_Prop.classic, FunctionalExtensionality.functional_extensionality_dep |
| C16 | C16_read | Thm_Text.v | ClassicalDedekindReals.sig_forall_dec, ClassicalDedekindReals.sig_not_dec, Classical_Prop.classic, FunctionalExtensionality.functional_extensionality_dep |
| C16 | C16_text | Thm_Text.v | ClassicalDedekindReals.sig_forall_dec, ClassicalDedekindReals.sig_not_dec, Classical_Prop.classic, FunctionalExtensionality.functional_extensionality_dep |
| C17 | C17_domain_extended | Thm_Simplify.v | ClassicalDedekindReals.sig_forall_dec, ClassicalDedekindReals.sig_not_dec, Classical_Prop.classic, FunctionalExtensionality.functional_extensionality_dep |
| C17 | C17_simplify_value | Thm_Simplify.v | ClassicalDedekindReals.sig_forall_dec, ClassicalDedekindReals.sig_not_dec, Classical_Prop.classic, FunctionalExtensionality.functional_extensionality_dep |
| C17 | C17_zero_power_wrong | Thm_Simplify.v | ClassicalDedekindReals.sig_forall_dec, ClassicalDedekindReals.sig_not_dec, Classical_Prop.classic, FunctionalExtensionality.functional_extensionality_dep |
| C18 | C18_simplify_normal | Thm_Simplify.v | - |
| C19 | C19_simplify_lenient | Thm_Simplify.v | - |
| C19 | C19_simplify_refines | Thm_Simplify.v | - |
| C19 | C19_simplify_terminates_iff | Thm_Simplify.v | - |
| C20 | C20_diff | Thm_Diff.v | ClassicalDedekindReals.sig_forall_dec, ClassicalDedekindReals.sig_not_dec, Classical_Prop.classic, FunctionalExtensionality.functional_extensionality_dep |
| C20 | C20_exp_of_other_variable | Thm_Diff.v | - |
| C20 | C20_exp_of_other_variable_wrong | Thm_Diff.v | ClassicalDedekindReals.sig_forall_dec, ClassicalDedekindReals.sig_not_dec, Classical_Prop.classic, FunctionalExtensionality.functional_extensionality_dep |
| C20 | C20_partial_unique | Thm_Diff.v | ClassicalDedekindReals.sig_forall_dec, ClassicalDedekindReals.sig_not_dec, Classical_Prop.classic, FunctionalExtensionality.functional_extensionality_dep |
| C21 | C21_diff_n | Thm_Diff.v | ClassicalDedekindReals.sig_forall_dec, ClassicalDedekindReals.sig_not_dec, Classical_Prop.classic, FunctionalExtensionality.functional_extensionality_dep |
| C21 | C21_diff_n_outcome | Thm_Diff.v | ClassicalDedekindReals.sig_forall_dec, ClassicalDedekindReals.sig_not_dec, Classical_Prop.classic, FunctionalExtensionality.functional_extensionality_dep |
| C21 | C21_diff_n_returns | Thm_Diff.v | ClassicalDedekindReals.sig_forall_dec, ClassicalDedekindReals.sig_not_dec, Classical_Prop.classic, FunctionalExtensionality.functional_extensionality_dep |
| C22 | C22_diff_order | Thm_Diff.v | - |
| C22 | C22_diff_outcome | Thm_Diff.v | - |
| C22 | C22_diff_throws_iff | Thm_Diff.v | - |
| C22 | C22_diff_zero_power_terminates | Thm_Diff.v | ClassicalDedekindReals.sig_forall_dec, ClassicalDedekindReals.sig_not_dec, Classical_Prop.classic, FunctionalExtensionality.functional_extensionality_dep |
| C23 | C23_absent_variable | Thm_Diff.v | Classical_Prop.classic |
| C23 | C23_laws_R | Thm_Diff.v | ClassicalDedekindReals.sig_forall_dec, ClassicalDedekindReals.sig_not_dec, Classical_Prop.classic, FunctionalExtensionality.functional_extensionality_dep |
| C23 | C23_laws_b64 | Thm_Diff.v | ClassicalDedekindReals.sig_forall_dec, ClassicalDedekindReals.sig_not_dec, Classical_Prop.classic, FunctionalExtensionality.functional_extensionality_dep |
| C24 | C24_subs_absent | Thm_Subs.v | - |
| C24 | C24_subs_dict | Thm_Subs.v | - |
| C24 | C24_subs_no_value | Thm_Subs.v | ClassicalDedekindReals.sig_forall_dec, ClassicalDedekindReals.sig_not_dec, Classical_Prop.classic, FunctionalExtensionality.functional_extensionality_dep |
| C24 | C24_subs_single | Thm_Subs.v | - |
| C24 | C24_subs_value | Thm_Subs.v | ClassicalDedekindReals.sig_forall_dec, ClassicalDedekindReals.sig_not_dec, Classical_Prop.classic, FunctionalExtensionality.functional_extensionality_dep |
| C24 | C24_subs_values | Thm_Subs.v | - |
| C24 | C24_subs_vec | Thm_Subs.v | - |
| C24 | C24_subs_vec_mismatch | Thm_Subs.v | - |
| C25 | C25_subs_numbers | Thm_Subs.v | - |
| C25 | C25_subs_vars | Thm_Subs.v | - |
| C25 | C25_subs_vpa | Thm_Subs.v | - |
| C26 | C26_det | Thm_Mat.v | ClassicalDedekindReals.sig_forall_dec, ClassicalDedekindReals.sig_not_dec, Classical_Prop.classic, Epsilon.epsilon_statement, FunctionalExtensionality.functional_extensionality_dep |
| C26 | C26_det_leading | Thm_Mat.v | ClassicalDedekindReals.sig_forall_dec, ClassicalDedekindReals.sig_not_dec, Classical_Prop.classic, Epsilon.epsilon_statement, FunctionalExtensionality.functional_extensionality_dep |
| C26 | C26_det_zero | Thm_Mat.v | - |
| C27 | C27_adjoint | Thm_Mat.v | ClassicalDedekindReals.sig_forall_dec, ClassicalDedekindReals.sig_not_dec, Classical_Prop.classic, Epsilon.epsilon_statement, FunctionalExtensionality.functional_extensionality_dep |
| C27 | C27_inverse | Thm_Mat.v | ClassicalDedekindReals.sig_forall_dec, ClassicalDedekindReals.sig_not_dec, Classical_Prop.classic, Epsilon.epsilon_statement, FunctionalExtensionality.functional_extensionality_dep |
| C28 | C28_add | Thm_Mat.v | - |
| C28 | C28_each_divide_wrong | Thm_Mat.v | - |
| C28 | C28_identity | Thm_Mat.v | - |
| C28 | C28_init | Thm_Mat.v | - |
| C28 | C28_mul | Thm_Mat.v | - |
| C28 | C28_mul_add | Thm_Mat.v | ClassicalDedekindReals.sig_forall_dec, ClassicalDedekindReals.sig_not_dec, Classical_Prop.classic, Epsilon.epsilon_statement, FunctionalExtensionality.functional_extensionality_dep |
| C28 | C28_mul_assoc | Thm_Mat.v | ClassicalDedekindReals.sig_forall_dec, ClassicalDedekindReals.sig_not_dec, Classical_Prop.classic, Epsilon.epsilon_statement, FunctionalExtensionality.functional_extensionality_dep |
| C28 | C28_mul_transpose | Thm_Mat.v | ClassicalDedekindReals.sig_forall_dec, ClassicalDedekindReals.sig_not_dec, Classical_Prop.classic, Epsilon.epsilon_statement, FunctionalExtensionality.functional_extensionality_dep |
| C28 | C28_mx_is_exists | Thm_Mat.v | ClassicalDedekindReals.sig_forall_dec, ClassicalDedekindReals.sig_not_dec, Classical_Prop.classic, FunctionalExtensionality.functional_extensionality_dep |
| C28 | C28_neg | Thm_Mat.v | - |
| C28 | C28_real_add | Thm_Mat.v | ClassicalDedekindReals.sig_forall_dec, ClassicalDedekindReals.sig_not_dec, Classical_Prop.classic, Epsilon.epsilon_statement, FunctionalExtensionality.functional_extensionality_dep |
| C28 | C28_real_mul | Thm_Mat.v | ClassicalDedekindReals.sig_forall_dec, ClassicalDedekindReals.sig_not_dec, Classical_Prop.classic, Epsilon.epsilon_statement, FunctionalExtensionality.functional_extensionality_dep |
| C28 | C28_real_neg | Thm_Mat.v | ClassicalDedekindReals.sig_forall_dec, ClassicalDedekindReals.sig_not_dec, Classical_Prop.classic, Epsilon.epsilon_statement, FunctionalExtensionality.functional_extensionality_dep |
| C28 | C28_real_scale | Thm_Mat.v | ClassicalDedekindReals.sig_forall_dec, ClassicalDedekindReals.sig_not_dec, Classical_Prop.classic, Epsilon.epsilon_statement, FunctionalExtensionality.functional_extensionality_dep |
| C28 | C28_real_sub | Thm_Mat.v | ClassicalDedekindReals.sig_forall_dec, ClassicalDedekindReals.sig_not_dec, Classical_Prop.classic, Epsilon.epsilon_statement, FunctionalExtensionality.functional_extensionality_dep |
| C28 | C28_real_transpose | Thm_Mat.v | ClassicalDedekindReals.sig_forall_dec, ClassicalDedekindReals.sig_not_dec, Classical_Prop.classic, FunctionalExtensionality.functional_extensionality_dep |
| C28 | C28_scale | Thm_Mat.v | - |
| C28 | C28_shape | Thm_Mat.v | - |
| C28 | C28_shape_mul | Thm_Mat.v | - |
| C28 | C28_sub | Thm_Mat.v | - |
| C28 | C28_transpose | Thm_Mat.v | - |
| C29 | C29_resize | Thm_Mat.v | - |
| C29 | C29_swap_col | Thm_Mat.v | - |
| C29 | C29_swap_range | Thm_Mat.v | - |
| C29 | C29_swap_row | Thm_Mat.v | - |
| C29 | C29_swap_twice | Thm_Mat.v | - |
| C30 | C30_all_less | Thm_Mat.v | ClassicalDedekindReals.sig_forall_dec, ClassicalDedekindReals.sig_not_dec, Classical_Prop.classic, FunctionalExtensionality.functional_extensionality_dep |
| C30 | C30_eq | Thm_Mat.v | ClassicalDedekindReals.sig_forall_dec, ClassicalDedekindReals.sig_not_dec, Classical_Prop.classic, FunctionalExtensionality.functional_extensionality_dep |
| C30 | C30_eq_num | Thm_Mat.v | ClassicalDedekindReals.sig_forall_dec, ClassicalDedekindReals.sig_not_dec, Classical_Prop.classic, FunctionalExtensionality.functional_extensionality_dep |
| C30 | C30_is_zero | Thm_Mat.v | ClassicalDedekindReals.sig_forall_dec, ClassicalDedekindReals.sig_not_dec, Classical_Prop.classic, FunctionalExtensionality.functional_extensionality_dep |
| C30 | C30_max_abs_row | Thm_Mat.v | ClassicalDedekindReals.sig_forall_dec, ClassicalDedekindReals.sig_not_dec, Classical_Prop.classic, FunctionalExtensionality.functional_extensionality_dep |
| C31 | C31_minors | Thm_Mat.v | ClassicalDedekindReals.sig_forall_dec, ClassicalDedekindReals.sig_not_dec, Classical_Prop.classic, Epsilon.epsilon_statement, FunctionalExtensionality.functional_extensionality_dep |
| C31 | C31_not_square | Thm_Mat.v | - |
| C31 | C31_not_symmetric | Thm_Mat.v | ClassicalDedekindReals.sig_forall_dec, Epsilon.epsilon_statement, FunctionalExtensionality.functional_extensionality_dep |
| C31 | C31_positive_definite | Thm_Mat.v | ClassicalDedekindReals.sig_forall_dec, ClassicalDedekindReals.sig_not_dec, Classical_Prop.classic, Epsilon.epsilon_statement, FunctionalExtensionality.functional_extensionality_dep |
| C32 | C32_exact | Thm_Linear.v | ClassicalDedekindReals.sig_forall_dec, ClassicalDedekindReals.sig_not_dec, Classical_Prop.classic, Epsilon.epsilon_statement, FunctionalExtensionality.functional_extensionality_dep |
| C32 | C32_residual | Thm_Linear.v | ClassicalDedekindReals.sig_forall_dec, ClassicalDedekindReals.sig_not_dec, Classical_Prop.classic, Epsilon.epsilon_statement, FunctionalExtensionality.functional_extensionality_dep |
| C32 | C32_solve_linear | Thm_Linear.v | ClassicalDedekindReals.sig_forall_dec, ClassicalDedekindReals.sig_not_dec, Classical_Prop.classic, Epsilon.epsilon_statement, FunctionalExtensionality.functional_extensionality_dep |
| C32 | C32_solve_wide | Thm_Linear.v | ClassicalDedekindReals.sig_forall_dec, ClassicalDedekindReals.sig_not_dec, Classical_Prop.classic, Epsilon.epsilon_statement, FunctionalExtensionality.functional_extensionality_dep |
| C33 | C33_indeterminate | Thm_Linear.v | ClassicalDedekindReals.sig_forall_dec, ClassicalDedekindReals.sig_not_dec, Classical_Prop.classic, Epsilon.epsilon_statement, FunctionalExtensionality.functional_extensionality_dep |
| C33 | C33_infinity | Thm_Linear.v | ClassicalDedekindReals.sig_forall_dec, ClassicalDedekindReals.sig_not_dec, Classical_Prop.classic, Epsilon.epsilon_statement, FunctionalExtensionality.functional_extensionality_dep |
| C33 | C33_outcome | Thm_Linear.v | ClassicalDedekindReals.sig_forall_dec, ClassicalDedekindReals.sig_not_dec, Classical_Prop.classic, Epsilon.epsilon_statement, FunctionalExtensionality.functional_extensionality_dep |
| C33 | C33_over_determined | Thm_Linear.v | - |
| C33 | C33_singular | Thm_Linear.v | ClassicalDedekindReals.sig_forall_dec, ClassicalDedekindReals.sig_not_dec, Classical_Prop.classic, Epsilon.epsilon_statement, FunctionalExtensionality.functional_extensionality_dep |
| C33 | C33_size_mismatch | Thm_Linear.v | - |
| C33 | C33_undetected_square | Thm_Linear.v | ClassicalDedekindReals.sig_forall_dec, ClassicalDedekindReals.sig_not_dec, Classical_Prop.classic, FunctionalExtensionality.functional_extensionality_dep |
| C33 | C33_undetected_wide | Thm_Linear.v | ClassicalDedekindReals.sig_forall_dec, ClassicalDedekindReals.sig_not_dec, Classical_Prop.classic, FunctionalExtensionality.functional_extensionality_dep |
| C34 | C34_all_var_names | Thm_SymMat.v | - |
| C34 | C34_calc | Thm_SymMat.v | - |
| C34 | C34_calc_error | Thm_SymMat.v | - |
| C34 | C34_clone | Thm_SymMat.v | - |
| C34 | C34_equal | Thm_SymMat.v | - |
| C34 | C34_init | Thm_SymMat.v | - |
| C34 | C34_init_rect | Thm_SymMat.v | - |
| C34 | C34_make | Thm_SymMat.v | - |
| C34 | C34_mul | Thm_SymMat.v | - |
| C34 | C34_mul_mismatch | Thm_SymMat.v | - |
| C34 | C34_mul_value | Thm_SymMat.v | ClassicalDedekindReals.sig_forall_dec, ClassicalDedekindReals.sig_not_dec, Classical_Prop.classic, FunctionalExtensionality.functional_extensionality_dep |
| C34 | C34_of_mat | Thm_SymMat.v | - |
| C34 | C34_sub | Thm_SymMat.v | - |
| C34 | C34_sub_mismatch | Thm_SymMat.v | - |
| C34 | C34_subs | Thm_SymMat.v | - |
| C34 | C34_subs_table | Thm_SymMat.v | - |
| C34 | C34_to_mat | Thm_SymMat.v | - |
| C34 | C34_to_mat_error | Thm_SymMat.v | - |
| C34 | C34_to_symvec | Thm_SymMat.v | - |
| C34 | C34_to_vec | Thm_SymMat.v | - |
| C34 | C34_to_vec_error | Thm_SymMat.v | - |
| C34 | C34_value_at | Thm_SymMat.v | - |
| C34 | C34_vec_of | Thm_SymMat.v | - |
| C34 | C34_vec_sub | Thm_SymMat.v | - |
| C35 | C35_jacobian | Thm_SymMat.v | - |
| C35 | C35_jacobian_terminates | Thm_SymMat.v | - |
| C35 | C35_jacobian_value | Thm_SymMat.v | ClassicalDedekindReals.sig_forall_dec, ClassicalDedekindReals.sig_not_dec, Classical_Prop.classic, FunctionalExtensionality.functional_extensionality_dep |
| C36 | C36_empty | Thm_Vars.v | - |
| C36 | C36_history | Thm_Vars.v | - |
| C36 | C36_init | Thm_Vars.v | - |
| C36 | C36_make | Thm_Vars.v | - |
| C36 | C36_make_bad | Thm_Vars.v | - |
| C36 | C36_of_map | Thm_Vars.v | - |
| C36 | C36_set_values | Thm_Vars.v | - |
| C36 | C36_set_values_bad | Thm_Vars.v | - |
| C36 | C36_to_string | Thm_Vars.v | - |
| C37 | C37_equal | Thm_Vars.v | - |
| C37 | C37_lookup | Thm_Vars.v | - |
| C38 | C38_newton_root | Thm_Nonlinear.v | - |
| C38 | C38_real_root | Thm_Nonlinear.v | ClassicalDedekindReals.sig_forall_dec, ClassicalDedekindReals.sig_not_dec, Classical_Prop.classic, FunctionalExtensionality.functional_extensionality_dep |
| C38 | C38_solve1_root | Thm_Nonlinear.v | - |
| C38 | C38_solve_root | Thm_Nonlinear.v | - |
| C39 | C39_newton_ends | Thm_Nonlinear.v | - |
| C39 | C39_newton_limit | Thm_Nonlinear.v | - |
| C39 | C39_newton_result | Thm_Nonlinear.v | - |
| C40 | C40_solve_all_variables | Thm_Nonlinear.v | - |
| C40 | C40_variables_kept | Thm_Nonlinear.v | - |
| C41 | C41_lm_descends | Thm_Nonlinear.v | - |
| C41 | C41_lm_root | Thm_Nonlinear.v | - |
| C42 | C42_lm_ends | Thm_Nonlinear.v | - |
| C42 | C42_lm_hangs_on_nan | Thm_LM64.v | ClassicalDedekindReals.sig_forall_dec, ClassicalDedekindReals.sig_not_dec, Classical_Prop.classic, FunctionalExtensionality.functional_extensionality_dep |
| C42 | C42_lm_hangs_on_overflow | Thm_LM64.v | ClassicalDedekindReals.sig_forall_dec, ClassicalDedekindReals.sig_not_dec, Classical_Prop.classic, FunctionalExtensionality.functional_extensionality_dep |
| C43 | C43_conditioned_by_inverse | Thm_Affine.v | ClassicalDedekindReals.sig_forall_dec, FunctionalExtensionality.functional_extensionality_dep |
| C43 | C43_linear_expr_affine | Thm_Affine.v | ClassicalDedekindReals.sig_forall_dec, ClassicalDedekindReals.sig_not_dec, Classical_Prop.classic, FunctionalExtensionality.functional_extensionality_dep |
| C43 | C43_newton_affine | Thm_Affine.v | ClassicalDedekindReals.sig_forall_dec, ClassicalDedekindReals.sig_not_dec, Classical_Prop.classic, Epsilon.epsilon_statement, FunctionalExtensionality.functional_extensionality_dep |
| C43 | C43_newton_affine_defaults | Thm_Affine.v | ClassicalDedekindReals.sig_forall_dec, ClassicalDedekindReals.sig_not_dec, Classical_Prop.classic, Epsilon.epsilon_statement, FunctionalExtensionality.functional_extensionality_dep |
| C44 | C44_all_freed | Thm_Api.v | - |
| C44 | C44_ends | Thm_Api.v | - |
| C44 | C44_every_history | Thm_Api.v | - |
| C44 | C44_terminates | Thm_Api.v | - |
| C44 | C44_until_undefined | Thm_Api.v | - |
| C45 | C45_line_search_ends | Thm_LM64.v | ClassicalDedekindReals.sig_forall_dec, ClassicalDedekindReals.sig_not_dec, Classical_Prop.classic, FunctionalExtensionality.functional_extensionality_dep |
| C45 | C45_lm_terminates | Thm_LM64.v | ClassicalDedekindReals.sig_forall_dec, ClassicalDedekindReals.sig_not_dec, Classical_Prop.classic, FunctionalExtensionality.functional_extensionality_dep |
| C46 | C46_solve_linear_ends | Thm_Nonlinear.v | - |
| C47 | C47_cauchy_schwarz | Thm_Norms.v | ClassicalDedekindReals.sig_forall_dec, ClassicalDedekindReals.sig_not_dec, Classical_Prop.classic, FunctionalExtensionality.functional_extensionality_dep |
| C47 | C47_dot | Thm_Norms.v | - |
| C47 | C47_min | Thm_Norms.v | ClassicalDedekindReals.sig_forall_dec, ClassicalDedekindReals.sig_not_dec, Classical_Prop.classic, FunctionalExtensionality.functional_extensionality_dep |
| C47 | C47_min_64 | Thm_Norms.v | ClassicalDedekindReals.sig_forall_dec, ClassicalDedekindReals.sig_not_dec, Classical_Prop.classic, FunctionalExtensionality.functional_extensionality_dep |
| C47 | C47_norm2 | Thm_Norms.v | - |
| C47 | C47_norm2_real | Thm_Norms.v | ClassicalDedekindReals.sig_forall_dec, ClassicalDedekindReals.sig_not_dec, Classical_Prop.classic, FunctionalExtensionality.functional_extensionality_dep |
| C47 | C47_norm2_zero | Thm_Norms.v | ClassicalDedekindReals.sig_forall_dec, ClassicalDedekindReals.sig_not_dec, Classical_Prop.classic, FunctionalExtensionality.functional_extensionality_dep |
| C47 | C47_norm_infinity | Thm_Norms.v | ClassicalDedekindReals.sig_forall_dec, ClassicalDedekindReals.sig_not_dec, Classical_Prop.classic, FunctionalExtensionality.functional_extensionality_dep |
| C47 | C47_norm_infinity_64 | Thm_Norms.v | ClassicalDedekindReals.sig_forall_dec, ClassicalDedekindReals.sig_not_dec, Classical_Prop.classic, FunctionalExtensionality.functional_extensionality_dep |
| C47 | C47_norm_infinity_triangle | Thm_Norms.v | ClassicalDedekindReals.sig_forall_dec, ClassicalDedekindReals.sig_not_dec, Classical_Prop.classic, FunctionalExtensionality.functional_extensionality_dep |
| C47 | C47_norm_infinity_zero | Thm_Norms.v | ClassicalDedekindReals.sig_forall_dec, ClassicalDedekindReals.sig_not_dec, Classical_Prop.classic, FunctionalExtensionality.functional_extensionality_dep |
| C47 | C47_norm_neg_infinity | Thm_Norms.v | ClassicalDedekindReals.sig_forall_dec, ClassicalDedekindReals.sig_not_dec, Classical_Prop.classic, FunctionalExtensionality.functional_extensionality_dep |
| C47 | C47_norm_neg_infinity_64 | Thm_Norms.v | ClassicalDedekindReals.sig_forall_dec, ClassicalDedekindReals.sig_not_dec, Classical_Prop.classic, FunctionalExtensionality.functional_extensionality_dep |
| C48 | C48_each_divide | Thm_Norms.v | - |
| C48 | C48_ex_nan | Thm_Norms.v | ClassicalDedekindReals.sig_forall_dec, ClassicalDedekindReals.sig_not_dec, Classical_Prop.classic, FunctionalExtensionality.functional_extensionality_dep |
| C48 | C48_ex_one | Thm_Norms.v | ClassicalDedekindReals.sig_forall_dec, ClassicalDedekindReals.sig_not_dec, Classical_Prop.classic, FunctionalExtensionality.functional_extensionality_dep |
| C48 | C48_find_alpha_ends | Thm_Norms.v | - |
| C48 | C48_find_alpha_is_one | Thm_Norms.v | - |
| C48 | C48_find_alpha_rounds | Thm_Norms.v | - |
| C48 | self_division_64 | Thm_Norms.v | ClassicalDedekindReals.sig_forall_dec, ClassicalDedekindReals.sig_not_dec, Classical_Prop.classic, FunctionalExtensionality.functional_extensionality_dep |
| C48 | self_division_R | Thm_Norms.v | ClassicalDedekindReals.sig_forall_dec, ClassicalDedekindReals.sig_not_dec, Classical_Prop.classic, FunctionalExtensionality.functional_extensionality_dep |
| C49 | C49_lm_endless | Thm_LM.v | - |
| C49 | C49_lm_limit | Thm_Nonlinear.v | - |
| C49 | C49_lm_more_fuel | Thm_LM.v | - |
| C49 | C49_lm_not_square | Thm_Nonlinear.v | - |
| C49 | C49_lm_result | Thm_Nonlinear.v | - |
| C50 | C50_ex | Thm_Newton.v | ClassicalDedekindReals.sig_forall_dec, ClassicalDedekindReals.sig_not_dec, Classical_Prop.classic, Epsilon.epsilon_statement, FunctionalExtensionality.functional_extensionality_dep |
| C50 | C50_newton_converges | Thm_Newton.v | ClassicalDedekindReals.sig_forall_dec, ClassicalDedekindReals.sig_not_dec, Classical_Prop.classic, Epsilon.epsilon_statement, FunctionalExtensionality.functional_extensionality_dep |
| C50 | C50_newton_from_zero | Thm_Newton.v | ClassicalDedekindReals.sig_forall_dec, ClassicalDedekindReals.sig_not_dec, Classical_Prop.classic, Epsilon.epsilon_statement, FunctionalExtensionality.functional_extensionality_dep |
| C50 | C50_quadratic | Thm_Newton.v | ClassicalDedekindReals.sig_forall_dec, ClassicalDedekindReals.sig_not_dec, Classical_Prop.classic, Epsilon.epsilon_statement, FunctionalExtensionality.functional_extensionality_dep |
| C50 | C50_step_unique | Thm_Newton.v | - |
| C51 | C51_expr_text | Thm_MatText.v | ClassicalDedekindReals.sig_forall_dec, ClassicalDedekindReals.sig_not_dec, Classical_Prop.classic, FunctionalExtensionality.functional_extensionality_dep |
| C51 | C51_grid_unique | Thm_MatText.v | - |
| C51 | C51_mat | Thm_MatText.v | - |
| C51 | C51_mat_determined | Thm_MatText.v | ClassicalDedekindReals.sig_forall_dec, ClassicalDedekindReals.sig_not_dec, Classical_Prop.classic, FunctionalExtensionality.functional_extensionality_dep |
| C51 | C51_mat_unique | Thm_MatText.v | ClassicalDedekindReals.sig_forall_dec, ClassicalDedekindReals.sig_not_dec, Classical_Prop.classic, FunctionalExtensionality.functional_extensionality_dep |
| C51 | C51_number_text | Thm_MatText.v | ClassicalDedekindReals.sig_forall_dec, ClassicalDedekindReals.sig_not_dec, Classical_Prop.classic, FunctionalExtensionality.functional_extensionality_dep |
| C51 | C51_symmat | Thm_MatText.v | - |
| C51 | C51_symmat_unique | Thm_MatText.v | ClassicalDedekindReals.sig_forall_dec, ClassicalDedekindReals.sig_not_dec, Classical_Prop.classic, FunctionalExtensionality.functional_extensionality_dep |
| C51 | C51_table | Thm_MatText.v | - |
| C51 | C51_table_unique | Thm_MatText.v | ClassicalDedekindReals.sig_forall_dec, ClassicalDedekindReals.sig_not_dec, Classical_Prop.classic, FunctionalExtensionality.functional_extensionality_dep |
| C52 | C52_all_less | Thm_Vec.v | - |
| C52 | C52_col | Thm_Vec.v | - |
| C52 | C52_fill | Thm_Vec.v | - |
| C52 | C52_init_empty | Thm_Vec.v | - |
| C52 | C52_inverse_not_square | Thm_Vec.v | - |
| C52 | C52_make | Thm_Vec.v | - |
| C52 | C52_make_empty | Thm_Vec.v | - |
| C52 | C52_mat_mismatch | Thm_Vec.v | - |
| C52 | C52_mat_scale_l | Thm_Vec.v | - |
| C52 | C52_ones_not_square | Thm_Vec.v | - |
| C52 | C52_out_of_range | Thm_Vec.v | - |
| C52 | C52_resize_empty | Thm_Vec.v | - |
| C52 | C52_row | Thm_Vec.v | - |
| C52 | C52_set_col | Thm_Vec.v | - |
| C52 | C52_set_row | Thm_Vec.v | - |
| C52 | C52_set_value | Thm_Vec.v | - |
| C52 | C52_to_vec | Thm_Vec.v | - |
| C52 | C52_to_vec_error | Thm_Vec.v | - |
| C52 | C52_vec_arith | Thm_Vec.v | - |
| C52 | C52_vec_get | Thm_Vec.v | - |
| C52 | C52_vec_less | Thm_Vec.v | - |
| C52 | C52_vec_make | Thm_Vec.v | - |
| C52 | C52_vec_mismatch | Thm_Vec.v | - |
| C52 | C52_vec_of | Thm_Vec.v | - |
| C52 | C52_vec_of_empty | Thm_Vec.v | - |
| C52 | C52_vec_resize | Thm_Vec.v | - |
| C52 | C52_vec_resize_empty | Thm_Vec.v | - |
| C52 | C52_vec_scale | Thm_Vec.v | - |
| C52 | C52_vec_set | Thm_Vec.v | - |
| C53 | C53_collision | Thm_Words.v | ClassicalDedekindReals.sig_forall_dec, ClassicalDedekindReals.sig_not_dec, Classical_Prop.classic, FunctionalExtensionality.functional_extensionality_dep |
| C53 | C53_function_word | Thm_Words.v | ClassicalDedekindReals.sig_forall_dec, ClassicalDedekindReals.sig_not_dec, Classical_Prop.classic, FunctionalExtensionality.functional_extensionality_dep |
| C53 | C53_hash | Thm_Words.v | - |
| C53 | C53_hash_ascii | Thm_Words.v | - |
| C53 | C53_number_names | Thm_Words.v | ClassicalDedekindReals.sig_forall_dec, ClassicalDedekindReals.sig_not_dec, Classical_Prop.classic, FunctionalExtensionality.functional_extensionality_dep |
| C53 | C53_number_word | Thm_Words.v | ClassicalDedekindReals.sig_forall_dec, ClassicalDedekindReals.sig_not_dec, Classical_Prop.classic, FunctionalExtensionality.functional_extensionality_dep |
| C53 | C53_one_letter | Thm_Words.v | - |
| C53 | C53_short_variable | Thm_Words.v | ClassicalDedekindReals.sig_forall_dec, ClassicalDedekindReals.sig_not_dec, Classical_Prop.classic, FunctionalExtensionality.functional_extensionality_dep |
| C53 | C53_short_words | Thm_Words.v | - |
| C53 | C53_variable_iff | Thm_Words.v | ClassicalDedekindReals.sig_forall_dec, ClassicalDedekindReals.sig_not_dec, Classical_Prop.classic, FunctionalExtensionality.functional_extensionality_dep |
| C54 | C54_mark | Thm_Errors.v | - |
| C54 | C54_mark_of_word | Thm_Errors.v | - |
| C54 | C54_math_error_text | Thm_Errors.v | - |
| C54 | C54_parse_error | Thm_Errors.v | - |
| C54 | C54_title_one_line | Thm_Errors.v | - |
| C54 | C54_vpa_error | Thm_Errors.v | - |
| C55 | C55_injective | Thm_Sci.v | ClassicalDedekindReals.sig_forall_dec, ClassicalDedekindReals.sig_not_dec, Classical_Prop.classic, FunctionalExtensionality.functional_extensionality_dep |
| C55 | C55_read | Thm_Sci.v | ClassicalDedekindReals.sig_forall_dec, ClassicalDedekindReals.sig_not_dec, Classical_Prop.classic, FunctionalExtensionality.functional_extensionality_dep |
| C55 | C55_special | Thm_Sci.v | ClassicalDedekindReals.sig_forall_dec, ClassicalDedekindReals.sig_not_dec, Classical_Prop.classic, FunctionalExtensionality.functional_extensionality_dep |
| C55 | C55_text | Thm_Sci.v | ClassicalDedekindReals.sig_forall_dec, ClassicalDedekindReals.sig_not_dec, Classical_Prop.classic, FunctionalExtensionality.functional_extensionality_dep |
| C56 | C56_constants | Thm_Float.v | - |
| C56 | C56_sign_of_zero | Thm_Float.v | ClassicalDedekindReals.sig_forall_dec, ClassicalDedekindReals.sig_not_dec, Classical_Prop.classic, FunctionalExtensionality.functional_extensionality_dep |
| C56 | C56_simplify_doubles | Thm_Float.v | ClassicalDedekindReals.sig_forall_dec, ClassicalDedekindReals.sig_not_dec, Classical_Prop.classic, FunctionalExtensionality.functional_extensionality_dep |
| C56 | C56_zero_to_zero | Thm_Float.v | ClassicalDedekindReals.sig_forall_dec, ClassicalDedekindReals.sig_not_dec, Classical_Prop.classic, FunctionalExtensionality.functional_extensionality_dep |
| C56 | correct_libm_ieee | FloatFacts.v | ClassicalDedekindReals.sig_forall_dec, ClassicalDedekindReals.sig_not_dec, Classical_Prop.classic, FunctionalExtensionality.functional_extensionality_dep |
| C57 | C57_det | Thm_Int.v | ClassicalDedekindReals.sig_forall_dec, ClassicalDedekindReals.sig_not_dec, Classical_Prop.classic, Epsilon.epsilon_statement, FunctionalExtensionality.functional_extensionality_dep |
| C57 | C57_init | Thm_Int.v | ClassicalDedekindReals.sig_forall_dec, ClassicalDedekindReals.sig_not_dec, Classical_Prop.classic, FunctionalExtensionality.functional_extensionality_dep |
| C57 | C57_inverse | Thm_Int.v | ClassicalDedekindReals.sig_forall_dec, ClassicalDedekindReals.sig_not_dec, Classical_Prop.classic, Epsilon.epsilon_statement, FunctionalExtensionality.functional_extensionality_dep |
| C57 | C57_minors | Thm_Int.v | ClassicalDedekindReals.sig_forall_dec, ClassicalDedekindReals.sig_not_dec, Classical_Prop.classic, Epsilon.epsilon_statement, FunctionalExtensionality.functional_extensionality_dep |
| C57 | C57_mul | Thm_Int.v | ClassicalDedekindReals.sig_forall_dec, ClassicalDedekindReals.sig_not_dec, Classical_Prop.classic, Epsilon.epsilon_statement, FunctionalExtensionality.functional_extensionality_dep |
| C57 | C57_positive_definite | Thm_Int.v | ClassicalDedekindReals.sig_forall_dec, ClassicalDedekindReals.sig_not_dec, Classical_Prop.classic, Epsilon.epsilon_statement, FunctionalExtensionality.functional_extensionality_dep |
| C57 | C57_sharp | Thm_Int.v | ClassicalDedekindReals.sig_forall_dec, ClassicalDedekindReals.sig_not_dec, Classical_Prop.classic, FunctionalExtensionality.functional_extensionality_dep |
| C57 | C57_vpa | Thm_Int.v | ClassicalDedekindReals.sig_forall_dec, ClassicalDedekindReals.sig_not_dec, Classical_Prop.classic, FunctionalExtensionality.functional_extensionality_dep |
| C58 | C58_default | Thm_Log.v | - |
| C58 | C58_ex | Thm_Log.v | ClassicalDedekindReals.sig_forall_dec, ClassicalDedekindReals.sig_not_dec, Classical_Prop.classic, FunctionalExtensionality.functional_extensionality_dep |
| C58 | C58_ex_trace | Thm_Log.v | ClassicalDedekindReals.sig_forall_dec, ClassicalDedekindReals.sig_not_dec, Classical_Prop.classic, FunctionalExtensionality.functional_extensionality_dep |
| C58 | C58_find_alpha_same | Thm_Log.v | - |
| C58 | C58_find_alpha_silent | Thm_Log.v | ClassicalDedekindReals.sig_forall_dec, ClassicalDedekindReals.sig_not_dec, Classical_Prop.classic, FunctionalExtensionality.functional_extensionality_dep |
| C58 | C58_linear_same | Thm_Log.v | - |
| C58 | C58_lm_same | Thm_Log.v | - |
| C58 | C58_lm_text | Thm_Log.v | - |
| C58 | C58_newton_same | Thm_Log.v | - |
| C58 | C58_newton_text | Thm_Log.v | - |
| C58 | C58_quiet | Thm_Log.v | - |
| C58 | C58_solve_same | Thm_Log.v | - |
| C58 | C58_stream_mat | Thm_Log.v | - |
| C58 | C58_stream_node | Thm_Log.v | - |
| C58 | C58_stream_symmat | Thm_Log.v | - |
| C58 | C58_stream_table | Thm_Log.v | - |
| C59 | C59_accuracy | Thm_Round.v | ClassicalDedekindReals.sig_forall_dec, ClassicalDedekindReals.sig_not_dec, Classical_Prop.classic, FunctionalExtensionality.functional_extensionality_dep |
| C59 | C59_acos | Thm_RoundFun.v | ClassicalDedekindReals.sig_forall_dec, ClassicalDedekindReals.sig_not_dec, Classical_Prop.classic, FunctionalExtensionality.functional_extensionality_dep |
| C59 | C59_add | Thm_Round.v | ClassicalDedekindReals.sig_forall_dec, ClassicalDedekindReals.sig_not_dec, Classical_Prop.classic, FunctionalExtensionality.functional_extensionality_dep |
| C59 | C59_asin | Thm_RoundFun.v | ClassicalDedekindReals.sig_forall_dec, ClassicalDedekindReals.sig_not_dec, Classical_Prop.classic, FunctionalExtensionality.functional_extensionality_dep |
| C59 | C59_atan | Thm_RoundFun.v | ClassicalDedekindReals.sig_forall_dec, ClassicalDedekindReals.sig_not_dec, Classical_Prop.classic, FunctionalExtensionality.functional_extensionality_dep |
| C59 | C59_cos | Thm_Round.v | ClassicalDedekindReals.sig_forall_dec, ClassicalDedekindReals.sig_not_dec, Classical_Prop.classic, FunctionalExtensionality.functional_extensionality_dep |
| C59 | C59_det | Thm_RoundDet.v | ClassicalDedekindReals.sig_forall_dec, ClassicalDedekindReals.sig_not_dec, Classical_Prop.classic, Epsilon.epsilon_statement, FunctionalExtensionality.functional_extensionality_dep |
| C59 | C59_det_bounded | Thm_RoundDet.v | ClassicalDedekindReals.sig_forall_dec, ClassicalDedekindReals.sig_not_dec, Classical_Prop.classic, Epsilon.epsilon_statement, FunctionalExtensionality.functional_extensionality_dep |
| C59 | C59_det_ex | Thm_RoundDet.v | ClassicalDedekindReals.sig_forall_dec, ClassicalDedekindReals.sig_not_dec, Classical_Prop.classic, Epsilon.epsilon_statement, FunctionalExtensionality.functional_extensionality_dep |
| C59 | C59_div | Thm_Round.v | ClassicalDedekindReals.sig_forall_dec, ClassicalDedekindReals.sig_not_dec, Classical_Prop.classic, FunctionalExtensionality.functional_extensionality_dep |
| C59 | C59_dot | Thm_Round.v | ClassicalDedekindReals.sig_forall_dec, ClassicalDedekindReals.sig_not_dec, Classical_Prop.classic, FunctionalExtensionality.functional_extensionality_dep |
| C59 | C59_ex | Thm_Round.v | ClassicalDedekindReals.sig_forall_dec, ClassicalDedekindReals.sig_not_dec, Classical_Prop.classic, FunctionalExtensionality.functional_extensionality_dep |
| C59 | C59_exp | Thm_Round.v | ClassicalDedekindReals.sig_forall_dec, ClassicalDedekindReals.sig_not_dec, Classical_Prop.classic, FunctionalExtensionality.functional_extensionality_dep |
| C59 | C59_fun_ex | Thm_RoundFun.v | ClassicalDedekindReals.sig_forall_dec, ClassicalDedekindReals.sig_not_dec, Classical_Prop.classic, FunctionalExtensionality.functional_extensionality_dep |
| C59 | C59_int | Thm_RoundFun.v | ClassicalDedekindReals.sig_forall_dec, ClassicalDedekindReals.sig_not_dec, Classical_Prop.classic, FunctionalExtensionality.functional_extensionality_dep |
| C59 | C59_inverse | Thm_RoundInv.v | ClassicalDedekindReals.sig_forall_dec, ClassicalDedekindReals.sig_not_dec, Classical_Prop.classic, Epsilon.epsilon_statement, FunctionalExtensionality.functional_extensionality_dep |
| C59 | C59_inverse_ex | Thm_RoundInv.v | ClassicalDedekindReals.sig_forall_dec, ClassicalDedekindReals.sig_not_dec, Classical_Prop.classic, Epsilon.epsilon_statement, FunctionalExtensionality.functional_extensionality_dep |
| C59 | C59_libm_exists | Thm_Round.v | ClassicalDedekindReals.sig_forall_dec, ClassicalDedekindReals.sig_not_dec, Classical_Prop.classic, FunctionalExtensionality.functional_extensionality_dep |
| C59 | C59_log | Thm_Round.v | ClassicalDedekindReals.sig_forall_dec, ClassicalDedekindReals.sig_not_dec, Classical_Prop.classic, FunctionalExtensionality.functional_extensionality_dep |
| C59 | C59_log10 | Thm_RoundFun.v | ClassicalDedekindReals.sig_forall_dec, ClassicalDedekindReals.sig_not_dec, Classical_Prop.classic, FunctionalExtensionality.functional_extensionality_dep |
| C59 | C59_log2 | Thm_RoundFun.v | ClassicalDedekindReals.sig_forall_dec, ClassicalDedekindReals.sig_not_dec, Classical_Prop.classic, FunctionalExtensionality.functional_extensionality_dep |
| C59 | C59_mul | Thm_Round.v | ClassicalDedekindReals.sig_forall_dec, ClassicalDedekindReals.sig_not_dec, Classical_Prop.classic, FunctionalExtensionality.functional_extensionality_dep |
| C59 | C59_neg | Thm_Round.v | ClassicalDedekindReals.sig_forall_dec, ClassicalDedekindReals.sig_not_dec, Classical_Prop.classic, FunctionalExtensionality.functional_extensionality_dep |
| C59 | C59_norm2 | Thm_Round.v | ClassicalDedekindReals.sig_forall_dec, ClassicalDedekindReals.sig_not_dec, Classical_Prop.classic, FunctionalExtensionality.functional_extensionality_dep |
| C59 | C59_pow | Thm_RoundFun.v | ClassicalDedekindReals.sig_forall_dec, ClassicalDedekindReals.sig_not_dec, Classical_Prop.classic, FunctionalExtensionality.functional_extensionality_dep |
| C59 | C59_pow_nat | Thm_RoundFun.v | ClassicalDedekindReals.sig_forall_dec, ClassicalDedekindReals.sig_not_dec, Classical_Prop.classic, FunctionalExtensionality.functional_extensionality_dep |
| C59 | C59_root | Thm_Round.v | ClassicalDedekindReals.sig_forall_dec, ClassicalDedekindReals.sig_not_dec, Classical_Prop.classic, FunctionalExtensionality.functional_extensionality_dep |
| C59 | C59_sin | Thm_Round.v | ClassicalDedekindReals.sig_forall_dec, ClassicalDedekindReals.sig_not_dec, Classical_Prop.classic, FunctionalExtensionality.functional_extensionality_dep |
| C59 | C59_sqrt | Thm_Round.v | ClassicalDedekindReals.sig_forall_dec, ClassicalDedekindReals.sig_not_dec, Classical_Prop.classic, FunctionalExtensionality.functional_extensionality_dep |
| C59 | C59_standard_model | Thm_Round.v | ClassicalDedekindReals.sig_forall_dec, ClassicalDedekindReals.sig_not_dec, Classical_Prop.classic, FunctionalExtensionality.functional_extensionality_dep |
| C59 | C59_sub | Thm_Round.v | ClassicalDedekindReals.sig_forall_dec, ClassicalDedekindReals.sig_not_dec, Classical_Prop.classic, FunctionalExtensionality.functional_extensionality_dep |
| C59 | C59_tan | Thm_RoundFun.v | ClassicalDedekindReals.sig_forall_dec, ClassicalDedekindReals.sig_not_dec, Classical_Prop.classic, FunctionalExtensionality.functional_extensionality_dep |
| C59 | C59_times | Thm_Round.v | ClassicalDedekindReals.sig_forall_dec, ClassicalDedekindReals.sig_not_dec, Classical_Prop.classic, FunctionalExtensionality.functional_extensionality_dep |
| C60 | C60_all_freed | Thm_SymHeap.v | - |
| C60 | C60_every_history | Thm_SymHeap.v | - |
| C60 | C60_matrices_independent | Thm_SymHeap.v | - |
| C60 | C60_terminates | Thm_SymHeap.v | - |
| C60 | C60_until_undefined | Thm_SymHeap.v | - |
| C60 | tale_apart | Thm_SymHeap.v | ClassicalDedekindReals.sig_forall_dec, ClassicalDedekindReals.sig_not_dec, Classical_Prop.classic, FunctionalExtensionality.functional_extensionality_dep |
| C60 | tale_heap | Thm_SymHeap.v | ClassicalDedekindReals.sig_forall_dec, ClassicalDedekindReals.sig_not_dec, Classical_Prop.classic, FunctionalExtensionality.functional_extensionality_dep |
| C60 | tale_seen | Thm_SymHeap.v | ClassicalDedekindReals.sig_forall_dec, ClassicalDedekindReals.sig_not_dec, Classical_Prop.classic, FunctionalExtensionality.functional_extensionality_dep |
| C61 | C61_error | Thm_Solve.v | ClassicalDedekindReals.sig_forall_dec, ClassicalDedekindReals.sig_not_dec, Classical_Prop.classic, FunctionalExtensionality.functional_extensionality_dep |
| C61 | C61_example | Thm_Solve.v | ClassicalDedekindReals.sig_forall_dec, ClassicalDedekindReals.sig_not_dec, Classical_Prop.classic, FunctionalExtensionality.functional_extensionality_dep |
| C61 | C61_failure | Thm_Solve.v | ClassicalDedekindReals.sig_forall_dec, ClassicalDedekindReals.sig_not_dec, Classical_Prop.classic, FunctionalExtensionality.functional_extensionality_dep |
| C61 | C61_far_from_singular | Thm_Solve.v | ClassicalDedekindReals.sig_forall_dec, Classical_Prop.classic, FunctionalExtensionality.functional_extensionality_dep |
| C61 | C61_residual | Thm_Solve.v | ClassicalDedekindReals.sig_forall_dec, ClassicalDedekindReals.sig_not_dec, Classical_Prop.classic, FunctionalExtensionality.functional_extensionality_dep |
| C61 | C61_solves | Thm_Solve.v | ClassicalDedekindReals.sig_forall_dec, ClassicalDedekindReals.sig_not_dec, Classical_Prop.classic, FunctionalExtensionality.functional_extensionality_dep |
| C62 | C62_any_schedule | Thm_Threads.v | - |
| C62 | C62_completes | Thm_Threads.v | - |
| C62 | C62_threads | Thm_Threads.v | - |
| C62 | C62_until_then | Thm_Threads.v | - |
| C63 | C63_accuracy | Thm_Deriv.v | ClassicalDedekindReals.sig_forall_dec, ClassicalDedekindReals.sig_not_dec, Classical_Prop.classic, FunctionalExtensionality.functional_extensionality_dep |
| C63 | C63_diff_doubles | Thm_Deriv.v | ClassicalDedekindReals.sig_forall_dec, ClassicalDedekindReals.sig_not_dec, Classical_Prop.classic, FunctionalExtensionality.functional_extensionality_dep |
| C63 | C63_ex | Thm_Deriv.v | ClassicalDedekindReals.sig_forall_dec, ClassicalDedekindReals.sig_not_dec, Classical_Prop.classic, FunctionalExtensionality.functional_extensionality_dep |
| C63 | C63_jacobian | Thm_Deriv.v | ClassicalDedekindReals.sig_forall_dec, ClassicalDedekindReals.sig_not_dec, Classical_Prop.classic, FunctionalExtensionality.functional_extensionality_dep |
| C63 | C63_rules | Thm_Deriv.v | ClassicalDedekindReals.sig_forall_dec, ClassicalDedekindReals.sig_not_dec, Classical_Prop.classic, FunctionalExtensionality.functional_extensionality_dep |
| C64 | C64_ex | Thm_Newton64.v | ClassicalDedekindReals.sig_forall_dec, ClassicalDedekindReals.sig_not_dec, Classical_Prop.classic, FunctionalExtensionality.functional_extensionality_dep |
| C64 | C64_newton_converges | Thm_Newton64.v | ClassicalDedekindReals.sig_forall_dec, ClassicalDedekindReals.sig_not_dec, Classical_Prop.classic, FunctionalExtensionality.functional_extensionality_dep |
| C64 | C64_newton_from_zero | Thm_Newton64.v | ClassicalDedekindReals.sig_forall_dec, ClassicalDedekindReals.sig_not_dec, Classical_Prop.classic, FunctionalExtensionality.functional_extensionality_dep |
| C65 | C65_ex | Thm_LM.v | ClassicalDedekindReals.sig_forall_dec, ClassicalDedekindReals.sig_not_dec, Classical_Prop.classic, Epsilon.epsilon_statement, FunctionalExtensionality.functional_extensionality_dep |
| C65 | C65_lm_converges | Thm_LM.v | ClassicalDedekindReals.sig_forall_dec, ClassicalDedekindReals.sig_not_dec, Classical_Prop.classic, Epsilon.epsilon_statement, FunctionalExtensionality.functional_extensionality_dep |
| C65 | C65_order_matters | Thm_LM.v | ClassicalDedekindReals.sig_forall_dec, ClassicalDedekindReals.sig_not_dec, Classical_Prop.classic, Epsilon.epsilon_statement, FunctionalExtensionality.functional_extensionality_dep |
| C66 | C66_diff | Thm_Names.v | - |
| C66 | C66_diff_evaluates | Thm_Names.v | - |
| C66 | C66_diff_names | Thm_Names.v | - |
| C66 | C66_ex | Thm_Names.v | ClassicalDedekindReals.sig_forall_dec, ClassicalDedekindReals.sig_not_dec, Classical_Prop.classic, FunctionalExtensionality.functional_extensionality_dep |
| C66 | C66_jacobian | Thm_Names.v | - |
| C66 | C66_simplify | Thm_Names.v | - |
| C67 | C67_clone | Thm_Alt.v | - |
| C67 | C67_operator | Thm_Alt.v | - |
| C67 | C67_vpa | Thm_Alt.v | - |
| C67 | C67_vpa_order | Thm_Alt.v | - |
| C67 | C67_vpa_order_ex | Thm_Alt.v | ClassicalDedekindReals.sig_forall_dec, ClassicalDedekindReals.sig_not_dec, Classical_Prop.classic, FunctionalExtensionality.functional_extensionality_dep |
| C68 | C68_diff_n_size | Thm_Size.v | - |
| C68 | C68_diff_size | Thm_Size.v | - |
| C68 | C68_ex | Thm_Size.v | ClassicalDedekindReals.sig_forall_dec, ClassicalDedekindReals.sig_not_dec, Classical_Prop.classic, FunctionalExtensionality.functional_extensionality_dep |
| C68 | C68_parse_size | Thm_Size.v | - |
| C68 | C68_simplify_size | Thm_Size.v | - |
| C68 | C68_subs1_size | Thm_Size.v | - |
| C68 | C68_subs_size | Thm_Size.v | - |
| C69 | C69_ex | Thm_Mixed.v | ClassicalDedekindReals.sig_forall_dec, ClassicalDedekindReals.sig_not_dec, Classical_Prop.classic, FunctionalExtensionality.functional_extensionality_dep |
| C69 | C69_exp_breaks | Thm_Mixed.v | ClassicalDedekindReals.sig_forall_dec, ClassicalDedekindReals.sig_not_dec, Classical_Prop.classic, FunctionalExtensionality.functional_extensionality_dep |
| C69 | C69_mixed | Thm_Mixed.v | ClassicalDedekindReals.sig_forall_dec, ClassicalDedekindReals.sig_not_dec, Classical_Prop.classic, FunctionalExtensionality.functional_extensionality_dep |
| C69 | C69_simplified | Thm_Mixed.v | - |
| C70 | C70_doubles | Thm_Root.v | ClassicalDedekindReals.sig_forall_dec, ClassicalDedekindReals.sig_not_dec, Classical_Prop.classic, Epsilon.epsilon_statement, FunctionalExtensionality.functional_extensionality_dep |
| C70 | C70_ex | Thm_Root.v | ClassicalDedekindReals.sig_forall_dec, ClassicalDedekindReals.sig_not_dec, Classical_Prop.classic, Epsilon.epsilon_statement, FunctionalExtensionality.functional_extensionality_dep |
| C70 | C70_exact | Thm_Root.v | ClassicalDedekindReals.sig_forall_dec, ClassicalDedekindReals.sig_not_dec, Classical_Prop.classic, Epsilon.epsilon_statement, FunctionalExtensionality.functional_extensionality_dep |
| C70 | C70_from_text | Thm_Root.v | ClassicalDedekindReals.sig_forall_dec, ClassicalDedekindReals.sig_not_dec, Classical_Prop.classic, Epsilon.epsilon_statement, FunctionalExtensionality.functional_extensionality_dep |
| C71 | C71_ex_storable | Thm_Settle.v | ClassicalDedekindReals.sig_forall_dec, ClassicalDedekindReals.sig_not_dec, Classical_Prop.classic, FunctionalExtensionality.functional_extensionality_dep |
| C71 | C71_ex_text | Thm_Settle.v | ClassicalDedekindReals.sig_forall_dec, ClassicalDedekindReals.sig_not_dec, Classical_Prop.classic, FunctionalExtensionality.functional_extensionality_dep |
| C71 | C71_negative_literal | Thm_Settle.v | ClassicalDedekindReals.sig_forall_dec, ClassicalDedekindReals.sig_not_dec, Classical_Prop.classic, FunctionalExtensionality.functional_extensionality_dep |
| C71 | C71_settles | Thm_Settle.v | ClassicalDedekindReals.sig_forall_dec, ClassicalDedekindReals.sig_not_dec, Classical_Prop.classic, FunctionalExtensionality.functional_extensionality_dep |
| C71 | C71_too_small | Thm_Settle.v | ClassicalDedekindReals.sig_forall_dec, ClassicalDedekindReals.sig_not_dec, Classical_Prop.classic, FunctionalExtensionality.functional_extensionality_dep |
| C72 | C72_diff | Thm_Relax.v | - |
| C72 | C72_ex | Thm_Relax.v | ClassicalDedekindReals.sig_forall_dec, ClassicalDedekindReals.sig_not_dec, Classical_Prop.classic, FunctionalExtensionality.functional_extensionality_dep |
| C72 | C72_jacobian | Thm_Relax.v | - |
| C72 | C72_linear | Thm_Relax.v | - |
| C72 | C72_negative_limit | Thm_Relax.v | ClassicalDedekindReals.sig_forall_dec, ClassicalDedekindReals.sig_not_dec, Classical_Prop.classic, FunctionalExtensionality.functional_extensionality_dep |
| C72 | C72_simplify | Thm_Relax.v | - |
| C72 | C72_solve | Thm_Relax.v | - |
| C72 | C72_solve1 | Thm_Relax.v | - |
| C72 | C72_tolerance | Thm_Relax.v | ClassicalDedekindReals.sig_forall_dec, ClassicalDedekindReals.sig_not_dec, Classical_Prop.classic, FunctionalExtensionality.functional_extensionality_dep |
| C72 | C72_vpa | Thm_Relax.v | - |
| C73 | C73_all_names | Thm_Rename.v | - |
| C73 | C73_diff | Thm_Rename.v | Classical_Prop.classic |
| C73 | C73_equal | Thm_Rename.v | - |
| C73 | C73_ex | Thm_Rename.v | ClassicalDedekindReals.sig_forall_dec, ClassicalDedekindReals.sig_not_dec, Classical_Prop.classic, FunctionalExtensionality.functional_extensionality_dep |
| C73 | C73_jacobian | Thm_Rename.v | Classical_Prop.classic |
| C73 | C73_names | Thm_Rename.v | - |
| C73 | C73_order_matters | Thm_Rename.v | ClassicalDedekindReals.sig_forall_dec, ClassicalDedekindReals.sig_not_dec, Classical_Prop.classic, FunctionalExtensionality.functional_extensionality_dep |
| C73 | C73_simplify | Thm_Rename.v | - |
| C73 | C73_solve | Thm_Rename.v | Classical_Prop.classic |
| C73 | C73_solve1 | Thm_Rename.v | Classical_Prop.classic |
| C73 | C73_subs | Thm_Rename.v | - |
| C73 | C73_subs1 | Thm_Rename.v | - |
| C73 | C73_vpa | Thm_Rename.v | - |
| C74 | C74_ex | Thm_Written.v | ClassicalDedekindReals.sig_forall_dec, ClassicalDedekindReals.sig_not_dec, Classical_Prop.classic, FunctionalExtensionality.functional_extensionality_dep |
| C74 | C74_ex_solved | Thm_Written.v | ClassicalDedekindReals.sig_forall_dec, ClassicalDedekindReals.sig_not_dec, Classical_Prop.classic, Epsilon.epsilon_statement, FunctionalExtensionality.functional_extensionality_dep |
| C74 | C74_lm | Thm_Written.v | ClassicalDedekindReals.sig_forall_dec, ClassicalDedekindReals.sig_not_dec, Classical_Prop.classic, Epsilon.epsilon_statement, FunctionalExtensionality.functional_extensionality_dep |
| C74 | C74_lm_limit | Thm_Written.v | ClassicalDedekindReals.sig_forall_dec, ClassicalDedekindReals.sig_not_dec, Classical_Prop.classic, Epsilon.epsilon_statement, FunctionalExtensionality.functional_extensionality_dep |
| C74 | C74_newton | Thm_Written.v | ClassicalDedekindReals.sig_forall_dec, ClassicalDedekindReals.sig_not_dec, Classical_Prop.classic, Epsilon.epsilon_statement, FunctionalExtensionality.functional_extensionality_dep |
| C74 | C74_newton_limit | Thm_Written.v | ClassicalDedekindReals.sig_forall_dec, ClassicalDedekindReals.sig_not_dec, Classical_Prop.classic, Epsilon.epsilon_statement, FunctionalExtensionality.functional_extensionality_dep |
| C74 | C74_solve | Thm_Written.v | ClassicalDedekindReals.sig_forall_dec, ClassicalDedekindReals.sig_not_dec, Classical_Prop.classic, Epsilon.epsilon_statement, FunctionalExtensionality.functional_extensionality_dep |
| C74 | C74_solve1 | Thm_Written.v | ClassicalDedekindReals.sig_forall_dec, ClassicalDedekindReals.sig_not_dec, Classical_Prop.classic, Epsilon.epsilon_statement, FunctionalExtensionality.functional_extensionality_dep |
| C74 | C74_solve_limit | Thm_Written.v | ClassicalDedekindReals.sig_forall_dec, ClassicalDedekindReals.sig_not_dec, Classical_Prop.classic, Epsilon.epsilon_statement, FunctionalExtensionality.functional_extensionality_dep |
| C75 | C75_conversation | Thm_Machine.v | - |
| C75 | C75_derivative | Thm_Machine.v | ClassicalDedekindReals.sig_forall_dec, ClassicalDedekindReals.sig_not_dec, Classical_Prop.classic, FunctionalExtensionality.functional_extensionality_dep |
| C75 | C75_end_of_input | Thm_Machine.v | - |
| C75 | C75_every_input | Thm_Machine.v | - |
| C75 | C75_ex_derivative | Thm_Machine.v | ClassicalDedekindReals.sig_forall_dec, ClassicalDedekindReals.sig_not_dec, Classical_Prop.classic, FunctionalExtensionality.functional_extensionality_dep |
| C75 | C75_ex_session | Thm_Machine.v | ClassicalDedekindReals.sig_forall_dec, ClassicalDedekindReals.sig_not_dec, Classical_Prop.classic, FunctionalExtensionality.functional_extensionality_dep |
| C75 | C75_ex_spaces | Thm_Machine.v | ClassicalDedekindReals.sig_forall_dec, ClassicalDedekindReals.sig_not_dec, Classical_Prop.classic, FunctionalExtensionality.functional_extensionality_dep |
| C75 | C75_ex_usage | Thm_Machine.v | ClassicalDedekindReals.sig_forall_dec, ClassicalDedekindReals.sig_not_dec, Classical_Prop.classic, FunctionalExtensionality.functional_extensionality_dep |
| C75 | C75_read_word | Thm_Machine.v | - |
| C75 | C75_round | Thm_Machine.v | - |
| C76 | C76_again | Thm_Check.v | - |
| C76 | C76_check | Thm_Check.v | - |
| C76 | C76_ex_program | Thm_Check.v | ClassicalDedekindReals.sig_forall_dec, ClassicalDedekindReals.sig_not_dec, Classical_Prop.classic, FunctionalExtensionality.functional_extensionality_dep |
| C76 | C76_solve1 | Thm_Check.v | - |
| C77 | C77_chain_rule | Thm_Chain.v | ClassicalDedekindReals.sig_forall_dec, ClassicalDedekindReals.sig_not_dec, Classical_Prop.classic, FunctionalExtensionality.functional_extensionality_dep |
| C77 | C77_chain_rule_1 | Thm_Chain.v | ClassicalDedekindReals.sig_forall_dec, ClassicalDedekindReals.sig_not_dec, Classical_Prop.classic, FunctionalExtensionality.functional_extensionality_dep |
| C77 | C77_diff_of_subs | Thm_Chain.v | ClassicalDedekindReals.sig_forall_dec, ClassicalDedekindReals.sig_not_dec, Classical_Prop.classic, FunctionalExtensionality.functional_extensionality_dep |
| C77 | C77_ex_chain | Thm_Chain.v | ClassicalDedekindReals.sig_forall_dec, ClassicalDedekindReals.sig_not_dec, Classical_Prop.classic, FunctionalExtensionality.functional_extensionality_dep |
| C77 | C77_ex_order | Thm_Chain.v | - |
| C77 | C77_rename_back | Thm_Chain.v | - |
| C77 | C77_subs_again | Thm_Chain.v | - |
| C77 | C77_subs_commute | Thm_Chain.v | - |
| C77 | C77_subs_subs | Thm_Chain.v | - |
| C78 | C78_binary | Thm_Compose.v | - |
| C78 | C78_ex_context | Thm_Compose.v | ClassicalDedekindReals.sig_forall_dec, ClassicalDedekindReals.sig_not_dec, Classical_Prop.classic, FunctionalExtensionality.functional_extensionality_dep |
| C78 | C78_ex_needed | Thm_Compose.v | ClassicalDedekindReals.sig_forall_dec, ClassicalDedekindReals.sig_not_dec, Classical_Prop.classic, FunctionalExtensionality.functional_extensionality_dep |
| C78 | C78_ex_read | Thm_Compose.v | ClassicalDedekindReals.sig_forall_dec, ClassicalDedekindReals.sig_not_dec, Classical_Prop.classic, FunctionalExtensionality.functional_extensionality_dep |
| C78 | C78_function | Thm_Compose.v | - |
| C78 | C78_parens | Thm_Compose.v | - |
| C78 | C78_replace | Thm_Compose.v | - |
| C78 | C78_sign | Thm_Compose.v | - |
| C78 | C78_subs | Thm_Compose.v | - |
| C79 | C79_bound | Thm_Numeral.v | ClassicalDedekindReals.sig_forall_dec, ClassicalDedekindReals.sig_not_dec, Classical_Prop.classic, FunctionalExtensionality.functional_extensionality_dep |
| C79 | C79_ex_dec | Thm_Numeral.v | ClassicalDedekindReals.sig_forall_dec, FunctionalExtensionality.functional_extensionality_dep |
| C79 | C79_ex_hex | Thm_Numeral.v | ClassicalDedekindReals.sig_forall_dec, FunctionalExtensionality.functional_extensionality_dep |
| C79 | C79_ex_inf | Thm_Numeral.v | ClassicalDedekindReals.sig_forall_dec, ClassicalDedekindReals.sig_not_dec, Classical_Prop.classic, FunctionalExtensionality.functional_extensionality_dep |
| C79 | C79_ex_large | Thm_Numeral.v | ClassicalDedekindReals.sig_forall_dec, ClassicalDedekindReals.sig_not_dec, Classical_Prop.classic, FunctionalExtensionality.functional_extensionality_dep |
| C79 | C79_ex_read | Thm_Numeral.v | ClassicalDedekindReals.sig_forall_dec, ClassicalDedekindReals.sig_not_dec, Classical_Prop.classic, FunctionalExtensionality.functional_extensionality_dep |
| C79 | C79_ex_small | Thm_Numeral.v | ClassicalDedekindReals.sig_forall_dec, ClassicalDedekindReals.sig_not_dec, Classical_Prop.classic, FunctionalExtensionality.functional_extensionality_dep |
| C79 | C79_normal | Thm_Numeral.v | ClassicalDedekindReals.sig_forall_dec, ClassicalDedekindReals.sig_not_dec, Classical_Prop.classic, FunctionalExtensionality.functional_extensionality_dep |
| C79 | C79_number_words | Thm_Numeral.v | ClassicalDedekindReals.sig_forall_dec, ClassicalDedekindReals.sig_not_dec, Classical_Prop.classic, FunctionalExtensionality.functional_extensionality_dep |
| C79 | C79_numeral_word | Thm_Numeral.v | ClassicalDedekindReals.sig_forall_dec, FunctionalExtensionality.functional_extensionality_dep |
| C79 | C79_one_value | Thm_Numeral.v | ClassicalDedekindReals.sig_forall_dec, FunctionalExtensionality.functional_extensionality_dep |
| C79 | C79_parse_invalid | Thm_Numeral.v | ClassicalDedekindReals.sig_forall_dec, ClassicalDedekindReals.sig_not_dec, Classical_Prop.classic, FunctionalExtensionality.functional_extensionality_dep |
| C79 | C79_parse_number | Thm_Numeral.v | ClassicalDedekindReals.sig_forall_dec, ClassicalDedekindReals.sig_not_dec, Classical_Prop.classic, FunctionalExtensionality.functional_extensionality_dep |
| C79 | C79_read | Thm_Numeral.v | ClassicalDedekindReals.sig_forall_dec, ClassicalDedekindReals.sig_not_dec, Classical_Prop.classic, FunctionalExtensionality.functional_extensionality_dep |
| C79 | C79_unread | Thm_Numeral.v | ClassicalDedekindReals.sig_forall_dec, ClassicalDedekindReals.sig_not_dec, Classical_Prop.classic, FunctionalExtensionality.functional_extensionality_dep |
| C80 | C80_det_inverse | Thm_LinAlg.v | ClassicalDedekindReals.sig_forall_dec, ClassicalDedekindReals.sig_not_dec, Classical_Prop.classic, Epsilon.epsilon_statement, FunctionalExtensionality.functional_extensionality_dep |
| C80 | C80_det_mul | Thm_LinAlg.v | ClassicalDedekindReals.sig_forall_dec, ClassicalDedekindReals.sig_not_dec, Classical_Prop.classic, Epsilon.epsilon_statement, FunctionalExtensionality.functional_extensionality_dep |
| C80 | C80_det_neg | Thm_LinAlg.v | ClassicalDedekindReals.sig_forall_dec, ClassicalDedekindReals.sig_not_dec, Classical_Prop.classic, Epsilon.epsilon_statement, FunctionalExtensionality.functional_extensionality_dep |
| C80 | C80_det_scale | Thm_LinAlg.v | ClassicalDedekindReals.sig_forall_dec, ClassicalDedekindReals.sig_not_dec, Classical_Prop.classic, Epsilon.epsilon_statement, FunctionalExtensionality.functional_extensionality_dep |
| C80 | C80_det_swap | Thm_LinAlg.v | ClassicalDedekindReals.sig_forall_dec, ClassicalDedekindReals.sig_not_dec, Classical_Prop.classic, Epsilon.epsilon_statement, FunctionalExtensionality.functional_extensionality_dep |
| C80 | C80_det_transpose | Thm_LinAlg.v | ClassicalDedekindReals.sig_forall_dec, ClassicalDedekindReals.sig_not_dec, Classical_Prop.classic, Epsilon.epsilon_statement, FunctionalExtensionality.functional_extensionality_dep |
| C80 | C80_ex | Thm_LinAlg.v | ClassicalDedekindReals.sig_forall_dec, ClassicalDedekindReals.sig_not_dec, Classical_Prop.classic, Epsilon.epsilon_statement, FunctionalExtensionality.functional_extensionality_dep |
| C80 | C80_inverse_iff | Thm_LinAlg.v | ClassicalDedekindReals.sig_forall_dec, ClassicalDedekindReals.sig_not_dec, Classical_Prop.classic, Epsilon.epsilon_statement, FunctionalExtensionality.functional_extensionality_dep |
| C80 | C80_inverse_inverse | Thm_LinAlg.v | ClassicalDedekindReals.sig_forall_dec, ClassicalDedekindReals.sig_not_dec, Classical_Prop.classic, Epsilon.epsilon_statement, FunctionalExtensionality.functional_extensionality_dep |
| C80 | C80_inverse_mul | Thm_LinAlg.v | ClassicalDedekindReals.sig_forall_dec, ClassicalDedekindReals.sig_not_dec, Classical_Prop.classic, Epsilon.epsilon_statement, FunctionalExtensionality.functional_extensionality_dep |
| C80 | C80_inverse_transpose | Thm_LinAlg.v | ClassicalDedekindReals.sig_forall_dec, ClassicalDedekindReals.sig_not_dec, Classical_Prop.classic, Epsilon.epsilon_statement, FunctionalExtensionality.functional_extensionality_dep |
| C80 | C80_solve_inverse | Thm_LinAlg.v | ClassicalDedekindReals.sig_forall_dec, ClassicalDedekindReals.sig_not_dec, Classical_Prop.classic, Epsilon.epsilon_statement, FunctionalExtensionality.functional_extensionality_dep |
| C80 | C80_solve_inverse_exact | Thm_LinAlg.v | ClassicalDedekindReals.sig_forall_dec, ClassicalDedekindReals.sig_not_dec, Classical_Prop.classic, Epsilon.epsilon_statement, FunctionalExtensionality.functional_extensionality_dep |
| C81 | C81_any_start | Thm_Global.v | ClassicalDedekindReals.sig_forall_dec, ClassicalDedekindReals.sig_not_dec, Classical_Prop.classic, FunctionalExtensionality.functional_extensionality_dep |
| C81 | C81_cycle | Thm_Global.v | ClassicalDedekindReals.sig_forall_dec, ClassicalDedekindReals.sig_not_dec, Classical_Prop.classic, FunctionalExtensionality.functional_extensionality_dep |
| C81 | C81_ex_soft | Thm_Global.v | ClassicalDedekindReals.sig_forall_dec, ClassicalDedekindReals.sig_not_dec, Classical_Prop.classic, FunctionalExtensionality.functional_extensionality_dep |
| C81 | C81_ex_sqrt | Thm_Global.v | ClassicalDedekindReals.sig_forall_dec, ClassicalDedekindReals.sig_not_dec, Classical_Prop.classic, FunctionalExtensionality.functional_extensionality_dep |
| C81 | C81_finds_root | Thm_Global.v | ClassicalDedekindReals.sig_forall_dec, ClassicalDedekindReals.sig_not_dec, Classical_Prop.classic, FunctionalExtensionality.functional_extensionality_dep |
| C82 | C82_ends | Thm_Armijo.v | ClassicalDedekindReals.sig_forall_dec, ClassicalDedekindReals.sig_not_dec, Classical_Prop.classic, FunctionalExtensionality.functional_extensionality_dep |
| C82 | C82_ends_newton | Thm_Armijo.v | ClassicalDedekindReals.sig_forall_dec, ClassicalDedekindReals.sig_not_dec, Classical_Prop.classic, FunctionalExtensionality.functional_extensionality_dep |
| C82 | C82_ends_symmetric | Thm_Armijo.v | ClassicalDedekindReals.sig_forall_dec, ClassicalDedekindReals.sig_not_dec, Classical_Prop.classic, FunctionalExtensionality.functional_extensionality_dep |
| C82 | C82_ex_ends | Thm_Armijo.v | ClassicalDedekindReals.sig_forall_dec, ClassicalDedekindReals.sig_not_dec, Classical_Prop.classic, FunctionalExtensionality.functional_extensionality_dep |
| C82 | C82_ex_increase | Thm_Armijo.v | ClassicalDedekindReals.sig_forall_dec, ClassicalDedekindReals.sig_not_dec, Classical_Prop.classic, FunctionalExtensionality.functional_extensionality_dep |
| C82 | C82_ex_square | Thm_Armijo.v | ClassicalDedekindReals.sig_forall_dec, ClassicalDedekindReals.sig_not_dec, Classical_Prop.classic, FunctionalExtensionality.functional_extensionality_dep |
| C82 | C82_ex_uphill | Thm_Armijo.v | ClassicalDedekindReals.sig_forall_dec, ClassicalDedekindReals.sig_not_dec, Classical_Prop.classic, FunctionalExtensionality.functional_extensionality_dep |
| C82 | C82_first_passing | Thm_Armijo.v | - |
| C82 | C82_no_value | Thm_Armijo.v | ClassicalDedekindReals.sig_forall_dec, ClassicalDedekindReals.sig_not_dec, Classical_Prop.classic, FunctionalExtensionality.functional_extensionality_dep |
| C82 | C82_runs_for_ever | Thm_Armijo.v | - |
| C82 | C82_throws | Thm_Armijo.v | - |
| C82 | C82_value | Thm_Armijo.v | ClassicalDedekindReals.sig_forall_dec, ClassicalDedekindReals.sig_not_dec, Classical_Prop.classic, FunctionalExtensionality.functional_extensionality_dep |
| C83 | C83_any_depth | Thm_Stack.v | - |
| C83 | C83_destroy | Thm_Stack.v | - |
| C83 | C83_example | Thm_Stack.v | ClassicalDedekindReals.sig_forall_dec, ClassicalDedekindReals.sig_not_dec, Classical_Prop.classic, FunctionalExtensionality.functional_extensionality_dep |
| C83 | C83_more_room | Thm_Stack.v | - |
| C83 | C83_one_is_not_enough | Thm_Stack.v | - |
| C83 | C83_without_release | Thm_Stack.v | - |
| C84 | C84_dominant | Thm_Linear64.v | ClassicalDedekindReals.sig_forall_dec, FunctionalExtensionality.functional_extensionality_dep |
| C84 | C84_ex | Thm_Linear64.v | ClassicalDedekindReals.sig_forall_dec, ClassicalDedekindReals.sig_not_dec, Classical_Prop.classic, Epsilon.epsilon_statement, FunctionalExtensionality.functional_extensionality_dep |
| C84 | C84_linear | Thm_Linear64.v | ClassicalDedekindReals.sig_forall_dec, ClassicalDedekindReals.sig_not_dec, Classical_Prop.classic, FunctionalExtensionality.functional_extensionality_dep |
| C84 | C84_root | Thm_Linear64.v | ClassicalDedekindReals.sig_forall_dec, ClassicalDedekindReals.sig_not_dec, Classical_Prop.classic, Epsilon.epsilon_statement, FunctionalExtensionality.functional_extensionality_dep |
| C84 | C84_small | Thm_Linear64.v | ClassicalDedekindReals.sig_forall_dec, ClassicalDedekindReals.sig_not_dec, Classical_Prop.classic, Epsilon.epsilon_statement, FunctionalExtensionality.functional_extensionality_dep |
| C84 | C84_solve | Thm_Linear64.v | ClassicalDedekindReals.sig_forall_dec, ClassicalDedekindReals.sig_not_dec, Classical_Prop.classic, Epsilon.epsilon_statement, FunctionalExtensionality.functional_extensionality_dep |
| C85 | C85_degrees | Thm_Angle.v | ClassicalDedekindReals.sig_forall_dec, ClassicalDedekindReals.sig_not_dec, Classical_Prop.classic, FunctionalExtensionality.functional_extensionality_dep |
| C85 | C85_degrees_overflow | Thm_Angle.v | ClassicalDedekindReals.sig_forall_dec, ClassicalDedekindReals.sig_not_dec, Classical_Prop.classic, FunctionalExtensionality.functional_extensionality_dep |
| C85 | C85_int | Thm_Angle.v | ClassicalDedekindReals.sig_forall_dec, ClassicalDedekindReals.sig_not_dec, Classical_Prop.classic, FunctionalExtensionality.functional_extensionality_dep |
| C85 | C85_int_ex | Thm_Angle.v | ClassicalDedekindReals.sig_forall_dec, ClassicalDedekindReals.sig_not_dec, Classical_Prop.classic, FunctionalExtensionality.functional_extensionality_dep |
| C85 | C85_invalid | Thm_Angle.v | ClassicalDedekindReals.sig_forall_dec, ClassicalDedekindReals.sig_not_dec, Classical_Prop.classic, FunctionalExtensionality.functional_extensionality_dep |
| C85 | C85_monotone | Thm_Angle.v | ClassicalDedekindReals.sig_forall_dec, ClassicalDedekindReals.sig_not_dec, Classical_Prop.classic, FunctionalExtensionality.functional_extensionality_dep |
| C85 | C85_pi | Thm_Angle.v | ClassicalDedekindReals.sig_forall_dec, ClassicalDedekindReals.sig_not_dec, Classical_Prop.classic, FunctionalExtensionality.functional_extensionality_dep |
| C85 | C85_radians | Thm_Angle.v | ClassicalDedekindReals.sig_forall_dec, ClassicalDedekindReals.sig_not_dec, Classical_Prop.classic, FunctionalExtensionality.functional_extensionality_dep |
| C85 | C85_round_trip | Thm_Angle.v | ClassicalDedekindReals.sig_forall_dec, ClassicalDedekindReals.sig_not_dec, Classical_Prop.classic, FunctionalExtensionality.functional_extensionality_dep |
| C86 | C86_association_matters | Thm_Rewrite.v | ClassicalDedekindReals.sig_forall_dec, ClassicalDedekindReals.sig_not_dec, Classical_Prop.classic, FunctionalExtensionality.functional_extensionality_dep |
| C86 | C86_diff | Thm_Rewrite.v | - |
| C86 | C86_doubles | Thm_Rewrite.v | ClassicalDedekindReals.sig_forall_dec, ClassicalDedekindReals.sig_not_dec, Classical_Prop.classic, FunctionalExtensionality.functional_extensionality_dep |
| C86 | C86_ex | Thm_Rewrite.v | ClassicalDedekindReals.sig_forall_dec, ClassicalDedekindReals.sig_not_dec, Classical_Prop.classic, FunctionalExtensionality.functional_extensionality_dep |
| C86 | C86_identical | Thm_Rewrite.v | ClassicalDedekindReals.sig_forall_dec, ClassicalDedekindReals.sig_not_dec, Classical_Prop.classic, FunctionalExtensionality.functional_extensionality_dep |
| C86 | C86_identical_ex | Thm_Rewrite.v | ClassicalDedekindReals.sig_forall_dec, ClassicalDedekindReals.sig_not_dec, Classical_Prop.classic, FunctionalExtensionality.functional_extensionality_dep |
| C86 | C86_identical_subs | Thm_Rewrite.v | ClassicalDedekindReals.sig_forall_dec, ClassicalDedekindReals.sig_not_dec, Classical_Prop.classic, FunctionalExtensionality.functional_extensionality_dep |
| C86 | C86_literals_matter | Thm_Rewrite.v | ClassicalDedekindReals.sig_forall_dec, ClassicalDedekindReals.sig_not_dec, Classical_Prop.classic, FunctionalExtensionality.functional_extensionality_dep |
| C86 | C86_reals | Thm_Rewrite.v | ClassicalDedekindReals.sig_forall_dec, ClassicalDedekindReals.sig_not_dec, Classical_Prop.classic, FunctionalExtensionality.functional_extensionality_dep |
| C86 | C86_simplify | Thm_Rewrite.v | - |
| C86 | C86_solve | Thm_Rewrite.v | - |
| C86 | C86_solve1 | Thm_Rewrite.v | - |
| C86 | C86_vpa | Thm_Rewrite.v | - |
| C87 | C87_doubles | Thm_OrderEx.v | ClassicalDedekindReals.sig_forall_dec, ClassicalDedekindReals.sig_not_dec, Classical_Prop.classic, FunctionalExtensionality.functional_extensionality_dep |
| C87 | C87_ex | Thm_OrderEx.v | ClassicalDedekindReals.sig_forall_dec, ClassicalDedekindReals.sig_not_dec, Classical_Prop.classic, FunctionalExtensionality.functional_extensionality_dep |
| C87 | C87_ex_solved | Thm_OrderEx.v | ClassicalDedekindReals.sig_forall_dec, ClassicalDedekindReals.sig_not_dec, Classical_Prop.classic, FunctionalExtensionality.functional_extensionality_dep |
| C87 | C87_linear | Thm_Order.v | - |
| C87 | C87_newton | Thm_Order.v | - |
| C87 | C87_reals | Thm_OrderEx.v | ClassicalDedekindReals.sig_forall_dec, ClassicalDedekindReals.sig_not_dec, Classical_Prop.classic, FunctionalExtensionality.functional_extensionality_dep |
| C87 | C87_solve1 | Thm_Order.v | - |
| C87 | C87_ties_matter | Thm_OrderEx.v | ClassicalDedekindReals.sig_forall_dec, ClassicalDedekindReals.sig_not_dec, Classical_Prop.classic, FunctionalExtensionality.functional_extensionality_dep |
| C88 | C88_derivatives | Thm_SignEx.v | ClassicalDedekindReals.sig_forall_dec, ClassicalDedekindReals.sig_not_dec, Classical_Prop.classic, FunctionalExtensionality.functional_extensionality_dep |
| C88 | C88_ex | Thm_SignEx.v | ClassicalDedekindReals.sig_forall_dec, ClassicalDedekindReals.sig_not_dec, Classical_Prop.classic, FunctionalExtensionality.functional_extensionality_dep |
| C88 | C88_ex_solved | Thm_SignEx.v | ClassicalDedekindReals.sig_forall_dec, ClassicalDedekindReals.sig_not_dec, Classical_Prop.classic, FunctionalExtensionality.functional_extensionality_dep |
| C88 | C88_linear | Thm_Sign.v | ClassicalDedekindReals.sig_forall_dec, ClassicalDedekindReals.sig_not_dec, Classical_Prop.classic, FunctionalExtensionality.functional_extensionality_dep |
| C88 | C88_newton | Thm_Sign.v | ClassicalDedekindReals.sig_forall_dec, ClassicalDedekindReals.sig_not_dec, Classical_Prop.classic, FunctionalExtensionality.functional_extensionality_dep |
| C88 | C88_reversed | Thm_SignEx.v | ClassicalDedekindReals.sig_forall_dec, ClassicalDedekindReals.sig_not_dec, Classical_Prop.classic, FunctionalExtensionality.functional_extensionality_dep |
| C88 | C88_solve | Thm_SignEx.v | ClassicalDedekindReals.sig_forall_dec, ClassicalDedekindReals.sig_not_dec, Classical_Prop.classic, FunctionalExtensionality.functional_extensionality_dep |
| C88 | C88_solve1 | Thm_SignEx.v | ClassicalDedekindReals.sig_forall_dec, ClassicalDedekindReals.sig_not_dec, Classical_Prop.classic, FunctionalExtensionality.functional_extensionality_dep |
| C89 | C89_ex | Thm_Tie.v | ClassicalDedekindReals.sig_forall_dec, ClassicalDedekindReals.sig_not_dec, Classical_Prop.classic, FunctionalExtensionality.functional_extensionality_dep |
| C89 | C89_ex_solved | Thm_Tie.v | ClassicalDedekindReals.sig_forall_dec, ClassicalDedekindReals.sig_not_dec, Classical_Prop.classic, FunctionalExtensionality.functional_extensionality_dep |
| C89 | C89_linear | Thm_Tie.v | ClassicalDedekindReals.sig_forall_dec, ClassicalDedekindReals.sig_not_dec, Classical_Prop.classic, FunctionalExtensionality.functional_extensionality_dep |
| C89 | C89_newton | Thm_Tie.v | ClassicalDedekindReals.sig_forall_dec, ClassicalDedekindReals.sig_not_dec, Classical_Prop.classic, FunctionalExtensionality.functional_extensionality_dep |
| C89 | C89_small_matters | Thm_TieEx.v | ClassicalDedekindReals.sig_forall_dec, ClassicalDedekindReals.sig_not_dec, Classical_Prop.classic, FunctionalExtensionality.functional_extensionality_dep |
| C89 | C89_solve | Thm_Tie.v | ClassicalDedekindReals.sig_forall_dec, ClassicalDedekindReals.sig_not_dec, Classical_Prop.classic, FunctionalExtensionality.functional_extensionality_dep |
| C89 | C89_solve1 | Thm_Tie.v | ClassicalDedekindReals.sig_forall_dec, ClassicalDedekindReals.sig_not_dec, Classical_Prop.classic, FunctionalExtensionality.functional_extensionality_dep |
| C89 | C89_weaker | Thm_TieEx.v | - |
