# What Print Assumptions lists

Generated by tools/assumptions.py.  Every axiom is one of the standard library.

## No axioms (closed under the global context)

C01_sum_terms, C01_sum_terms_scalar, C01_sum_constant, C02_product_total, C04_quotient_panics_iff, C04_quotient_scalar_right_panics_iff, C04_quotient_scalar_left_panics_iff, C06_add_panics_iff, C06_add_scalar_right_panics_iff, C06_add_scalar_left_panics_iff, C06_add_never_panics_refuted, C07_canonical_form, C08_evaluate_local, C08_missing_variable_is_nan, C09_equality_is_equivalence, C09_equal_nodes_are_same, C09_new_variable_is_different, C09_result_new_or_same, C10_variables, C12_affine_recognised, C14_absent_variable, C15_derivatives_panic, C15_non_variable, C15_affine_never_panics, C15_derivative_never_panics_refuted, C16_derivatives_entries, C16_derivatives_total, C17_path_enumeration, C17_non_variable, C18_components_panic, C20_missing_variable_refuted, C22_panics_iff, C22_affine_total, C22_never_panics_refuted, C24_order, C24_bijection, C28_integer, C28_class, C28_mask, C28_affine_histories, C29_well_formed, C29_panics, C30_history, C31_lower_triangular, C32_x0, C32_slack_zero, C32_replaces, C32_kept, C33_primals, C33_returns, C35_error, C35_error_iff, C35_unwound, C35_history, C35_twice, C35_frame, C37_to_csr, C37_row_pointers, C38_sum_duplicates, C38_merged_row, C39_mul, C40_iter, C40_for_loop, C41_combine_h, C42_lp_views, C42_milp_view, C42_linear_evaluate, C43_returns, C43_zero_row_refuted, C44_zero, C44_top_refuted, C44_lossy, C45_solved, C45_not_solved, C45_missing_file, C45_error, C45_items, C45_column, C45_row, C45_parts, C46_panic, C46_in_range, C46_refuted, C47_set_param, C47_history, C47_kinds, C47_solvers, C47_defaults, C48_unsupported, C48_no_files_left, C48_clp, C48_cbc, C48_result, C48_errors, C48_unwinds, C48_missing_parameter_refuted, C48_panic_refuted, C49_values, C49_structure, C49_structure_right_iff, C49_in_bounds, C49_models, C49_structure_refuted, C50_characterised, C50_new_lambda, C50_stale_refuted, C50_unwritten_refuted, C51_solution, C51_returns, C51_errors, C51_leak, C51_classes, C52_unique, C52_model, C52_float_refuted, C52_status, C53_same_problem, C53_affine_panics, C53_affine_same, C53_panic_refuted, C56_iff, C56_refuses, C57_solution, C57_writes, C57_unwinds, C57_zero_row_refuted, C58_solution, C58_returns, C58_jacobian_refuted, C59_words, C59_pieces, C59_lines, C59_utf8, C59_integers, C59_index, C59_first_line, C62_unique, C62_pattern, C62_slacks, C64_concurrent, C64_other_files, C64_cleaned, C64_leftovers, C64_progress, C64_names, C64_same_names_refuted, C65_infinite, C65_nan, C67_binary64, C67_arranged, C67_tightest, C67_duals, C67_sizes, C67_cmd_duals, C67_ipopt_duals, C73_minlp, C73_nlp, C73_milp, C73_lp, C73_new, C73_evaluate, C73_history, C73_solution, C74_variables, C74_rows, C74_linear, C74_nonlinear, C77_other, C77_itself, C77_panics, C77_exact_refuted, C78_variables, C78_panics, C80_exact, C80_returns

## ClassicalDedekindReals.sig_forall_dec, FunctionalExtensionality.functional_extensionality_dep

C43_file, C43_meaning, C44_precision, C44_exact, C44_order, C59_written, C66_simple, C68_exact, C75_programs

## ClassicalDedekindReals.sig_forall_dec, ClassicalDedekindReals.sig_not_dec, FunctionalExtensionality.functional_extensionality_dep

C01_sum_value, C01_sum_scalar_right, C01_sum_scalar_left, C02_product_value, C02_product_scalar_right, C02_product_scalar_left, C03_neg_value, C03_sub_value, C03_sub_scalar_right, C03_sub_scalar_left, C04_quotient_value, C04_quotient_scalar_right, C04_quotient_scalar_left, C05_sin, C05_cos, C11_affine_form, C13_derivative_correct, C13_derivative_correct_history, C13_derivative_correct_refuted, C18_gradient, C19_hessian, C20_violation, C20_undefined_side, C21_equivalent, C21_slack_value, C23_rows, C24_slacks, C25_tightest, C26_sound, C26_box, C26_complete, C26_refuted, C27_objective, C30_linear, C34_duals, C34_binding, C36_optimal, C36_attained, C36_solve, C52_canonical, C52_denotes, C52_constraint, C53_solutions, C54_linear, C55_global, C55_kkt, C57_duals, C58_duals, C58_sizes, C67_exact, C69_violation, C69_sound, C69_optimal, C69_complete, C69_zero, C69_solve, C77_argument, C77_exact, C78_affine, C78_affine_refuted, C78_derivative, C78_gradient, C78_zero_denominator, C86_affine

## ClassicalDedekindReals.sig_forall_dec, ClassicalDedekindReals.sig_not_dec, Classical_Prop.classic, FunctionalExtensionality.functional_extensionality_dep

C30_nonlinear, C44_read_back, C44_round_trip, C53_derivatives, C54_multipliers, C54_complete, C58_values, C59_numbers, C59_line, C59_file, C59_file_panic, C59_file_refused, C60_value, C60_violation, C60_sharp, C61_history, C61_problem, C61_solve, C61_optimal, C61_global, C63_file, C63_optimal, C63_global, C63_infeasible, C65_inequality, C65_equality, C66_value, C66_violation, C68_estimates, C68_class, C68_constraints, C68_rows, C68_bounds, C68_objective, C70_sound, C70_complete, C70_objective, C70_optimal, C70_solve, C71_derivative, C71_second, C71_gradient, C71_hessian, C72_polynomials, C72_exact, C74_negation, C74_maximize, C75_value, C75_derivative, C75_model, C76_accurate, C76_value, C76_derivative, C76_model, C79_violation, C79_row, C79_solve, C80_rounded, C81_derivative, C81_model, C82_coefficient, C82_constant, C82_first_order, C83_first_order, C84_complementary, C85_feasible, C86_optimal, C86_linear, C86_gap, C86_convex
