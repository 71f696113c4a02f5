# What each theorem assumes

Generated by tools/assumptions.py from `Print Assumptions`.

## Nothing (closed under the global context)

C01_read_back, C01_line, C01_circle, C02_values_kept, C02_handles_kept, C03_element_handles, C03_constraint_handles, C03_unbounded_refuted, C04_listings, C05_foreign_reads_partial, C05_foreign_writes_refuted, C06_calls_succeed, C06_solve_no_panic, C06_assembly_refuted, C06_optimizers_no_panic, C06_program_no_panic, C07_fixed_do_not_move, C07_free_moves, C08_solve_touches, C08_any_decomposer, C08_constraints_kept, C08_whole_solver, C09_parameter_exact, C09_parameter_local, C10_residual_formula, C17_groups_partial, C17_connected_partial, C17_refuted, C17_ignored_refuted, C18_maximum_matching, C19_groups, C20_single_pass, C22_full_period, C22_perturbation, C22_stream, C23_steps, C23_never_worse, C23_solved_untouched, C23_problems, C24_refuted, C24_ordinary_refuted, C24_stacked_refuted, C25_chain, C25_moves, C27_convert, C27_sum, C28_transpose, C28_structure, C29_structure_partial, C29_values_refuted, C29_swap_refuted, C30_sound, C30_complete, C30_returns_partial, C30_returns_refuted, C30_identity, C30_empty_refuted, C31_float_partial, C31_tall_refuted, C32_gather, C32_short, C33_post_order, C34_levels, C35_symmetric, C35_product, C35_forest, C36_empty, C37_panic_refuted, C38_refuted, C39_refuted, C39_bounds_refuted, C40_recommended, C40_reported, C40_accepted, C41_every_column_once, C42_ordering, C42_refused, C42_factorisation, C43_plan, C43_groups, C44_symmetric_ordering, C45_lower_part, C46_notice, C46_symmetric_refuted, C47_refused, C47_negative_refuted, C47_symmetric_refuted, C48_elements_agree, C48_constraints_agree, C48_total, C48_element_order, C48_constraint_order, C49_undecomposed, C49_single_pass_partial, C49_decomposed_refuted, C49_plan_refuted, C50_merged_refuted, C50_overdetermined_refuted, C51_default_refuted, C51_rounding_refuted, C52_merged_refuted, C52_single_pass_refuted, C56_refuted, C57_refuted, C58_picture, C58_once, C59_degenerate_refuted, C59_overflow_refuted, C60_analysis_refuted, C61_unasked, C61_chosen_partial, C61_assembly_refuted

## `ClassicalDedekindReals.sig_forall_dec`, `ClassicalDedekindReals.sig_not_dec`, `Classical_Prop.classic`, `FunctionalExtensionality.functional_extensionality_dep`

C10_zero_iff_satisfied, C11_gradient, C11_total_derivative, C12_sparse_jacobian, C12_analysis_jacobian_partial, C12_dense_jacobian_partial, C12_dense_refuted, C13_scaling, C13_scaled_values, C14_rigid_motion_partial, C14_opposite_refuted, C15_pose_rigid, C15_chain_rule, C16_attainable_partial, C16_refuted, C21_reported_partial, C21_exact_partial, C21_reported_refuted, C21_independent_refuted, C22_unit_interval, C22_bound, C23_arithmetic, C24_exact_lm_partial, C24_program_partial, C25_direction_partial, C25_refuted, C25_actual, C26_gradient, C26_slope, C26_constraints_partial, C26_shared_refuted, C31_upper_partial, C31_sound, C31_lower_refuted, C36_reflector, C36_apply, C36_eliminate, C37_least_squares_partial, C37_independent, C37_whenever_it_returns, C49_exact, C49_exact_history, C50_within_partial, C50_solved_partial, C50_unmerged, C50_single_pass_partial, C50_single_pass_solved_partial, C50_assembly_refuted, C51_solved_untouched, C51_decomposed, C52_improves_partial, C52_never_worse_partial, C53_factors, C54_textbook, C54_stationary, C55_refuted, C55_satisfied_partial, C56_downhill_partial, C56_full_step, C59_frame, C60_units_partial

## `ClassicalDedekindReals.sig_forall_dec`, `FunctionalExtensionality.functional_extensionality_dep`

C54_normal_equations, C54_downhill
