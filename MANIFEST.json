{"claims": [
{"property": "C01", "status": "proved", "theorems": ["c01_point_arithmetic"], "note": ""},
{"property": "C02", "status": "proved", "theorems": ["c02_inner_products"], "note": ""},
{"property": "C03", "status": "proved", "theorems": ["c03_expression_arithmetic"], "note": ""},
{"property": "C04", "status": "proved", "theorems": ["c04_gram_representation"], "note": ""},
{"property": "C05", "status": "proved", "theorems": ["c05_constants_lost", "c05_constants_survive_refuted"], "note": "the code violates the property; the failure is proved"},
{"property": "C06", "status": "proved", "theorems": ["c06_leaf_numbering"], "note": ""},
{"property": "C07", "status": "proved", "theorems": ["c07_history_independent"], "note": ""},
{"property": "C08", "status": "proved", "theorems": ["c08_second_problem_breaks_first", "c08_first_stays_usable_refuted", "c08_silent_aliasing_refuted"], "note": "the code violates the intended property; the failure is proved for every state and problem"},
{"property": "C09", "status": "proved", "theorems": ["c09_composite_evaluation", "c09_function_arithmetic", "c09_zero_weight_difference_refuted", "c09_zero_weight_sum_refuted"], "note": "For regular programs (nonzero numeric weights, evaluation points without stored zeros); the two refuted theorems show what happens with zero weights."},
{"property": "C10", "status": "proved", "theorems": ["c10_reused_gradient", "c10_one_record_per_point"], "note": "Regular programs."},
{"property": "C11", "status": "proved", "theorems": ["c11_fresh_subgradient_same_value"], "note": "Regular programs."},
{"property": "C12", "status": "proved", "theorems": ["c12_stationary_point", "c12_zero_subgradient_minimises"], "note": "Regular programs."},
{"property": "C13", "status": "proved", "theorems": ["c13_proximal_step", "c13_prox_is_minimiser", "c13_subgrad_conjugate", "c13_conjugate_is_maximiser"], "note": "Regular programs; step size not identically zero."},
{"property": "C14", "status": "proved", "theorems": ["c14_convex_constraints_hold"], "note": ""},
{"property": "C15", "status": "proved", "theorems": ["c15_strongly_convex_constraints_hold"], "note": ""},
{"property": "C16", "status": "proved", "theorems": ["c16_smooth_constraints_hold"], "note": ""},
{"property": "C17", "status": "proved", "theorems": ["c17_constraints_exact", "c17_problem_exact", "c17_bound_exact"], "note": "For every reachable program, every class with meaningful constants (0<=mu, 0<=mu<L) and every assignment of vectors and values: the generated constraints hold iff a function of the class has those samples (maximum of quadratics; Moreau envelope for the smooth class). c17_problem_exact and c17_bound_exact lift this to the matrices of the whole problem and to bounds on the metric."},
{"property": "C18", "status": "proved", "theorems": ["c18_constraint_enumeration", "c18_stored_under_key"], "note": ""},
{"property": "C19", "status": "proved", "theorems": ["c19_repeated_solve", "c19_repeated_solve_refuted"], "note": "the code violates the property; exact behaviour proved"},
{"property": "C20", "status": "proved", "theorems": ["c20_class_selection", "c18_constraint_enumeration", "c20_equal_constants_fail", "c20_all_mu_le_L_refuted"], "note": "holds for mu < L; the case mu = L is refuted"},
{"property": "C21", "status": "proved", "theorems": ["c21_aggregated_matrices"], "note": ""},
{"property": "C22", "status": "proved", "theorems": ["c22_multiplier_names", "c22_dual_names"], "note": ""},
{"property": "C23", "status": "proved", "theorems": ["c23_solve_ipopt_sound", "c23_returned_values", "c23_solve_ipopt_complete", "c23_solve_ipopt_optimal"], "note": "Soundness, the returned dictionary, and the converse: every certificate gives a feasible assignment, and an optimal assignment has the largest certified objective."},
{"property": "C24", "status": "proved", "theorems": ["c24_qcqp_sound", "c24_returned_values", "c24_side_conditions", "c24_qcqp_complete", "c24_qcqp_optimal", "c24_qcqp_needs"], "note": "parameters distinct, without underscore and not named like multipliers"},
{"property": "C25", "status": "proved", "theorems": ["c25_vector_constraints", "c25_matrix_constraints", "c25_same_points", "c25_same_objective", "c25_matrix_sound", "c25_matrix_complete", "c25_signs_refuted"], "note": "the sign constraints of the two programs differ"},
{"property": "C26", "status": "proved", "theorems": ["c26_fix_sdp_sound", "c26_fix_sdp_exact", "c26_fix_sdp_total"], "note": "Feasible points of the cvxpy problem; numerical tolerance of the solver is not modelled."},
{"property": "C27", "status": "proved", "theorems": ["c27_coefficient_matrices", "c27_coefficients_total", "c27_duplicate_params_refuted"], "note": ""},
{"property": "C28", "status": "proved", "theorems": ["c28_prefix_closed", "c28_determined", "c28_program"], "note": ""},
{"property": "C29", "status": "proved", "theorems": ["c29_linearize_collapse"], "note": ""},
{"property": "C30", "status": "proved", "theorems": ["c30_coefficients_reject_underscores", "c30_underscores_refuted"], "note": "The original claim (rejected or treated correctly) is false of linearize_expression and solve_ipopt: refuted with a witness."},
{"property": "C31", "status": "proved", "theorems": ["c31_auxiliary_variables_pinned"], "note": ""},
{"property": "C32", "status": "proved", "theorems": ["c32_element", "c32_matrix", "c32_flatten", "c32_positions"], "note": ""},
{"property": "C33", "status": "proved", "theorems": ["c33_selection_is_slice", "c33_partition"], "note": ""},
{"property": "C34", "status": "proved", "theorems": ["c34_round_trip", "c34_round_trip_back", "c34_flatten_order", "c34_constraint_order", "c34_empty_refuted"], "note": ""},
{"property": "C35", "status": "proved", "theorems": ["c35_diagonal"], "note": ""},
{"property": "C36", "status": "proved", "theorems": ["c36_first_reported", "c36_verified", "c36_exhausted_refuted"], "note": "The solver is an arbitrary function from iterations and problems to outcomes; c36_verified assumes that \"optimal\" is only reported for feasible problems. The original claim that the returned eta was always verified is refuted."},
{"property": "C37", "status": "proved", "theorems": ["c37_bounds_exact", "c37_unknown_first_name_fails", "c37_bounds_exact_refuted"], "note": "The original claim for all dictionaries is refuted: a misspelt later name bounds the previous variable."},
{"property": "C38", "status": "proved", "theorems": ["c38_check_degree", "c38_metric_unchecked", "c38_metric_refuted"], "note": "The claim that the metric is checked is false and refuted; the check itself is right on sympy expressions."},
{"property": "C39", "status": "proved", "theorems": ["c39_point_eval", "c39_expr_eval", "c39_constraint_eval", "c39_eval_refuted", "c39_eval_value"], "note": "The documented behaviour is false and refuted."},
{"property": "C40", "status": "proved", "theorems": ["c40_reciprocals", "c40_reciprocals_refuted"], "note": "The original claim for all names is refuted by invinvX."},
{"property": "C41", "status": "proved", "theorems": ["c41_same_parameters", "c41_fix_same", "c41_unpack", "c41_ipopt_triple", "c41_signs_refuted", "c41_triple_refuted"], "note": "The unrestricted claims (same feasible sets without the lower bounds; always a triple) are refuted."},
{"property": "C42", "status": "proved", "theorems": ["c42_relax_bound", "c42_relax_bound_key", "c42_gp_multipliers", "c42_gp_refuted"], "note": "The original claim is refuted for both solvers; the theorems say how they fail."},
{"property": "C43", "status": "proved", "theorems": ["c43_relaxation", "c43_relaxes_ipopt", "c43_upper_bound", "c43_constraints"], "note": ""},
{"property": "C44", "status": "proved", "theorems": ["c44_gradient_flow_builder", "c44_convergence"], "note": "Examples c44_case, c44_feasible (a real certificate), c44_gradient_descent, c44_trajectory_case"},
{"property": "C45", "status": "proved", "theorems": ["c45_tuneC_builder", "c45_accelerated_builder", "c45_tuneRLC_builder", "c45_ppm_builder", "c45_prox_gradient_builder", "c45_douglas_rachford_builder", "c45_davis_yin_builder", "c45_admm_consensus_proof_builder", "c45_dgd_line3_builder", "c45_diffusion_line3_builder", "c45_pg_extra_l3_builder", "c45_dadmm_l3_builder", "c45_dadmm_cycle4_builder", "c45_dadmm_graph6_builder", "c45_dadmm_C_graph6_builder", "c45_example_fC3RC_builder", "c45_readme_builder", "c45_primal_decomposition_builder", "c45_dual_decomposition_builder", "c45_admm_consensus_builder", "c45_admm_euler_builder", "c45_certificate", "c45_primal_convergence", "c45_readme_convergence"], "note": "Examples c45_cases, c45_primal_trajectory_case, c45_readme_trajectory_case"},
{"property": "C46", "status": "proved", "theorems": ["c46_dual_decomposition", "c46_admm_consensus", "c46_admm_middle_stage_refuted", "c46_admm_euler", "c46_no_function", "c46_one_function"], "note": "the middle stage of admm_consensus is refuted; Example c46_cases"},
{"property": "C47", "status": "proved", "theorems": ["c47_edge_currents"], "note": "Any graph, operators into R^d, parameters; the capacitor edge of cir_dadmm_c keeps equal potentials only."},
{"property": "C48", "status": "proved", "theorems": ["c48_fixed_points_optimal", "c48_optima_are_fixed"], "note": "All three variants, including the capacitor edge."},
{"property": "C49", "status": "proved", "theorems": ["c49_same_method", "c49_isolated_node"], "note": "Equality of whole outputs; isolated nodes raise ZeroDivisionError."},
{"property": "C50", "status": "proved", "theorems": ["c50_dual_sum", "c50_fixed_points_optimal", "c50_optima_are_fixed"], "note": ""},
{"property": "C51", "status": "proved", "theorems": ["c51_capacitor_zero", "c51_currents_antisymmetric"], "note": "Equality of whole outputs."},
{"property": "C52", "status": "proved", "theorems": ["c52_metropolis", "c52_metropolis_too_small", "c52_self_loop_refuted"], "note": "A self loop breaks the row sums (refuted witness)."},
{"property": "C53", "status": "proved", "theorems": ["c53_halfspace", "c53_halfspace_defined", "c53_halfspace_degenerate", "c53_distance", "c53_distance_nan", "c53_distance_refuted", "c53_distance_sc", "c53_soft_threshold", "c53_quadratic", "c53_grad_quadratic", "c53_grad_least_squares"], "note": "nan at z = b although the prox exists (refuted witness)."},
{"property": "C54", "status": "proved", "theorems": ["c54_const_coeff", "c54_const_coeff_total", "c54_linear_matrix", "c54_linear_matrix_total", "c54_unknown_refuted"], "note": ""},
{"property": "C55", "status": "proved", "theorems": ["c55_symm_prod_one_hot", "c55_symm_prod", "c55_one_hot", "c55_prod_one_hot", "c55_stack_vectors", "c55_stack_vectors_total", "c55_stack_empty_refuted", "c55_out_of_range_refuted", "c55_gp_trace"], "note": ""},
{"property": "C56", "status": "proved", "theorems": ["c56_split", "c56_clip"], "note": "The eigendecomposition and the sort are parameters satisfying their specification."},
{"property": "C57", "status": "proved", "theorems": ["c57_grid_search", "c57_grid_errors", "c57_short_run_refuted"], "note": ""},
{"property": "C58", "status": "proved", "theorems": ["c58_equal_complete", "c58_equal_sound"], "note": ""},
{"property": "C59", "status": "proved", "theorems": ["c59_dadmm_reports", "c59_pg_reports"], "note": ""},
{"property": "C60", "status": "proved", "theorems": ["c60_objective_gap", "c60_error", "c60_consensus"], "note": ""},
{"property": "C61", "status": "proved", "theorems": ["c61_objective_gap", "c61_error", "c61_steps", "c61_metropolis"], "note": ""},
{"property": "C62", "status": "proved", "theorems": ["c62_sensing_is_pg_extra", "c62_sensing", "c62_sensing_reference", "c62_quadratic_programme", "c62_median", "c62_median_without_nan", "c62_median_nan", "c62_anorm"], "note": ""},
{"property": "C63", "status": "proved", "theorems": ["c63_certificate_exact", "c63_fix_sdp_exact", "c63_ipopt_exact", "c63_ipopt_best", "c63_builder_exact", "c63_without_strict_point_refuted"], "note": "Strong duality under a strictly feasible point, combined with exactness of the interpolation inequalities; the refuted theorem shows that the strict point is needed. Non-vacuity: gradient flow with mu = 0, L = 1 for almost all parameter values."},
{"property": "C64", "status": "proved", "theorems": ["c64_modes_agree", "c64_missing_key", "c64_verified", "c64_zero_or_unbounded", "c64_exact"], "note": "PEPit's point, expression, function and problem classes are modelled by ciropt's own copies of them; what PEPit computes is taken to be the least upper bound of the values of the metric. Cases: c64_gradient_descent, c64_too_fast, c64_exact_case."},
{"property": "C65", "status": "proved", "theorems": ["c65_gradient_descent", "c65_gradient_descent_strong", "c65_gradient_descent_returned", "c65_gradient_descent_accepted", "c65_proximal_point", "c65_proximal_point_returned"], "note": "The acceptance half is for beta = 1 and alpha not 0 or 1: otherwise two recorded points coincide and the constraints cannot hold strictly."},
{"property": "C66", "status": "proved", "theorems": ["c66_strict", "c66_exact", "c66_verified", "c66_gradient_flow", "c66_proximal_point", "c66_dadmm_C", "c66_primal_decomposition", "c66_dual_decomposition"], "note": "A strictly feasible point is constructed by running the builder on quadratics (forward judgement U). c66_cases: all sixteen methods move at one parameter vector."}
]}
