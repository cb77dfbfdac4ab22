# Formal model of `ciropt` in Rocq (Coq 8.16.1)

## 1. Shape of the model

Source: `/repo/ciropt/*.py` and the numerical experiments in `/repo/opt_problems/*.py`.
Every definition in a `*Model.v` file carries a comment with the file and lines it models, and says where it simplifies.
`*Spec.v` files hold the vocabulary of the statements (textbook notions, written without the helpers of the model),
`*Facts.v`/`*Proof.v`/`*Props.v` files hold proofs, `Props_*.v` files hold the property theorems with `Print Assumptions`
and an `Example` with a concrete case that meets the hypotheses.

| files | what they model or state |
|---|---|
| `Prelude.v`, `Sympy.v` | Python dictionaries (insertion ordered), exceptions as values, vectors; symbolic scalars `sexpr` with denotation `ev` |
| `AlgebraModel.v`, `Denote.v` | `point.py`, `expression.py`, `constraint.py`; meaning of points and expressions under a valuation |
| `FunctionModel.v`, `SessionModel.v` | `function.py` with the class-level state; programs = arbitrary lists of API calls, failures included |
| `CircuitModel.v`, `SymSpec.v` | `circuit_opt.py`: problem, `_expression_to_matrix`, `circuit_symbolic_matrices` |
| `Spec.v`, `ClassSpec.v`, `CertSpec.v`, `StateSpec.v`, `FunctionSpec.v` | convexity, smoothness, subgradients; certificates; reachable states |
| `ParsingModel.v`, `SolverModel.v` | `sympy_parsing.py`, `sympy_to_solvers.py`, `solve_ipopt` |
| `QcqpModel.v`, `UtilModel.v` | `solve_ipopt_qcqp`, `solve_ipopt_qcqp_matrix`, packing and selection helpers of `utils.py` |
| `SdpModel.v`, `ExtraModel.v` | `solve_fix_discr_sdp`, bisection, the relaxations and the other solvers of `extra_methods.py`, dispatch in `solve` |
| `MiscModel.v` | `eval`, degree check, `equal_expression`, `matrix_to_diff_psd`, linear coefficients, grid search, quadratic-form helpers |
| `BuilderModel.v` | `gradient_flow_circuit` and the 20 other builders of `classical_*_vi.py`, `new_algorithms_vi.py`, the README program |
| `BuilderSpec.v`, `BuilderUseSpec.v` | what a run of each discretised circuit is, in vectors only |
| `MethodModel.v` | `discretized_methods.py`, `decentr_*.py`: `dadmm`, `cir_dadmm`, `cir_dadmm_c`, `pg_extra`, `pg_extra_par_c`, the specialised loops, networkx graphs, Metropolis weights, prox formulas |
| `MethodSpec.v`, `ProxSpec.v`, `MethodRunSpec.v` | networks, proximal operators, optima, convergence of reports |
| `DualitySpec.v` | strictly feasible data, validity of a bound at given parameter values (C63) |
| `VerifySpec.v` | the 21 builders with their two modes, worst case of a problem (C64) |
| `StrictSpec.v`, `StrictProps.v`, `StrictSum.v`, `StrictBuild.v`, `StrictMulti.v`, `StrictNet.v`, `StrictLoop.v`, `StrictDual.v` | quadratics, the points a step evaluates, the forward judgement `U` that follows a builder on quadratics and collects its records, strict feasibility of the six one-function builders, of proximal gradient, Douglas-Rachford and Davis-Yin, of five consensus builders, and of primal and dual decomposition with any number of functions (C66) |
| `TextbookProps.v` | rates of gradient descent and of the proximal point method, with the functions that attain them (C65) |

Modelling decisions:

* **Scalars.** Python numbers and sympy objects are one syntax `sexpr` (rational numerals, symbols, sums, products) with denotation
  `ev : (string -> R) -> sexpr -> R`. `sp.simplify` is an *oracle*; theorems quantify over every oracle satisfying `sympy_ok`
  (keeps the value, invents no symbol, ...), and `sympy0` is a proved instance, so the hypothesis is satisfiable. `sp.Poly` is a concrete expanded normal form.
  Floats are exact rationals, or reals in the methods.
* **State.** Class attributes (`Point.counter`, `Function.list_of_functions`, ...) are one record; a method is `state -> res A * state` and the state survives an exception as in Python.
* **Programs.** "Every reachable state" is `se_st (run SY session0 l)` for an arbitrary list `l` of operations (declare, evaluate, arithmetic, constraints, reset, new problem, solve).
* **Solvers.** The code that builds a nonlinear, quadratic or semidefinite programme produces a list of constraints over variables. The numerical solver is not modelled: theorems quantify over every feasible assignment.
* **Vectors** are `nat -> R` read on coordinates `< d`; the dimension `d` is universally quantified everywhere.

## 2. How each property is treated

| id | modelled | proof |
|---|---|---|
| C01-C03 | dictionaries, Point/Expression operators | denotation lemmas by induction on dictionaries, for every sound `simp` |
| C04, C05 | `_expression_to_matrix` | induction on the dictionary; constants are lost (refuted) |
| C06-C08 | class-level counters, reset, second problem | invariant over all programs; renaming simulation for history independence; C08 refuted |
| C09-C13 | `Function` methods | invariant on regular programs (see 3); refutations with zero weights |
| C14-C16 | `add_class_constraints` | real analysis from the textbook definitions (descent lemma by the mean value theorem) |
| C17 | the same | converse: maximum of quadratics, and for the smooth class the Moreau envelope of a maximum of affine functions (existence of the proximal point by an averaged subgradient method and completeness of R); lifted to the matrices of the whole problem |
| C18, C19, C21, C22 | `circuit_symbolic_matrices`, names | list induction; solving twice refuted |
| C20 | `def_function` | case analysis; `mu = L` refuted (ZeroDivisionError) |
| C23-C26 | the four programmes | weak duality (soundness) and the converse (completeness, optimality), for every feasible assignment |
| C27-C31, C54 | parsing, linearisation, casadi translation | polynomial denotation, string split/join; underscores refuted |
| C32-C35, C55 | index arithmetic, selection, packing | induction, sums; empty inputs refuted |
| C36 | bisection with an arbitrary solver outcome per iteration | induction; exhaustion refuted |
| C37-C42 | bounds, degree check, `eval`, reciprocals, dispatch, auxiliary solvers | case analysis with refutation witnesses |
| C43 | the SDP relaxation | every feasible QCQP point lifts |
| C44-C46 | builders | simulation: every run of the circuit gives a valuation, so a certificate bounds the run; trajectories by induction; currents for any number of functions |
| C47-C49, C51, C59 | `dadmm`, `cir_dadmm`, `cir_dadmm_c`, `pg_extra_par_c` | invariants over iterations, equality of whole outputs |
| C48, C50 | fixed points | fixed point iff optimum, both directions |
| C52 | Metropolis weights | real algebra; self loops refuted |
| C53 | closed-form prox | subgradient characterisation; nan refuted |
| C56-C58 | eigenvalue split, grid search, polynomial comparison | relative to the specification of the eigendecomposition; list induction |
| C60-C62 | convergence of the numerical methods | Lyapunov functions, summability, limits; nan dichotomy for the geometric median |
| C63 | the programmes of `solve_ipopt`, `solve_fix_discr_sdp` | theorem of alternatives for cones with an interior point (one multiplier at a time), self-duality of the semidefinite cone, realisation of Gram matrices by functions of the classes (C17) |
| C64 | verification mode of the builders (`params` given) | the builder logic with numbers in place of symbols; the values of a metric form a cone; a motionless run of every method |
| C65 | gradient_flow_circuit and ppm_circuit with the parameters of the textbook methods | sufficiency from the interpolation inequalities of the class; necessity from one-dimensional functions (a quadratic, a ramp with slope 1, the absolute value); then C63 and C64 |
| C66 | the six builders of one function without equality constraints; primal decomposition of any number of functions; dual decomposition of any number of functions, proximal gradient, Douglas-Rachford, Davis-Yin, `admm_consensus_proof`, `pg_extra_l3`, `decentralized_admm_cycle4`, `decentralized_admm_graph6` and `dadmm_C_graph6` with smooth classes (their equality constraints are 0 = 0 whatever the functions, because each gradient is reused) | run each builder on quadratics q x^2/2 with q strictly inside the class: at pairwise different points every interpolation constraint is strict; then C63 and C64. Two of the points coincide identically only for the excluded parameter values, since the differences are polynomials of degree at most 2 in the curvature |

Not expressible: convergence of Ipopt/CLARABEL to a feasible point, floating point error, run time, plotting, PEPit's own solver.

## 3. Hypotheses that appear in the theorems

* `sympy_ok SY`: what is assumed of `sp.simplify` and polynomial expansion. `sympy0_ok` proves an instance.
* `regular` programs (C09-C13): component weights are non-zero numbers, evaluation points store no zero weight, a triplet object is not added twice. The refuted theorems of C09 show what happens otherwise.
* `class_params_ok`: `0 <= mu`, and `mu < L` for the smooth class. `mu = L` is C20.
* `constant_free`: metric, constraints and recorded values hold no numerical constant except zero (C05 says why).
* `good_param`: a parameter name has no underscore and does not start with `lamb` or `nu` (C30 says why).
* `strictly_feasible` (C63): some data meet all constraints strictly at the given parameter values, except that a constraint may be 0 = 0 or 0 <= 0 whatever the data. C66 constructs it for sixteen builders at all parameter values at which the method moves (`moves`; the five consensus builders move always); for the other builders it stays a hypothesis; `c63_without_strict_point_refuted` shows it is needed.
* Non-zero denominators in the builders (`R`, `C`, `L`, `rho`).
* For the methods: the graph has nodes 1..n and no self loop, is connected where convergence is claimed, `prox j` is the proximal operator of `phi j`, an optimum exists, the step sizes are in the usual range (`good_steps`, `mixing`). `MethodExamples.v` gives concrete data for all of them.

## 4. Where code and property disagree

The properties in `properties.jsonl` were written from the documentation and the code. The following were found false of the faithful model; each is proved as a `_refuted` theorem with a witness, and the theorem beside it says what does hold.

* C05: a constant term of the metric or of a constraint is silently dropped by the Gram representation.
* C08: constructing a second problem resets the class counters, so the first problem fails or silently aliases the second.
* C09: a component with weight zero (from `f - f` or `0*f`) makes evaluation fail or record a spurious component.
* C19: a problem cannot be assembled twice (AssertionError).
* C20: `mu = L` is accepted and then divides by zero.
* C25/C41: the vector and the matrix QCQP have different sign constraints; `solve` does not always return a triple.
* C27: duplicate parameter names. C30: underscores in names. C34/C55: empty lists raise. C54: unknown names raise.
* C36: when the iterations are exhausted the returned eta was never verified.
* C37: a misspelt later name in `bounds` bounds the previous variable.
* C38: the degree of the metric is never checked. C39: `eval` never works on leaves. C40: `invinvX`. C42: two auxiliary solvers address missing variables. C57: a run shorter than the window.
* C46: in `admm_consensus` the inductor currents of the middle stage do not sum to zero.
* C52: a self loop breaks the row sums of the Metropolis matrix. C53: the prox of the distance is nan at `z = b` although it exists.
* C63: the square equalities with which some builders identify points leave no strictly feasible point, and then a valid rate need not have a certificate.

Further observations on the code (not claims): `dual_decomposition` and `prox_gradient` draw new subgradients that are not tied to the optimality condition when `f` is not differentiable;
builders with zero or one function fail (C46); `diffusion_line3`'s docstring has another `W`; `cir_dadmm_c` hard-codes the capacitor edge (3, 4);
`f_reldiff` divides by `f_star` without absolute value; `const_vio` of `dadmm` stays empty; `declare_function(..., L=inf)` of the smooth class registers the object before the assertion;
`graph_generation(n)` for `n < 20` raises IndexError and for `n > 20` leaves nodes without edges.

## 5. What is and is not modelled

* `ciropt/point.py`, `expression.py`, `constraint.py`, `function.py`, `circuit_opt.py`: all methods except pretty printing, timing and verbose output.
  Division by a *symbolic* denominator is rejected by the model (the code builds `1/x`, on which every consumer fails).
* `sympy_parsing.py`, `sympy_to_solvers.py`, `utils.py`, `extra_methods.py`: all functions that build data or constraints.
  Not modelled: Opti's rejection of constraints without decision variables, numpy broadcasting beyond what the callers use, float `sqrt` in index recovery (exact integer root in the model),
  underflow in `eta / 2**n`, `sp.Poly` of a constant raising `GeneratorsNeeded`, gurobipy's absence (assumed installed), solver options and printed output.
* `classical_central_vi.py`, `classical_decentral_vi.py`, `new_algorithms_vi.py`: both modes (`params is None` and `params` a dictionary). In verification mode the classes of PEPit are modelled by the copies of them that ciropt contains (ciropt is a fork of PEPit and the builders use the same methods of both), `PEPit.PEP()` by the reset that `CircuitOpt()` makes, and the result of PEPit's `solve` by the least upper bound of the metric (`worst_case`). Dictionaries with other values than numbers are not modelled; division by zero is excluded by hypothesis.
* `discretized_methods.py`, `opt_problems/decentr_*.py`: the loops over exact reals, with nan as a value where numpy divides by zero in a prox.
  Not modelled: what numpy computes after the first nan, svd-based `Vred`/`Sred`, `op_norm`, `Minner`/`Mnorm`, cvxpy reference solutions (a parameter of the theorems), random `data_generation`, missing keys of `params`, unknown `alg_type`.
* `setup.py`, notebooks, tests: not modelled. The programs in the notebooks are calls of the builders.

## 6. Trusted base

* Coq's kernel (8.16.1) and the reading of the Python source documented in the comments of the model.
* Axioms: none of our own. `Print Assumptions` under every property theorem lists only the standard library's
  `ClassicalDedekindReals.sig_forall_dec`, `ClassicalDedekindReals.sig_not_dec`, `FunctionalExtensionality.functional_extensionality_dep` and `Classical_Prop.classic`. Section 8 lists the set for every theorem.
* No functors, module types, `Declare Module`, plugins, `Admitted` or switched-off checks.

## 7. Tests against wrong programs

`seeded/LOG.jsonl` records each edit of the model, the claim it breaks and the theorems that failed. The edits are made in a scratch copy, never here.
They cover every model file; an edit that leaves all claims true is logged as harmless.

## 8. Assumptions of each theorem

* no axioms: c06_leaf_numbering, c07_history_independent, c08_first_stays_usable_refuted, c08_second_problem_breaks_first, c08_silent_aliasing_refuted, c19_repeated_solve, c19_repeated_solve_refuted, c20_all_mu_le_L_refuted, c20_class_selection, c20_equal_constants_fail, c22_dual_names, c30_coefficients_reject_underscores, c32_positions, c33_partition, c34_empty_refuted, c34_flatten_order, c34_round_trip, c34_round_trip_back, c37_unknown_first_name_fails, c38_metric_refuted, c38_metric_unchecked, c39_eval_refuted, c39_point_eval, c41_ipopt_triple, c41_unpack, c42_gp_refuted, c42_relax_bound, c46_no_function.
* `ClassicalDedekindReals.sig_forall_dec`: c32_flatten, c55_stack_empty_refuted, c55_stack_vectors_total.
* `ClassicalDedekindReals.sig_forall_dec`, `FunctionalExtensionality.functional_extensionality_dep`: c01_point_arithmetic, c02_inner_products, c03_expression_arithmetic, c04_gram_representation, c05_constants_lost, c05_constants_survive_refuted, c09_composite_evaluation, c09_function_arithmetic, c09_zero_weight_difference_refuted, c09_zero_weight_sum_refuted, c10_one_record_per_point, c10_reused_gradient, c11_fresh_subgradient_same_value, c12_stationary_point, c12_zero_subgradient_minimises, c13_conjugate_is_maximiser, c13_prox_is_minimiser, c13_proximal_step, c13_subgrad_conjugate, c18_constraint_enumeration, c18_stored_under_key, c21_aggregated_matrices, c22_multiplier_names, c23_returned_values, c27_coefficient_matrices, c27_coefficients_total, c27_duplicate_params_refuted, c28_determined, c28_prefix_closed, c29_linearize_collapse, c30_underscores_refuted, c31_auxiliary_variables_pinned, c32_element, c32_matrix, c33_selection_is_slice, c34_constraint_order, c35_diagonal, c36_exhausted_refuted, c36_first_reported, c37_bounds_exact, c37_bounds_exact_refuted, c38_check_degree, c39_constraint_eval, c39_eval_value, c39_expr_eval, c40_reciprocals, c40_reciprocals_refuted, c42_gp_multipliers, c44_gradient_flow_builder, c45_accelerated_builder, c45_admm_consensus_builder, c45_admm_consensus_proof_builder, c45_admm_euler_builder, c45_dadmm_C_graph6_builder, c45_dadmm_cycle4_builder, c45_dadmm_graph6_builder, c45_dadmm_l3_builder, c45_davis_yin_builder, c45_dgd_line3_builder, c45_diffusion_line3_builder, c45_douglas_rachford_builder, c45_dual_decomposition_builder, c45_example_fC3RC_builder, c45_pg_extra_l3_builder, c45_ppm_builder, c45_primal_decomposition_builder, c45_prox_gradient_builder, c45_readme_builder, c45_tuneC_builder, c45_tuneRLC_builder, c46_admm_consensus, c46_admm_euler, c46_admm_middle_stage_refuted, c46_dual_decomposition, c46_one_function, c47_edge_currents, c48_fixed_points_optimal, c48_optima_are_fixed, c50_dual_sum, c50_fixed_points_optimal, c50_optima_are_fixed, c51_currents_antisymmetric, c52_metropolis, c52_metropolis_too_small, c52_self_loop_refuted, c53_grad_least_squares, c53_grad_quadratic, c53_halfspace, c53_halfspace_defined, c53_halfspace_degenerate, c53_quadratic, c53_soft_threshold, c54_const_coeff, c54_const_coeff_total, c54_linear_matrix, c54_linear_matrix_total, c54_unknown_refuted, c55_gp_trace, c55_one_hot, c55_out_of_range_refuted, c55_prod_one_hot, c55_stack_vectors, c55_symm_prod, c55_symm_prod_one_hot, c57_grid_errors, c57_grid_search, c57_short_run_refuted, c58_equal_complete, c58_equal_sound, c61_metropolis, c62_sensing_is_pg_extra, c63_without_strict_point_refuted, c64_missing_key, c64_modes_agree, c65_proximal_point, c66_strict.
* `ClassicalDedekindReals.sig_forall_dec`, `ClassicalDedekindReals.sig_not_dec`, `FunctionalExtensionality.functional_extensionality_dep`: c23_solve_ipopt_complete, c23_solve_ipopt_optimal, c49_isolated_node, c49_same_method, c51_capacitor_zero, c53_distance, c53_distance_nan, c53_distance_refuted, c53_distance_sc, c56_clip, c56_split, c59_dadmm_reports, c59_pg_reports, c60_consensus, c60_error, c60_objective_gap, c62_median_nan.
* `ClassicalDedekindReals.sig_forall_dec`, `Classical_Prop.classic`, `FunctionalExtensionality.functional_extensionality_dep`: c24_qcqp_needs, c24_returned_values, c24_side_conditions, c25_matrix_constraints, c25_same_objective, c25_same_points, c25_signs_refuted, c25_vector_constraints, c26_fix_sdp_total, c28_program, c41_signs_refuted, c41_triple_refuted, c42_relax_bound_key, c43_constraints, c43_relaxation, c43_upper_bound, c64_zero_or_unbounded.
* `ClassicalDedekindReals.sig_forall_dec`, `ClassicalDedekindReals.sig_not_dec`, `Classical_Prop.classic`, `FunctionalExtensionality.functional_extensionality_dep`: c14_convex_constraints_hold, c15_strongly_convex_constraints_hold, c16_smooth_constraints_hold, c17_bound_exact, c17_constraints_exact, c17_problem_exact, c23_solve_ipopt_sound, c24_qcqp_complete, c24_qcqp_optimal, c24_qcqp_sound, c25_matrix_complete, c25_matrix_sound, c26_fix_sdp_exact, c26_fix_sdp_sound, c36_verified, c41_fix_same, c41_same_parameters, c43_relaxes_ipopt, c44_convergence, c45_certificate, c45_primal_convergence, c45_readme_convergence, c61_error, c61_objective_gap, c61_steps, c62_anorm, c62_median, c62_median_without_nan, c62_quadratic_programme, c62_sensing, c62_sensing_reference, c63_builder_exact, c63_certificate_exact, c63_fix_sdp_exact, c63_ipopt_best, c63_ipopt_exact, c64_exact, c64_verified, c65_gradient_descent, c65_gradient_descent_accepted, c65_gradient_descent_returned, c65_gradient_descent_strong, c65_proximal_point_returned, c66_dadmm_C, c66_dual_decomposition, c66_exact, c66_gradient_flow, c66_primal_decomposition, c66_proximal_point, c66_verified.
