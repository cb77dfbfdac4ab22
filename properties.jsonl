{"id": "C01", "title": "Point arithmetic denotes vector arithmetic", "statement": "For points p,q and a scalar c (number or sympy polynomial), the points p+q, p-q, -p, c*p, p*c, p/c denote exactly the vectors p+q, p-q, -p, c p, c p, (1/c) p.", "quantifier": "all points with any decomposition over leaves, all scalars, all values of the leaf vectors in any dimension, all parameter values", "why_tests_cant": "infinitely many decompositions, scalars and leaf values; merging/pruning of dictionaries must never lose or duplicate a term", "anchors": ["ciropt/point.py:Point.__add__,__sub__,__neg__,__rmul__,__mul__,__truediv__", "ciropt/sympy_parsing.py:merge_dict,prune_dict"]}
{"id": "C02", "title": "Products of points denote inner products", "statement": "p*q denotes the inner product of the two vectors, p*q and q*p denote the same number, p**2 denotes the squared norm and is never negative.", "quantifier": "all points, all leaf values, all dimensions, all parameter values", "why_tests_cant": "bilinear expansion over dictionaries of unbounded size", "anchors": ["ciropt/point.py:Point.__rmul__,__pow__", "ciropt/sympy_parsing.py:multiply_dicts"]}
{"id": "C03", "title": "Expression arithmetic denotes real arithmetic", "statement": "For expressions a,b and scalar c: a+b, a-b, -a, c*a, a/c, a+k, k-a (k a number) denote the corresponding real numbers, constants included.", "quantifier": "all expressions, scalars, leaf values and parameter values", "why_tests_cant": "unbounded number of expressions", "anchors": ["ciropt/expression.py:Expression.__add__,__radd__,__sub__,__rsub__,__neg__,__rmul__,__truediv__"]}
{"id": "C04", "title": "Gram representation is exact and symmetric", "statement": "For an expression with no constant term whose leaves belong to the current problem, the pair (Fweights, Gweights) satisfies expression = sum_k Fweights[k] f_k + sum_ab Gweights[a,b] <x_a,x_b>, Gweights is symmetric, and no index error occurs.", "quantifier": "all constant-free expressions, all leaf values in any dimension, all parameter values", "why_tests_cant": "must hold for every expression and every Gram matrix", "anchors": ["ciropt/circuit_opt.py:CircuitOpt._expression_to_matrix"]}
{"id": "C05", "title": "Constant terms do not survive the Gram representation", "statement": "Intended: an expression such as a metric or constraint with an additive number keeps that number in the optimisation problem handed to the solver. This is FALSE of the code: _expression_to_matrix silently drops the constant, so two expressions that differ by a number give the same matrices, and a metric that is positive everywhere can be 'proved' non-positive. The theorem states the exact behaviour (the matrices represent the expression minus its constant) and exhibits the failure.", "quantifier": "all expressions", "why_tests_cant": "the loss is silent: no exception, the solver just proves another statement", "anchors": ["ciropt/circuit_opt.py:CircuitOpt._expression_to_matrix", "ciropt/expression.py:Expression.__add__"]}
{"id": "C06", "title": "Leaf numbering is a bijection", "statement": "After CircuitOpt() the leaf points (function values) created get the consecutive indices 0,1,2,..., pairwise distinct, and the dimension used by the solvers equals how many were created.", "quantifier": "all sequences of API operations after the constructor", "why_tests_cant": "any history of operations", "anchors": ["ciropt/point.py:Point.__init__", "ciropt/expression.py:Expression.__init__", "ciropt/circuit_opt.py:CircuitOpt._reset_classes"]}
{"id": "C07", "title": "A new problem does not depend on history", "statement": "Whatever was built before, the problem built after CircuitOpt() by a given program yields the same matrices as in a fresh interpreter.", "quantifier": "all prior histories, all programs", "why_tests_cant": "quantifies over all prior histories", "anchors": ["ciropt/circuit_opt.py:CircuitOpt.__init__,_reset_classes"]}
{"id": "C08", "title": "Constructing a second problem breaks the first", "statement": "Intended: after a second CircuitOpt() is created, the first problem still yields the same matrices. This is FALSE of the code: the constructor resets the class counters and lists, so right after it any first problem whose metric mentions a leaf raises an exception on assembly, and once the second problem has leaves the first may assemble silently with the second problem's constraints.", "quantifier": "all states and all problems whose metric mentions a leaf (failure); a witness for silent aliasing", "why_tests_cant": "interference between objects depends on history", "anchors": ["ciropt/circuit_opt.py:CircuitOpt._reset_classes,circuit_symbolic_matrices"]}
{"id": "C09", "title": "Composite functions: gradient and value are the weighted sums", "statement": "Whenever a composite function F = sum_i w_i f_i (non-zero weights) is evaluated, every component f_i gets a record at that point and the returned gradient (value) denotes the weighted sum of the recorded component gradients (values).", "quantifier": "all composites, all evaluation histories, all leaf values", "why_tests_cant": "order and caching of earlier evaluations change which branch computes the gradient", "anchors": ["ciropt/function.py:Function.add_point,oracle,_separate_leaf_functions_regarding_their_need_on_point"]}
{"id": "C10", "title": "Differentiable functions have one gradient per point", "statement": "For classes with reuse_gradient, a second oracle call at the same point returns the same gradient and value and records nothing new.", "quantifier": "all evaluation histories", "why_tests_cant": "history dependent", "anchors": ["ciropt/function.py:Function.oracle,_is_already_evaluated_on_point"]}
{"id": "C11", "title": "Non-differentiable functions have one value and fresh subgradients per point", "statement": "For classes without reuse_gradient a second oracle call at the same point returns the same value and a fresh subgradient.", "quantifier": "all evaluation histories", "why_tests_cant": "history dependent", "anchors": ["ciropt/function.py:Function.oracle"]}
{"id": "C12", "title": "Stationary points have zero gradient", "statement": "stationary_point returns a fresh point with gradient denoting 0, recorded on the function; for a composite the component gradients weighted-sum to 0.", "quantifier": "all functions and histories", "why_tests_cant": "history dependent", "anchors": ["ciropt/function.py:Function.stationary_point"]}
{"id": "C13", "title": "proximal_step and subgrad_conjugate satisfy their defining relation", "statement": "proximal_step(x0,f,g) returns x,gx,fx with x + g*gx = x0 and (x,gx,fx) recorded on f; subgrad_conjugate(gx,f) records (x,gx,f(x)) for the returned x.", "quantifier": "all points, functions, step sizes, leaf values", "why_tests_cant": "all inputs", "anchors": ["ciropt/function.py:proximal_step,subgrad_conjugate"]}
{"id": "C14", "title": "Convex interpolation constraints hold for every convex function", "statement": "If the recorded triples come from a real function with g_i a subgradient at x_i, every generated class constraint is <= 0.", "quantifier": "all functions R^d -> R, all d, all numbers of points", "why_tests_cant": "quantifies over all convex functions", "anchors": ["ciropt/function.py:ConvexFunction.add_class_constraints"]}
{"id": "C15", "title": "Strongly convex interpolation constraints hold for every mu-strongly convex function", "statement": "As C14 for mu-strongly convex functions.", "quantifier": "all mu-strongly convex functions, dimensions, point sets", "why_tests_cant": "quantifies over all functions", "anchors": ["ciropt/function.py:StronglyConvexFunction.add_class_constraints"]}
{"id": "C16", "title": "Smooth strongly convex interpolation constraints hold for every such function", "statement": "As C14 for differentiable functions that are mu-strongly convex with L-Lipschitz gradient, mu < L.", "quantifier": "all such functions, dimensions, point sets", "why_tests_cant": "quantifies over all functions", "anchors": ["ciropt/function.py:SmoothStronglyConvexFunction.add_class_constraints,SmoothConvexFunction"]}
{"id": "C17", "title": "Interpolation constraints are tight", "statement": "For each class, a finite set of vectors and values satisfies the generated constraints if and only if an actual function of the class has those points, subgradients and values; for the whole problem the matrices handed to the solver admit exactly the executions on functions of the declared classes, so a bound on the metric holds for the matrix problem if and only if it holds for all such functions.", "quantifier": "all finite data sets satisfying the constraints", "why_tests_cant": "existence of a function for every data set", "anchors": ["ciropt/function.py:ConvexFunction.add_class_constraints,StronglyConvexFunction.add_class_constraints,SmoothStronglyConvexFunction.add_class_constraints"]}
{"id": "C18", "title": "Constraint enumeration is complete and aligned", "statement": "With n recorded (distinct) triples exactly n(n-1) class constraints are generated and the one stored under key (0,f,i,j) is the inequality between triples i and j.", "quantifier": "all n, all functions", "why_tests_cant": "unbounded n", "anchors": ["ciropt/function.py:*.add_class_constraints", "ciropt/circuit_opt.py:CircuitOpt.circuit_symbolic_matrices"]}
{"id": "C19", "title": "A problem cannot be solved twice", "statement": "Intended: calling the symbolic assembly (any solve) again on the same problem gives the same problem as the first time. This is FALSE of the code: class constraints are appended again and the length assertion fails as soon as a function with at least two records exists; the second assembly succeeds only when no function generates a constraint. Both directions are theorems.", "quantifier": "all problems", "why_tests_cant": "depends on history", "anchors": ["ciropt/circuit_opt.py:CircuitOpt.circuit_symbolic_matrices", "ciropt/function.py:*.add_class_constraints"]}
{"id": "C20", "title": "Function class selection", "statement": "def_function / define_function choose the class from (mu, L) as documented, and class constraints can be generated for every 0 <= mu < L; for mu = L (allowed by the constructor's callers) generation raises ZeroDivisionError as soon as two points are recorded.", "quantifier": "all mu and L including infinity", "why_tests_cant": "all parameter values", "anchors": ["ciropt/function.py:def_function", "ciropt/utils.py:define_function"]}
{"id": "C21", "title": "Aggregated dual matrices equal the multiplier-weighted sum of the constraints", "statement": "For all multipliers, the aggregated F and G matrices paired with any function values / Gram matrix give sum_c lambda_c * (value of constraint c).", "quantifier": "all problems, multipliers, leaf values", "why_tests_cant": "all problems and real multipliers", "anchors": ["ciropt/circuit_opt.py:CircuitOpt.circuit_symbolic_matrices"]}
{"id": "C22", "title": "Multiplier names are collision free and parse back", "statement": "Distinct constraints get distinct multiplier names, and translating a name to solver variables recovers the prefix and the two indices.", "quantifier": "all indices", "why_tests_cant": "unbounded indices", "anchors": ["ciropt/circuit_opt.py:CircuitOpt.circuit_symbolic_matrices", "ciropt/sympy_to_solvers.py:sympy_expression_to_casadi_lamb,find_lambda_nu"]}
{"id": "C23", "title": "solve_ipopt: every feasible point is a descent proof", "statement": "Any assignment satisfying the constraints that solve(solver='ipopt') hands to Ipopt implies: for every dimension and every choice of actual functions in the declared classes and of points consistent with the recorded relations and extra constraints, the performance metric is <= 0 at the returned parameters.", "quantifier": "all problems (constant-free), all feasible assignments, all functions, dimensions and points", "why_tests_cant": "universally quantified mathematical claim", "anchors": ["ciropt/circuit_opt.py:CircuitOpt.solve_ipopt"]}
{"id": "C24", "title": "solve_ipopt_qcqp: every feasible point is a descent proof", "statement": "For solve_ipopt_qcqp: every feasible point of the program handed to Ipopt gives parameters at which the metric is <= 0 for all functions, points and constraints consistent with the recorded data; all declared parameters are returned and satisfy the reciprocal, sign (eta, h, rho, gamma >= 1e-7, which must be declared) and bound constraints; conversely every certificate meeting these side conditions is a feasible point.", "quantifier": "as C23", "why_tests_cant": "universally quantified mathematical claim", "anchors": ["ciropt/circuit_opt.py:CircuitOpt.solve_ipopt_qcqp"]}
{"id": "C25", "title": "The matrix QCQP has the same constraints as the vector QCQP", "statement": "The vectors x that solve_ipopt_qcqp and solve_ipopt_qcqp_matrix accept are described by the same F, G, monomial, reciprocal, multiplier, diagonal and bound constraints, with the same objective; the only difference is that the matrix variant omits eta, h, rho, gamma >= 1e-7 (so it can return h = -1).", "quantifier": "all x, all sizes", "why_tests_cant": "all real vectors and sizes", "anchors": ["ciropt/circuit_opt.py:CircuitOpt.solve_ipopt_qcqp_matrix", "ciropt/utils.py:get_PPt_matrix,get_vec_var"]}
{"id": "C26", "title": "solve_fix_discr_sdp: feasibility is a descent proof at the given parameters", "statement": "If the SDP built by solve_fix_discr_sdp has a feasible point, the metric is <= 0 for every instance at those parameters; feasibility is equivalent to the existence of a dual certificate there. The SDP can be built exactly if there are at least two constraints (a single one raises ValueError).", "quantifier": "all problems and parameter values", "why_tests_cant": "universally quantified mathematical claim", "anchors": ["ciropt/extra_methods.py:solve_fix_discr_sdp"]}
{"id": "C27", "title": "Coefficient matrices reproduce the symbolic matrices", "statement": "For distinct parameters, sp_v_coeff_matrix returns matrices C with C @ v = vec(M) for every entry, where v lists the monomials named in v_names, for all parameter values; it succeeds whenever all symbols are declared parameters without underscore. With a parameter declared twice the rows are wrong.", "quantifier": "all polynomial matrices over declared parameters, all parameter values", "why_tests_cant": "all polynomials", "anchors": ["ciropt/sympy_parsing.py:sp_v_coeff_matrix,vars_to_vector,evaluate_monomial"]}
{"id": "C28", "title": "Linearised monomials are prefix closed and uniquely determined", "statement": "v_names has no duplicates, contains the prefix of every product name, and the quadratic constraints x[name] = x[prefix]*x[last] force x[name] to equal the monomial of the parameters.", "quantifier": "all polynomial matrices", "why_tests_cant": "all polynomials", "anchors": ["ciropt/sympy_parsing.py:sp_v_coeff_matrix", "ciropt/circuit_opt.py:CircuitOpt.solve_ipopt_qcqp"]}
{"id": "C29", "title": "linearize_expression and collapse_expression are mutually inverse", "statement": "collapse_expression(linearize_expression(e)) denotes e for every polynomial e whose symbols contain no underscore, and evaluating the linearised expression with each long symbol set to the product of its parts gives e.", "quantifier": "all polynomials and parameter values", "why_tests_cant": "all polynomials", "anchors": ["ciropt/sympy_parsing.py:linearize_expression,collapse_expression"]}
{"id": "C30", "title": "Symbols with underscores", "statement": "sp_v_coeff_matrix succeeds only if no polynomial it parses has a symbol with an underscore. linearize_expression does not check: it maps a*b and the symbol a_b to the same expression, and solve_ipopt accepts parameters a, b, a_b together, where a feasible assignment need not be a descent proof for the returned parameters.", "quantifier": "all symbol names", "why_tests_cant": "all names", "anchors": ["ciropt/sympy_parsing.py:linearize_expression,sp_v_coeff_matrix"]}
{"id": "C31", "title": "Auxiliary solver variables are pinned to monomials", "statement": "In every assignment satisfying the constraints added by the casadi translation, the translated expression has the value of the sympy expression at the base variables.", "quantifier": "all expressions, all sequences of translations, all assignments", "why_tests_cant": "all expressions and histories of the variable table", "anchors": ["ciropt/sympy_to_solvers.py:ca_linearize_monomial,sympy_expression_to_casadi,sympy_expression_to_casadi_lamb,sympy_matrix_to_casadi"]}
{"id": "C32", "title": "Packed triangular indexing", "statement": "get_PPt_element and get_PPt_matrix on the packed lower triangle give (P P^T)[k1,k2]; flatten_lower_tri packs in that layout.", "quantifier": "all sizes and entries", "why_tests_cant": "all sizes", "anchors": ["ciropt/utils.py:get_PPt_element,get_PPt_matrix,flatten_lower_tri"]}
{"id": "C33", "title": "Selection matrices agree with slices", "statement": "get_vec_var with matrix=True, applied to x, equals get_vec_var with matrix=False; the four index ranges partition x.", "quantifier": "all sizes and vectors", "why_tests_cant": "all sizes", "anchors": ["ciropt/utils.py:get_vec_var", "ciropt/circuit_opt.py:vec_indices"]}
{"id": "C34", "title": "Multiplier flattening round trip", "statement": "reshape_lamb_2d(flatten_lamb(M)) is M with zero diagonal for n >= 1 (and flatten_lamb inverts reshape_lamb_2d), and flatten_lamb order equals the order of the generated constraints: extra inequalities, interpolation inequalities function by function and pair by pair in row-major order, equalities.", "quantifier": "all n >= 1 and matrices", "why_tests_cant": "all sizes", "anchors": ["ciropt/utils.py:flatten_lamb,reshape_lamb_2d"]}
{"id": "C35", "title": "diag(P) >= 0 constrains exactly the diagonal", "statement": "The selection of packed positions used for diag(P) picks the diagonal entries of P.", "quantifier": "all sizes", "why_tests_cant": "all sizes", "anchors": ["ciropt/circuit_opt.py:vec_diag_P_idx"]}
{"id": "C36", "title": "Bisection returns a verified eta", "statement": "solve_bisection_eta returns eta0/2^k for the first k whose SDP was reported optimal, and then the metric is <= 0 at the returned parameters; if no iteration is reported optimal it returns eta0/2^n, which was never tested and need not be valid.", "quantifier": "all feasibility oracles (including failing ones), eta0, iteration limits", "why_tests_cant": "all oracles", "anchors": ["ciropt/extra_methods.py:solve_bisection_eta"]}
{"id": "C37", "title": "Bounds constrain exactly the named variables", "statement": "If every name in the bounds dictionary names a solver variable or an entry of x, an assignment satisfies the constraints after ca_add_bounds exactly if it satisfied them before and every named variable (every entry of it) lies within its bounds. An unknown first name raises; an unknown later name silently bounds the variable of the previous entry.", "quantifier": "all bounds dictionaries", "why_tests_cant": "all dictionaries", "anchors": ["ciropt/utils.py:ca_add_bounds,cvx_add_bounds"]}
{"id": "C38", "title": "The metric degree check: right on sympy expressions, never applied to the metric", "statement": "check_degree_expression accepts a sympy expression exactly when it is a polynomial of total degree at most d. set_performance_metric hands it the Expression object, which it returns unchanged, so every Expression is accepted whatever the degree of its weights (a metric with a cubic weight passes); any other object fails the isinstance assertion.", "quantifier": "all expressions", "why_tests_cant": "the check is vacuous for every input", "anchors": ["ciropt/circuit_opt.py:CircuitOpt.set_performance_metric", "ciropt/sympy_parsing.py:check_degree_expression"]}
{"id": "C39", "title": "eval never works on leaves, also after solve", "statement": "No code stores the value of a leaf, so in every history Point.eval and Expression.eval raise ValueError as soon as a leaf is involved, Constraint.eval raises TypeError instead (its except clause names an instance), eval_dual always raises ValueError; only empty points and constant expressions evaluate. Were the slots filled, Expression.eval would return the meaning of the expression.", "quantifier": "all histories", "why_tests_cant": "no operation in any history sets the value", "anchors": ["ciropt/point.py:Point.eval", "ciropt/expression.py:Expression.eval", "ciropt/constraint.py:Constraint.eval,eval_dual"]}
{"id": "C40", "title": "Reciprocal parameters", "statement": "If every parameter whose name contains \"inv\" is \"inv\"+X with no \"inv\" in X, every feasible assignment of solve_ipopt has X*invX = 1 and X >= 1e-7 for the returned values. With both invX and invinvX declared this fails: the returned X and invX are unrelated.", "quantifier": "all parameter names", "why_tests_cant": "all names", "anchors": ["ciropt/utils.py:inv_discr_params", "ciropt/circuit_opt.py:CircuitOpt.solve_ipopt"]}
{"id": "C41", "title": "Solver choice does not change the set of proofs", "statement": "For parameters with eta, h, rho, gamma >= 1e-7 the three Ipopt formulations accept the same parameter values, namely the certified ones, and solve_fix_discr_sdp is feasible at the same values. solve() returns a triple whose third component is the symbolic matrices exactly for fix_discr_sdp and for successful Ipopt runs; a failed Ipopt run gives four values, bisection two and an unknown solver None. Without the lower bounds the formulations differ.", "quantifier": "all problems and assignments", "why_tests_cant": "all assignments", "anchors": ["ciropt/circuit_opt.py:CircuitOpt.solve,solve_ipopt,solve_ipopt_qcqp,solve_ipopt_qcqp_matrix"]}
{"id": "C42", "title": "Auxiliary solvers address existing variables", "statement": "solve_sdp_relax(var_bound=..) never returns (KeyError for 'lamb_nu'), and solve_gp builds a model only if every interpolation constraint has weight zero, because its multiplier blocks are stored under other names than the ones looked up.", "quantifier": "all problems", "why_tests_cant": "every input fails the same way", "anchors": ["ciropt/extra_methods.py:solve_gp,solve_sdp_relax"]}
{"id": "C43", "title": "The SDP relaxation is a relaxation", "statement": "Every certified choice of parameters within the box imposed by solve_sdp_relax, in particular every feasible point of the nonlinear programs, lifts to a feasible point of the SDP with the same parameters and objective; hence the optimal value of the SDP bounds the objective. The constraints of the SDP are exactly those of the specification relax_point.", "quantifier": "all problems and feasible points", "why_tests_cant": "all points", "anchors": ["ciropt/extra_methods.py:solve_sdp_relax"]}
{"id": "C44", "title": "gradient_flow_circuit proofs are proofs about the algorithm", "statement": "gradient_flow_circuit succeeds and builds a well-formed problem whose metric takes exactly the values E_2 - (E_1 - eta (f(x_1) - f*)) of one step of the two-stage method on functions of the class, in any dimension. Hence a feasible point of the solver's problem at (eta,h,alpha,beta) proves, for every such function, dimension, start and number of steps N, sum_{k<N} eta (f(x_k) - f*) <= E(x_0) - E(x_N).", "quantifier": "all functions, starts, numbers of steps", "why_tests_cant": "universal convergence claim", "anchors": ["ciropt/classical_central_vi.py:gradient_flow_circuit"]}
{"id": "C45", "title": "The other circuit builders encode their documented algorithms", "statement": "Every other builder (tuneC, accelerated gradient and its tuneRLC variant, ppm, prox gradient, dual and primal decomposition, Douglas-Rachford, Davis-Yin, the three consensus ADMM builders, dgd, diffusion, PG-EXTRA, the decentralised ADMM builders, the fC3RC example, the README example) succeeds and its metric takes exactly the values of one step of its method (BuilderSpec); a feasible point of any of the solvers bounds the metric by 0 for every run.", "quantifier": "all functions, starts, steps", "why_tests_cant": "universal claims", "anchors": ["ciropt/classical_central_vi.py", "ciropt/classical_decentral_vi.py", "ciropt/new_algorithms_vi.py"]}
{"id": "C46", "title": "Inductor currents of the builders with n functions", "statement": "dual_decomposition: the inductor currents sum to zero at all three stages. admm_consensus and admm_euler_consensus: they sum to zero before and after the step. In the middle stage of admm_consensus they do not in general (the code uses the sum of the points, line 501-503, before dividing by n): refuted with a concrete run. With 0 or 1 functions the builders fail with UnboundLocalError, AssertionError or TypeError.", "quantifier": "all leaf values and parameters", "why_tests_cant": "all values", "anchors": ["ciropt/classical_central_vi.py:admm_consensus,admm_euler_consensus,dual_decomposition"]}
{"id": "C47", "title": "dadmm: edge currents stay balanced", "statement": "In every iteration of dadmm ('dadmm','cir_dadmm') the two inductor currents of every edge sum to zero and the two copies of the edge potential agree.", "quantifier": "all graphs, prox operators, parameters, iteration counts", "why_tests_cant": "all iterations and operators", "anchors": ["ciropt/discretized_methods.py:dadmm"]}
{"id": "C48", "title": "dadmm: a fixed point is an optimal consensus", "statement": "If an iteration leaves the state unchanged then all x_j agree on connected graphs and the subgradients sum to zero.", "quantifier": "all connected graphs, convex functions", "why_tests_cant": "all graphs and functions", "anchors": ["ciropt/discretized_methods.py:dadmm"]}
{"id": "C49", "title": "dadmm equals cir_dadmm with h/L = 1/R", "statement": "The circuit variant with h/Inductance = 1/R computes the same iterates as dadmm.", "quantifier": "all data, iterations", "why_tests_cant": "all data", "anchors": ["ciropt/discretized_methods.py:dadmm"]}
{"id": "C50", "title": "pg_extra: dual variables sum to zero and fixed points are optimal", "statement": "sum_j w_j = 0 after every iteration when W is column stochastic; a fixed point is a consensus minimiser.", "quantifier": "all mixing matrices, operators, iterations", "why_tests_cant": "all data", "anchors": ["ciropt/discretized_methods.py:pg_extra"]}
{"id": "C51", "title": "pg_extra_par_c generalises pg_extra", "statement": "With Capacitance = 0, h = 1/2 and R = rho the circuit variant computes the iterates of pg_extra.", "quantifier": "all data, iterations", "why_tests_cant": "all data", "anchors": ["ciropt/discretized_methods.py:pg_extra"]}
{"id": "C52", "title": "Metropolis mixing matrices", "statement": "For every graph on the nodes 1..n without self loops the generated W is symmetric with unit row (and column) sums and non-negative entries, positive exactly on the edges off the diagonal. A self loop breaks the row sums and an edge to a node above n raises IndexError.", "quantifier": "all graphs", "why_tests_cant": "all graphs", "anchors": ["opt_problems/decentr_qp.py:graph_generation", "opt_problems/decentr_geom_median.py:graph_generation_nodes6"]}
{"id": "C53", "title": "Closed-form prox operators are prox operators", "statement": "prox_fj_quad_constraint, prox_fj_geom_mean, prox_fj_geom_mean_sc, the quadratic prox and soft thresholding return the minimiser documented whenever they return a number; prox_fj_geom_mean divides 0 by 0 exactly when z = b; the gradients of the quadratic and least squares terms are gradients.", "quantifier": "all inputs and dimensions", "why_tests_cant": "all real inputs", "anchors": ["opt_problems/decentr_qp.py:prox_fj_quad_constraint", "opt_problems/decentr_geom_median.py:prox_fj_geom_mean", "opt_problems/decentr_ell2_Anorm.py:prox_fj_geom_mean_sc", "opt_problems/decentr_compressed_sensing.py:obtain_opt_prob_solution"]}
{"id": "C54", "title": "Coefficients of linear expressions", "statement": "const_coeff_expr and linear_matrix_expr_to_coeff_matrix return rows whose product with the monomial vector is the given linear expression, and succeed on every linear expression over known names. const_coeff_expr with an unknown name after a known one silently overwrites a coefficient (refuted), the matrix version raises KeyError.", "quantifier": "all linear expressions", "why_tests_cant": "all expressions", "anchors": ["ciropt/sympy_parsing.py:const_coeff_expr,linear_matrix_expr_to_coeff_matrix"]}
{"id": "C55", "title": "Quadratic-form helpers", "statement": "one_hot / symm_prod_one_hot give matrices with v^T Q v = v_i v_j; stack_vectors pads with zeros without changing products; prod_one_hot assembles a matrix entrywise.", "quantifier": "all sizes, indices, vectors", "why_tests_cant": "all sizes", "anchors": ["ciropt/utils.py:one_hot,symm_prod_one_hot,symm_prod,stack_vectors,prod_one_hot"]}
{"id": "C56", "title": "matrix_to_diff_psd splits into two PSD matrices", "statement": "For symmetric A, given an orthonormal eigendecomposition, A = A_plus - A_minus with both PSD.", "quantifier": "all symmetric matrices", "why_tests_cant": "all matrices", "anchors": ["ciropt/utils.py:matrix_to_diff_psd"]}
{"id": "C57", "title": "grid_search returns the first parameter with least windowed mean", "statement": "grid_search returns the first candidate whose sum over the window divided by the window length is least; it raises UnboundLocalError on an empty list and ZeroDivisionError on an empty window. Because missing entries count as zero a shorter run can win although it is worse at every step (refuted).", "quantifier": "all functions and candidate lists", "why_tests_cant": "all inputs", "anchors": ["ciropt/utils.py:grid_search"]}
{"id": "C58", "title": "equal_expression compares polynomials up to tolerance", "statement": "Expressions that agree when long symbols are read as products are reported equal. Expressions reported equal differ by a polynomial whose coefficients are at most 1e-8 in absolute value, or are both constant and agree within numpy's tolerance 1e-8 + 1e-5 |b|.", "quantifier": "all pairs of expressions", "why_tests_cant": "The comparison is what the tests themselves rely on, and it must be right for all polynomials.", "anchors": ["ciropt/sympy_parsing.py:is_zero_expr,equal_expression"]}
{"id": "C59", "title": "What dadmm and pg_extra report", "statement": "Both return one report per iteration; the reported error is zero exactly when the iterates equal the reference points, the reported objective gap is zero exactly when the value equals f_star, op_norm is zero exactly when the iterates did not move; for dadmm a negative f_star makes the gap non-positive.", "quantifier": "all operators, graphs, reference points and values, iteration counts", "why_tests_cant": "all runs and reference values", "anchors": ["ciropt/discretized_methods.py:dadmm", "ciropt/discretized_methods.py:pg_extra"]}
{"id": "C60", "title": "dadmm and cir_dadmm converge", "statement": "On every connected network of at least two nodes, with exact proximal operators of convex functions that have a balanced optimum, positive R and a step h/L below 2/R, the reported objective gap tends to 0 and the nodes reach consensus; if one function is strongly convex the reported error tends to 0.", "quantifier": "all connected graphs, dimensions, convex functions, step sizes in the range, and the infinite run", "why_tests_cant": "limits of infinite runs over all convex functions", "anchors": ["ciropt/discretized_methods.py:dadmm"]}
{"id": "C61", "title": "pg_extra converges", "statement": "With a symmetric stochastic mixing matrix of a connected graph whose diagonal is at least c, exact proximal operators of convex f_j, gradients of convex L-smooth h_j and rho L < 2c, the reported objective gap and op_norm tend to 0, and the error tends to 0 if one f_j is strongly convex. The generated Metropolis matrices satisfy the condition with c = 1/(max degree + 1).", "quantifier": "all mixing matrices, functions, step sizes in the range, and the infinite run", "why_tests_cant": "limits of infinite runs over all functions", "anchors": ["ciropt/discretized_methods.py:pg_extra", "opt_problems/decentr_qp.py:graph_generation"]}
{"id": "C62", "title": "The specialised decentralised loops converge or report nan", "statement": "The compressed sensing loop is pg_extra with soft thresholding and the least squares gradient, and its reported gap and reference value converge; the constrained quadratic programme converges; the geometric median loops either report nan from some iteration on or converge; identical observations make every report nan.", "quantifier": "all data, mixing matrices, step sizes in the range, and the infinite run", "why_tests_cant": "limits of infinite runs over all data", "anchors": ["opt_problems/decentr_compressed_sensing.py:pg_extra_compressed_sensing", "opt_problems/decentr_compressed_sensing.py:obtain_opt_prob_solution", "opt_problems/decentr_qp.py:prox_fj_quad_constraint", "opt_problems/decentr_geom_median.py:p_extra_dgeom_median", "opt_problems/decentr_ell2_Anorm.py:p_extra_dgeom_median"]}
{"id": "C63", "title": "No valid rate is missed: the solver programs are exact", "statement": "When the declared constraints have a strictly feasible point at the given parameter values (each constraint holds strictly, or is satisfied with equality whatever the data), a dual certificate exists, solve_fix_discr_sdp is feasible and solve_ipopt can return those values, each if and only if the metric is non-positive for all functions of the declared classes, in all dimensions and all runs; a global solution of solve_ipopt is the best valid discretisation. Without a strictly feasible point (for instance with the square equalities some builders use to identify points) this fails.", "quantifier": "all sessions, problems, parameter values, dimensions and functions of the declared classes; all builders", "why_tests_cant": "equivalence between solvability of a semidefinite program and a statement about all functions in all dimensions", "anchors": ["ciropt/circuit_opt.py:CircuitOpt.solve_ipopt,circuit_symbolic_matrices", "ciropt/extra_methods.py:solve_fix_discr_sdp", "ciropt/function.py:ConvexFunction.add_class_constraints"]}
{"id": "C64", "title": "Verification mode builds the same method, and returned parameters pass it", "statement": "Each of the 21 builders that take params builds, with a dictionary of numbers, the problem whose metric takes exactly the values of the runs of the same method with those numbers; a key it reads that is missing raises KeyError. Parameters returned by a feasible point of solve_ipopt or solve_ipopt_qcqp, or accepted by solve_fix_discr_sdp, give worst case 0 in verification mode. The worst case in verification mode is 0 or the metric is unbounded, whatever the dictionary. With a strictly feasible point solve_ipopt can return the values of a dictionary if and only if the verification gives 0.", "quantifier": "all builders, class constants, component values, numbers of functions, dictionaries, reachable states, feasible points, dimensions and functions of the classes", "why_tests_cant": "the worst case is a supremum over all functions and dimensions, and the dictionaries and feasible points are arbitrary", "anchors": ["ciropt/classical_central_vi.py:gradient_flow_circuit,accelerated_gradient_circuit,douglas_rachford_splitting,davis_yin_splitting", "ciropt/classical_decentral_vi.py:decentralized_gradient_descent_line3,pg_extra_l3,decentralized_admm_consensus_l3", "ciropt/new_algorithms_vi.py:dadmm_C_graph6", "ciropt/circuit_opt.py:CircuitOpt.solve_ipopt"]}
{"id": "C65", "title": "Gradient descent and the proximal point method get exactly their rates", "statement": "With alpha = 0 or beta = 1 gradient_flow_circuit is gradient descent x - (h/C) grad f(x). For L-smooth convex functions its verification gives worst case 0 if and only if 0 <= h, eta <= h and eta <= 2h - h^2 L/C. Parameters returned by solve_ipopt for it satisfy these inequalities, hence eta <= C/L, and with beta = 1, h > 0 and alpha not 0 or 1 every such choice is accepted. With alpha = 0, beta = 1, h = C R ppm_circuit is the proximal point method; its verification over all convex functions gives worst case 0 if and only if eta <= C R and rho <= C R / 2, and solve_ipopt returns no larger ones.", "quantifier": "all class constants L > 0 and component values C, R > 0, dictionaries with those alpha and beta, reachable states, feasible points, dimensions and functions of the classes", "why_tests_cant": "the exact range of rates is a statement about all functions in all dimensions and all real parameter values; a test sees single solver runs", "anchors": ["ciropt/classical_central_vi.py:gradient_flow_circuit,ppm_circuit", "ciropt/circuit_opt.py:CircuitOpt.solve_ipopt"]}
{"id": "C66", "title": "The solvers are exact for circuits with arbitrary constants", "statement": "Take gradient_flow_circuit, gradient_flow_circuit_tuneC, accelerated_gradient_circuit, accelerated_gradient_circuit_tuneRLC, ppm_circuit, example_fC3RC_circuit or primal_decomposition (any number of functions) with any class and component constants, or dual_decomposition (at least two functions), prox_gradient_circuit, douglas_rachford_splitting, davis_yin_splitting, admm_consensus_proof, pg_extra_l3, decentralized_admm_cycle4, decentralized_admm_graph6 or dadmm_C_graph6 with smooth classes, and parameter values at which the method moves: on some quadratics strictly inside the classes, from some start, one step evaluates each function at pairwise different points. Then the constraints of the built problem can all be met strictly, so solve_ipopt (with the parameters inside its side constraints) and solve_fix_discr_sdp accept the values if and only if the descent claim holds on every run, equivalently if and only if the verification mode gives worst case 0. For gradient flow this covers all h > 0 except alpha = 0 and alpha = beta = 1; for the proximal point method, with k = h/(C R), all h > 0 except alpha = 0, k = beta = 1 and k(1 - alpha) = k(1 - beta) = 1. Primal and dual decomposition move unless h = 0 or alpha = 0. The five consensus builders admm_consensus_proof, pg_extra_l3, decentralized_admm_cycle4, decentralized_admm_graph6 and dadmm_C_graph6 move at all parameter values.", "quantifier": "the sixteen builders, all class constants mu < L (or L infinite for one function and for primal decomposition), all numbers of functions and component values, all parameter values at which the method moves, all reachable states, bounds, dimensions, functions of the class and runs", "why_tests_cant": "a solver that rejects a valid rate only reports failure of a nonconvex search; that every valid rate is feasible is a duality statement over all constants and functions", "anchors": ["ciropt/classical_central_vi.py:gradient_flow_circuit,gradient_flow_circuit_tuneC,accelerated_gradient_circuit,accelerated_gradient_circuit_tuneRLC,ppm_circuit,primal_decomposition,dual_decomposition,prox_gradient_circuit,douglas_rachford_splitting,davis_yin_splitting", "ciropt/new_algorithms_vi.py:example_fC3RC_circuit", "ciropt/circuit_opt.py:CircuitOpt.solve_ipopt,CircuitOpt.solve_fix_discr_sdp", "ciropt/classical_central_vi.py:admm_consensus_proof", "ciropt/classical_decentral_vi.py:pg_extra_l3,decentralized_admm_cycle4,decentralized_admm_graph6", "ciropt/new_algorithms_vi.py:dadmm_C_graph6"]}
