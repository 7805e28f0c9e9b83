{"id": "C01", "title": "Symbol names identify (base name, time index)", "statement": "Two time-indexed symbols have the same printed name only if they have the same base name and the same time index, and likewise the same code-generation-safe name whenever base names contain neither '+' nor '-'. A symbol's name is what every name-keyed result (steady state, covariance tables, generated code) is looked up by.", "quantifier": "all base-name strings (including ones that themselves end in _t, _ss or digits) and all integer or steady-state time indices", "why_tests_cant": "infinitely many base names and indices; collisions would arise only for adversarially chosen names such as x_t-1 used as a base name", "anchors": ["gEconpy/classes/time_aware_symbol.py: TimeAwareSymbol.__xnew__, _determine_operator, _create_name_from_time_index"]}
{"id": "C02", "title": "Time stepping is a group action on dated symbols and keeps identity otherwise", "statement": "step_forward and step_backward undo each other on dated symbols, k forward steps equal set_t(t+k), set_t and to_ss discard history, exit_ss turns a steady-state symbol into a date-0 symbol and leaves dated symbols alone; base name and assumptions never change.", "quantifier": "all symbols, all integers t, all sequences of step/set_t/to_ss/exit_ss calls", "why_tests_cant": "ranges over all finite call sequences", "anchors": ["gEconpy/classes/time_aware_symbol.py: step_forward, step_backward, to_ss, exit_ss, set_t"]}
{"id": "C03", "title": "Stepping a steady-state symbol is refused", "statement": "Stepping a symbol that is in the steady state (step_forward, step_backward) raises TypeError for every such symbol; it never silently returns another symbol. (The to_ss docstring promises that the symbol is returned unchanged; that is false of the code.)", "quantifier": "all steady-state symbols", "why_tests_cant": "holds or fails for every symbol at once; the docstring claim is never exercised by a value test of the numeric path", "anchors": ["gEconpy/classes/time_aware_symbol.py: to_ss, step_forward, step_backward"]}
{"id": "C04", "title": "When printing an expression and reading it back yields the same expression", "statement": "parse_expression(print_expression(e)) == e holds for an expression e with identifier names and numbers that print and read back exactly if no operand loses its grouping in print: no sum or difference to the right of + or -, no product or quotient to the right of * or /, no power as base and no product or quotient as exponent of a power. For every other such expression the round trip yields a different expression or fails.", "quantifier": "all expression trees (any depth, operators, function calls, expectations, variables at any time index)", "why_tests_cant": "structural induction over unboundedly deep trees is needed; the failing shapes are specific nestings", "anchors": ["gEconpy/parser/ast/printer.py: print_expression, PRECEDENCE", "gEconpy/parser/grammar/expressions.py: EXPR, _make_binary_op_left, _make_binary_op_right"]}
{"id": "C05", "title": "Printing and reading back keeps the value where only + and * chains are regrouped", "statement": "Reading back the printed form of an expression in which no sum or difference stands to the right of -, no product or quotient to the right of / and no power as base, no product or quotient as exponent of a power, gives an expression with the same value under every assignment, in every algebra in which + and * re-associate. (For other expressions the value can change: refuted.)", "quantifier": "all expression trees and all assignments", "why_tests_cant": "quantifies over trees and over valuations", "anchors": ["gEconpy/parser/ast/printer.py: print_expression", "gEconpy/parser/grammar/expressions.py: EXPR"]}
{"id": "C06", "title": "The expression grammar follows the documented precedence and associativity", "statement": "Power is right associative and binds tighter than * and /, which are left associative and bind tighter than + and -, and parentheses always group; every token sequence has at most one parse and the parse depends on the tokens only.", "quantifier": "all operator/operand sequences", "why_tests_cant": "all token sequences", "anchors": ["gEconpy/parser/grammar/expressions.py: EXPR"]}
{"id": "C07", "title": "Dates outside [-1, 1] are eliminated", "statement": "After the loader's time-index expansion every variable occurrence in the definitions, controls, objective, constraints and identities of a block is dated -1, 0, 1 or steady state, whatever dates the user wrote; blocks already within that range are unchanged, expanding twice is the same as once, and names, multipliers, tags and all other components survive in order.", "quantifier": "all blocks, all equations, all integer dates", "why_tests_cant": "arbitrary leads/lags and nesting", "anchors": ["gEconpy/parser/transform/expand_time_indices.py: expand_block_time_indices, TimeIndexReplacer"]}
{"id": "C08", "title": "Auxiliary lag/lead variables preserve the model", "statement": "On perfect-foresight paths the expanded block has exactly the solutions of the original one: a path satisfies the rewritten equations with the added identities iff it satisfies the original ones and each auxiliary variable carries the lag/lead its name promises; provided no user variable already has an auxiliary name, every solution of the original extends in exactly one way. For lags alone this also holds under uncertainty.", "quantifier": "all blocks, all variable paths over time", "why_tests_cant": "quantifies over infinite paths and arbitrary lag depth", "anchors": ["gEconpy/parser/transform/expand_time_indices.py: _make_lag_chain, _make_lead_chain, expand_block_time_indices"]}
{"id": "C09", "title": "Expansion adds each auxiliary equation once per block", "statement": "Within one block the expansion adds exactly one equation per auxiliary variable of that block, each auxiliary variable being defined once. (Across blocks it is added once per block that needs it: two blocks that both use K[-2] each add K__lag1[] = K[-1], so a square model need not stay square.)", "quantifier": "all models (any number of blocks) that use deep lags/leads", "why_tests_cant": "needs two blocks sharing a deep lag; arbitrary block lists", "anchors": ["gEconpy/parser/transform/expand_time_indices.py: expand_model_time_indices, expand_block_time_indices"]}
{"id": "C10", "title": "Substitution dictionaries are flattened completely", "statement": "flatten_substitution_dict succeeds exactly when no chain of definitions between distinct symbols is circular and otherwise raises ValueError. If no definition mentions its own symbol, the result has the same keys, no value mentions any key, each value is its definition with all flattened values put in, and an assignment satisfies the original definitions iff it satisfies the flattened ones, whatever order sets are iterated in.", "quantifier": "all finite dictionaries from symbols to expressions", "why_tests_cant": "arbitrary dependency graphs", "anchors": ["gEconpy/utilities.py: flatten_substitution_dict"]}
{"id": "C11", "title": "Shifting an equation moves every date by exactly one", "statement": "step_equation_forward/backward(eq) is eq with every dated variable moved by one period simultaneously (no variable moved twice or skipped), parameters and steady-state values untouched; forward then backward is the identity.", "quantifier": "all expressions and all sets of dates", "why_tests_cant": "sequential substitution on overlapping dates: correctness depends on ordering for every date set", "anchors": ["gEconpy/utilities.py: step_equation_forward, step_equation_backward"]}
{"id": "C12", "title": "Differentiation through time sums the discounted shifted derivatives", "statement": "For a discount factor that depends on parameters only, diff_through_time returns the derivative with respect to x[t] of the discounted sum of the expression over any horizon that is long enough: no term missed, none counted twice, each with its power of the discount factor. Expressions with steady-state terms raise TypeError.", "quantifier": "all equations and control variables with arbitrary dates", "why_tests_cant": "unbounded lag depth", "anchors": ["gEconpy/utilities.py: diff_through_time"]}
{"id": "C13", "title": "Entries of dictionaries are independent; conversion metadata is when it is not shared", "statement": "For every history of operations (copy, union, stepping, conversions, insertion), the entries and the mode of a SymbolDictionary change only through operations on that very dictionary; dictionaries that never passed through copy, |, a value conversion or string-mode stepping also have independent conversion metadata. (Those four operations share the metadata with the original: three refutations.)", "quantifier": "all dictionaries and all sequences of operations", "why_tests_cant": "aliasing bugs depend on operation histories", "anchors": ["gEconpy/classes/containers.py: SymbolDictionary.copy, __or__, step_forward, to_ss, to_sympy"]}
{"id": "C14", "title": "String and symbol views of a dictionary are inverse", "statement": "For a dictionary over parameters and variables dated -1, 0, 1 or steady state, in which names are used consistently (distinct keys print differently, one set of assumptions per name, no parameter named like a variable), d.to_string().to_sympy() equals d: same symbols with the same assumptions, values, order and conversion metadata.", "quantifier": "all dictionaries over dated variables and parameters", "why_tests_cant": "all dates and names", "anchors": ["gEconpy/classes/containers.py: to_string, to_sympy, safe_string_to_sympy"]}
{"id": "C15", "title": "Equation numbering of a block is a bijection in declaration order", "statement": "Every definition, objective, constraint, identity and calibration entry of a block gets a distinct consecutive number, in that order, and tags and multipliers are filed under the number of their own equation.", "quantifier": "all blocks", "why_tests_cant": "all component sizes", "anchors": ["gEconpy/parser/transform/to_block.py: ast_block_to_block"]}
{"id": "C16", "title": "Every constraint gets its own Lagrange multiplier", "statement": "Solving a block's optimisation problem puts each constraint into the Lagrangian with exactly one multiplier, user-named multipliers with their own constraint, and, if user names are distinct and do not start with lambda__, all multipliers are distinct; all of them become variables of the block. (The block's multiplier table is wrong: automatic multipliers overwrite a user's entry, and a second solve raises - both refuted.)", "quantifier": "all blocks with an objective", "why_tests_cant": "depends on counters and on which constraints are named", "anchors": ["gEconpy/model/block/basic.py: _build_lagrangian, solve_optimization"]}
{"id": "C17", "title": "First-order conditions are the Lagrangian's derivatives", "statement": "For an objective that is static or of the form V = u + c V[1] with constant c, at least one constraint, and definitions used at dates -1, 0, 1: solve_optimization succeeds; the system is identities, then constraints not tagged @exclude, then the objective (each equal to rhs - lhs on every path that follows the definitions, with definitions at their written date eliminated), then one equation per control, in order, whose value is the derivative with respect to that control of the discounted sum over time of objective (negated under @minimize) minus multiplier times (lhs - rhs) of each constraint.", "quantifier": "all blocks", "why_tests_cant": "all numbers of controls and constraints", "anchors": ["gEconpy/model/block/basic.py: _build_lagrangian, solve_optimization, simplify_system_equations"]}
{"id": "C18", "title": "Specialised Cobb-Douglas/CES blocks give the same first-order conditions as the generic path", "statement": "A block recognised as Cobb-Douglas or CES that has no definitions, writes its constraint as output = production and each control once in it, gets, at every point at which the constraint holds with positive output, first-order conditions with the same values as the generic Lagrangian derivatives, and all other equations unchanged. (Without those provisos the conditions differ: four refutations.)", "quantifier": "all recognised blocks", "why_tests_cant": "all exponents/inputs", "anchors": ["gEconpy/model/block/cobb_douglas.py", "gEconpy/model/block/ces.py"]}
{"id": "C19", "title": "Hyper-parameters, deterministic and calibrated parameters are separated without loss", "statement": "Building a model succeeds exactly when no name is declared twice within a kind, the parameter formulas are not circular, and no orphan (and, under 'raise', no unused) parameter exists; otherwise the matching error is raised. The free, hyper-, calibrated and deterministic groups then contain exactly the declared entries, with formulas expanded without change of value, and do not depend on the order of blocks.", "quantifier": "all parameter declarations", "why_tests_cant": "all partitions", "anchors": ["gEconpy/model/build.py", "gEconpy/model/parameters.py"]}
{"id": "C20", "title": "Updating parameters is idempotent and local", "statement": "model.parameters(**u) raises ModelUnknownParameterError iff u names something that is neither free nor deterministic; otherwise it returns the free parameters in order with the values of u where given and the defaults elsewhere, followed by the deterministic ones, each the value of its formula at the returned values (deterministic names in u are ignored). Feeding a result back returns it unchanged and the order of u does not matter.", "quantifier": "all update dictionaries and call sequences", "why_tests_cant": "all call histories", "anchors": ["gEconpy/model/model.py: Model.parameters"]}
{"id": "C21", "title": "Steady-state propagation is sound, monotone and terminates", "statement": "Propagating known steady-state values through identities keeps every provided value in place, adds values only for model variables that had none and expresses them without steady-state variables; each added value makes some model equation containing the variable hold; no steady state that agrees with the provided values is lost; and with more passes than variables the result is final (running again changes nothing).", "quantifier": "all equation systems and all partial steady states", "why_tests_cant": "fixpoint loop over arbitrary systems", "anchors": ["gEconpy/model/steady_state.py: propagate_steady_state_through_identities"]}
{"id": "C22", "title": "Model-variable ordering is a permutation and is undone", "statement": "linearize_model returns matrices whose rows are the model's equations and whose columns are its variables (shocks for D), in model order: entry (i,j) of A, B, C is the derivative of equation i at the steady state with respect to variable j at t-1, t, t+1, in logarithms for variables with positive steady state that are to be logged and in levels otherwise, and D the derivative with respect to the shocks. Internally rows and columns are grouped by the dates they involve; that order is a permutation with the announced group sizes and is undone. Entries of variables that do not occur are exactly zero, and the call succeeds whenever steady state and parameters are complete.", "quantifier": "all models", "why_tests_cant": "all variable timing patterns", "anchors": ["gEconpy/model/perturbation.py", "gEconpy/model/model.py: DROrder"]}
{"id": "C23", "title": "Log-linearisation flags follow the documented rules", "statement": "For a steady state listed in model order (what steady_state() returns), a variable is kept in levels exactly when the user listed it, or its steady state is numerically zero, or negative while loglin_negative_ss is off; unknown names in not_loglin_variables raise ValueError; there is one flag per variable and calibrated parameter.", "quantifier": "all models, flag arguments, steady states", "why_tests_cant": "all combinations", "anchors": ["gEconpy/model/perturbation.py: make_not_loglin_flags"]}
{"id": "C24", "title": "What a matrix returned by cyclic reduction is", "statement": "A matrix returned by cyclic reduction is the one defined by the k-th reduced system of the literature's recursion, where k is the first number of steps at which both outer matrices are below the tolerance (or the last allowed step if then the lag matrix is); every solution X of A + B X + C X X = 0 is within |hat^-1| |A2_k| |X^(2^k+1)| of it; if the reduced lead matrix vanishes it is the only solution, with zero residual; R is the matching impact matrix; partial convergence is never reported. (A reported success does not imply that a solution exists: refuted.)", "quantifier": "all systems A, B, C of any size, all iteration counts", "why_tests_cant": "induction over iterations and matrices of any size", "anchors": ["gEconpy/solvers/cycle_reduction.py"]}
{"id": "C25", "title": "How a failed cyclic reduction surfaces", "statement": "A cyclic-reduction solve that does not converge raises ValueError (TypeError for one variable) whatever on_failure is; (None, None) and the documented exception never occur; the loop gives up exactly when at least one pass is allowed, all pivots are invertible, no earlier pass had both outer matrices below the tolerance and after the last pass the lag matrix is not below it. (The documented on_failure behaviour is false of the code.)", "quantifier": "all systems for which the loop does not converge", "why_tests_cant": "all failing inputs", "anchors": ["gEconpy/solvers/cycle_reduction.py", "gEconpy/model/model.py: _solve_with_cycle_reduction"]}
{"id": "C26", "title": "Adjoints of the perturbation solvers are correct", "statement": "The cotangents returned for A, B, C pair with every perturbation (dA, dB, dC) exactly as T_bar pairs with the dT implied by the differential of A + B T + C T T = 0; a diagonal jitter changes that by exactly jitter times the pairing of A_bar with dT.", "quantifier": "all sizes, systems, perturbations, cotangents", "why_tests_cant": "all matrices", "anchors": ["gEconpy/solvers/shared.py"]}
{"id": "C27", "title": "Gensys setup represents the model", "statement": "The stacked system handed to gensys holds for a path exactly when A x(t-1) + B x(t) + C w(t) + D z(t) = 0 with w the expected leads and eta the error of the previous expectation of each lead variable; every variable whose column of C exceeds the tolerance is among the leads.", "quantifier": "all systems and any path", "why_tests_cant": "all sizes", "anchors": ["gEconpy/solvers/gensys.py: _gensys_setup"]}
{"id": "C28", "title": "Backward-looking solver is exact", "statement": "For a model with no leads the direct solver returns exactly when B is invertible, and then the unique T, R with A + B T = 0 and B R + D = 0, which is the unique policy and its impact matrix.", "quantifier": "all sizes", "why_tests_cant": "all matrices", "anchors": ["gEconpy/solvers/backward_looking.py"]}
{"id": "C29", "title": "What the residual norms certify", "statement": "The two reported numbers are the Frobenius norms of the residuals of the policy equation, in the columns of state variables, and of the impact equation, for the returned (thresholded) matrices; zero norms mean exactly that these residuals vanish. (They do not certify A + B T + C T T = 0: T = 0 passes for every A - refuted.)", "quantifier": "all T, A, B, C", "why_tests_cant": "all matrices", "anchors": ["gEconpy/model/perturbation.py: statespace_to_gEcon_representation, residual_norms"]}
{"id": "C30", "title": "Blanchard-Kahn verdict matches the count", "statement": "check_bk_condition is satisfied exactly when the number of forward-looking variables equals the number of generalised eigenvalues above one in modulus and obeys return_value/on_failure; away from the unit circle that number is the number of unstable roots gensys finds, whatever QZ decompositions LAPACK returns; every model gensys solves satisfies the condition.", "quantifier": "all eigenvalue lists", "why_tests_cant": "all counts", "anchors": ["gEconpy/model/statistics / perturbation: check_bk_condition"]}
{"id": "C31", "title": "Impulse responses and simulations obey the state equation", "statement": "Whatever its arguments, every path impulse_response_function returns starts at rest and satisfies row t = T row t-1 + R e_t for some shocks, and a path labelled with a shock is driven by that shock alone; the path driven by e is sum_{s<=t} T^(t-s) R e_s; paths are linear in the shocks; the one-at-a-time responses add up to the joint response and are labelled with all shocks in model order; every simulation returned by simulate is the path of its own draws.", "quantifier": "all horizons, matrices, shock trajectories", "why_tests_cant": "all horizons", "anchors": ["gEconpy/model/simulate.py"]}
{"id": "C32", "title": "Solvability diagnostics rows belong to their draws", "statement": "On one core, row i of the table returned by solvability_check describes parameter draw i. On several cores every draw is checked exactly once, a verdict is at most cores - 1 rows early, and all schedules give aligned rows exactly if all draws have the same outcome. Every sampled column whose name is a Python identifier reaches the model under its own name.", "quantifier": "all schedules", "why_tests_cant": "schedule dependent", "anchors": ["gEconpy/model/statistics/perturbation_diagnostics.py: solvability_check, _run_parallel"]}
{"id": "C33", "title": "Stacked perfect-foresight system equals the period equations", "statement": "For every horizon T, entry t*n+i of the stacked residual is equation i of the model in period t, read with the variables of t-1, t, t+1 (the initial values before the first period, the terminal values after the last), the requested shocks and parameter paths and steady-state symbols at their analytic values; it is zero iff the model holds in every period; and if the root finder stops at a zero the returned table is a path that satisfies the model.", "quantifier": "all horizons", "why_tests_cant": "all T", "anchors": ["gEconpy/model/perfect_foresight/compile.py"]}
{"id": "C34", "title": "Assembled sparse Jacobian equals the block-tridiagonal Jacobian", "statement": "If derivatives that vanish in the first period vanish in all periods, the assembled sparse matrix is the Jacobian of the stacked residual: its entry (k, l) is the partial derivative of component k with respect to component l, for every horizon and every point.", "quantifier": "all horizons, all period Jacobians", "why_tests_cant": "sparsity pattern taken from the first evaluation", "anchors": ["gEconpy/model/perfect_foresight/assemble.py"]}
{"id": "C35", "title": "Root-finder result is consistent", "statement": "Whatever solver is used, sparse_root ends (after at most maxiter iterations, with an exception only for recompute_every=0, memory=0, an unknown Krylov method or no unknowns); fun and jac in the result are the function's values at x; success=False means some residual is at least f_tol; success=True means that all residuals are below f_tol or that the run stopped one iteration earlier ends within x_tol (1 + max|x|) of x. A start that is already a root is returned at once, and a larger maxiter does not change a run that ended before its limit.", "quantifier": "all functions, all iteration histories", "why_tests_cant": "all iterations", "anchors": ["gEconpy/solvers/sparse_root"]}
{"id": "C36", "title": "Measurement error variances sit on their observed variables", "statement": "After configure, the observation covariance is diagonal and carries the variance of every series' measurement error in the row of that series (zero for the others), at every parameter draw, exactly when the list of series with measurement error is an initial segment of the list of observed series; for any other choice variances are attached to the wrong series.", "quantifier": "all observed/measurement-error lists", "why_tests_cant": "all list orders", "anchors": ["gEconpy/model/statespace.py: make_symbolic_graph"]}
{"id": "C37", "title": "Temporal aggregation states carry the right lags", "statement": "After configure, along every path of the augmented state equation the model's variables follow the policy function, and every further hidden state is, from period j on, the value j periods ago of the variable named in its label v_cumulator_lagj or v_obs_lagj; there are as many labels as states.", "quantifier": "all paths, periods", "why_tests_cant": "all horizons", "anchors": ["gEconpy/model/statespace.py"]}
{"id": "C38", "title": "Dynare line writer emits every name once in order", "statement": "The declarations written for a list of names (variables, shocks, parameters) are complete statements 'keyword a, b, c;' one per line, which together name every item exactly once in order; a line is wider than the limit only if it declares a single name, a line is broken only when the next name does not fit, and an empty declaration 'keyword;' is written exactly when there are no names or the first name alone does not fit.", "quantifier": "all item lists and widths", "why_tests_cant": "all lists", "anchors": ["gEconpy/dynare_convert.py: write_lines_from_list"]}
{"id": "C39", "title": "Comments in a GCN text have no effect", "statement": "Comments do not matter: parse_gcn, parse_equation and parse_block_from_text give the same result, AST or exception, on a text and on the text from which everything between a '#' and the end of its line was removed; two texts that agree after removing comments have the same result.", "quantifier": "all source texts", "why_tests_cant": "all strings", "anchors": ["gEconpy/parser/grammar/gcn_file.py: parse_gcn", "gEconpy/parser/grammar/statements.py: parse_equation", "gEconpy/parser/grammar/blocks.py: parse_block_from_text", "gEconpy/parser/grammar/tokens.py: COMMENT"]}
{"id": "C40", "title": "Block validation reports a duplicate exactly when there is one", "statement": "Validation of a parsed model finds an error exactly when a control or a shock is listed twice in a block, two blocks have the same name, or two calibration items (distributions, or equations with a bare parameter on the left) give the same parameter; every repetition is reported in its block once, and a parameter given more than once is reported once with the blocks of all its items in order.", "quantifier": "all models", "why_tests_cant": "all models", "anchors": ["gEconpy/parser/ast/validation.py"]}
{"id": "C41", "title": "What a lead of two or more periods means under uncertainty", "statement": "Under uncertainty, a variable led by k >= 2 periods is given the meaning 'next period's forecast of its (k-1)-period lead', in every block. If the tower law holds, expectations are linear and such leads enter linearly inside expectations, a path solves the expanded block exactly when it solves the original one and the auxiliary variables are the lags and forecasts they stand for.", "quantifier": "all blocks, all paths, all expectation operators obeying the tower rule", "why_tests_cant": "quantifies over expectation operators and infinite paths", "anchors": ["gEconpy/parser/transform/expand_time_indices.py: _make_lead_chain, expand_block_time_indices"]}
{"id": "C42", "title": "Definitions are expanded to all three dates, each shifted as a whole", "statement": "A definition written for one date gives the substitutions for x[-1], x[] and x[1]; each right-hand side is the written one with every date moved by the same amount.", "quantifier": "all definitions, any written date", "why_tests_cant": "every expression and date", "anchors": ["gEconpy/model/block/basic.py: _build_lagrangian (definition expansion)", "gEconpy/utilities.py: step_equation_forward, step_equation_backward"]}
{"id": "C43", "title": "Eliminating a variable by an equation that defines it keeps the solutions", "statement": "Simplifying with x[] = y[] (another variable at the same date) or x[] = c (an expression in parameters only) leaves the value of every expression unchanged on every path on which x[] = rhs holds in all periods.", "quantifier": "all paths, all equations, all right-hand sides", "why_tests_cant": "quantifies over paths and expressions", "anchors": ["gEconpy/utilities.py: expand_subs_for_all_times", "gEconpy/model/block/basic.py: simplify_system_equations", "gEconpy/model/simplification.py: simplify_constants"]}
{"id": "C44", "title": "The steady-state form of an equation is the equation at rest", "statement": "eq_to_ss yields an expression whose value at steady-state values s is the value of the equation on the path that stays at s for ever with all listed shocks zero.", "quantifier": "all equations, all steady states, any shock list, any iteration order of sets", "why_tests_cant": "every expression and assignment", "anchors": ["gEconpy/utilities.py: eq_to_ss"]}
{"id": "C45", "title": "A symbol dictionary never mixes string and symbol keys", "statement": "Whatever sequence of constructor, copy, |, item assignment, conversion, stepping, sorting and value-conversion calls is made (failing calls included), each dictionary's keys are distinct and all of one kind, and is_sympy tells which.", "quantifier": "all histories of calls on all dictionaries", "why_tests_cant": "arbitrary call histories with aliasing", "anchors": ["gEconpy/classes/containers.py: SymbolDictionary.__init__, __setitem__, __or__, update, _clean_update"]}
{"id": "C46", "title": "sort_keys permutes a dictionary into name order", "statement": "sort_keys returns exactly the entries of the dictionary, ordered by printed name, for consistent dictionaries with dates -1, 0, 1 or steady state.", "quantifier": "all such dictionaries", "why_tests_cant": "every key set", "anchors": ["gEconpy/classes/containers.py: sort_keys, sort_dictionary"]}
{"id": "C47", "title": "A block is accepted exactly when its optimisation problem is well posed", "statement": "Building a block raises OptimizationProblemNotDefined iff exactly one of objective and controls is missing, MultipleObjectiveFunctions iff there are several objectives, ControlVariableNotFound iff a control occurs in no definition, objective or constraint, and an accepted block has every tag in the component where it is allowed.", "quantifier": "all parsed blocks, all iteration orders of sets", "why_tests_cant": "every combination of components, controls and tags", "anchors": ["gEconpy/model/block/basic.py: _validate_initialization", "gEconpy/parser/transform/to_block.py: ast_block_to_block"]}
{"id": "C48", "title": "Calibration entries are classified without loss, and duplicates are reported", "statement": "The calibration component yields, in order, exactly the numeric, calibrated and deterministic parameters written there with their expressions; a parameter given twice within one of these kinds is reported, and only such.", "quantifier": "all calibration components", "why_tests_cant": "every list of entries", "anchors": ["gEconpy/model/block/basic.py: _get_param_dict_and_calibrating_equations"]}
{"id": "C49", "title": "Automatically named multipliers are unique in their block", "statement": "Within one block the automatic multiplier names of different constraints are different.", "quantifier": "all block names and counters", "why_tests_cant": "quantifies over names", "anchors": ["gEconpy/model/block/basic.py: Block.__init__ (short_name), _build_lagrangian"]}
{"id": "C50", "title": "Defined variables are eliminated from the system", "statement": "After solve_optimization no equation of the block mentions, at the date at which its definition is written, a variable that has a definition (part of C17).", "quantifier": "all blocks", "why_tests_cant": "every use of a definition, at any date", "anchors": ["gEconpy/model/block/basic.py: solve_optimization, _consolidate_definitions"]}
{"id": "C51", "title": "The order of variables and shocks is canonical and natural", "statement": "model.variables and model.shocks contain each variable/shock of any block once, never a shock among the variables, in an order that depends only on the set of names: not on block order, hashing or dates; sorted by natural key, so names that differ in one number are in numeric order, and the comparison never raises.", "quantifier": "all blocks, all set iteration orders, all names", "why_tests_cant": "depends on hash order and on all strings", "anchors": ["gEconpy/parser/loader.py: _block_dict_to_variables_and_shocks", "gEconpy/model/timing.py: natural_sort_key", "gEconpy/model/build.py: _compile_gcn"]}
{"id": "C52", "title": "Variables are classified by the dates at which they are written", "statement": "classify_variables_by_timing returns exactly the non-shock variables written at t-1, t and t+1 and the shocks, each once and naturally sorted, and raises ValueError iff some variable is written at another date or in steady state; if no two names share a natural sort key and shocks are written at date t only, the result does not depend on the order of Python's sets.", "quantifier": "all equation lists, shock names, set orders", "why_tests_cant": "hash order", "anchors": ["gEconpy/model/timing.py: classify_variables_by_timing"]}
{"id": "C53", "title": "The t-1, t, t+1 lists are aligned", "statement": "make_all_variable_time_combinations returns three lists of the same distinct base names, in order of first occurrence, dated -1, 0 and 1.", "quantifier": "all variable lists", "why_tests_cant": "every list", "anchors": ["gEconpy/model/timing.py: make_all_variable_time_combinations"]}
{"id": "C54", "title": "Where priors go when shocks have hyper-parameters", "statement": "If no parameter has two priors and no shock is declared twice, a shock's distribution gets, for each hyper-parameter it refers to, the prior declared in its own or an earlier block, and the parameter priors are exactly the declared priors of names that are not shocks and are not referred to by any shock.", "quantifier": "all blocks and declarations", "why_tests_cant": "depends on the order of blocks", "anchors": ["gEconpy/parser/loader.py: _create_shock_distribution, ast_model_to_primitives", "gEconpy/model/build.py: _split_distributions"]}
{"id": "C55", "title": "Dropping determined equations keeps the steady-state problem equivalent", "statement": "Once known values are substituted, the equations handed to the numerical solver are exactly those with an undetermined variable; every steady state that agrees with the known values solves the reduced system, and a point is a steady state iff it solves the reduced system and the dropped equations hold; each inferred value removes at least one equation.", "quantifier": "all systems, all partial steady states", "why_tests_cant": "every system and every partial solution", "anchors": ["gEconpy/model/steady_state.py: _substitute_and_filter, propagate_steady_state_through_identities"]}
{"id": "C56", "title": "An analytic steady state is marked successful exactly when it solves the model", "statement": "For a model not declared linear, when the steady state is given completely by analytic (or analytic plus fixed) values, the returned values are those of the formulas, one per variable in model order, and success is set iff every equation's residual at the returned values is within 1e-8; with a calibrated parameter the call raises.", "quantifier": "all models, parameters and formulas", "why_tests_cant": "quantifies over formulas and parameter values", "anchors": ["gEconpy/model/model.py: Model.steady_state, _try_analytic_steady_state"]}
{"id": "C57", "title": "Fixed steady-state values are respected and checked", "statement": "fixed_values are returned unchanged for the named variables, the equations they determine are checked (a violation raises), and names that are not variables (with or without _ss), or given twice, raise ValueError; calibrated parameters are among the rejected names.", "quantifier": "all fixed-value dictionaries", "why_tests_cant": "every dictionary", "anchors": ["gEconpy/model/model.py: Model.steady_state, _validate_provided_steady_state_variables, _validate_fixed_values"]}
{"id": "C58", "title": "A successful numerical steady state has small residuals", "statement": "If the optimizer does not itself claim success, a reported success means that every model equation with an undetermined variable has residual below the tolerance at the returned point; how='root' needs a square system.", "quantifier": "all models, all optimizer behaviours", "why_tests_cant": "quantifies over optimizers", "anchors": ["gEconpy/model/model.py: Model.steady_state, _solve_steady_state_with_root, _solve_steady_state_with_minimize, postprocess_optimizer_res"]}
{"id": "C59", "title": "The minimised error is zero exactly at steady states", "statement": "For each error function (squared, mean_squared, abs, l2-norm) the error is non-negative and zero iff all residuals are; the compiled functions evaluate the symbolic system with the i-th unknown set to the i-th entry of the flat vector, whichever unknowns occur.", "quantifier": "all residual vectors, graphs, unknowns", "why_tests_cant": "every system and every point", "anchors": ["gEconpy/model/steady_state.py: pt_error_from_resid", "gEconpy/model/compile.py: pack_and_compile"]}
{"id": "C60", "title": "Helper definitions in the STEADY_STATE block are eliminated", "statement": "The STEADY_STATE block's equations are reduced to one formula per model variable, in the order given, that mentions no helper and has the same solutions; circular helpers raise ValueError; each known variable is labelled with its own formula in the compiled function, and in the symbolic one when the steady state is complete.", "quantifier": "all STEADY_STATE blocks, set and dictionary orders", "why_tests_cant": "every system of definitions", "anchors": ["gEconpy/model/steady_state.py: simplify_provided_ss_equations", "gEconpy/model/compile.py: compile_known_ss"]}
{"id": "C61", "title": "Variable assumptions and user bounds are respected by the solver", "statement": "Changing variables (log, log-odds, negative log) preserves feasible roots and is invertible; bounds derived from sign assumptions and user bounds keyed by the steady-state name are respected, and the default start satisfies the assumptions.", "quantifier": "all assumption sets, bounds and start points", "why_tests_cant": "quantifies over reals", "anchors": ["gEconpy/model/model.py: infer_variable_bounds, infer_variable_transform, variable_to_intervals"]}
{"id": "C62", "title": "When linearisation lacks a value it needs", "statement": "linearize_model raises KeyError whenever the value of a derivative it needs depends on a parameter missing from the parameter dictionary (such as a calibrated one) and TypeError for a linear model without a STEADY_STATE block.", "quantifier": "all models, arguments", "why_tests_cant": "needs every model", "anchors": ["gEconpy/model/model.py: Model.linearize_model, Model.parameters"]}
{"id": "C63", "title": "Linearisation caches are invisible", "statement": "In any sequence of linearize_model calls on one model object each call returns what it would return on a fresh object, whatever logged sets, parameters and steady states earlier calls used.", "quantifier": "all call histories", "why_tests_cant": "quantifies over histories", "anchors": ["gEconpy/model/model.py: Model.symbolic_linearization, Model.linearize_model"]}
{"id": "C64", "title": "Forward-looking variables", "statement": "forward_variables lists, in model order, variables that occur at t+1, including all with a non-negligible lead derivative at the default parameters; if linearisation fails it lists exactly those that occur at t+1; lead_var_idx gives their increasing column positions.", "quantifier": "all models and parameters", "why_tests_cant": "quantifies over models", "anchors": ["gEconpy/model/model.py: forward_variables, symbolic_forward_variables, lead_var_idx"]}
{"id": "C65", "title": "Gensys returns the unique stable solution", "statement": "Whatever matrices gensys returns, T is real, solves A + B T + C T T = 0, has all eigenvalues inside the unit circle and is the only such matrix, and R is its impact matrix; existence code 0 means that no stable solution exists; a model with a stable solution and uniqueness code 1 is solved, by that solution.", "quantifier": "all real models of any size, all decompositions LAPACK may return", "why_tests_cant": "matrices of any size", "anchors": ["gEconpy/solvers/gensys.py: _gensys_setup, _gensys_core, gensys", "gEconpy/model/model.py: _solve_with_gensys"]}
{"id": "C66", "title": "Gensys failures are reported as asked", "statement": "The solver returns matrices exactly for codes (1,1), else raises or returns (None, None) as on_failure asks; the codes are (-2,-2,0) when zeros coincide and otherwise each 0 or 1, the second being 0 exactly when loose roots remain; the interpreted and the compiled form of the operation agree unless zeros coincide, when the former raises and the latter reports failure.", "quantifier": "all results of the core", "why_tests_cant": "all code combinations", "anchors": ["gEconpy/solvers/gensys.py: interpret_gensys_output, gensys, GensysWrapper.perform, gensys_wrapper", "gEconpy/model/model.py: _solve_with_gensys"]}
{"id": "C67", "title": "Compiled and Python cyclic reduction agree on convergence", "statement": "Whenever the compiled core of cyclic reduction reports convergence with a finite matrix, the Python implementation returns the same matrix.", "quantifier": "all systems, tolerances, iteration limits", "why_tests_cant": "every input", "anchors": ["gEconpy/solvers/cycle_reduction.py: cycle_reduction, _cycle_reduction_core"]}
{"id": "C68", "title": "Solver dispatch", "statement": "solve_model rejects an invalid on_failure with ValueError first; a model without leads is then solved directly whatever solver is named, even if that name is invalid; a model with leads is solved by gensys or cyclic reduction as named, 'backward_direct' is a ValueError for it and every other name a NotImplementedError.", "quantifier": "all arguments", "why_tests_cant": "every combination", "anchors": ["gEconpy/model/model.py: solve_model"]}
{"id": "C69", "title": "Gensys's constant term", "statement": "Without a constant term (the only case the package uses) gensys returns a zero constant.", "quantifier": "all systems with constants", "why_tests_cant": "every system", "anchors": ["gEconpy/solvers/gensys.py: _gensys_core"]}
{"id": "C70", "title": "Impulse responses apply the requested shocks", "statement": "shock_size as a scalar or array, or as a dictionary with individual shocks or naming all shocks, shock_cov and shock_trajectory give the responses to exactly the requested shocks, individually or jointly (shocks a dictionary leaves out are zero in individual responses); more than one kind of shock, unknown names and empty dictionaries are refused.", "quantifier": "all models, sizes, dictionaries (any order), trajectories, horizons", "why_tests_cant": "all argument values", "anchors": ["gEconpy/model/simulate.py: impulse_response_function, _make_shock_spec, _get_selected_shock_names, _infer_shocks_are_individual, _shock_vector_from_spec, _build_trajectory"]}
{"id": "C71", "title": "The shock covariance matrix", "statement": "build_Q_matrix accepts exactly one option and returns the covariance it describes: each shock's variance is the square of its own standard deviation whatever the order of the dictionary, with no covariances; dictionaries whose keys are not exactly the shocks, a negative scalar standard deviation, arrays of the wrong length or with a non-positive entry, and two-axis covariance arrays of the wrong shape are refused.", "quantifier": "all shock lists, dictionaries, arrays", "why_tests_cant": "all orders and sizes", "anchors": ["gEconpy/model/statistics/covariance.py: build_Q_matrix", "gEconpy/model/statistics/validation.py: _validate_shock_options"]}
{"id": "C72", "title": "Stationary moments", "statement": "The stationary covariance S satisfies S = T S T' + R Q R'; the covariance of row t of a simulation differs from it by T^(t+1) S T'^(t+1); lag i of the autocovariances is T^i S; autocorrelations divide by the standard deviations, have a unit diagonal at lag 0 and lie in [-1, 1] when S is positive semidefinite.", "quantifier": "all T, R, Q, lags", "why_tests_cant": "all lags and sizes", "anchors": ["gEconpy/model/statistics/covariance.py: stationary_covariance_matrix, _compute_autocovariance_matrix, autocovariance_matrix"]}
{"id": "C73", "title": "Supplied matrices and steady states are used as given or recomputed", "statement": "Supplied T and R are used as given when both are given and otherwise recomputed; likewise A, B, C, D when warnings are on; a supplied steady state in a steady-state dictionary is accepted exactly if every residual of the model's equations that is a number is at most 1e-8.", "quantifier": "all combinations", "why_tests_cant": "all combinations of optional arguments", "anchors": ["gEconpy/model/statistics/validation.py: _maybe_solve_model, _maybe_linearize_model, _maybe_solve_steady_state"]}
{"id": "C74", "title": "The verdict on a draw names its first failing step", "statement": "failure_step is None exactly when the steady state, linearisation, solver and Blanchard-Kahn check succeed and neither residual norm exceeds norm_tol; otherwise it names the first step that failed; numerical errors of the first three steps never abort the table, as long as the Blanchard-Kahn check itself does not throw.", "quantifier": "all models, draws and ways the numerical stages can end", "why_tests_cant": "all combinations of stage outcomes", "anchors": ["gEconpy/model/statistics/perturbation_diagnostics.py: _check_one_draw, _solve_perturbation"]}
{"id": "C75", "title": "Prior samples respect bounds and names", "statement": "The Sobol guard accepts exactly 0 and the powers of two; every uniform draw has one value per parameter, under its name and within its bounds; quasi-random draws pass strictly interior points to the matching prior's inverse distribution function; param_subset keeps exactly the named priors in order and rejects unknown names.", "quantifier": "all sample sizes (any integer), bounds, priors, points of the unit cube", "why_tests_cant": "all integers, all points", "anchors": ["gEconpy/model/sampling.py", "gEconpy/model/statistics/perturbation_diagnostics.py: _collect_priors"]}
{"id": "C76", "title": "Matrix labels", "statement": "matrix_to_dataframe labels an axis with the variables or the shocks according to its length (variables if both fit), never with labels of another number, and rejects other lengths.", "quantifier": "all models and matrices", "why_tests_cant": "all sizes", "anchors": ["gEconpy/model/statistics/formatting.py: matrix_to_dataframe"]}
{"id": "C77", "title": "Boundary values of a perfect-foresight run", "statement": "The values before the first period are the initial conditions where given (keyed b or b_ss) and otherwise the steady state at the first period's parameters (or the dictionary passed as the guess); likewise after the last period with the terminal conditions and the last period's parameters - for every variable whose value these determine.", "quantifier": "all models, conditions, guesses, parameter paths, steady-state solvers", "why_tests_cant": "all combinations of partial conditions, guess kinds and paths", "anchors": ["gEconpy/model/perfect_foresight/solve.py: solve_perfect_foresight, _normalize_condition_keys, _ss_dict_to_array, _extract_boundary_param_kwargs"]}
{"id": "C78", "title": "The line search measures the residual of the system", "statement": "If no two names share a natural sort key and steady-state formulas contain parameters only, the merit function, compiled separately from the residual-and-Jacobian function, returns the same residual at every point, whatever order Python walks its sets in.", "quantifier": "all models, points, set iteration orders", "why_tests_cant": "hash-dependent iteration order", "anchors": ["gEconpy/model/perfect_foresight/compile.py: _compile_single_period_residual_function, _compile_single_period_function"]}
{"id": "C79", "title": "Perfect-foresight requests are validated", "statement": "A request with paths given as arrays is accepted exactly when every condition names a variable, every shock path and parameter path names a shock or parameter of the model and has simulation_length values, and the guess has the right shape; anything else is a ValueError; with complete conditions and an explicit guess no steady state is computed.", "quantifier": "all requests, all steady-state solvers", "why_tests_cant": "every dictionary", "anchors": ["gEconpy/model/perfect_foresight/validation.py", "gEconpy/model/perfect_foresight/solve.py: solve_perfect_foresight"]}
{"id": "C80", "title": "Shock and parameter paths reach the equations", "statement": "In period t every shock has the value of its path (0 without one) and every free parameter the value of its path or its default in every equation.", "quantifier": "all models, paths, horizons", "why_tests_cant": "all periods", "anchors": ["gEconpy/model/perfect_foresight/solve.py: _build_shock_matrix, _build_param_matrix", "gEconpy/model/perfect_foresight/compile.py"]}
{"id": "C81", "title": "make_piecewise_x0", "statement": "The guess has simulation_length rows and one column per variable; rows before the transition are the initial steady state, rows after it the terminal one, rows inside move by equal steps from one to the other (a one-period transition is a step); every entry lies between the two; columns default to the variables of either dictionary, once each; and the solver reads the table by column name.", "quantifier": "all dictionaries, lengths, starts, transition lengths", "why_tests_cant": "all boundaries", "anchors": ["gEconpy/model/perfect_foresight/solve.py: make_piecewise_x0"]}
{"id": "C82", "title": "Backtracking accepts only Armijo steps", "statement": "Every iterate of a line-search solver with ArmijoBacktracking follows from the one before by x + beta^k d with d downhill (slope computed with the current Jacobian), k the smallest number below max_iter for which half the squared residual falls by at least c1 beta^k |slope|; for Newton's direction d is the linear solver's answer, minus the gradient if it fails, turned round if it points uphill. So the objective never rises. A run that gives up before maxiter does so at a point where no permitted length gives the decrease.", "quantifier": "all residual functions, starting points, linear solvers, directions, c1, beta, limits, merit functions that agree with the residuals", "why_tests_cant": "all functions and iteration counts", "anchors": ["gEconpy/solvers/sparse_root/globalization.py: ArmijoBacktracking.search", "gEconpy/solvers/sparse_root/line_search.py: LineSearchSolver.step", "gEconpy/solvers/sparse_root/direction.py: NewtonDirection.compute"]}
{"id": "C83", "title": "Backtracking succeeds when the Jacobian is right", "statement": "If the Jacobian gives the directional derivatives of the residuals at the start, 0 < c1 < 1 and 0 < beta < 1, and the start is neither a root nor (when the linear solver fails) a stationary point, then with enough reductions allowed the first step is taken and the objective strictly falls. Where the Newton system is solved exactly its slope is minus twice the objective and the direction is not turned round; the gradient fallback has slope minus the squared gradient.", "quantifier": "all functions differentiable along the direction, all exact or failing linear solvers", "why_tests_cant": "limits; all functions", "anchors": ["gEconpy/solvers/sparse_root/globalization.py: ArmijoBacktracking.search", "gEconpy/solvers/sparse_root/direction.py: NewtonDirection.compute"]}
{"id": "C84", "title": "Nonmonotone search: bounded by the recent maximum", "statement": "With a fresh NonmonotoneBacktracking each iterate lowers the objective below the largest of the last `memory` values by c1 alpha |slope|, so the result is never worse than the start; memory=1 gives exactly the run of ArmijoBacktracking; memory=0 raises ValueError.", "quantifier": "all functions, directions, memories, limits", "why_tests_cant": "all histories", "anchors": ["gEconpy/solvers/sparse_root/globalization.py: NonmonotoneBacktracking.search"]}
{"id": "C85", "title": "Trust-region solvers only take steps that pay", "statement": "Every iterate of SparseDogleg and GaussNewtonTrustRegion lies within a radius of at most max(delta0, delta_max) of the one before, the linear model promises a positive reduction there, and the objective falls by more than eta times the promise; for LevenbergMarquardt the same with the damped model and a damping parameter that stays within [min_lam, max_lam]. The objective falls strictly at every iteration. Giving up early means that the steps for all radii tried were poor.", "quantifier": "all functions, linear solvers, sensible options, limits", "why_tests_cant": "all functions and rejection sequences", "anchors": ["gEconpy/solvers/sparse_root/dogleg.py: SparseDogleg", "gEconpy/solvers/sparse_root/gauss_newton.py: GaussNewtonTrustRegion", "gEconpy/solvers/sparse_root/levenberg_marquardt.py: LevenbergMarquardt"]}
{"id": "C86", "title": "Trial steps lie in the region and promise a reduction", "statement": "The dogleg step lies inside the radius; if the curvature along the gradient is at least 1e-30 and the Newton system is solved exactly (or reported unsolvable) it lowers the linear model, and it is the Newton step when that fits. The Steihaug conjugate-gradient step lies inside the radius and lowers the model whenever the gradient is at least 1e-15; so away from stationary points a Gauss-Newton run that gives up early does so because the true objective did not fall. The exact Levenberg-Marquardt step promises half its damped quadratic form, positive unless the gradient vanishes.", "quantifier": "all residuals, Jacobians, radii, any number of conjugate-gradient passes", "why_tests_cant": "all matrices and sizes", "anchors": ["gEconpy/solvers/sparse_root/dogleg.py: _compute_dogleg_step", "gEconpy/solvers/sparse_root/gauss_newton.py: _steihaug_cg, _boundary_step", "gEconpy/solvers/sparse_root/levenberg_marquardt.py: LevenbergMarquardt.step"]}
{"id": "C87", "title": "Chord and Krylov directions", "statement": "Iterate t of the chord method is searched along the solution of the system with the Jacobian of the last iterate whose number is a multiple of recompute_every, turned downhill for the current Jacobian; recompute_every=1 is Newton's method, recompute_every=0 raises ZeroDivisionError at the second direction. The Krylov solver is only ever asked for relative accuracies between eta_min and eta_max (exactly eta_max without Eisenstat-Walker); an unknown method raises ValueError.", "quantifier": "all functions, solvers, searches, refresh periods, numbers of iterations", "why_tests_cant": "all histories of the mutable strategy object", "anchors": ["gEconpy/solvers/sparse_root/direction.py: ChordDirection, KrylovDirection"]}
{"id": "C88", "title": "Solver objects can be reused; evaluations are counted", "statement": "Except for the nonmonotone search, the result of a solve does not depend on what the solver object did before. Without a merit function, nfev is the number of evaluations when the run succeeds or uses all iterations, and at most one step's worth fewer otherwise; the total announced to the progress bar is not exceeded when a step makes at most as many trials as it assumes.", "quantifier": "all solvers, functions, previous uses", "why_tests_cant": "all histories", "anchors": ["gEconpy/solvers/sparse_root/sparse_root.py: sparse_root, _root_find_core", "gEconpy/solvers/sparse_root/base.py: IterationStats"]}
{"id": "C89", "title": "The observation row computes the observed series", "statement": "Along every path of the filter's state equation, d + Z s_t for an observed series is: the linearised observation equation (or the deviation of the variable, plus its steady state in levels or logs if asked for) at date t, summed or averaged over the aggregation window if the series is a sum or mean, as soon as the path is long enough for all lags.", "quantifier": "all models, configurations, parameter draws, paths, windows", "why_tests_cant": "all horizons and lag structures", "anchors": ["gEconpy/model/statespace.py: _make_design_matrix, _make_obs_intercept, _augment_transition, _append_obs_lag_block"]}
{"id": "C90", "title": "Observation equations are linearised at the steady state", "statement": "For every observation equation, the stored constant is the equation's value at the steady state and the stored coefficient of v[-k] is its partial derivative there, with respect to the level of v or to log v if v is log-linearised; there is one coefficient per dated symbol of the equation.", "quantifier": "all observation equations, models, parameter draws", "why_tests_cant": "all expressions", "anchors": ["gEconpy/model/statespace.py: _parse_observation_equation, _linearize_observation_equation"]}
{"id": "C91", "title": "Aggregation states do not disturb the stationary distribution", "statement": "A covariance that is stationary for the augmented state space is, on the model's own variables, stationary for the policy function, and two states that lag two variables by the same number of periods have the covariance of those variables.", "quantifier": "all models, configurations, covariance matrices", "why_tests_cant": "all sizes", "anchors": ["gEconpy/model/statespace.py: _augment_transition, _append_obs_lag_block, _augment_selection"]}
{"id": "C92", "title": "What configure accepts, and what a failed call leaves behind", "statement": "configure succeeds exactly when: every observed name is a current state or has an observation equation, errors/aggregations/intercepts name observed series, methods and solver are known, sums and means have a period of at least 2, there are at least as many shocks and errors as observed series, equations look at no lead and mention only known names, every series without equation is a model variable, intercepts have a steady state, and the exposed parameters have distinct names. Rejected arguments leave the object unchanged; a call that fails in an observation equation or later has already replaced the observed series.", "quantifier": "all objects (any history of configure calls), all arguments", "why_tests_cant": "all histories and argument lists", "anchors": ["gEconpy/model/statespace.py: DSGEStateSpace.configure"]}
{"id": "C93", "title": "Exposed parameters", "statement": "The parameters of the state space have distinct names and are the input parameters not held constant, the shock standard deviations (or state_cov) and the error standard deviations. Constants have their default values; 'auto' holds constant exactly the parameters without prior; the matrices depend on nothing but the exposed parameters when observation equations mention input parameters only.", "quantifier": "all models, configurations, draws", "why_tests_cant": "all argument lists", "anchors": ["gEconpy/model/statespace.py: make_symbolic_graph, configure, set_parameters"]}
{"id": "C94", "title": "Policy matrices are in the user's variable order", "statement": "The transition and selection matrices the filter uses describe, in the order of model.variables, the same law of motion as the solver's matrices in its own order; for any ordering the solver used.", "quantifier": "all orderings and sizes", "why_tests_cant": "all permutations", "anchors": ["gEconpy/model/statespace.py: _setup_policy_matrices"]}
{"id": "C95", "title": "Dynare expressions keep their value", "statement": "Every expression the Dynare writer prints (model equations, steady-state formulas) is an expression of Dynare's grammar that can be read in exactly one way, and it has the value of the model's expression whenever the names in the file have the values of the symbols they stand for; the model block has one equation per model equation in the same order.", "quantifier": "all expressions (sums, products, quotients, powers, roots, calls, rationals, floats), all values of symbols", "why_tests_cant": "all expression trees", "anchors": ["gEconpy/dynare_convert.py: DynareCodePrinter, write_model_equations"]}
{"id": "C96", "title": "Names in a Dynare file are declared", "statement": "var, varexo and parameters declare the model's variables, shocks and free parameters, each once and in order. The model block has exactly one local variable #X_ss for each steady-state value that occurs in the equations; it uses no undeclared name exactly when every parameter of the equations is among the declared names; if steady-state formulas mention declared parameters only, all names in local variables and in the steady_state_model block are declared; steady_state_model is written exactly when every variable has a formula, otherwise initval with the computed values.", "quantifier": "all models", "why_tests_cant": "all sets of equations, formulas and parameters", "anchors": ["gEconpy/dynare_convert.py: find_ss_variables, write_model_equations, write_steady_state, make_mod_file"]}
{"id": "C97", "title": "Numbers in a Dynare file", "statement": "Every parameter value and steady-state value is written as a decimal with three places that denotes one number, at most 0.0005 away from the value, and equal to it exactly when the value has at most three decimals.", "quantifier": "all numbers", "why_tests_cant": "all rationals", "anchors": ["gEconpy/dynare_convert.py: write_values_from_dict"]}
{"id": "C98", "title": "Eliminating tryreduce variables loses no solution", "statement": "If each substitution used for a tryreduce variable is an equation of the model, every path (with its steady state) that satisfies the model's equations in all periods and at the steady state satisfies the reduced equations too.", "quantifier": "all equation systems, tryreduce lists, substitution dictionaries, paths; any value-preserving simplification by SymPy", "why_tests_cant": "all systems and all infinite paths", "anchors": ["gEconpy/model/simplification.py: simplify_tryreduce", "gEconpy/model/build.py: _block_dict_to_sub_dict"]}
{"id": "C99", "title": "Every solution of the reduced system extends to the model", "statement": "Every path that satisfies the reduced equations becomes a path of the full model by choosing new paths for tryreduce variables only; the variables that remain keep their paths when no substitution mentions a tryreduce variable. (An equation dropped because a variable occurs nowhere else must be solvable for that variable.)", "quantifier": "all systems whose dates are t-1, t, t+1 or ss, all tryreduce lists and dictionaries, all paths", "why_tests_cant": "all systems and all infinite paths", "anchors": ["gEconpy/model/simplification.py: simplify_tryreduce"]}
{"id": "C100", "title": "Dropping isolated variables keeps the system square", "statement": "If the variables can be assigned one to one to equations they occur in, dropping the equations of isolated tryreduce variables leaves as many equations as variables, and only requested variables disappear.", "quantifier": "all systems, all tryreduce lists", "why_tests_cant": "all sizes and occurrence patterns", "anchors": ["gEconpy/model/simplification.py: simplify_tryreduce, reduce_variable_list"]}
{"id": "C101", "title": "Removing constant variables is an equivalence", "statement": "If every short equation with a single variable pins that (dated) variable to exactly one value in the parameters, a path satisfies the model exactly when it satisfies the reduced system and every pinned variable has its value in all periods and at the steady state; pinned variables are gone from equations and variable list.", "quantifier": "all systems, solvers and paths; any value-preserving evaluation by SymPy", "why_tests_cant": "all systems and all infinite paths", "anchors": ["gEconpy/model/simplification.py: simplify_constants", "gEconpy/utilities.py: expand_subs_for_all_times, substitute_all_equations"]}
{"id": "C102", "title": "What the simplifications report", "statement": "Remaining and eliminated variables partition the model's variables, both sorted by name; a variable remains exactly when it occurs, at any date, in a remaining equation. A system that is not square is returned unchanged, with nothing eliminated; each flag switches its simplification on and off, constants run on the result of tryreduce; a tryreduce entry counts exactly when it names a model variable.", "quantifier": "all systems, lists, flags", "why_tests_cant": "all inputs", "anchors": ["gEconpy/model/simplification.py: reduce_variable_list, _check_system_is_square", "gEconpy/model/build.py: _apply_simplifications", "gEconpy/parser/loader.py: _extract_tryreduce"]}
{"id": "C103", "title": "Warnings about undefined names are exact", "statement": "Validation warns that a variable is undefined exactly when it occurs on the right of a definition, objective, constraint or identity, is neither control nor shock nor left-hand side of a definition, identity or objective, and is not declared external; that a parameter is not calibrated exactly when it occurs in such an equation, no calibration item gives it and it is not external. Each name is reported once, in alphabetical order, and never as an error.", "quantifier": "all models, all sets of external names", "why_tests_cant": "all models", "anchors": ["gEconpy/parser/ast/validation.py: check_undefined_variables, check_undefined_parameters, full_validation"]}
{"id": "C104", "title": "Which validation problems become exceptions", "statement": "validate(raise_on_error=True) raises the first error of the report, exactly when the model has a repetition; with raise_on_error=False, and in preprocess with either setting of validate, no semantic error is raised.", "quantifier": "all models, all flags", "why_tests_cant": "all models", "anchors": ["gEconpy/parser/preprocessor.py: ParseResult.validate, preprocess", "gEconpy/parser/errors.py: ErrorCollector"]}
{"id": "C105", "title": "Layout of a GCN text has no effect", "statement": "Two texts with the same visible characters and with nonempty gaps (blanks, line breaks, comment lines) at the same places have the same result under parse_gcn, parse_equation and parse_block_from_text, whatever the gaps are, except that a gap of spaces between two words is kept (it may be part of an option's name).", "quantifier": "all pairs of texts", "why_tests_cant": "all texts and layouts", "anchors": ["gEconpy/parser/grammar/gcn_file.py: GCN_FILE, parse_gcn", "gEconpy/parser/grammar/special_blocks.py: OPTIONS_BLOCK", "gEconpy/parser/grammar/statements.py: parse_equation", "gEconpy/parser/grammar/blocks.py: parse_block_from_text"]}
{"id": "C106", "title": "How a GCN text is rejected", "statement": "parse_gcn either returns a model, raises GCNGrammarError, or raises an exception of the arithmetic in a distribution's arguments (TypeError for a nested operation, or what the floating-point operation raises); parse_equation either returns or raises GCNGrammarError.", "quantifier": "all texts", "why_tests_cant": "all texts", "anchors": ["gEconpy/parser/grammar/gcn_file.py: parse_gcn", "gEconpy/parser/grammar/statements.py: parse_equation, _evaluate_number_expr"]}
{"id": "C107", "title": "The language of GCN files", "statement": "parse_gcn accepts a text with the model m exactly if the text without its comments is a GCN file of the published grammar (special blocks, then one or more model blocks of components of equations, distributions and variable lists) and m is its meaning; parse_equation and parse_block_from_text accept exactly the equations and blocks of that grammar; a text has at most one reading.", "quantifier": "all texts and all models", "why_tests_cant": "all texts, and all derivations of the grammar", "anchors": ["gEconpy/parser/grammar/gcn_file.py: GCN_FILE, parse_gcn", "gEconpy/parser/grammar/statements.py: EQUATION, DISTRIBUTION, parse_equation", "gEconpy/parser/grammar/components.py: COMPONENT", "gEconpy/parser/grammar/blocks.py: MODEL_BLOCK, parse_block_from_text", "gEconpy/parser/grammar/special_blocks.py"]}
{"id": "C108", "title": "Repeated components and the order of blocks", "statement": "Of several components of one kind in a block, and of several special blocks of one kind in a file, only the last one is kept; special blocks are accepted only before the first model block.", "quantifier": "all texts", "why_tests_cant": "all block and file texts", "anchors": ["gEconpy/parser/grammar/blocks.py: _build_block", "gEconpy/parser/grammar/gcn_file.py: GCN_FILE, _build_model"]}
{"id": "C109", "title": "Assumptions declared in a GCN file", "statement": "After parse_gcn, the assumptions have an entry exactly for the variables listed in the last assumptions block, and such a variable has exactly these assumptions, all true: real, every kind it is listed under (case-insensitively), and positive if it is listed under unit_interval.", "quantifier": "all texts", "why_tests_cant": "all texts", "anchors": ["gEconpy/parser/grammar/special_blocks.py: ASSUMPTIONS_BLOCK, _build_assumptions", "gEconpy/parser/constants.py: GCN_ASSUMPTIONS, DEFAULT_ASSUMPTIONS"]}
{"id": "C110", "title": "Arithmetic in the arguments of a distribution", "statement": "An argument or starting value of a distribution evaluates exactly if it is a number or numbers joined by one and the same operator, computed from left to right; any nested arithmetic, in any calibration component, makes parse_gcn fail.", "quantifier": "all texts and argument expressions", "why_tests_cant": "all texts", "anchors": ["gEconpy/parser/grammar/statements.py: _DIST_NUMBER_EXPR, _evaluate_number_expr, _build_distribution"]}
{"id": "C111", "title": "A printed equation reads back", "statement": "For every equation whose expressions keep their grouping when printed (see C02/C03), whose numbers print as literals reading back to the same number and whose names are identifiers, parse_equation of the printed equation and ';' returns the same equation without its tags; so it returns the equation itself exactly if it has no tags. Without the ';' the printed text never parses.", "quantifier": "all equations", "why_tests_cant": "all expression trees, multipliers, calibrating parameters and tags", "anchors": ["gEconpy/parser/ast/printer.py: print_equation", "gEconpy/parser/grammar/statements.py: parse_equation"]}
{"id": "C112", "title": "A printed block reads back", "statement": "For every block with identifiers as names, printable equations (C111), printable distributions and no calibration equation 'name = X...' with X... beginning with a distribution's or wrapper's name, parse_block_from_text of the printed block returns the same block without the tags of its equations and without the distributions of its shocks; so it returns the block itself exactly if it has neither.", "quantifier": "all blocks", "why_tests_cant": "all blocks, any number of components and items", "anchors": ["gEconpy/parser/ast/printer.py: print_block, print_distribution", "gEconpy/parser/grammar/blocks.py: parse_block_from_text"]}
{"id": "C113", "title": "A printed model reads back", "statement": "For every model read from a GCN text whose equations and numbers survive printing (C111, C112) and that has no tryreduce list, parse_gcn of the printed model succeeds and gives the same blocks (up to tags and distributions of shocks), the same options in the same order and for every variable the same assumptions; printing and reading once more changes nothing.", "quantifier": "all texts, models, and ways of sorting names", "why_tests_cant": "all models", "anchors": ["gEconpy/parser/ast/printer.py: print_model", "gEconpy/parser/grammar/gcn_file.py: parse_gcn"]}
{"id": "C114", "title": "parse_block(name, content)", "statement": "parse_block(name, content) raises for every name and content without a comment, because the text it builds lacks the final ';'.", "quantifier": "all names and contents", "why_tests_cant": "all strings", "anchors": ["gEconpy/parser/grammar/blocks.py: parse_block"]}
{"id": "C115", "title": "What solver='scan_cycle_reduction' returns during estimation", "statement": "With an iteration limit of at least one and tol at most 1e9, a policy T returned after k reported steps has 1 <= k <= max_iter; the matrices inverted were invertible; no earlier step met the tolerance and k < max_iter implies that step k met it; T solves the final stabilised system. Without jitter it differs from every solution X by hat^-1 A2_k X^(2^k+1), and it is an exact solution if the reduced lag matrix (the one watched), or the reduced lead matrix, has vanished. R is always the impact matrix of the T returned.", "quantifier": "all models, iteration limits and tolerances", "why_tests_cant": "all matrices, all numbers of steps", "anchors": ["gEconpy/solvers/cycle_reduction.py: _scan_cycle_reduction, scan_cycle_reduction"]}
{"id": "C116", "title": "The residual that gates the density", "statement": "The policy residual is the sum of squares of A + B T + C T T for the policy handed to the filter, in the user's order of variables and equations, whatever orders the solver works in; that policy solves the user's model exactly if the solver's T solves the reordered one. With add_solver_success_check a finite density bounds every squared entry of the residual by solver_tol, and an exact solution always passes. If the variables are already in the solver's order and T has no column outside the states, deterministic_norm and stochastic_norm are the norms of the residuals of the state columns and of the impact equation.", "quantifier": "all models and orders", "why_tests_cant": "all matrices and permutations", "anchors": ["gEconpy/model/statespace.py: _setup_policy_matrices, build_statespace_graph"]}
{"id": "C117", "title": "The symbolic Blanchard-Kahn check", "statement": "The eigenvalues examined are the roots of the regularised pencil and, without regularisation, contain every eigenvalue of every solution with its sign. Without regularisation and with the numeric set of leads the count of unstable roots is that of the numeric check, away from the unit circle. A variable written at t+1 whose lead has a zero coefficient adds one to both counts, for every regularisation in (0, 1): reading the leads off the equations does not change the verdict.", "quantifier": "all models and eigenvalue lists", "why_tests_cant": "all matrices of all sizes, all orders of the eigenvalues", "anchors": ["gEconpy/model/perturbation.py: compute_bk_eigenvalues_pt, check_bk_condition_pt", "gEconpy/model/statespace.py: lead_var_idx"]}
{"id": "C118", "title": "The gradient of the eigenvalues", "statement": "For a matrix with a basis of eigenvectors, listed in the order of the eigenvalues returned, the gradient of real_eig pairs with every real first-order change of the matrix to the change of the real and imaginary parts weighted by the incoming gradients.", "quantifier": "all matrices, changes and incoming gradients", "why_tests_cant": "all sizes and all decompositions", "anchors": ["gEconpy/pytensorf/real_eig.py: RealEig.pullback"]}
{"id": "C119", "title": "block assembles nested lists like numpy.block", "statement": "block refuses empty lists, tuples and leaves at different depths. Otherwise, for a tree of depth d, the result has max(1, d, the largest number of axes of a leaf) axes; siblings at height h are joined along axis -h, must agree on all other axes, and their lengths add up. Every entry of every leaf (with axes of length one added in front) appears at the place moved past the earlier siblings, every position of the result comes from exactly one entry of one leaf. It succeeds exactly when the shapes fit.", "quantifier": "all nested lists of arrays of any number of axes", "why_tests_cant": "the tree, its depth and every shape are unbounded", "anchors": ["gEconpy/pytensorf/block.py: _block_check_depths_match, block"]}
{"id": "C120", "title": "A transposed join is the join of the transposes", "statement": "For arrays of at least two axes and any join axis, the graph rewrite of a matrix-transposed concatenation has the same shape and the same entries, and fails exactly when the original fails.", "quantifier": "all lists of arrays and all axes", "why_tests_cant": "all shapes", "anchors": ["gEconpy/pytensorf/block_rewrites.py: local_transpose_of_join"]}
{"id": "C121", "title": "Splitting a join", "statement": "Whenever the concatenation and the split are defined and the rewrite fires, it returns arrays with the same shapes and entries: the join's inputs when the split undoes it, the joins of the pieces when the axes differ. Along the join's own axis it fires exactly when the cuts are the inputs' lengths.", "quantifier": "all lists of arrays, axes and cuts", "why_tests_cant": "all shapes and numbers of pieces", "anchors": ["gEconpy/pytensorf/block_rewrites.py: local_split_of_join, _split_undoes_join, _split_distributes_through_join"]}
{"id": "C122", "title": "A block grid that is zero off the diagonal", "statement": "If the blocks of the square grid line up in rows and columns, replacing the nested concatenation by a block diagonal changes neither shape nor entries. Without alignment the claim is false: [[a, 0 0], [0 0, b]] with widths 1, 2 / 2, 1 is a valid 2 x 3 concatenation that the rewrite turns into a 2 x 2 matrix.", "quantifier": "all grids of matrices", "why_tests_cant": "all sizes of the grid and of the blocks", "anchors": ["gEconpy/pytensorf/block_rewrites.py: local_nested_join_to_block_diagonal, _is_zero"]}
{"id": "C123", "title": "Conversions that share a cache", "statement": "For every sequence of sympy_to_pytensor and build_symbolic_jacobians calls sharing one cache, with or without common-subexpression elimination, and no user symbol named like a temporary (__cse_tmp_N): each symbol, identified by name and class, stands for one input throughout, different symbols for different inputs, and every graph ever returned computes its expression at the values of those inputs; numbers between expressions stay in place. Without the proviso on names the claim is false: a symbol __cse_tmp_0 converted after an elimination is not an input but the earlier subexpression.", "quantifier": "all histories of conversions", "why_tests_cant": "the number and order of calls, the expressions and the elimination's output are unbounded", "anchors": ["gEconpy/model/compile.py: output_to_tensor, _sympytensor_cache_key, sympy_to_pytensor, build_symbolic_jacobians"]}
{"id": "C124", "title": "Jacobian matrices built in one pass", "statement": "After any history of conversions, build_symbolic_jacobians returns one matrix per (equations, symbols) pair, of shape (equations, symbols), empty ones included, and entry (i, j) computes the derivative of equation i with respect to symbol j.", "quantifier": "all histories and all lists of systems", "why_tests_cant": "all numbers and shapes of systems", "anchors": ["gEconpy/model/compile.py: build_symbolic_jacobians, build_symbolic_jacobian"]}
{"id": "C125", "title": "An estimation model is wired to its free parameters", "statement": "statespace_from_gcn, for a model whose deterministic parameters are formulas of the free ones and whose steady states are formulas of parameters: it refuses with NotImplementedError exactly when a variable has no steady-state formula (or there is no variable), and otherwise entry (i, j) of A, B, C is the derivative of equation i with respect to the j-th lag, current value, lead times the log-linear factor of variable j, and of D the derivative with respect to the shock, all evaluated with deterministic parameters and steady states computed from the free parameters. If a steady state is given in terms of another one that was inferred, the claim is false: the other one stays an unknown input of the matrices.", "quantifier": "all models, free parameter values, formulas", "why_tests_cant": "all sizes and formulas", "anchors": ["gEconpy/model/build.py: statespace_from_gcn", "gEconpy/model/perturbation.py: linearize_model", "gEconpy/model/parameters.py: compile_param_dict_func", "gEconpy/model/steady_state.py: compile_known_ss", "gEconpy/model/compile.py: make_return_dict_and_update_cache, make_cache_key"]}
{"id": "C126", "title": "Values reach the inputs of compiled functions", "statement": "compile_for_scipy evaluates the graph with each input at the keyword of its name, ignoring others, and raises TypeError exactly when some input has no keyword (or, always, when two inputs share a name). pack_and_compile evaluates it with steady-state node j at x_flat[j], even if only some nodes occur in the graph, and every other input at the frozen parameter of its name; it raises exactly when such a parameter is missing.", "quantifier": "all graphs, node lists, values", "why_tests_cant": "all graphs and all subsets of nodes occurring in them", "anchors": ["gEconpy/model/compile.py: compile_for_scipy, pack_and_compile"]}
{"id": "C127", "title": "The parameter and steady-state functions", "statement": "f_params(**kwargs) returns a dictionary with exactly the free and deterministic parameters in order, free ones as given and the others computed by their formulas; f_ss(**kwargs) one with exactly the variables that have a solution, in order, each with the value of its own formula. They raise TypeError exactly when a parameter is missing or unknown, MissingInputError exactly when a formula mentions a symbol that is not a parameter (for instance another variable's steady state), ValueError when there is nothing to compute.", "quantifier": "all parameter lists, formulas and keyword dictionaries", "why_tests_cant": "all sizes and formulas", "anchors": ["gEconpy/model/parameters.py: compile_param_dict_func", "gEconpy/model/steady_state.py: compile_known_ss", "gEconpy/model/compile.py: compile_function, compile_to_pytensor_function, dictionary_return_wrapper", "gEconpy/model/model.py: f_params, f_ss"]}
{"id": "C128", "title": "Model-implied autocorrelations are correlations", "statement": "For every statespace model, number of lags and lag step s > 0, entry (a, b) of lag i of sample_autocorrelation_matrices (one draw) is the correlation of variable a with variable b, i*s periods earlier, in every run of the model that starts from its stationary distribution; with observed=True, of the observed series with their measurement errors. There are n_lags + 1 lags, a step of s reads every s-th lag of step one, the latent ones agree with the Model's autocorrelation function, every defined entry is between -1 and 1, and a series without variance has none. A step that is not positive is silently taken as one.", "quantifier": "all statespace matrices, runs, numbers of lags and steps", "why_tests_cant": "all sizes, all stochastic processes that satisfy the model", "anchors": ["gEconpy/model/statespace.py: DSGEStateSpace.sample_autocorrelation_matrices"]}
{"id": "C129", "title": "Low-frequency data on a high-frequency index", "statement": "prepare_mixed_frequency_data: the result runs over consecutive calendar dates from the first one not before the smallest date; the values of each row are at the first (or last) date of the window that starts at the row's own first calendar date, the last such row winning, every other date holds NaN, and the result ends with the last date that has a value. If the dates have no gaps nothing is lost. After a gap later observations are silently dropped; a row dated at the end of its window lands one window late; every position other than 'first', misspelt ones included, means 'last'; a period of zero is an IndexError.", "quantifier": "all frames, calendars, periods and positions", "why_tests_cant": "all dates, gaps and numbers of rows", "anchors": ["gEconpy/model/statespace.py: prepare_mixed_frequency_data"]}
{"id": "C130", "title": "Parse failures carry their data through pyparsing", "statement": "The message, error code, offending text and suggestions a parse failure is raised with are what decode recovers from its text and a copy carries, for all texts from which the separator cannot be produced (in particular all texts without a vertical bar), suggestions without commas; and only for those. Messages of other exceptions pass through unchanged. A date in the user's text that holds the separator loses code and message.", "quantifier": "all messages, codes, texts and suggestions", "why_tests_cant": "all strings", "anchors": ["gEconpy/parser/errors.py: GCNParseFailure.__init__, decode, copy"]}
{"id": "C131", "title": "Where a syntax error is shown", "statement": "For every text without tabs and every position in it, the error's line and column are those of the position: the source line shown is the line containing it, the column counts from its start, so that the character there is the one at the position; the pointer and the LSP range cover exactly the text that was found there, or one column if nothing was named; in the terminal form the pointer is under its column for lines up to 9999. False: at the end of the text eleven columns past the end are marked; invalid dates are marked at the start of their variable; tabs shift the column; beyond line 9999 the pointer is one column off.", "quantifier": "all texts and positions", "why_tests_cant": "all texts", "anchors": ["gEconpy/parser/errors.py: ParseLocation.format_pointer, to_lsp_range, GCNGrammarError", "gEconpy/parser/grammar/gcn_file.py: _convert_parse_exception", "gEconpy/parser/formatting.py: ErrorFormatter"]}
{"id": "C132", "title": "Suggestions for misspelt names", "statement": "find_similar_names returns the best of the candidates that are similar enough, the best first and as many as asked for, names breaking ties, and whatever the order in which the candidates (sets) are given. If some candidate differs only in case, nothing is suggested.", "quantifier": "all names, candidates, numbers and thresholds", "why_tests_cant": "all candidate sets and iteration orders", "anchors": ["gEconpy/parser/suggestions.py: find_similar_names"]}
{"id": "C133", "title": "A written expression keeps its value when it becomes symbolic", "statement": "For every expression of a model file, the symbolic expression has, on every path and date and for every value of the parameters, the value of what is written: numbers, parameters, dated and steady-state variables, + - * / ^, the known functions, log with a base, expectations as under perfect foresight (powers with a base that is positive or a whole-number exponent). An expression is accepted exactly when its numbers are finite, its functions known and given one argument (log and sqrt also two); otherwise the error is a ValueError for an unknown function whatever its arguments, a TypeError for a wrong number of arguments or the error of the number. The symbols are exactly those written, except that a second argument of sqrt is silently dropped.", "quantifier": "all expressions, paths, dates and parameter values", "why_tests_cant": "all expressions of any depth", "anchors": ["gEconpy/parser/transform/to_sympy.py: ASTToSympyConverter.convert, ast_to_sympy"]}
{"id": "C134", "title": "The equations of a loaded model are those of its blocks", "statement": "For every parsed file with different block names and regular definitions that loads, the model's equations are, block after block in file order and leaving out steady-state blocks, the identities, one auxiliary equation per deep lag or lead, the constraints that are not excluded, the objective and one first-order condition per control. On every path on which the definitions hold, the ones before the first-order conditions vanish at all dates exactly if the written identities, kept constraints and objective hold and the auxiliary variables are the lags and leads they are named after. Of two blocks with one name, only the second one's equations are in the model, silently.", "quantifier": "all parsed files, paths and dates", "why_tests_cant": "all files of any size, all paths", "anchors": ["gEconpy/parser/transform/to_block.py: ast_model_to_block_dict, ast_block_to_block", "gEconpy/parser/loader.py: ast_model_to_primitives, _block_dict_to_equation_list"]}
{"id": "C135", "title": "From text to equations", "statement": "Whenever a text loads, its equations and steady state are those of the one model that the grammar reads in the text after removing comments; with different block names and regular definitions the equations are as in C134.", "quantifier": "all texts", "why_tests_cant": "all texts", "anchors": ["gEconpy/parser/loader.py: load_gcn_string", "gEconpy/parser/preprocessor.py: preprocess"]}
{"id": "C136", "title": "The steady state given in a model file", "statement": "Without a steady-state block the given steady state is empty. Otherwise it has exactly the left-hand sides of the first such block's identities, in order; its values mention none of the symbols the block gives values to, and on every valuation on which the block's definitions and identities hold each value is the value of its symbol. With rules for different symbols that do not mention themselves the block is accepted exactly when the rules can be ordered, and a cycle is a ValueError; an identity whose left-hand side is not a symbol is never accepted. False: later steady-state blocks are silently ignored; a block called Steady is used as steady state and its identities are also equations of the model.", "quantifier": "all parsed files and valuations", "why_tests_cant": "all numbers and orders of rules", "anchors": ["gEconpy/parser/loader.py: _extract_ss_solution_dict", "gEconpy/parser/transform/to_block.py: ast_model_to_block_dict"]}
{"id": "C137", "title": "What eigenvalue sensitivities measure", "statement": "eigenvalue_sensitivity reports the eigenvalues of the linear system at the steady state and parameter values used, each as often as it occurs, by increasing modulus, with the modulus; each gradient entry is the derivative of that eigenvalue in that parameter alone. When a user moves one parameter and calls again, the eigenvalue moves by the reported entry plus the entries of parameters computed from it times their response plus an unreported part, the response of the steady state; the entry is the full response exactly when nothing else moves. There is one column per parameter that occurs in the Jacobians; a supplied steady state needs a value for every variable and its parameters are ignored. False: that the entry is how the eigenvalue reacts to the parameter (an eigenvalue constant in p gets an entry above 2), and that a parameter with an effect has a column.", "quantifier": "all models, parameter updates, steady states and parameters", "why_tests_cant": "all models and parameter values; derivatives", "anchors": ["gEconpy/model/perturbation_diagnostics.py: eigenvalue_sensitivity", "gEconpy/pytensorf/real_eig.py"]}
{"id": "C138", "title": "The panels of a figure", "statement": "prepare_gridspec_figure gives one panel per plot, each two cells high and wide, in a grid with as few rows as possible; no two overlap, they follow reading order, and the last row is centred. It is refused exactly when there are no columns or no plots. plot_irf draws one panel per requested variable in the order asked for; a panel without labels on its time axis has another right below it; unknown names, an empty list and zero columns are refused.", "quantifier": "all numbers of columns and plots and all lists of variables", "why_tests_cant": "all sizes", "anchors": ["gEconpy/plotting.py: prepare_gridspec_figure, _resolve_list_to_plot, _prepare_irf_grid, plot_irf"]}
{"id": "C139", "title": "The points of an eigenvalue plot", "statement": "The axes are square and every point is strictly inside; the eigenvalues shown are exactly those that are neither dropped as zero nor as infinite, in order and with their own labels and gradients, and the count of dropped ones is right. Without a tolerance nothing below a million is dropped as infinite. False: that everything above a million is dropped.", "quantifier": "all sets of eigenvalues and tolerances", "why_tests_cant": "all real inputs", "anchors": ["gEconpy/plotting.py: _compute_axis_limits, _filter_eigenvalues"]}
{"id": "C140", "title": "Looking up an object of a model by name", "statement": "Model.get(name) gives the shock, parameter or variable of that name, in this order of preference, and name_ss the steady state of the variable or shock; an unknown name is an IndexError whether or not similar names exist. With distinct names every variable and shock is found under both names. A parameter or variable whose own name ends in _ss cannot be reached by any name; asking for the steady state of a parameter is an AttributeError.", "quantifier": "all models and names", "why_tests_cant": "all names", "anchors": ["gEconpy/model/model.py: Model.get", "gEconpy/utilities.py: get_name"]}
{"id": "C141", "title": "The priors of a model file", "statement": "A prior is the named PreliZ distribution with the keywords as written, wrapped as written, maxent with plotting off. The parse result's distributions require every prior to build, the error being that of the first that does not, and have for each name the last prior written for it with its metadata. The loaded model drops in silence the priors that raise ValueError, TypeError or name an unknown distribution, stops on any other error, and has for each name the last written prior that builds; when all build the two agree. False: that a parameter with a prior in the file has one in the loaded model or loading fails (a misspelt keyword).", "quantifier": "all files and all behaviours of the PreliZ constructors", "why_tests_cant": "all numbers and orders of priors, all constructors", "anchors": ["gEconpy/parser/transform/to_distribution.py: ast_to_distribution, ast_to_distribution_with_metadata, distributions_from_calibration, distributions_from_model", "gEconpy/parser/loader.py: ast_model_to_primitives"]}
{"id": "C142", "title": "Walking and rewriting a syntax tree", "statement": "A NodeTransformer calls its visit methods on the topmost nodes that have one, left to right, each on the state the previous one left, and never below a handled node; every other node keeps its class, fields and location, and is the very object given exactly when none of its parts was replaced (so a transformer that replaces nothing returns its argument) and otherwise a new object; nothing given is changed. collect_nodes_of_type returns, of all parts of the wanted class that are equal as syntax, exactly the one written first, and nothing else.", "quantifier": "all trees, all sets of methods, all states of the visitor", "why_tests_cant": "all trees and all methods", "anchors": ["gEconpy/parser/ast/visitor.py: NodeVisitor, NodeTransformer, NodeCollector, collect_nodes_of_type", "gEconpy/parser/ast/nodes.py: equality of nodes"]}
{"id": "C143", "title": "The cache of compiled functions", "statement": "In every history of compile_pytensor_function and clear_compile_cache calls each answer is a function compiled for exactly the inputs, outputs, updates, givens and options asked for, or the error of compiling them; different requests never share a function object; the same request, made again without a clear and with fewer than 128 other requests between, returns the very same object without compiling. hits plus misses is the number of calls since the last clear, and at most 128 functions are held. False: that the same request always gets the same object (129 different requests evict it), and that the order of a givens dictionary does not matter for the cache.", "quantifier": "all histories of calls", "why_tests_cant": "all histories of any length", "anchors": ["gEconpy/pytensorf/compile.py: _compile_cached, compile_pytensor_function, clear_compile_cache, compile_cache_info"]}
{"id": "C144", "title": "The PyTensor view of a model, in any order", "statement": "In every session of ss_tensors, param_tensors, equation_tensors, steady-state problems with fixed values and other conversions sharing the model's cache, in any order and number, there is one input per symbol: ss_tensors returns the inputs of the variables and calibrated parameters in order (without the known ones if filtered), param_tensors those of the chosen groups, equation_tensors graphs that have the equations' values, and with filter_known exactly the equations that still speak of an unknown variable after the known values are put in, in order, with those values. The same question always gets the same answer, and the filtered graphs have no inputs other than unknowns and parameters. False: that filtering keeps the system square.", "quantifier": "all models, all sessions of queries", "why_tests_cant": "all orders and numbers of queries", "anchors": ["gEconpy/model/model.py: Model._ensure_cache, _ensure_equation_tensors, ss_tensors, param_tensors, equation_tensors, _build_resid_with_fixed_values", "gEconpy/model/steady_state.py: _ss_residual_to_pytensor, _substitute_and_filter"]}
{"id": "C145", "title": "Seeds and generators given to the samplers", "statement": "With a Python integer seed every sampling function gives the same table in every history, whatever was drawn before, and leaves all generators as they were. A Generator given to sample_from_priors or method='random' is the only thing read and the only thing advanced; numpy integers work there as Python ones do. bounds_from_priors gives, per prior and in order, its HDI or, if that raises ValueError, its quantiles 1-p and p, which cover 2p-1 and for p below one half are inverted so that sampling is refused. False: that a Generator or a numpy integer makes lhs/sobol/halton/poisson_disk sampling reproducible (they are silently ignored), and that the fallback bounds cover hdi_prob.", "quantifier": "all histories of sampling calls, all seeds, priors and bounds", "why_tests_cant": "all histories; all priors", "anchors": ["gEconpy/model/sampling.py: bounds_from_priors, sample_from_priors, sample_uniform, sample_uniform_from_priors, sample_from_priors_qmc"]}
{"id": "C146", "title": "Error objects and collections of errors", "statement": "A parse error's text begins with its code and message and names its context, its place and every suggestion; a grammar error's message names what was found and everything expected, a semantic error's its symbol, and an error's diagnostic determines its message, severity, code and suggestions. with_location and with_context, in any number and order, change only the place of a plain or grammar error. A collector's queries are about exactly the errors added to it, in order: raise_first raises the first of severity ERROR, and nothing exactly when has_errors is false. A collection raised by raise_if_errors keeps its text but its errors are the collector's, now. False: that with_location works on every error (a semantic error raises TypeError) or keeps what a grammar error expected; that a collection's text is that of its errors; that raise_if_errors raises only if has_errors.", "quantifier": "all errors, all histories of collectors and collections", "why_tests_cant": "all texts, all histories", "anchors": ["gEconpy/parser/errors.py: GCNParseError, GCNGrammarError, GCNSemanticError, GCNErrorCollection, ErrorCollector, ParseLocation.format_location"]}
{"id": "C147", "title": "Artificial data from the prior", "statement": "data_from_prior returns the parameters and the data of one and the same prior draw; cells are that draw's or missing, and with distinct dates every column misses exactly floor(pct * dates), none for pct <= 0. The graph is built with exactly the options given (unknown ones are a TypeError), or with none at all if the PyMC model already has data. The user's PyMC model is as it was whatever happens, unless it already had data and copies share their containers, in which case its data is overwritten; the statespace model forgets the dummy data on success. False: that the function's own default options are used (passing them is even a TypeError), and that a failed call leaves the statespace model clean.", "quantifier": "all models, indices, fractions, options, and all failures of the libraries", "why_tests_cant": "all outcomes of all library calls", "anchors": ["gEconpy/model/statespace.py: data_from_prior, DSGEStateSpace.build_statespace_graph"]}
{"id": "C148", "title": "From a failure of the parser to the error shown", "statement": "Every parsing failure becomes one error. For a failure of pyparsing itself the code is by the first description that fits: a parenthesis found or asked for (E007), a semicolon asked for or a component keyword found or a word where a brace was expected (E001), a brace (E002), a missing right-hand side (E005), else E000 with pyparsing's whole message; otherwise the message is the catalogue's title and the notes its fixes. A failure the grammar raised with a code keeps code, message, found text and place, and its notes are the catalogue's fixes, preceded by at most one hint: the best suggestion. False: that an expected semicolon is reported as E001 (a parenthesis found there is E007), and that the suggestions are on the error (they never are).", "quantifier": "all exceptions, texts, and catalogues", "why_tests_cant": "all messages", "anchors": ["gEconpy/parser/grammar/gcn_file.py: _convert_parse_exception, StructuralErrorHandler, _get_semantic_annotation, _get_semantic_notes", "gEconpy/parser/errors.py: GCNParseFailure.decode, GCNGrammarError"]}
{"id": "C149", "title": "The priors of a state space model in a PyMC model", "statement": "to_pymc adds to the PyMC model exactly the priors of parameters that are neither excluded nor constant, and for each shock not excluded (by the shock's name) the priors of the parameters of its distribution; it succeeds exactly when no name occurs twice, and a ValueError leaves what was added before. With constant_params='auto' each input parameter is constant or in the model, and if every shock's standard deviation is a parameter sigma_<shock> with a prior, the state space finds every parameter it needs. A given list of constants is used as it is, or refused if one is not an input parameter. False: that exclude_priors keeps out the prior of a shock's standard deviation; that every needed parameter is there when each shock has a prior (another name than sigma_<shock>); that to_pymc always succeeds (two shocks with one standard deviation).", "quantifier": "all models, exclusions, constants and PyMC models", "why_tests_cant": "all numbers of priors and shocks", "anchors": ["gEconpy/model/statespace.py: DSGEStateSpace.to_pymc, set_parameters, configure", "gEconpy/classes/distributions.py: CompositeDistribution.to_pymc"]}
{"id": "C150", "title": "The report after a model file is read", "statement": "A warning that the model cannot be solved is given exactly when the numbers of equations and variables differ, and names both; the report says the model is ready exactly when they agree. Its lines give the counts of equations, variables, shocks, parameters, priors and calibrated parameters, and each list of removed names is shown, complete and in order, under its own heading exactly when it is not empty. The steady-state names are listed in order, each whole in one row, rows start in the column after the colon, a row of two or more names is at most 80 columns wide with tabs at 8, and a row ends only where the next name would not have fitted. The user's and the inferred names are together the keys of the final steady state, each once.", "quantifier": "all counts and lists of names without tabs and line ends, all widths", "why_tests_cant": "all lengths of lists and names", "anchors": ["gEconpy/model/build.py: build_report, _format_ss_var_list, _pluralize, _compile_gcn"]}
{"id": "C151", "title": "The first-order conditions of a loaded model file", "statement": "When a model file is loaded, the last equations of a block with an optimisation problem are its first-order conditions, one for each control in the order written: on every path on which the block's definitions hold, and at every date, the equation for x[t] equals the derivative with respect to x[t], the variables the block defines moving along, of the discounted sum of the period Lagrangians. These are read off the text: the objective's right-hand side (negated with @minimize) less the sum, over the constraints, of the multiplier (the one written after the colon, or lambda__<initials of the block>_<i>) times left-hand side minus right-hand side; the discount factor is c in V[] = u + c * E[][V[1]], or 1 if only today's and yesterday's variables occur.", "quantifier": "all model files with regular definitions and dates -1, 0, 1 in objective and constraints, all smooth functions, paths, dates and horizons from some point on", "why_tests_cant": "all expressions, numbers of constraints, controls and definitions; derivatives", "anchors": ["gEconpy/parser/loader.py: load_gcn_string, ast_model_to_primitives", "gEconpy/parser/transform/to_block.py: ast_model_to_block_dict, ast_block_to_block", "gEconpy/model/block/basic.py: Block.solve_optimization, _build_lagrangian, _get_discount_factor, _compute_foc", "gEconpy/parser/transform/to_sympy.py: ASTToSympyConverter"]}
{"id": "C152", "title": "How many roots are called explosive", "statement": "determine_n_unstable with a cutoff hands it back and counts the roots |beta/alpha| above it. Without one it reports a cutoff in (1, 1.01] - 1.01, or half-way between 1 and a root between 1 + realsmall and 1.01 - with no root between 1 + realsmall and it; the count is at least the number of roots above 1 + realsmall and at most the number above the cutoff. If no root lies in the ring (1, 1 + realsmall], the count is the number of roots outside the unit circle, in any order of the pairs. The solver's own loop flags a coincident-zero pair anywhere and, if there is none, counts the roots on or outside the unit circle: it exceeds the helper's count exactly by the unit roots. The rows of a matrix are split without loss, the second part having the counted size. False: that the count is the number of roots above the reported cutoff or independent of the order in general; that the cutoff is independent of the order; that a coincident pair other than the last is reported by the helper.", "quantifier": "all diagonals of complex numbers, cutoffs and tolerances", "why_tests_cant": "all numbers of roots, all real values and orders", "anchors": ["gEconpy/solvers/gensys.py: _determine_n_unstable_core, determine_n_unstable, split_matrix_on_eigen_stability, _gensys_core"]}
{"id": "C153", "title": "What a parsed file shows before it is turned into a model", "statement": "The converted equations of a parsed file have one entry per block name - the last block's - listing the equations of each component in order, priors left out; each side has the value of the side as written, and the metadata names multiplier and calibrated parameter; the conversion fails exactly when some equation, of the steady-state block or a calibration too, has an unknown function or a number that is not finite. get_block gives the first block of a name. all_equations are those of all blocks in order without the calibrations, all_variables and all_parameters exactly what is written in them. The calibration helper gives every parameter the value of the last item that sets it, every calibrated parameter the sides of its last equation, every prior its last one; the variables helper gives controls and whatever stands alone on a left-hand side, brought to today. A computed property of the parse result, once read, never changes; while the file is unchanged it is the value computed from it. False: that the equation shown for 'a = b -> p' follows from it (it is p = a - b); that get_block and the converted equations are about the same block; that all_parameters has the parameters of the calibrations, or the helper all variables of a block; that changes of the file after a property is read are seen.", "quantifier": "all parsed files, all histories of reads and changes, all values", "why_tests_cant": "all expressions, numbers of blocks, histories", "anchors": ["gEconpy/parser/transform/to_sympy.py: equation_to_sympy, block_to_sympy, model_to_sympy", "gEconpy/parser/ast/nodes.py: GCNModel.get_block, block_names, all_equations, all_variables, all_parameters", "gEconpy/parser/loader.py: ast_block_to_equations, ast_block_to_calibration, ast_block_to_variables_and_shocks", "gEconpy/parser/preprocessor.py: ParseResult"]}
{"id": "C154", "title": "What the terminal shows of an error", "statement": "The terminal form of an error is: the severity with its code and the message; file:line:column; the line of the error with its number, directly followed by the pointer under the marked characters with the annotation; around it exactly the lines line-context..line-1 and line+1..line+context that the file has, each with its own number and text; then one help line if there are suggestions and one line for each note, in order. Without the source, or when the line is beyond its end, only the line kept in the error is shown, if there is one; without a location none. Colours add only escape sequences: removed, they leave exactly the text without colours; and there are none unless they are asked for, the output is a terminal, NO_COLOR is unset or empty and TERM is not dumb. A collection shows every error in order, separated by one empty line, and the number of them (warnings counted as errors, refuted as a count of errors); an empty one shows nothing.", "quantifier": "every error, with any location, texts without ESC, suggestions and notes; every source text; every number of context lines; every collection; every environment", "why_tests_cant": "tests look at some messages; that no line of the context is lost, doubled or misnumbered at the ends of the file, and that colours never change the visible text, holds for all lengths and positions", "anchors": ["gEconpy/parser/formatting.py:_supports_color", "gEconpy/parser/formatting.py:ErrorFormatter", "gEconpy/parser/formatting.py:ErrorFormatter.format_error", "gEconpy/parser/formatting.py:ErrorFormatter.format_error_collection"]}
{"id": "C155", "title": "What the pair plots, the summary and the heat map show", "statement": "plot_solvability draws, for the requested parameters (default: every column that varies and is not a result of the check), an n by n figure whose panel in row i and column j < i has the j-th parameter across and the i-th up and contains every draw exactly once: the solvable ones in blue, each failure stage in its own layer and colour (red, orange, green, purple and pink for the five known stages, grey for any other); the diagonal shows the values of the solvable and of the failing draws apart, the upper triangle nothing; axis labels name the parameters. Any other name (a constant column, an unknown one) and an empty request raise ValueError. plot_solvability_summary draws one bar for each outcome that occurs, as wide as its share, each beginning where the one before ends, and they fill exactly [0, 1] when every stage is a known one. plot_corner lays out its panels likewise, for two or more variables. plot_covariance_matrix writes in column j of row i the covariance of the i-th and the j-th name, under labels in the same order, whatever order the table has; an unknown name raises KeyError. Refuted: a corner plot of one variable raises TypeError; a heat map of a table that is not square raises ValueError.", "quantifier": "every table of draws with any failure stages, every request, every number of parameters; every sample; every square labelled table and every list of names, also with repetitions", "why_tests_cant": "tests compare figures with one or two panels; that no draw is lost, doubled or put in another draw's row for any pattern of failures, and that labels and values agree for every order of names, needs all tables", "anchors": ["gEconpy/plotting.py:_solv_prepare_data", "gEconpy/plotting.py:plot_solvability", "gEconpy/plotting.py:plot_solvability_summary", "gEconpy/plotting.py:plot_corner", "gEconpy/plotting.py:plot_covariance_matrix", "gEconpy/plotting.py:plot_heatmap", "gEconpy/plotting.py:annotate_heatmap"]}
{"id": "C156", "title": "Responses and simulations solve the linear model", "statement": "Let T, R be a policy and an impact matrix of A x(t-1) + B x(t) + C E x(t+1) + D e(t) = 0 (which is what the solvers return: C24, C28, C65). Along every path that impulse_response_function or simulate computes, A x(t-1) + B x(t) + C x(t+1) + D e(t) equals C R e(t+1), so the model's equations hold exactly once no shocks come any more; in the responses to one scalar shock they hold in every period, for every shock. For every distribution of the next shock with finitely many values and mean zero, the equations hold with the expected value of the next simulated row in place of x(t+1), and the rows up to now do not depend on which value comes. If the model's remaining roots lie outside the unit circle, the paths computed without shocks are its only bounded ones.", "quantifier": "every linear model and solution of it; every sequence of shocks of any length; every period; every distribution of the next shock; every bounded path", "why_tests_cant": "tests compare some responses with stored numbers; that the simulated paths satisfy the model they were computed from, for every model, shock sequence and period, is a statement about all of them", "anchors": ["gEconpy/model/simulate.py:_simulate_linear_system", "gEconpy/model/simulate.py:impulse_response_function", "gEconpy/model/simulate.py:simulate"]}
{"id": "C157", "title": "What a validation error says and shows", "statement": "An error raised while a model is validated shows, when the source and the place are known and the place is in the file, the message with its code, the file, line and column, the line before, the line itself with its number and carets, up to two lines after, and every note; the carets stand exactly under the characters they mark, whatever the number of digits of the line numbers, and are as many as the place has columns. Otherwise it is the message alone. A control that is in no equation is named with its block and is located by the first record of its base name; duplicate parameters are all named and the first one's place is shown; orphan parameters are named once each in whatever order the set is walked, with the singular exactly for one; every list of names in the other messages is complete. A block is refused for its objective and controls exactly when one of the two is missing or there are several objectives, all of which are listed. The message about the missing component names them the wrong way round.", "quantifier": "every error text, source, place, annotation and list of notes; every list of names; every order in which a set is walked", "why_tests_cant": "tests match a few messages; that the pointer is aligned for every line number, width and column, and that no name is ever left out, quantifies over all files and lists", "anchors": ["gEconpy/exceptions.py:GCNValidationError", "gEconpy/exceptions.py:DynamicCalibratingEquationException", "gEconpy/exceptions.py:ControlVariableNotFoundException", "gEconpy/exceptions.py:DuplicateParameterError", "gEconpy/exceptions.py:OptimizationProblemNotDefinedException", "gEconpy/exceptions.py:OrphanParameterError", "gEconpy/model/block/basic.py:_validate_initialization"]}
{"id": "C158", "title": "Where variables, parameters and equations are in the source", "statement": "The location recorded for a parameter, for a variable at time t and for a variable in a list of controls or shocks is exactly that of its characters: the line, the column of the first character, the column after the last one, and the text of the line, wherever it stands in the file. The parameter after an arrow is located itself, on whatever line it is, not at the arrow. An equation's location ends after its semicolon, or before the arrow when it calibrates a parameter, and begins at its first character when that is a name, a number or a function. A variable at another time, and an equation beginning with a sign or a bracket, are not located exactly.", "quantifier": "every file, given by its lines, every place in it, every name, time index and left-hand side", "why_tests_cant": "tests check a few columns on one-line texts; that positions are right after any number of lines and characters is a statement about all files", "anchors": ["gEconpy/parser/grammar/expressions.py:_parse_variable", "gEconpy/parser/grammar/expressions.py:_parse_parameter", "gEconpy/parser/grammar/statements.py:_parse_variable_ref", "gEconpy/parser/grammar/statements.py:_parse_calibrating_param", "gEconpy/parser/grammar/statements.py:_find_location_in_node", "gEconpy/parser/grammar/statements.py:_build_equation"]}
{"id": "C159", "title": "What the eigenvalue, autocorrelation, Kalman, prior and matrix figures show", "statement": "plot_eigenvalues draws exactly the eigenvalues of modulus below 10, in order, red if the modulus is above 1, and names the number of those above 10; keyword parameters override linearize_model_kwargs. plot_eigenvalue_sensitivity has one panel for each parameter asked for, in order, each with all the kept eigenvalues - those inside the unit circle apart from those outside, none lost - and an arrow at exactly those whose change is above the fraction of the largest one, to where the derivative times the change of the parameter takes it; all points lie inside the axes. plot_acf has one panel for each variable, with every model that has it, in order, at the lags moved by the model's offset; offsets are dodge apart and centred; the reference comes last at its own lags. plot_kalman_filter shows for each variable its own draws of the output asked for and the data's column of its name. plot_priors shows all priors in order with their values, plot_estimated_matrix every entry with the names of its shocks. Exceptions, proved as refutations: a modulus of exactly 10 is neither drawn nor counted; the caller's linearize_model_kwargs keeps the overrides; sensitivities computed at other parameters are shown with the model's own values; tensors whose variable dimensions are named differently, or with other numbers of lags, cannot be overlaid, and all are drawn at the first one's lags; 'Predicted' passes the check of the output and is then not found; plot_priors with var_names draws the first priors instead of those; with fewer priors than columns the default height is 0; a symmetrical matrix hides its diagonal, so one shock shows nothing.", "quantifier": "every table of eigenvalues, dataset, set of tensors with any dimensions, reference, output of the filter, data, dictionary of priors and matrix; every request, number of columns and option", "why_tests_cant": "tests count axes of a few figures; that each panel shows its own variable's data, for every order and request, needs all of them", "anchors": ["gEconpy/plotting.py:plot_eigenvalues", "gEconpy/plotting.py:_draw_eigenvalue_panel", "gEconpy/plotting.py:plot_eigenvalue_sensitivity", "gEconpy/plotting.py:plot_acf", "gEconpy/plotting.py:_draw_acf_panel", "gEconpy/plotting.py:plot_kalman_filter", "gEconpy/plotting.py:plot_priors", "gEconpy/plotting.py:plot_estimated_matrix"]}
{"id": "C160", "title": "Taking a special block out of a text", "statement": "extract_special_block_content returns the first block of the text whole: its name in any case, white space including line ends, a brace and everything up to the first \"};\", and None exactly if the text has none. remove_special_block returns the text without every such block, met from left to right, and changes nothing else; a text without a block stays as it is. Refuted: a block that holds blocks itself (assumptions) is cut at the first inner \"};\" and the rest of it, with the inner blocks that follow, stays in the text; removing twice can remove more than removing once; the end of another word, and text in a comment, is taken for a block.", "quantifier": "every text, every block name of ordinary characters, every position of the block", "why_tests_cant": "tests extract one options block; that nothing but the blocks is taken, and nothing of them left, is a statement about all texts", "anchors": ["gEconpy/parser/grammar/special_blocks.py:extract_special_block_content", "gEconpy/parser/grammar/special_blocks.py:remove_special_block"]}
{"id": "C161", "title": "The steady state a computation starts from, and what is reported about it", "statement": "linearize_model evaluates the model at the given steady state, each variable at its own value, whatever the order of the entries and whether they stand under the variable's or the steady-state name; a missing variable raises KeyError. solve_model refuses a given point exactly when some equation is farther than 1e-8 from zero there; without one it solves with all the parameters. check_steady_state says that the steady state is found, or lists in order exactly the equations that do not hold, each with its own residual. print_steady_state prints every value once, variables first, each on its line, with the values ending below one another and the warning exactly if it is not a steady state. Refuted: solve_model and linearize_model go on from a point the solver returned without success; for a linear model nothing uses the zero steady state: without relations for it solving, linearizing and checking raise TypeError, with relations for some variables KeyError, and with all of them check_steady_state raises AttributeError; a given point is never described by check_steady_state, only accepted or refused; equations whose residual is nan are not listed; linearize_model overwrites \"verbose\" in the caller's steady_state_kwargs; an empty result raises ValueError when printed.", "quantifier": "every model, linear or not, with any known relations, solver, residuals and jacobians; every given point in any order; every parameter update and option; every table of values", "why_tests_cant": "tests solve models with analytic steady states; that a variable never gets another's value, and that every failing equation and no other is reported, quantifies over all models, orders and residuals", "anchors": ["gEconpy/model/statistics/validation.py:_maybe_solve_steady_state", "gEconpy/model/statistics/validation.py:check_steady_state", "gEconpy/model/model.py:Model.linearize_model", "gEconpy/model/model.py:Model.solve_model", "gEconpy/model/model.py:Model._linear_steady_state", "gEconpy/model/model.py:Model.evaluate_residual", "gEconpy/model/steady_state.py:print_steady_state", "gEconpy/model/compile.py:dictionary_return_wrapper"]}
{"id": "C162", "title": "What figures of impulse responses, simulations and time series show", "statement": "plot_irf draws for each variable asked for one panel, in order and in the places of C138, with that variable's responses: scenario after scenario, in each the shocks asked for in order; the colour is the shock's and the line style the scenario's, in every panel. The legend's texts stand beside lines of their own shock, the scenario legend is in the first panel only and names every scenario with its style; scenarios of a list are numbered from 0. plot_timeseries and plot_simulation draw one panel per variable in order with that variable's own data; with ci the band is between two quantiles that leave out equal parts on both sides and enclose exactly ci; an unknown variable raises KeyError or ValueError. Responses without shocks give one line per scenario, whatever shocks are asked for, and no legend of shocks. Refuted: from the fifth scenario on the line styles repeat, so that its lines look like the first one's; the first scenario decides what can be asked for, and a variable or shock another one lacks raises KeyError; an empty list raises StopIteration; one name given as a text is taken for a list of letters.", "quantifier": "every set of scenarios with any variables and shocks; every request, order and number of columns; every table and simulation; every ci", "why_tests_cant": "tests count axes and lines; that every line shows its own variable, scenario and shock, and that the legend's colours are right in all panels, needs all orders and numbers of them", "anchors": ["gEconpy/plotting.py:plot_irf", "gEconpy/plotting.py:_irf_to_mapping", "gEconpy/plotting.py:_resolve_vars_and_shocks", "gEconpy/plotting.py:_plot_irf_panel", "gEconpy/plotting.py:_plot_single_variable", "gEconpy/plotting.py:_add_shocks_legend", "gEconpy/plotting.py:plot_timeseries", "gEconpy/plotting.py:plot_simulation"]}
{"id": "C163", "title": "What is said about an expression that cannot be parsed", "statement": "Whenever a single expression (such as one of the observation_equations of configure) cannot be parsed, the GCNGrammarError says exactly one of eight things, decided by the failure alone in a fixed order: what the grammar itself raised for an empty call or a bad time index, an operator at the end, an incomplete expression, a missing operand, unbalanced parentheses, a bad variable, or pyparsing's own message; what was expected and found follows in quotes if it is known; the code is one of E006, E007, E008 and E010 by its own fixed order, the severity is ERROR, the context is the caller's, and in a text without tabs the line, the column and the line of text shown are those the same position of a whole file would have (C131), without an end. format_error_help gives for the name of a code its title, explanation and every cause and fix in order, one to a line, get_error_info its entry; any other name gives the empty text and None. Refuted: an empty call f() and a bad time index x[a] are shown with the parser's internal marks in the message (\"Empty function call 'f()'||GCN||E008||GCN||f()||GCN||\"), since the message is cut at a mark that is no longer used; the message and the code can disagree (\"Invalid time index\" with E008 for a variable called E008, \"Missing operand\" with E007); since pyparsing quotes what it found, an operator at the end is never named.", "quantifier": "every failure of the parser (message, expected, found, position), text, context and name of a code", "why_tests_cant": "the tests parse a dozen wrong expressions and match a word of the message; the order of the cases, the codes and what is cut off depend on every possible message.", "anchors": ["gEconpy/parser/grammar/expressions.py: parse_expression, _convert_parse_exception, _classify_expression_error, _get_error_code, _empty_function_fail, _invalid_time_index_fail", "gEconpy/parser/error_catalog.py: ErrorCode.format_help, get_error_info, format_error_help", "gEconpy/parser/errors.py: GCNGrammarError, GCNParseFailure"]}
{"id": "C164", "title": "Syntax trees as values and texts", "statement": "Two different expression trees, of any depth and with any names, numbers and arguments the grammar can produce, are never written alike by str(): the parentheses it puts decide the tree. The text of every time index is read back as that index; step_forward and step_backward undo each other at every integer and raise ValueError at the steady state; an index is made from an integer or from 'ss', any other text raises ValueError; Variable.at changes the time only and to_ss gives the steady state. Tag.from_string accepts the three tags in any case and raises ValueError for any other text. Refuted for trees built by hand: a subtraction and a binary use of the negation operator are written alike, and so are a parameter called 'C[]' and the variable C at the present.", "quantifier": "every expression tree, time index, variable and text", "why_tests_cant": "a test can print some trees; that no two trees of any size share a text needs induction over pairs of trees.", "anchors": ["gEconpy/parser/ast/nodes.py: TimeIndex, Operator, Tag, Number, Parameter, Variable, BinaryOp, UnaryOp, FunctionCall, Expectation", "gEconpy/parser/grammar/expressions.py: _parse_time_index"]}
