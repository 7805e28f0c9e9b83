# Formal model of gEconpy in Rocq (Coq 8.16.1)

Everything is in `rocq/theories/`, logical name `Verif`. For each area there is
`X_Model.v` (Gallina functions mirroring the Python source, each citing file and lines),
`X_Proofs.v` (lemmas) and `X_Props.v` (only the property theorems, each closed by `exact`,
with `Print Assumptions` beneath it, plus non-vacuity `Example`s).

Theorem name conventions: `Cnn_...` proves property Cnn; suffix `_partial` = only part of the
stated property (none left); suffix `_refuted` = a stronger expectation (the property as first stated, the
documentation, or what a user would assume) is false of the faithful model; the witness is a finding about
the code. Where a property was first stated in a form that the code does not satisfy, the statement now
carries the exact provisos that were proved, and the first form is kept beside it.

## Trusted base

* Coq 8.16.1's kernel (`vm_compute` is used in a few closed examples and witnesses).
* `Print Assumptions` is run under every property theorem in the `*_Props.v` files. Every theorem is
  "Closed under the global context" except those that talk about real numbers, which rest on the standard
  library's `ClassicalDedekindReals.sig_forall_dec` (and `sig_not_dec`) and
  `FunctionalExtensionality.functional_extensionality_dep`: the table at the end of this file lists them.
* The correspondence between the Python source and the Gallina definitions, which is by reading; each definition
  cites the lines it models and says what it leaves out.
* The documented behaviour of the libraries that gEconpy calls (SymPy, pyparsing, NumPy, SciPy, PyTensor), where a
  model states it: as a hypothesis in the theorem (an oracle with a specification), or as a modelled function.

## Modelled and not modelled

The per-property sections say which functions are modelled. Not modelled anywhere: floating-point rounding
(numerical code is modelled over an arbitrary field or the reals), SymPy's simplifier and automatic canonicalisation
(expressions are trees, equality of results is stated semantically), PyTensor graph compilation, plotting, file I/O,
error-message texts (only the exception class), Dynare's own behaviour, and PyMC sampling.

The linear-algebra files (`LA_*`, `Sim_*` where they say so) use mathcomp's matrices. `Print Assumptions` reports them closed; a
checker that lists the fields of sealed modules will also name mathcomp's own locked definitions
(`bigop.BigOp.bigop` and the like) and the standard library's `RbaseSymbolsImpl`, which are module-sealed definitions,
not axioms assumed here.

## Per-property design

### C01 — Symbol names identify (base name, time index) (proved)

Two time-indexed symbols have the same printed name only if they have the same base name and the same time index, and likewise the same code-generation-safe name whenever base names contain neither '+' nor '-'. A symbol's name is what every name-keyed result (steady state, covariance tables, generated code) is looked up by.

*Model and proof.* TimeIndex.v: names as list of characters with decimal printing of |t|; injectivity by stripping the suffix from the right.

*Theorems.* `C01_name_identifies_symbol`, `C01_safe_name_identifies_symbol`.

### C02 — Time stepping is a group action on dated symbols and keeps identity otherwise (proved)

step_forward and step_backward undo each other on dated symbols, k forward steps equal set_t(t+k), set_t and to_ss discard history, exit_ss turns a steady-state symbol into a date-0 symbol and leaves dated symbols alone; base name and assumptions never change.

*Model and proof.* TimeIndex.v: operations with exceptions as values; induction over call sequences; a closed form for the reached time index.

*Theorems.* `C02_forward_backward_inverse`, `C02_steps_add_up`, `C02_identity_preserved`, `C02_set_t_and_to_ss_forget_history`, `C02_exit_ss`, `C02_only_failure_is_stepping_ss`.

### C03 — Stepping a steady-state symbol is refused (proved)

Stepping a symbol that is in the steady state (step_forward, step_backward) raises TypeError for every such symbol; it never silently returns another symbol. (The to_ss docstring promises that the symbol is returned unchanged; that is false of the code.)

*Model and proof.* TimeIndex.v: refuted - the model of the code raises TypeError ('ss' + 1); the exact behaviour (always TypeError on ss, never on dated) is proved instead.

*As first stated (the theorems and refutations below settle it as above).* As the to_ss docstring promises, once a symbol is in the steady state, step_forward and step_backward leave it unchanged.

*Theorems.* `C03_step_in_ss_unchanged_refuted`, `C03_step_in_ss_always_raises`.

*Status note.* The property as documented is false of the code: stepping a steady-state symbol raises TypeError. The refutation and the exact behaviour (always raises, never silently changes) are proved.

### C04 — When printing an expression and reading it back yields the same expression (proved)

parse_expression(print_expression(e)) == e holds for an expression e with identifier names and numbers that print and read back exactly if no operand loses its grouping in print: no sum or difference to the right of + or -, no product or quotient to the right of * or /, no power as base and no product or quotient as exponent of a power. For every other such expression the round trip yields a different expression or fails.

*Model and proof.* Expr*.v: character-level printer, lexer and infix_notation parser; round trip proved for the exactly-characterised paren-safe fragment; refuted in general with witnesses a-(b-c), a/(b*c), (a^b)^c, a^(b*c).

*As first stated (the theorems and refutations below settle it as above).* parse_expression(print_expression(e)) == e for every expression AST the parser can produce.

*Theorems.* `C04_roundtrip_iff_paren_safe`, `C04_roundtrip_refuted`.

*Status note.* The unconditional round trip is false (witnesses a-(b-c), a/(b*c), (a^b)^c, a^(b*c)); the theorem is an exact iff.

### C05 — Printing and reading back keeps the value where only + and * chains are regrouped (proved)

Reading back the printed form of an expression in which no sum or difference stands to the right of -, no product or quotient to the right of / and no power as base, no product or quotient as exponent of a power, gives an expression with the same value under every assignment, in every algebra in which + and * re-associate. (For other expressions the value can change: refuted.)

*Model and proof.* Expr*.v: evaluation semantics over Z/R; refuted by witness; proved on the fragment where only + and * chains are re-associated.

*As first stated (the theorems and refutations below settle it as above).* Even where the AST shape differs, re-reading a printed expression evaluates to the same number under every assignment of variables and parameters.

*Theorems.* `C05_value_preserved`, `C05_value_preserved_refuted`.

*Status note.* Unconditionally the claim is false (C05_value_preserved_refuted).

### C06 — The expression grammar follows the documented precedence and associativity (proved)

Power is right associative and binds tighter than * and /, which are left associative and bind tighter than + and -, and parentheses always group; every token sequence has at most one parse and the parse depends on the tokens only.

*Model and proof.* Expr*.v: soundness/completeness of the parser against a declarative stratified grammar; unary minus binding tighter than ^ (so -x^2 is (-x)^2) stated explicitly and the usual-mathematics reading refuted.

*Theorems.* `C06_parser_implements_grammar`, `C06_grammar_unambiguous`, `C06_parser_total`, `C06_minus_binds_tighter_than_power`, `C06_usual_reading_of_minus_power_refuted`.

### C07 — Dates outside [-1, 1] are eliminated (proved)

After the loader's time-index expansion every variable occurrence in the definitions, controls, objective, constraints and identities of a block is dated -1, 0, 1 or steady state, whatever dates the user wrote; blocks already within that range are unchanged, expanding twice is the same as once, and names, multipliers, tags and all other components survive in order.

*Model and proof.* ExpandTime.v: AST traversal mirrored; induction on trees and on the auxiliary chain.

*Theorems.* `C07_all_dates_near`, `C07_near_blocks_untouched`, `C07_expansion_idempotent`, `C07_annotations_kept`.

### C08 — Auxiliary lag/lead variables preserve the model (proved)

On perfect-foresight paths the expanded block has exactly the solutions of the original one: a path satisfies the rewritten equations with the added identities iff it satisfies the original ones and each auxiliary variable carries the lag/lead its name promises; provided no user variable already has an auxiliary name, every solution of the original extends in exactly one way. For lags alone this also holds under uncertainty.

*Model and proof.* ExpandTime.v: denotational semantics over paths Z -> value; both directions proved under freshness of auxiliary names; refuted without freshness (a user variable called x__lag1).

*Theorems.* `C08_same_solutions`, `C08_every_solution_extends_uniquely`, `C08_lags_exact_under_uncertainty`, `C08_name_clash_refuted`.

*Status note.* The freshness proviso is necessary (C08_name_clash_refuted).

### C09 — Expansion adds each auxiliary equation once per block (proved)

Within one block the expansion adds exactly one equation per auxiliary variable of that block, each auxiliary variable being defined once. (Across blocks it is added once per block that needs it: two blocks that both use K[-2] each add K__lag1[] = K[-1], so a square model need not stay square.)

*Model and proof.* ExpandTime.v: per-block count proved; cross-block statement proved or refuted according to the code.

*As first stated (the theorems and refutations below settle it as above).* The number of equations added equals the number of auxiliary variables added, so a square model stays square.

*Theorems.* `C09_one_equation_per_auxiliary`, `C09_once_per_model_refuted`.

*Status note.* True within one block; false for the whole model: two blocks that both use K[-2] each add K__lag1[] = K[-1], so the model is no longer square.

### C10 — Substitution dictionaries are flattened completely (proved)

flatten_substitution_dict succeeds exactly when no chain of definitions between distinct symbols is circular and otherwise raises ValueError. If no definition mentions its own symbol, the result has the same keys, no value mentions any key, each value is its definition with all flattened values put in, and an assignment satisfies the original definitions iff it satisfies the flattened ones, whatever order sets are iterated in.

*Model and proof.* Flatten.v: topological elimination; invariant proofs over the worklist; cyclic case by non-existence of a rank function.

*Theorems.* `C10_success_exactly_when_acyclic`, `C10_flattened_completely`, `C10_self_reference_refuted`.

*Status note.* The proviso 'no definition mentions itself' is necessary: x := x + 1 is neither flattened nor reported (C10_self_reference_refuted).

### C11 — Shifting an equation moves every date by exactly one (proved)

step_equation_forward/backward(eq) is eq with every dated variable moved by one period simultaneously (no variable moved twice or skipped), parameters and steady-state values untouched; forward then backward is the identity.

*Model and proof.* StepEq.v: sequential substitution in sorted order versus simultaneous shift.

*Theorems.* `C11_forward_is_simultaneous_shift`, `C11_backward_is_simultaneous_shift`, `C11_round_trip`, `C11_shift_meaning`.

*Status note.* An equation that mentions a steady-state value raises TypeError, although time stepping it is documented.

### C12 — Differentiation through time sums the discounted shifted derivatives (proved)

For a discount factor that depends on parameters only, diff_through_time returns the derivative with respect to x[t] of the discounted sum of the expression over any horizon that is long enough: no term missed, none counted twice, each with its power of the discount factor. Expressions with steady-state terms raise TypeError.

*Model and proof.* StepEq.v: polynomial expression language with formal derivative.

*Theorems.* `C12_derivative_of_discounted_sum`, `C12_steady_state_terms_fail`, `C12_dated_discount_factor_refuted`.

*Status note.* For discount factors built from parameters; with a dated discount factor the sum is wrong (C12_dated_discount_factor_refuted).

### C13 — Entries of dictionaries are independent; conversion metadata is when it is not shared (proved)

For every history of operations (copy, union, stepping, conversions, insertion), the entries and the mode of a SymbolDictionary change only through operations on that very dictionary; dictionaries that never passed through copy, |, a value conversion or string-mode stepping also have independent conversion metadata. (Those four operations share the metadata with the original: three refutations.)

*Model and proof.* SymDict.v: heap model with shared metadata cells; entries independence proved, metadata independence refuted.

*As first stated (the theorems and refutations below settle it as above).* Operating on (a copy of / a union of / a stepped version of) a SymbolDictionary never changes the original, neither its entries nor its conversion metadata.

*Theorems.* `C13_entries_independent`, `C13_unshared_dictionaries_independent`, `C13_union_leaves_operands_refuted`, `C13_copies_independent_refuted`, `C13_step_leaves_original_refuted`.

*Status note.* Entries and mode are independent for every history; the conversion metadata is shared by copy, |, value conversions and string-mode stepping (three refutations), and independent in all histories that avoid those.

### C14 — String and symbol views of a dictionary are inverse (proved)

For a dictionary over parameters and variables dated -1, 0, 1 or steady state, in which names are used consistently (distinct keys print differently, one set of assumptions per name, no parameter named like a variable), d.to_string().to_sympy() equals d: same symbols with the same assumptions, values, order and conversion metadata.

*Model and proof.* SymDict.v: proved for the dates -1,0,1,ss under non-colliding names; refuted for |t|>=2.

*Theorems.* `C14_string_round_trip`, `C14_far_dates_refuted`, `C14_mixed_assumptions_refuted`.

*Status note.* Both provisos are necessary (refuted without them).

### C15 — Equation numbering of a block is a bijection in declaration order (proved)

Every definition, objective, constraint, identity and calibration entry of a block gets a distinct consecutive number, in that order, and tags and multipliers are filed under the number of their own equation.

*Model and proof.* Blocks.v: counters threaded through the components; ranges proved disjoint and exhaustive.

*Theorems.* `C15_equation_numbers`.

### C16 — Every constraint gets its own Lagrange multiplier (proved)

Solving a block's optimisation problem puts each constraint into the Lagrangian with exactly one multiplier, user-named multipliers with their own constraint, and, if user names are distinct and do not start with lambda__, all multipliers are distinct; all of them become variables of the block. (The block's multiplier table is wrong: automatic multipliers overwrite a user's entry, and a second solve raises - both refuted.)

*Model and proof.* Blocks.v: multiplier table as association list keyed as in the code.

*As first stated (the theorems and refutations below settle it as above).* Solving a block's optimisation problem puts each constraint into the Lagrangian with exactly one multiplier, user-named multipliers with their own constraint, and, if user names are distinct and do not start with lambda__, all multipliers are distinct; all of them become variables of the block. The block's multiplier table files each multiplier under its own equation, and solving again gives the same result.

*Theorems.* `C16_each_constraint_its_own_multiplier`, `C16_all_multipliers_are_variables`, `C16_user_multiplier_overwritten_refuted`, `C16_solving_twice_refuted`.

*Status note.* The multiplier table files automatic multipliers under a counter instead of the equation's number: C16_user_multiplier_overwritten_refuted, C16_solving_twice_refuted.

### C17 — First-order conditions are the Lagrangian's derivatives (proved)

For an objective that is static or of the form V = u + c V[1] with constant c, at least one constraint, and definitions used at dates -1, 0, 1: solve_optimization succeeds; the system is identities, then constraints not tagged @exclude, then the objective (each equal to rhs - lhs on every path that follows the definitions, with definitions at their written date eliminated), then one equation per control, in order, whose value is the derivative with respect to that control of the discounted sum over time of objective (negated under @minimize) minus multiplier times (lhs - rhs) of each constraint.

*Model and proof.* Blocks.v with StepEq's derivative.

*Theorems.* `C17_first_order_conditions`, `C17_unconstrained_problem_refuted`, `C17_discount_factor_of_split_objective_refuted`, `C17_deep_lag_through_auxiliary_refuted`.

*Status note.* Proved for all well-formed blocks (optimisation_block). Refuted outside: a problem without constraints raises, a discount factor split over two addends is misread, a control's effect through a lag deeper than one period is lost once auxiliary variables replace it.

### C18 — Specialised Cobb-Douglas/CES blocks give the same first-order conditions as the generic path (proved)

A block recognised as Cobb-Douglas or CES that has no definitions, writes its constraint as output = production and each control once in it, gets, at every point at which the constraint holds with positive output, first-order conditions with the same values as the generic Lagrangian derivatives, and all other equations unchanged. (Without those provisos the conditions differ: four refutations.)

*Model and proof.* Blocks.v / CobbDouglas.v: algebraic identity over the reals; index mismatch refuted.

*As first stated (the theorems and refutations below settle it as above).* A block recognised as Cobb-Douglas or CES gets, at every point at which its production constraint holds with positive output, first-order conditions with the same values as the generic Lagrangian derivatives, and all other equations unchanged.

*Theorems.* `C18_closed_forms_agree`, `C18_output_on_the_right_refuted`, `C18_objective_with_definitions_refuted`, `C18_unnamed_multiplier_with_definitions_refuted`, `C18_input_at_two_dates_refuted`.

*Status note.* Each proviso is needed: with production = output the multiplier term gets the wrong sign; objectives that use definitions lose their derivative; unnamed multipliers with definitions make the solver raise; an input at two dates loses its discounted term.

### C19 — Hyper-parameters, deterministic and calibrated parameters are separated without loss (proved)

Building a model succeeds exactly when no name is declared twice within a kind, the parameter formulas are not circular, and no orphan (and, under 'raise', no unused) parameter exists; otherwise the matching error is raised. The free, hyper-, calibrated and deterministic groups then contain exactly the declared entries, with formulas expanded without change of value, and do not depend on the order of blocks.

*Model and proof.* Params.v.

*As first stated (the theorems and refutations below settle it as above).* Building a model succeeds exactly when no name is declared twice within a kind, the parameter formulas are not circular, and no orphan (and, under 'raise', no unused) parameter exists; otherwise the matching error is raised. The free, hyper-, calibrated and deterministic groups then contain exactly the declared entries, with formulas expanded without change of value, and do not depend on the order of blocks. Every parameter is in one group, every mentioned parameter is declared, and all parameters can be computed.

*Theorems.* `C19_parameters_grouped_and_checked`, `C19_block_order_irrelevant`, `C19_undeclared_parameter_detected_refuted`, `C19_one_group_per_parameter_refuted`, `C19_needed_formulas_kept_refuted`, `C19_accepted_parameters_computable_refuted`.

*Status note.* Stronger readings are refuted: an undeclared parameter passes when a formula mentions it; a name may be free and calibrated; a formula used only in a calibrating equation is dropped; an accepted model may have parameters that cannot be computed.

### C20 — Updating parameters is idempotent and local (proved)

model.parameters(**u) raises ModelUnknownParameterError iff u names something that is neither free nor deterministic; otherwise it returns the free parameters in order with the values of u where given and the defaults elsewhere, followed by the deterministic ones, each the value of its formula at the returned values (deterministic names in u are ignored). Feeding a result back returns it unchanged and the order of u does not matter.

*Model and proof.* ModelApi.v.

*Theorems.* `C20_update_is_local`, `C20_idempotent`, `C20_order_of_updates_irrelevant`.

### C21 — Steady-state propagation is sound, monotone and terminates (proved)

Propagating known steady-state values through identities keeps every provided value in place, adds values only for model variables that had none and expresses them without steady-state variables; each added value makes some model equation containing the variable hold; no steady state that agrees with the provided values is lost; and with more passes than variables the result is final (running again changes nothing).

*Model and proof.* SteadyState.v with an explicit solve oracle.

*Theorems.* `C21_values_kept_and_extended`, `C21_added_values_solve_an_equation`, `C21_no_steady_state_lost`, `C21_final_when_passes_suffice`, `C21_case`, `C21_hundred_passes_final_refuted`.

*Status note.* For every solver oracle that is sound/complete for one equation, every set and dictionary order and every number of passes. That the default 100 passes always suffice is refuted (chain of 101 equations listed in reverse).

### C22 — Model-variable ordering is a permutation and is undone (proved)

linearize_model returns matrices whose rows are the model's equations and whose columns are its variables (shocks for D), in model order: entry (i,j) of A, B, C is the derivative of equation i at the steady state with respect to variable j at t-1, t, t+1, in logarithms for variables with positive steady state that are to be logged and in levels otherwise, and D the derivative with respect to the shocks. Internally rows and columns are grouped by the dates they involve; that order is a permutation with the announced group sizes and is undone. Entries of variables that do not occur are exactly zero, and the call succeeds whenever steady state and parameters are complete.

*Model and proof.* Ordering.v: list-level permutations; LinAlg.v: matrix-level undo.

*Theorems.* `C22_orders_are_permutations`, `C22_linearised_matrices`, `C22_structural_zeros`, `C22_succeeds`, `C22_case`.

*Status note.* sympy's simplification and the CSE pass are one parameter that keeps values and adds no symbols. (The docstring of linearize_model swaps A and C; the theorem states what is returned: A for x[t-1], C for x[t+1].)

### C23 — Log-linearisation flags follow the documented rules (proved)

For a steady state listed in model order (what steady_state() returns), a variable is kept in levels exactly when the user listed it, or its steady state is numerically zero, or negative while loglin_negative_ss is off; unknown names in not_loglin_variables raise ValueError; there is one flag per variable and calibrated parameter.

*Model and proof.* Ordering.v.

*As first stated (the theorems and refutations below settle it as above).* A variable is kept in levels exactly when the user listed it, or its steady state is numerically zero, or negative while loglin_negative_ss is off; unknown names in not_loglin_variables raise ValueError; values are matched to variables by name; there is one flag per variable and calibrated parameter; and with loglin_negative_ss on, variables with negative steady state are log-linearised.

*Theorems.* `C23_flags_from_arguments`, `C23_flags_follow_names_refuted`, `C23_variables_suffice_refuted`, `C23_flag_count_refuted`, `C23_negative_logged_refuted`.

*Status note.* Refuted beyond that: a user's dictionary in another order flags the wrong variables; one without calibrated parameters can raise IndexError; the documented length when log_linearize=False; loglin_negative_ss=True has no effect for variables of undeclared sign.

### C24 — What a matrix returned by cyclic reduction is (proved)

A matrix returned by cyclic reduction is the one defined by the k-th reduced system of the literature's recursion, where k is the first number of steps at which both outer matrices are below the tolerance (or the last allowed step if then the lag matrix is); every solution X of A + B X + C X X = 0 is within |hat^-1| |A2_k| |X^(2^k+1)| of it; if the reduced lead matrix vanishes it is the only solution, with zero residual; R is the matching impact matrix; partial convergence is never reported. (A reported success does not imply that a solution exists: refuted.)

*Model and proof.* LinAlg.v in mathcomp matrices over any field.

*As first stated (the theorems and refutations below settle it as above).* A matrix returned by cyclic reduction is the one defined by the k-th reduced system of the literature's recursion, where k is the first number of steps at which both outer matrices are below the tolerance (or the last allowed step if then the lag matrix is); every solution X of A + B X + C X X = 0 is within |hat^-1| |A2_k| |X^(2^k+1)| of it; if the reduced lead matrix vanishes it is the only solution, with zero residual; R is the matching impact matrix. Reported success means that the matrix solves the model.

*Theorems.* `C24_returned_matrix_is_the_reduction`, `C24_distance_to_every_solution`, `C24_exact_when_the_lead_matrix_vanishes`, `C24_impact_matrix_matches`, `C24_partial_convergence_is_never_reported`, `C24_case`, `C24_exact_case`, `C24_success_means_solution_refuted`, `C24_success_means_tolerances_met_refuted`.

*Status note.* Proved over every ordered field, size and number of passes; rounding is not modelled. Refuted: a reported success does not mean that the matrix solves the equation (for every tolerance there is a model without any solution that 'succeeds'), nor that both tolerances were met.

### C25 — How a failed cyclic reduction surfaces (proved)

A cyclic-reduction solve that does not converge raises ValueError (TypeError for one variable) whatever on_failure is; (None, None) and the documented exception never occur; the loop gives up exactly when at least one pass is allowed, all pivots are invertible, no earlier pass had both outer matrices below the tolerance and after the last pass the lag matrix is not below it. (The documented on_failure behaviour is false of the code.)

*Model and proof.* Solvers.v: control-flow model with None/array values; refuted.

*As first stated (the theorems and refutations below settle it as above).* With on_failure='ignore' a non-converging cyclic-reduction solve returns (None, None); with 'error' it raises the documented error.

*Theorems.* `C25_nonconvergence_escapes`, `C25_documented_failures_never_happen`, `C25_gives_up_exactly_when`, `C25_case`.

*Status note.* False of the code: the loop gives up exactly in the stated situation, and then an undocumented ValueError (TypeError for one variable) escapes whatever on_failure is; (None, None) and the documented exception never happen. Both facts are proved for all inputs.

### C26 — Adjoints of the perturbation solvers are correct (proved)

The cotangents returned for A, B, C pair with every perturbation (dA, dB, dC) exactly as T_bar pairs with the dT implied by the differential of A + B T + C T T = 0; a diagonal jitter changes that by exactly jitter times the pairing of A_bar with dT.

*Model and proof.* LinAlg.v: trace identity in mathcomp.

*Theorems.* `C26_adjoints_are_the_gradient`, `C26_adjoints_with_jitter`, `C26_adjoints_shape`, `C26_case`.

*Status note.* With the jitter the code adds to the diagonal, the exact error term is given.

### C27 — Gensys setup represents the model (proved)

The stacked system handed to gensys holds for a path exactly when A x(t-1) + B x(t) + C w(t) + D z(t) = 0 with w the expected leads and eta the error of the previous expectation of each lead variable; every variable whose column of C exceeds the tolerance is among the leads.

*Model and proof.* LinAlg.v.

*As first stated (the theorems and refutations below settle it as above).* The stacked system handed to gensys holds for a path exactly when A x(t-1) + B x(t) + C w(t) + D z(t) = 0 with w the expected leads and eta the error of the previous expectation of each lead variable; and no lead variable is dropped from it.

*Theorems.* `C27_system_is_the_model`, `C27_leads_are_complete`, `C27_small_leads_kept_refuted`.

*Status note.* A lead whose column of C has a positive absolute sum within the tolerance is dropped (C27_small_leads_kept_refuted).

### C28 — Backward-looking solver is exact (proved)

For a model with no leads the direct solver returns exactly when B is invertible, and then the unique T, R with A + B T = 0 and B R + D = 0, which is the unique policy and its impact matrix.

*Model and proof.* LinAlg.v.

*Theorems.* `C28_backward_solution`, `C28_backward_solution_without_leads`, `C28_case`.

### C29 — What the residual norms certify (proved)

The two reported numbers are the Frobenius norms of the residuals of the policy equation, in the columns of state variables, and of the impact equation, for the returned (thresholded) matrices; zero norms mean exactly that these residuals vanish. (They do not certify A + B T + C T T = 0: T = 0 passes for every A - refuted.)

*Model and proof.* LinAlg.v: refuted (only state columns are checked); partial with exact side condition.

*As first stated (the theorems and refutations below settle it as above).* The two reported numbers are the Frobenius norms of the residuals of the policy and of the impact equation for the returned (thresholded) matrices; if both are zero then A + B T + C T T = 0 and B R + C T R + D = 0.

*Theorems.* `C29_norms`, `C29_zero_norms`, `C29_zero_norm_certifies_refuted`.

*Status note.* Refuted: the deterministic norm looks only at the columns of state variables, so T = 0 passes for every A. The theorems say exactly what zero norms do certify.

### C30 — Blanchard-Kahn verdict matches the count (proved)

check_bk_condition is satisfied exactly when the number of forward-looking variables equals the number of generalised eigenvalues above one in modulus and obeys return_value/on_failure; away from the unit circle that number is the number of unstable roots gensys finds, whatever QZ decompositions LAPACK returns; every model gensys solves satisfies the condition.

*Model and proof.* Solvers.v.

*As first stated (the theorems and refutations below settle it as above).* check_bk_condition is satisfied exactly when the number of forward-looking variables equals the number of generalised eigenvalues above one in modulus and obeys return_value/on_failure; away from the unit circle that number is the number of unstable roots gensys finds, whatever QZ decompositions LAPACK returns; every model gensys solves satisfies the condition. The table lists the roots of the model, and a satisfied condition means that the model has a stable solution.

*Theorems.* `C30_outcome`, `C30_counts_agree`, `C30_solved_models_pass`, `C30_case`, `C30_roots_reported_refuted`, `C30_satisfied_means_solvable_refuted`.

*Status note.* Refuted beyond that: the eigenvalues listed have the wrong sign (the pencil is negated twice), and a satisfied condition does not imply a stable solution (no rank condition is checked).

### C31 — Impulse responses and simulations obey the state equation (proved)

Whatever its arguments, every path impulse_response_function returns starts at rest and satisfies row t = T row t-1 + R e_t for some shocks, and a path labelled with a shock is driven by that shock alone; the path driven by e is sum_{s<=t} T^(t-s) R e_s; paths are linear in the shocks; the one-at-a-time responses add up to the joint response and are labelled with all shocks in model order; every simulation returned by simulate is the path of its own draws.

*Model and proof.* Simulate.v / LinAlg.v.

*Theorems.* `C31_state_equation`, `C31_closed_form`, `C31_linear`, `C31_superposition`, `C31_simulate`, `C31_simulate_follows`, `C70_case`.

*Status note.* For every horizon, matrices and shock argument; rounding is not modelled.

### C32 — Solvability diagnostics rows belong to their draws (proved)

On one core, row i of the table returned by solvability_check describes parameter draw i. On several cores every draw is checked exactly once, a verdict is at most cores - 1 rows early, and all schedules give aligned rows exactly if all draws have the same outcome. Every sampled column whose name is a Python identifier reaches the model under its own name.

*Model and proof.* Schedule.v: completion orders as permutations; serial proved, parallel refuted.

*As first stated (the theorems and refutations below settle it as above).* Row i of the table returned by solvability_check describes parameter draw i, whatever the number of worker processes and their scheduling; every draw is checked exactly once; every sampled column reaches the model under its own name; no draws give an empty table.

*Theorems.* `C32_serial`, `C32_nothing_lost`, `C32_displacement`, `C32_columns`, `C32_renamed`, `C32_parallel_alignment_iff`, `C32_parallel_alignment_refuted`, `C32_keyword_column_refuted`, `C32_no_draws_refuted`.

*Status note.* Alignment on several cores is refuted for every table whose draws do not all have the same outcome (imap_unordered yields in completion order). A column named like a Python keyword (lambda) never reaches the model, and an empty table raises.

### C33 — Stacked perfect-foresight system equals the period equations (proved)

For every horizon T, entry t*n+i of the stacked residual is equation i of the model in period t, read with the variables of t-1, t, t+1 (the initial values before the first period, the terminal values after the last), the requested shocks and parameter paths and steady-state symbols at their analytic values; it is zero iff the model holds in every period; and if the root finder stops at a zero the returned table is a path that satisfies the model.

*Model and proof.* PerfectForesight.v.

*Theorems.* `C33_stacked_residual`, `C33_solution_satisfies_model`, `C33_case`.

*Status note.* For every horizon, model, set order and argument list with a square compiled system. Shocks must be written without lags (lagged ones: C80).

### C34 — Assembled sparse Jacobian equals the block-tridiagonal Jacobian (proved)

If derivatives that vanish in the first period vanish in all periods, the assembled sparse matrix is the Jacobian of the stacked residual: its entry (k, l) is the partial derivative of component k with respect to component l, for every horizon and every point.

*Model and proof.* PerfectForesight.v: proved under pattern containment; refuted otherwise.

*As first stated (the theorems and refutations below settle it as above).* The assembled sparse matrix is the Jacobian of the stacked residual: its entry (k, l) is the partial derivative of component k with respect to component l, for every horizon and every point.

*Theorems.* `C34_assembled_blocks`, `C34_jacobian_is_derivative`, `C34_case`, `C34_lost_entries_refuted`.

*Status note.* The proviso is needed (C34_lost_entries_refuted): the sparsity pattern is taken from the numbers of the first period, and x_t x_{t-1} at x_0 = 0 loses an entry.

### C35 — Root-finder result is consistent (proved)

Whatever solver is used, sparse_root ends (after at most maxiter iterations, with an exception only for recompute_every=0, memory=0, an unknown Krylov method or no unknowns); fun and jac in the result are the function's values at x; success=False means some residual is at least f_tol; success=True means that all residuals are below f_tol or that the run stopped one iteration earlier ends within x_tol (1 + max|x|) of x. A start that is already a root is returned at once, and a larger maxiter does not change a run that ended before its limit.

*Model and proof.* SparseRoot.v: loop with oracle functions.

*Theorems.* `C35_result`, `C35_more_iterations`, `C35_already_there`, `C35_returns`, `C35_success_refuted`, `C35_case`.

*Status note.* success alone does not mean small residuals: a run may end successfully with a residual 25 times the tolerance because the last step was short (C35_success_refuted).

### C36 — Measurement error variances sit on their observed variables (proved)

After configure, the observation covariance is diagonal and carries the variance of every series' measurement error in the row of that series (zero for the others), at every parameter draw, exactly when the list of series with measurement error is an initial segment of the list of observed series; for any other choice variances are attached to the wrong series.

*Model and proof.* StateSpace.v: refuted; partial when orders agree.

*Theorems.* `C36_measurement_errors`, `C36_refuted`.

*Status note.* The plain claim (each variance in the row of its own series) is refuted: observed [Y, C] with error on C puts the variance of C on Y (C36_refuted). The iff is exact.

### C37 — Temporal aggregation states carry the right lags (proved)

After configure, along every path of the augmented state equation the model's variables follow the policy function, and every further hidden state is, from period j on, the value j periods ago of the variable named in its label v_cumulator_lagj or v_obs_lagj; there are as many labels as states.

*Model and proof.* StateSpace.v.

*Theorems.* `C37_hidden_states_are_lags`, `C37_case`.

*Status note.* For every model, argument list and path of the filter's state equation.

### C38 — Dynare line writer emits every name once in order (proved)

The declarations written for a list of names (variables, shocks, parameters) are complete statements 'keyword a, b, c;' one per line, which together name every item exactly once in order; a line is wider than the limit only if it declares a single name, a line is broken only when the next name does not fit, and an empty declaration 'keyword;' is written exactly when there are no names or the first name alone does not fit.

*Model and proof.* Dynare.v.

*Theorems.* `C38_declarations`, `C38_case`, `C38_empty_declaration_refuted`.

### C39 — Comments in a GCN text have no effect (proved)

Comments do not matter: parse_gcn, parse_equation and parse_block_from_text give the same result, AST or exception, on a text and on the text from which everything between a '#' and the end of its line was removed; two texts that agree after removing comments have the same result.

*Model and proof.* Gcn_Lex.v, Gcn_Model.v: the whole file grammar at character level, parametrised by what is skipped before a token. Gcn_Sim.v: two skipping functions related on two texts make every rule give related results; Gcn_Layout.v, Gcn_Closed.v, Gcn_Proofs.v: the instance for layouts.

*Theorems.* `C39_comments`, `C39_comments_equation`, `C39_comments_block`, `C39_any_comments`, `C39_comment_takes_the_line`, `C39_case`.

*Status note.* For every text, accepted or rejected, including comments with unbalanced brackets, semicolons and braces. The grammar's INVALID_TIME_INDEX rule does look at raw text (comments included); the theorem shows that this never changes the outcome.

### C40 — Block validation reports a duplicate exactly when there is one (proved)

Validation of a parsed model finds an error exactly when a control or a shock is listed twice in a block, two blocks have the same name, or two calibration items (distributions, or equations with a bare parameter on the left) give the same parameter; every repetition is reported in its block once, and a parameter given more than once is reported once with the blocks of all its items in order.

*Model and proof.* Validation.v.

*Theorems.* `C40_error_iff_repetition`, `C40_counts`, `C40_blocks_and_parameters`, `C40_arrow_duplicates_refuted`, `C40_case`.

*Status note.* Refuted for '-> alpha' items: two equations calibrating the same parameter are not reported.

### C41 — What a lead of two or more periods means under uncertainty (proved)

Under uncertainty, a variable led by k >= 2 periods is given the meaning 'next period's forecast of its (k-1)-period lead', in every block. If the tower law holds, expectations are linear and such leads enter linearly inside expectations, a path solves the expanded block exactly when it solves the original one and the auxiliary variables are the lags and forecasts they stand for.

*Model and proof.* ExpandTime_*.v: expectation is an uninterpreted operator with the tower rule; exact meaning of the rewritten block; linear case equals the original; refuted in general (E[x[2]^2]).

*As first stated (the theorems and refutations below settle it as above).* When expectations are not perfect foresight, a variable led by k >= 2 periods is given the meaning 'next period's forecast of its (k-1)-period lead'. This leaves the model's solutions unchanged when such leads enter linearly inside expectations.

*Theorems.* `C41_deep_leads_become_forecasts`, `C41_exact_when_leads_linear`, `C41_same_model_under_uncertainty_refuted`.

*Status note.* Without linearity the expanded block is a different model (C41_same_model_under_uncertainty_refuted).

### C42 — Definitions are expanded to all three dates, each shifted as a whole (proved)

A definition written for one date gives the substitutions for x[-1], x[] and x[1]; each right-hand side is the written one with every date moved by the same amount.

*Model and proof.* Sym_*.v on top of C11.

*Theorems.* `C42_definitions_expanded_at_all_dates`.

### C43 — Eliminating a variable by an equation that defines it keeps the solutions (proved)

Simplifying with x[] = y[] (another variable at the same date) or x[] = c (an expression in parameters only) leaves the value of every expression unchanged on every path on which x[] = rhs holds in all periods.

*Model and proof.* Sym_*.v: proved for right-hand sides that are a variable at date 0 or parameter-only; refuted for anything else (x[] = -y[] rewrites x[1] to -y[0]; x[] = y[-1] rewrites x[] to y[]).

*As first stated (the theorems and refutations below settle it as above).* When the model is simplified with x[] = rhs (constant or another variable), every equation after the substitution has, on every path on which x[] = rhs holds in all periods, the value it had before.

*Theorems.* `C43_alias_elimination_sound`, `C43_constant_elimination_sound`, `C43_elimination_sound_refuted`, `C43_dated_alias_refuted`.

*Status note.* For right-hand sides with other dated variables it is false; the two refutations give the shapes that break.

### C44 — The steady-state form of an equation is the equation at rest (proved)

eq_to_ss yields an expression whose value at steady-state values s is the value of the equation on the path that stays at s for ever with all listed shocks zero.

*Model and proof.* Sym_*.v: substitution lemma.

*Theorems.* `C44_steady_state_form`.

### C45 — A symbol dictionary never mixes string and symbol keys (proved)

Whatever sequence of constructor, copy, |, item assignment, conversion, stepping, sorting and value-conversion calls is made (failing calls included), each dictionary's keys are distinct and all of one kind, and is_sympy tells which.

*Model and proof.* SymDict_*.v: invariant of the heap model, preserved by every call; update() is outside because it does not check (refuted).

*Theorems.* `C45_keys_of_one_kind`, `C45_update_mixes_kinds_refuted`.

*Status note.* The exclusion of update() is necessary: C45_update_mixes_kinds_refuted.

### C46 — sort_keys permutes a dictionary into name order (proved)

sort_keys returns exactly the entries of the dictionary, ordered by printed name, for consistent dictionaries with dates -1, 0, 1 or steady state.

*Model and proof.* SymDict_*.v: insertion sort on the string view, then the C14 round trip; refuted for dates beyond one (the key becomes a parameter).

*Theorems.* `C46_sort_keys`, `C46_sort_keys_far_dates_refuted`.

### C47 — A block is accepted exactly when its optimisation problem is well posed (proved)

Building a block raises OptimizationProblemNotDefined iff exactly one of objective and controls is missing, MultipleObjectiveFunctions iff there are several objectives, ControlVariableNotFound iff a control occurs in no definition, objective or constraint, and an accepted block has every tag in the component where it is allowed.

*Model and proof.* Block_*.v: decision procedure of the validation proved equivalent to a specification on the parsed block.

*Theorems.* `C47_block_accepted_exactly_when_well_formed`.

### C48 — Calibration entries are classified without loss, and duplicates are reported (proved)

The calibration component yields, in order, exactly the numeric, calibrated and deterministic parameters written there with their expressions; a parameter given twice within one of these kinds is reported, and only such.

*Model and proof.* Block_*.v: loop invariant; duplicates across kinds refuted.

*As first stated (the theorems and refutations below settle it as above).* The calibration component yields, in order, exactly the numeric, calibrated and deterministic parameters written there with their expressions; a parameter given twice is reported.

*Theorems.* `C48_parameters_classified`, `C48_conflicting_values_detected_refuted`.

*Status note.* A parameter that has a number and is also calibrated (or defined by a formula) is accepted silently (C48_conflicting_values_detected_refuted).

### C49 — Automatically named multipliers are unique in their block (proved)

Within one block the automatic multiplier names of different constraints are different.

*Model and proof.* Block_*.v: injectivity within one block; FIRM / FISCAL share lambda__F_1; a block name with two consecutive underscores raises IndexError.

*As first stated (the theorems and refutations below settle it as above).* No two constraints of a model, in whatever blocks, get the same automatic multiplier name, and any block name has one.

*Theorems.* `C49_automatic_multipliers_distinct_within_block`, `C49_automatic_multipliers_across_blocks_refuted`, `C49_block_name_with_empty_word_refuted`.

*Status note.* Across blocks with the same initials names coincide, and a block name with an empty word has no automatic name (both refuted).

### C50 — Defined variables are eliminated from the system (proved)

After solve_optimization no equation of the block mentions, at the date at which its definition is written, a variable that has a definition (part of C17).

*Model and proof.* Block_*.v: proved at the written date as part of C17; refuted at other dates.

*As first stated (the theorems and refutations below settle it as above).* After solve_optimization no equation of the block mentions a variable that has a definition.

*Theorems.* `C17_first_order_conditions`, `C50_definition_at_other_date_eliminated_refuted`.

*Status note.* At any other date the defined variable stays in the system without an equation (C50_definition_at_other_date_eliminated_refuted).

### C51 — The order of variables and shocks is canonical and natural (proved)

model.variables and model.shocks contain each variable/shock of any block once, never a shock among the variables, in an order that depends only on the set of names: not on block order, hashing or dates; sorted by natural key, so names that differ in one number are in numeric order, and the comparison never raises.

*Model and proof.* Build_*.v: canonical sort argument (Sort_Lib), alternation invariant of re.split.

*Theorems.* `C51_order_independent_of_blocks_and_sets`, `C51_variables_and_shocks_complete`, `C51_natural_order`, `C51_comparison_never_raises`, `C51_numbers_in_numeric_order`.

### C52 — Variables are classified by the dates at which they are written (proved)

classify_variables_by_timing returns exactly the non-shock variables written at t-1, t and t+1 and the shocks, each once and naturally sorted, and raises ValueError iff some variable is written at another date or in steady state; if no two names share a natural sort key and shocks are written at date t only, the result does not depend on the order of Python's sets.

*Model and proof.* Build_*.v; determinism proved when natural keys are distinct, refuted for names like x1 and x01.

*As first stated (the theorems and refutations below settle it as above).* classify_variables_by_timing returns exactly the non-shock variables written at t-1, t and t+1 and the shocks, each once and naturally sorted, and raises ValueError iff some variable is written at another date or in steady state; the order is always the same.

*Theorems.* `C52_classified_by_date`, `C52_order_deterministic`, `C52_order_with_leading_zeros_refuted`.

*Status note.* With names that share a key (x1 / x01) the order varies (C52_order_with_leading_zeros_refuted).

### C53 — The t-1, t, t+1 lists are aligned (proved)

make_all_variable_time_combinations returns three lists of the same distinct base names, in order of first occurrence, dated -1, 0 and 1.

*Model and proof.* Build_*.v: dict.fromkeys as a fold.

*Theorems.* `C53_three_aligned_lists`, `C53_order_of_first_occurrence`.

### C54 — Where priors go when shocks have hyper-parameters (proved)

If no parameter has two priors and no shock is declared twice, a shock's distribution gets, for each hyper-parameter it refers to, the prior declared in its own or an earlier block, and the parameter priors are exactly the declared priors of names that are not shocks and are not referred to by any shock.

*Model and proof.* Build_*.v: exact law (a shock sees the priors declared up to and including its block), then refutation for later blocks.

*As first stated (the theorems and refutations below settle it as above).* Each prior declared for a parameter ends up either among the parameter priors or attached to the shock whose distribution uses the parameter, wherever it is declared.

*Theorems.* `C54_shock_sees_priors_up_to_its_block`, `C54_parameter_priors`, `C54_no_prior_lost_refuted`, `C54_block_order_irrelevant_refuted`.

*Status note.* Consequence: a prior declared in a later block than the shock is lost from both lists, so the order of blocks matters (C54_no_prior_lost_refuted, C54_block_order_irrelevant_refuted).

### C55 — Dropping determined equations keeps the steady-state problem equivalent (proved)

Once known values are substituted, the equations handed to the numerical solver are exactly those with an undetermined variable; every steady state that agrees with the known values solves the reduced system, and a point is a steady state iff it solves the reduced system and the dropped equations hold; each inferred value removes at least one equation.

*Model and proof.* SS_Filter.v: substitution lemma, counting argument over the derivation of propagated values.

*As first stated (the theorems and refutations below settle it as above).* Once known values are substituted, the equations handed to the numerical solver are exactly those with an undetermined variable, and, given the known values, a point is a steady state iff it solves the reduced system and the dropped equations hold; each inferred value removes at least one equation; the reduced system stays square; solutions of the reduced system are steady states.

*Theorems.* `C55_every_steady_state_solves_the_reduced_system`, `C55_reduced_system_is`, `C55_each_inferred_value_removes_an_equation`, `C55_reduced_system_stays_square_refuted`, `C55_solutions_of_reduced_system_are_steady_states_refuted`, `C55_case`.

*Status note.* That the reduced system stays square, and that its solutions are steady states even if a provided value is wrong, are refuted: the equation a wrong value violates is dropped unchecked.

### C56 — An analytic steady state is marked successful exactly when it solves the model (proved)

For a model not declared linear, when the steady state is given completely by analytic (or analytic plus fixed) values, the returned values are those of the formulas, one per variable in model order, and success is set iff every equation's residual at the returned values is within 1e-8; with a calibrated parameter the call raises.

*Model and proof.* SS_Driver.v, SS_DriverProofs.v: driver over real-valued evaluation with an optimizer oracle.

*As first stated (the theorems and refutations below settle it as above).* When the steady state is given completely by analytic (or analytic plus fixed) values, the returned values are those of the formulas, one per variable in model order, and success is set iff every equation's residual at the returned values is within 1e-8; the same holds for models declared linear.

*Theorems.* `C56_analytic_success_iff_residuals_small`, `C56_resolved_success_iff_residuals_small`, `C56_calibrated_parameter_with_analytic_steady_state_fails`, `C56_success_means_residuals_small_refuted_for_linear`, `C56_case`.

*Status note.* A model declared linear gets zeros and success whatever its equations (refuted).

### C57 — Fixed steady-state values are respected and checked (proved)

fixed_values are returned unchanged for the named variables, the equations they determine are checked (a violation raises), and names that are not variables (with or without _ss), or given twice, raise ValueError; calibrated parameters are among the rejected names.

*Model and proof.* SS_DriverProofs.v.

*As first stated (the theorems and refutations below settle it as above).* fixed_values are returned unchanged for the named variables, the equations they determine are checked (a violation raises), and names that are not variables (with or without _ss), or given twice, raise ValueError; calibrated parameters may be fixed, as the error message says.

*Theorems.* `C57_fixed_values_returned_and_checked`, `C57_bad_names_rejected`, `C57_calibrated_parameter_can_be_fixed_refuted`, `C57_case`.

*Status note.* The error message says that calibrated parameters may be fixed; that is false (C57_calibrated_parameter_can_be_fixed_refuted).

### C58 — A successful numerical steady state has small residuals (proved)

If the optimizer does not itself claim success, a reported success means that every model equation with an undetermined variable has residual below the tolerance at the returned point; how='root' needs a square system.

*Model and proof.* SS_DriverProofs.v: optimizer is an arbitrary function.

*As first stated (the theorems and refutations below settle it as above).* When steady_state reports success, every model equation has residual below the tolerance at the returned point; how='root' needs a square system.

*Theorems.* `C58_success_means_residuals_small`, `C58_success_means_residuals_small_refuted`, `C58_success_means_residuals_small_refuted_by_provided_value`, `C58_root_needs_square_system`, `C58_case`.

*Status note.* The optimizer's own success flag is believed without a residual check, and equations dropped because of provided values are never checked (both refuted).

### C59 — The minimised error is zero exactly at steady states (proved)

For each error function (squared, mean_squared, abs, l2-norm) the error is non-negative and zero iff all residuals are; the compiled functions evaluate the symbolic system with the i-th unknown set to the i-th entry of the flat vector, whichever unknowns occur.

*Model and proof.* SS_Model.v, SS_Proofs.v: norms over R; slicing lemma.

*Theorems.* `C59_error_zero_iff_all_residuals_zero`, `C59_packed_function_evaluates_at_the_point`, `C59_case`.

### C60 — Helper definitions in the STEADY_STATE block are eliminated (proved)

The STEADY_STATE block's equations are reduced to one formula per model variable, in the order given, that mentions no helper and has the same solutions; circular helpers raise ValueError; each known variable is labelled with its own formula in the compiled function, and in the symbolic one when the steady state is complete.

*Model and proof.* SS_Proofs.v, SS_Bounds.v: uses C10's flattening theorem.

*As first stated (the theorems and refutations below settle it as above).* The STEADY_STATE block's equations are reduced to one formula per model variable, in the order given, that mentions no helper and has the same solutions; circular helpers raise ValueError; and each known variable is labelled with its own formula in the compiled and in the symbolic function.

*Theorems.* `C60_helper_definitions_eliminated`, `C60_known_values_labelled_correctly`, `C60_symbolic_known_values_complete`, `C60_symbolic_known_values_labelled_correctly_refuted`, `C60_case`.

*Status note.* The symbolic labels of a partial steady state are misaligned (C60_symbolic_known_values_labelled_correctly_refuted).

### C61 — Variable assumptions and user bounds are respected by the solver (proved)

Changing variables (log, log-odds, negative log) preserves feasible roots and is invertible; bounds derived from sign assumptions and user bounds keyed by the steady-state name are respected, and the default start satisfies the assumptions.

*Model and proof.* SS_Bounds.v over R (exp, ln from the standard library).

*As first stated (the theorems and refutations below settle it as above).* Changing variables (log, log-odds, negative log) preserves feasible roots and is invertible; the bounds derived from assumptions and from the user's bounds argument are respected, and the default start is feasible.

*Theorems.* `C61_reparametrised_system_has_the_same_feasible_roots`, `C61_change_of_variable_is_invertible`, `C61_assumptions_and_bounds_respected`, `C61_default_start_is_feasible`, `C61_unit_interval_respected_refuted`, `C61_bounds_by_variable_name_respected_refuted`, `C61_start_is_feasible_for_user_bounds_refuted`, `C61_case`.

*Status note.* Refuted: a unit-interval variable loses its upper bound, bounds keyed by the plain variable name are ignored silently, and the default start may violate user bounds.

### C62 — When linearisation lacks a value it needs (proved)

linearize_model raises KeyError whenever the value of a derivative it needs depends on a parameter missing from the parameter dictionary (such as a calibrated one) and TypeError for a linear model without a STEADY_STATE block.

*Model and proof.* Lin_Model.v: values are looked up as the code does; Lin_Results.v shows which lookups happen.

*As first stated (the theorems and refutations below settle it as above).* linearize_model works for every model whose steady state is known: calibrated parameters take their steady-state values, and linear models need no STEADY_STATE block.

*Theorems.* `C62_missing_parameter`, `C62_calibrated_model_linearised_refuted`, `C62_linear_without_steady_state_refuted`.

*Status note.* The expectation that every model with a known steady state can be linearised is thereby refuted (two theorems).

### C63 — Linearisation caches are invisible (proved)

In any sequence of linearize_model calls on one model object each call returns what it would return on a fresh object, whatever logged sets, parameters and steady states earlier calls used.

*Model and proof.* Lin_Model.v: both caches with object identities; invariant over histories.

*As first stated (the theorems and refutations below settle it as above).* In any sequence of linearize_model calls on one model object each call returns what it would return on a fresh object, whatever logged sets, parameters and steady states earlier calls used; arguments passed by the caller are respected and not modified.

*Theorems.* `C63_cache_transparent`, `C63_case`, `C63_caller_verbose_kept_refuted`.

*Status note.* Arguments are not left alone: the caller's steady_state_kwargs['verbose'] is overwritten in the caller's dictionary (C63_caller_verbose_kept_refuted).

### C64 — Forward-looking variables (proved)

forward_variables lists, in model order, variables that occur at t+1, including all with a non-negligible lead derivative at the default parameters; if linearisation fails it lists exactly those that occur at t+1; lead_var_idx gives their increasing column positions.

*Model and proof.* Lin_Props.v on top of C22.

*As first stated (the theorems and refutations below settle it as above).* forward_variables lists, in model order, variables that occur at t+1, including all with a non-negligible lead derivative; if linearisation fails it lists exactly those that occur at t+1; lead_var_idx gives their increasing column positions. The set is valid for every parameter value.

*Theorems.* `C64_forward_variables`, `C64_fallback`, `C64_lead_indices`, `C64_default_parameters_suffice_refuted`.

*Status note.* The set is cached at the default parameters; that it fits other parameter values is refuted (x = rho x[1]).

### C65 — Gensys returns the unique stable solution (proved)

Whatever matrices gensys returns, T is real, solves A + B T + C T T = 0, has all eigenvalues inside the unit circle and is the only such matrix, and R is its impact matrix; existence code 0 means that no stable solution exists; a model with a stable solution and uniqueness code 1 is solved, by that solution.

*Model and proof.* LA_GModel.v: gensys over a closed field with LAPACK's QZ, SVD and rank as data; LA_GSpec.v: their contract; LA_GMain.v.

*Theorems.* `C65_gensys_returns_the_unique_stable_solution`, `C65_existence_code_zero_means_no_stable_solution`, `C65_solvable_models_are_solved`, `C65_case`.

*Status note.* In exact arithmetic and for LAPACK results meeting their contract (sorted QZ with the stable eigenvalues first, singular values below the tolerance exactly zero), for models whose dropped columns of C are zero. C65_case exhibits a complete decomposition.

### C66 — Gensys failures are reported as asked (proved)

The solver returns matrices exactly for codes (1,1), else raises or returns (None, None) as on_failure asks; the codes are (-2,-2,0) when zeros coincide and otherwise each 0 or 1, the second being 0 exactly when loose roots remain; the interpreted and the compiled form of the operation agree unless zeros coincide, when the former raises and the latter reports failure.

*Model and proof.* LA_GModel.v.

*As first stated (the theorems and refutations below settle it as above).* The solver returns matrices exactly for codes (1,1), else raises or returns (None, None) as on_failure asks; the explanation shown matches the reason; the interpreted and the compiled form of the operation agree.

*Theorems.* `C66_outcome_follows_the_codes`, `C66_codes`, `C66_explanations_that_never_apply`, `C66_failures_explained_refuted`, `C66_unexplained_failure_reachable`, `C66_interpreted_and_compiled`.

*Status note.* Explanations: two never apply, and the reachable codes (0,1) have none (C66_failures_explained_refuted, C66_unexplained_failure_reachable).

### C67 — Compiled and Python cyclic reduction agree on convergence (proved)

Whenever the compiled core of cyclic reduction reports convergence with a finite matrix, the Python implementation returns the same matrix.

*Model and proof.* LA_Model.v models both loops.

*As first stated (the theorems and refutations below settle it as above).* The numba core and the Python implementation of cyclic reduction give the same result on every input.

*Theorems.* `C67_compiled_and_python_agree_on_convergence`, `C67_agreement_refuted_when_giving_up`, `C67_agreement_refuted_without_passes`.

*Status note.* When the Python loop gives up the compiled one returns zeros, and with no passes allowed they disagree (refuted).

### C68 — Solver dispatch (proved)

solve_model rejects an invalid on_failure with ValueError first; a model without leads is then solved directly whatever solver is named, even if that name is invalid; a model with leads is solved by gensys or cyclic reduction as named, 'backward_direct' is a ValueError for it and every other name a NotImplementedError.

*Model and proof.* LA_GModel.v.

*As first stated (the theorems and refutations below settle it as above).* solve_model runs the solver that was named and rejects unknown names; the direct solver is used for, and only for, models without leads.

*Theorems.* `C68_solver_dispatch`.

*Status note.* The theorem gives the complete decision table: a model without leads is solved directly whatever solver is named, even if that name is invalid, so 'runs the solver that was named' is false there.

### C69 — Gensys's constant term (proved)

Without a constant term (the only case the package uses) gensys returns a zero constant.

*Model and proof.* LA_GModel.v, LA_GCase_Props.v.

*As first stated (the theorems and refutations below settle it as above).* y(t) = G1 y(t-1) + C + impact z(t), with the returned G1 and C, solves g0 y(t) = g1 y(t-1) + c + psi z(t).

*Theorems.* `C69_no_constant_no_constant`, `C69_constant_solves_refuted`.

*Status note.* With a constant the returned one is wrong - it is not solved with G_0 (C69_constant_solves_refuted, 2 y = y(t-1) + 1).

### C70 — Impulse responses apply the requested shocks (proved)

shock_size as a scalar or array, or as a dictionary with individual shocks or naming all shocks, shock_cov and shock_trajectory give the responses to exactly the requested shocks, individually or jointly (shocks a dictionary leaves out are zero in individual responses); more than one kind of shock, unknown names and empty dictionaries are refused.

*Model and proof.* Sim_Model.v: the argument handling function by function over matrices of any size; Sim_Spec.v: impulse_path, moving_average.

*As first stated (the theorems and refutations below settle it as above).* shock_size as a scalar, array or dictionary, shock_cov and shock_trajectory give the responses to exactly the requested shocks, individually or jointly (shocks a dictionary leaves out are zero); more than one kind of shock, unknown names and empty dictionaries are refused; leaving all three at their defaults works.

*Theorems.* `C70_individual_scalar`, `C70_individual_array`, `C70_individual_dict`, `C70_joint_scalar`, `C70_joint_array`, `C70_joint_cov`, `C70_trajectory`, `C70_trajectory_individual`, `C70_bad_dict`, `C70_bad_array`, `C70_one_option`, `C70_joint_dict_full`, `C70_case`, `C70_default_call_refuted`, `C70_joint_dict_refuted`, `C70_joint_dict_subset_refuted`.

*Status note.* Refuted: the default call always raises ValueError (zip of an empty list is unpacked); with return_individual_shocks=False a dictionary naming one shock applies its size to every shock, and one naming several but not all raises.

### C71 — The shock covariance matrix (proved)

build_Q_matrix accepts exactly one option and returns the covariance it describes: each shock's variance is the square of its own standard deviation whatever the order of the dictionary, with no covariances; dictionaries whose keys are not exactly the shocks, a negative scalar standard deviation, arrays of the wrong length or with a non-positive entry, and two-axis covariance arrays of the wrong shape are refused.

*Model and proof.* Sim_Model.v; proved by induction on the dictionary.

*As first stated (the theorems and refutations below settle it as above).* build_Q_matrix accepts exactly one option and returns the covariance it describes: each shock's variance is the square of its own standard deviation whatever the order of the dictionary, with no covariances; missing or unknown shocks, wrong lengths and shapes and non-positive standard deviations are refused; a list of standard deviations is accepted.

*Theorems.* `C71_dict`, `C71_scalar`, `C71_array`, `C71_cov`, `C71_one_option`, `C71_refusals`, `C71_psd`, `C71_case`, `C71_list_refuted`, `C71_zero_refuted`, `C71_flat_cov_refuted`.

*Status note.* Refuted beyond that: lists always raise TypeError, a zero standard deviation is accepted, a one-axis array of the right length passes as a covariance matrix.

### C72 — Stationary moments (proved)

The stationary covariance S satisfies S = T S T' + R Q R'; the covariance of row t of a simulation differs from it by T^(t+1) S T'^(t+1); lag i of the autocovariances is T^i S; autocorrelations divide by the standard deviations, have a unit diagonal at lag 0 and lie in [-1, 1] when S is positive semidefinite.

*Model and proof.* Sim_Model.v with scipy's Lyapunov solver as a parameter that solves its equation; Cauchy-Schwarz in Sim_MProps.v.

*As first stated (the theorems and refutations below settle it as above).* The stationary covariance S satisfies S = T S T' + R Q R'; the covariance of row t of a simulation differs from it by T^(t+1) S T'^(t+1); lag i of the autocovariances is T^i S; autocorrelations divide by the standard deviations, have a unit diagonal at lag 0 and lie in [-1, 1]; autocovariances accept the same shock options as the covariance.

*Theorems.* `C72_fixed_point`, `C72_simulated_covariance`, `C72_autocovariance`, `C72_correlation`, `C72_unit_diagonal`, `C72_no_variance`, `C72_bounded`, `C72_case`, `C72_case_correlation`, `C72_dict_refuted`, `C72_dict_ignored_refuted`.

*Status note.* S is positive semidefinite when T is stable. Refuted: shock_std_dict is forwarded to the autocovariances under the wrong keyword, so alone it always raises and together with another option it is ignored.

### C73 — Supplied matrices and steady states are used as given or recomputed (proved)

Supplied T and R are used as given when both are given and otherwise recomputed; likewise A, B, C, D when warnings are on; a supplied steady state in a steady-state dictionary is accepted exactly if every residual of the model's equations that is a number is at most 1e-8.

*Model and proof.* Sim_Model.v.

*As first stated (the theorems and refutations below settle it as above).* Supplied T and R (A, B, C, D) are used as given when complete and recomputed when incomplete, whether or not warnings are on; a supplied steady state is accepted exactly when it satisfies the model's equations within 1e-8.

*Theorems.* `C73_solution`, `C73_linear_system`, `C73_steady_state`, `C73_quiet_refuted`, `C73_nan_refuted`, `C73_plain_dict_refuted`.

*Status note.* Refuted beyond that: with verbose=False an incomplete set is returned with its holes; NaN residuals are accepted; a correct steady state given as a plain dict raises AttributeError.

### C74 — The verdict on a draw names its first failing step (proved)

failure_step is None exactly when the steady state, linearisation, solver and Blanchard-Kahn check succeed and neither residual norm exceeds norm_tol; otherwise it names the first step that failed; numerical errors of the first three steps never abort the table, as long as the Blanchard-Kahn check itself does not throw.

*Model and proof.* Diag_Model.v: every stage returns or raises one of the exceptions the code distinguishes.

*As first stated (the theorems and refutations below settle it as above).* failure_step is None exactly when the steady state, linearisation, solver and Blanchard-Kahn check succeed and both residual norms are within norm_tol; otherwise it names the first step that failed; a draw that fails numerically never aborts the table; unknown solver names are an error.

*Theorems.* `C74_success`, `C74_first_failure`, `C74_success_small_norms`, `C74_numerical_errors_contained`, `C74_solver`, `C74_abort_loses_table`, `C74_nan_is_success_refuted`, `C74_bk_errors_contained_refuted`, `C74_unknown_solver_refuted`.

*Status note.* Refuted beyond that: NaN norms count as success; an error in the Blanchard-Kahn check (outside every try) aborts the whole table, as does any non-numerical error; an unknown solver name is reported as a failure of every draw.

### C75 — Prior samples respect bounds and names (proved)

The Sobol guard accepts exactly 0 and the powers of two; every uniform draw has one value per parameter, under its name and within its bounds; quasi-random draws pass strictly interior points to the matching prior's inverse distribution function; param_subset keeps exactly the named priors in order and rejects unknown names.

*Model and proof.* Diag_Model.v with the QMC engines and inverse distribution functions as parameters; bit-level proof of the power-of-two test.

*As first stated (the theorems and refutations below settle it as above).* The Sobol guard accepts exactly the powers of two; every uniform draw has one value per parameter, under its name and within its bounds; quasi-random draws pass strictly interior points to the matching prior's inverse distribution function; param_subset keeps exactly the named priors in order and rejects unknown names.

*Theorems.* `C75_power_of_two`, `C75_within_bounds`, `C75_clipped`, `C75_qmc_columns`, `C75_subset`, `C75_case`, `C75_power_of_two_refuted`.

*Status note.* Refuted only for sample size 0, which the guard accepts.

### C76 — Matrix labels (proved)

matrix_to_dataframe labels an axis with the variables or the shocks according to its length (variables if both fit), never with labels of another number, and rejects other lengths.

*Model and proof.* Diag_Model.v.

*As first stated (the theorems and refutations below settle it as above).* matrix_to_dataframe labels an axis with the variables or the shocks according to its length, never with labels of another number, and rejects other lengths; shock axes are labelled with shocks.

*Theorems.* `C76_inferred`, `C76_lengths`, `C76_ambiguous_refuted`.

*Status note.* For models with as many shocks as variables the shock axis is thereby labelled with variables (C76_ambiguous_refuted).

### C77 — Boundary values of a perfect-foresight run (proved)

The values before the first period are the initial conditions where given (keyed b or b_ss) and otherwise the steady state at the first period's parameters (or the dictionary passed as the guess); likewise after the last period with the terminal conditions and the last period's parameters - for every variable whose value these determine.

*Model and proof.* PF_Model.v prepare; proved by inversion of the call and induction on the dictionaries.

*As first stated (the theorems and refutations below settle it as above).* The values before the first period are the initial conditions where given (keyed b or b_ss) and otherwise the steady state at the first period's parameters (or the dictionary passed as the guess); likewise after the last period with the terminal conditions and the last period's parameters; one variable has one condition, and no value is made up.

*Theorems.* `C77_boundaries`, `C77_case`, `C77_missing_variable_is_one_refuted`, `C77_two_spellings_refuted`, `C77_dictionary_ignores_paths_refuted`.

*Status note.* Refuted beyond that: a variable missing from a guess dictionary silently starts at 1.0; 'K' and 'K_ss' given together, the later wins; a guess dictionary is used at both ends although a parameter path ends elsewhere.

### C78 — The line search measures the residual of the system (proved)

If no two names share a natural sort key and steady-state formulas contain parameters only, the merit function, compiled separately from the residual-and-Jacobian function, returns the same residual at every point, whatever order Python walks its sets in.

*Model and proof.* PF_Model.v compile with a set-order parameter; canonical sorting lemma.

*As first stated (the theorems and refutations below settle it as above).* The merit function, compiled separately from the residual-and-Jacobian function, returns the same residual at every point, whatever order Python walks its sets in.

*Theorems.* `C78_merit_is_the_residual`, `C78_case`.

*Status note.* The provisos are those of C52: names that share a sort key are ordered by the set's iteration order, so two compilations may order them differently.

### C79 — Perfect-foresight requests are validated (proved)

A request with paths given as arrays is accepted exactly when every condition names a variable, every shock path and parameter path names a shock or parameter of the model and has simulation_length values, and the guess has the right shape; anything else is a ValueError; with complete conditions and an explicit guess no steady state is computed.

*Model and proof.* PF_Model.v validate, prepare.

*As first stated (the theorems and refutations below settle it as above).* A request is accepted exactly when every condition names a variable, every shock path and parameter path names a shock or parameter of the model and has simulation_length values, and the guess has the right shape; anything else is a ValueError; with complete conditions and an explicit guess no steady state is computed.

*Theorems.* `C79_accepted_requests_are_valid`, `C79_valid_requests_are_accepted`, `C79_case`, `C79_list_path_refuted`.

*Status note.* Paths given as plain lists raise TypeError before they are validated (C79_list_path_refuted).

### C80 — Shock and parameter paths reach the equations (proved)

In period t every shock has the value of its path (0 without one) and every free parameter the value of its path or its default in every equation.

*Model and proof.* PF_Model.v.

*As first stated (the theorems and refutations below settle it as above).* In period t every shock has the value of its path (0 without one) and every parameter the value of its path or its default; parameters defined from other parameters follow them; a lagged shock has its lagged value; every parameter of the model may occur in an equation.

*Theorems.* `C80_requested_values`, `C80_case`, `C80_deterministic_parameters_stay_refuted`, `C80_lagged_shock_refuted`, `C80_calibrated_parameter_refuted`.

*Status note.* Refuted beyond that: deterministic parameters keep their default along a path of the parameter they are computed from; lagged shocks get the current value; a calibrated parameter in an equation makes compilation fail.

### C81 — make_piecewise_x0 (proved)

The guess has simulation_length rows and one column per variable; rows before the transition are the initial steady state, rows after it the terminal one, rows inside move by equal steps from one to the other (a one-period transition is a step); every entry lies between the two; columns default to the variables of either dictionary, once each; and the solver reads the table by column name.

*Model and proof.* PF_Model.v piecewise_x0.

*Theorems.* `C81_piecewise_guess`, `C81_step`, `C81_inferred_columns`, `C81_columns_once`, `C81_as_guess`, `C81_case`.

*Status note.* For non-negative starts and lengths.

### C82 — Backtracking accepts only Armijo steps (proved)

Every iterate of a line-search solver with ArmijoBacktracking follows from the one before by x + beta^k d with d downhill (slope computed with the current Jacobian), k the smallest number below max_iter for which half the squared residual falls by at least c1 beta^k |slope|; for Newton's direction d is the linear solver's answer, minus the gradient if it fails, turned round if it points uphill. So the objective never rises. A run that gives up before maxiter does so at a point where no permitted length gives the decrease.

*Model and proof.* SR_Model.v backtrack, line_step, iterate; path of armijo_steps by induction over the outer loop.

*Theorems.* `C82_every_step`, `C82_never_increases`, `C82_case`.

*Status note.* Real arithmetic, finite values.

### C83 — Backtracking succeeds when the Jacobian is right (proved)

If the Jacobian gives the directional derivatives of the residuals at the start, 0 < c1 < 1 and 0 < beta < 1, and the start is neither a root nor (when the linear solver fails) a stationary point, then with enough reductions allowed the first step is taken and the objective strictly falls. Where the Newton system is solved exactly its slope is minus twice the objective and the direction is not turned round; the gradient fallback has slope minus the squared gradient.

*Model and proof.* SR_Search_Props.v: derivable_pt_lim of the objective from that of the residuals; beta^k -> 0.

*Theorems.* `C83_newton_direction`, `C83_search_succeeds`, `C83_case`.

### C84 — Nonmonotone search: bounded by the recent maximum (proved)

With a fresh NonmonotoneBacktracking each iterate lowers the objective below the largest of the last `memory` values by c1 alpha |slope|, so the result is never worse than the start; memory=1 gives exactly the run of ArmijoBacktracking; memory=0 raises ValueError.

*Model and proof.* SR_Model.v push, search; the history is the list of the newest objective values (invariant).

*Theorems.* `C84_every_step`, `C84_bounded_by_start`, `C84_memory_one`, `C84_no_memory`, `C84_reuse_refuted`, `C84_case`.

*Status note.* Fresh is necessary: the history is not cleared between solves, and a reused object returns a point worse than its start (C84_reuse_refuted: x^3-2x+2 from 2, then from 1).

### C85 — Trust-region solvers only take steps that pay (proved)

Every iterate of SparseDogleg and GaussNewtonTrustRegion lies within a radius of at most max(delta0, delta_max) of the one before, the linear model promises a positive reduction there, and the objective falls by more than eta times the promise; for LevenbergMarquardt the same with the damped model and a damping parameter that stays within [min_lam, max_lam]. The objective falls strictly at every iteration. Giving up early means that the steps for all radii tried were poor.

*Model and proof.* SR_Model.v tr_loop, lm_loop; loop specifications by induction on the passes; radius invariant through the outer loop.

*Theorems.* `C85_trust_region`, `C85_objective_falls`, `C85_levenberg_marquardt`, `C85_lm_objective_falls`, `C85_case`.

### C86 — Trial steps lie in the region and promise a reduction (proved)

The dogleg step lies inside the radius; if the curvature along the gradient is at least 1e-30 and the Newton system is solved exactly (or reported unsolvable) it lowers the linear model, and it is the Newton step when that fits. The Steihaug conjugate-gradient step lies inside the radius and lowers the model whenever the gradient is at least 1e-15; so away from stationary points a Gauss-Newton run that gives up early does so because the true objective did not fall. The exact Levenberg-Marquardt step promises half its damped quadratic form, positive unless the gradient vanishes.

*Model and proof.* SR_Trust_Proofs.v: quadratic model, conjugate-gradient invariants r = g + Hp and r.d = -r.r, positive root of the boundary equation.

*Theorems.* `C86_dogleg`, `C86_gauss_newton`, `C86_why_it_stops`, `C86_flat_refuted`, `C86_levenberg_marquardt`, `C85_case`.

*Status note.* The curvature proviso is necessary: with residual 9e-10 and Jacobian 1e-3 the dogleg takes the whole radius though the Newton step fits, and the model rises (C86_flat_refuted).

### C87 — Chord and Krylov directions (proved)

Iterate t of the chord method is searched along the solution of the system with the Jacobian of the last iterate whose number is a multiple of recompute_every, turned downhill for the current Jacobian; recompute_every=1 is Newton's method, recompute_every=0 raises ZeroDivisionError at the second direction. The Krylov solver is only ever asked for relative accuracies between eta_min and eta_max (exactly eta_max without Eisenstat-Walker); an unknown method raises ValueError.

*Model and proof.* SR_Reuse_Props.v: invariant linking call counter, cached Jacobian and iterates; simulation between two runs.

*Theorems.* `C87_chord`, `C87_chord_every_call`, `C87_chord_zero`, `C87_krylov_accuracy`, `C87_krylov_fixed`, `C87_unknown_method`.

### C88 — Solver objects can be reused; evaluations are counted (proved)

Except for the nonmonotone search, the result of a solve does not depend on what the solver object did before. Without a merit function, nfev is the number of evaluations when the run succeeds or uses all iterations, and at most one step's worth fewer otherwise; the total announced to the progress bar is not exceeded when a step makes at most as many trials as it assumes.

*Model and proof.* SR_Reuse_Props.v: simulation of memories; counting invariant.

*Theorems.* `C88_reuse`, `C88_counts`, `C88_limit`, `C88_failed_step_refuted`, `C88_limit_refuted`.

*Status note.* The evaluations of a failed last step are not counted (C88_failed_step_refuted); with max_reject above 50 the announced total can be exceeded (C88_limit_refuted).

### C89 — The observation row computes the observed series (proved)

Along every path of the filter's state equation, d + Z s_t for an observed series is: the linearised observation equation (or the deviation of the variable, plus its steady state in levels or logs if asked for) at date t, summed or averaged over the aggregation window if the series is a sum or mean, as soon as the path is long enough for all lags.

*Model and proof.* Kal_Obs.v: design row as a list of weighted (variable, lag) pairs; lag states by induction over time.

*Theorems.* `C89_observation`, `C89_case`.

### C90 — Observation equations are linearised at the steady state (proved)

For every observation equation, the stored constant is the equation's value at the steady state and the stored coefficient of v[-k] is its partial derivative there, with respect to the level of v or to log v if v is log-linearised; there is one coefficient per dated symbol of the equation.

*Model and proof.* Kal_Lin.v: symbolic derivative of the shifted equation against derivable_pt_lim.

*Theorems.* `C90_linearised_equation`, `C90_case`.

*Status note.* Needs parameter names that do not start with _tilde_ (the code separates these by a Symbol assumption).

### C91 — Aggregation states do not disturb the stationary distribution (proved)

A covariance that is stationary for the augmented state space is, on the model's own variables, stationary for the policy function, and two states that lag two variables by the same number of periods have the covariance of those variables.

*Model and proof.* Kal_Props2.v: Lyapunov equation on rows of lag states, induction on the lag.

*Theorems.* `C91_stationary_covariance`, `C91_case`.

### C92 — What configure accepts, and what a failed call leaves behind (proved)

configure succeeds exactly when: every observed name is a current state or has an observation equation, errors/aggregations/intercepts name observed series, methods and solver are known, sums and means have a period of at least 2, there are at least as many shocks and errors as observed series, equations look at no lead and mention only known names, every series without equation is a model variable, intercepts have a steady state, and the exposed parameters have distinct names. Rejected arguments leave the object unchanged; a call that fails in an observation equation or later has already replaced the observed series.

*Model and proof.* Kal_Accept.v, Kal_Props2.v.

*Theorems.* `C92_configure_succeeds_iff`, `C92_failed_configure`, `C92_unchanged_refuted`, `C37_case`.

*Status note.* That a failed configure changes nothing is refuted (C92_unchanged_refuted): a lead in an observation equation leaves the new observed list with the old states; a state name of a previous configuration is accepted, then fails half-way.

### C93 — Exposed parameters (proved)

The parameters of the state space have distinct names and are the input parameters not held constant, the shock standard deviations (or state_cov) and the error standard deviations. Constants have their default values; 'auto' holds constant exactly the parameters without prior; the matrices depend on nothing but the exposed parameters when observation equations mention input parameters only.

*Model and proof.* Kal_Props2.v: agreement of two draws propagated through the graph.

*Theorems.* `C93_parameters`, `C93_case`, `C93_hyperparameter_refuted`.

*Status note.* A prior hyperparameter in an observation equation is accepted but not exposed, and the design matrix depends on it (C93_hyperparameter_refuted).

### C94 — Policy matrices are in the user's variable order (proved)

The transition and selection matrices the filter uses describe, in the order of model.variables, the same law of motion as the solver's matrices in its own order; for any ordering the solver used.

*Model and proof.* Kal_Props2.v: position is a two-sided inverse on a permutation; sums reordered.

*Theorems.* `C94_policy_order`, `C94_case`.

### C95 — Dynare expressions keep their value (proved)

Every expression the Dynare writer prints (model equations, steady-state formulas) is an expression of Dynare's grammar that can be read in exactly one way, and it has the value of the model's expression whenever the names in the file have the values of the symbols they stand for; the model block has one equation per model equation in the same order.

*Model and proof.* Dyn_Print.v, Dyn_Main.v: texts classified as atoms, powers, signed factors, products and sums, each read back by the reader of Dyn_Spec; induction over expressions.

*Theorems.* `C95_expressions_keep_their_value`, `C95_model_block`, `C95_case`, `C95_clash_refuted`.

*Status note.* Expressions in SymPy's canonical form. A variable called K_ss and the steady state of K are written alike (C95_clash_refuted).

### C96 — Names in a Dynare file are declared (proved)

var, varexo and parameters declare the model's variables, shocks and free parameters, each once and in order. The model block has exactly one local variable #X_ss for each steady-state value that occurs in the equations; it uses no undeclared name exactly when every parameter of the equations is among the declared names; if steady-state formulas mention declared parameters only, all names in local variables and in the steady_state_model block are declared; steady_state_model is written exactly when every variable has a formula, otherwise initval with the computed values.

*Model and proof.* Dyn_Names.v: names of a printed expression by induction; Dyn_Props.v.

*Theorems.* `C96_declarations`, `C96_locals`, `C96_equations_closed`, `C96_formulas_closed`, `C96_steady_block`, `C96_case`, `C96_undeclared_parameter_refuted`, `C96_chained_formula_refuted`.

*Status note.* use_cse=False. Refuted without the provisos: a deterministic or calibrated parameter is used and assigned but not declared; a steady-state formula that uses another steady-state value writes a name (Y_ss) that is defined nowhere.

### C97 — Numbers in a Dynare file (proved)

Every parameter value and steady-state value is written as a decimal with three places that denotes one number, at most 0.0005 away from the value, and equal to it exactly when the value has at most three decimals.

*Model and proof.* Dyn_Props.v: round-half-even bounds, decimal digits.

*Theorems.* `C97_three_decimals`, `C97_values_written`, `C97_exact_values_refuted`.

*Status note.* Exactness is refuted: 0.9996 is written 1.000, 0.0004 is written 0.000.

### C98 — Eliminating tryreduce variables loses no solution (proved)

If each substitution used for a tryreduce variable is an equation of the model, every path (with its steady state) that satisfies the model's equations in all periods and at the steady state satisfies the reduced equations too.

*Model and proof.* Simp_Model.v, Simp_Spec.v, Simp_Proofs.v: a solution makes each identity hold in every view (date shifts, steady state); substitution lemma along the loop.

*Theorems.* `C98_solutions_survive`, `C98_case`.

*Status note.* SymPy's simplify and automatic evaluation are parameters assumed to keep values.

### C99 — Every solution of the reduced system extends to the model (proved)

Every path that satisfies the reduced equations becomes a path of the full model by choosing new paths for tryreduce variables only; the variables that remain keep their paths when no substitution mentions a tryreduce variable. (An equation dropped because a variable occurs nowhere else must be solvable for that variable.)

*Model and proof.* Simp_More.v, Simp_Props.v: isolated variables closed one at a time without interference; substituted variables follow their definitions; induction over both stages.

*Theorems.* `C99_solutions_extend`, `C99_case`, `C98_case`.

*Status note.* SymPy adds no symbols and keeps values (parameters of the theorem).

### C100 — Dropping isolated variables keeps the system square (proved)

If the variables can be assigned one to one to equations they occur in, dropping the equations of isolated tryreduce variables leaves as many equations as variables, and only requested variables disappear.

*Model and proof.* Simp_More.v: a perfect matching pairs every isolated variable with its only equation.

*Theorems.* `C100_isolated_stage_stays_square`, `C100_case`, `C100_unmatched_refuted`.

*Status note.* Without the assignment it is refuted: an equation with two isolated variables takes both along, one of them not requested, and the result is not square.

### C101 — Removing constant variables is an equivalence (proved)

If every short equation with a single variable pins that (dated) variable to exactly one value in the parameters, a path satisfies the model exactly when it satisfies the reduced system and every pinned variable has its value in all periods and at the steady state; pinned variables are gone from equations and variable list.

*Model and proof.* Simp_More.v: dictionary entries come from pinning equations; both directions in Simp_Props.v.

*Theorems.* `C101_constants_equivalent`, `C101_constants_are_removed`, `C101_case`, `C101_two_roots_refuted`, `C101_steady_state_refuted`, `C101_unsolvable_constant_crashes`.

*Status note.* Refuted without the provisos: with two roots the first is taken (P^2 = 1 becomes P = -1); an equation about P[ss] alone replaces P at all dates. An unsolvable equation raises IndexError.

### C102 — What the simplifications report (proved)

Remaining and eliminated variables partition the model's variables, both sorted by name; a variable remains exactly when it occurs, at any date, in a remaining equation. A system that is not square is returned unchanged, with nothing eliminated; each flag switches its simplification on and off, constants run on the result of tryreduce; a tryreduce entry counts exactly when it names a model variable.

*Model and proof.* Simp_Proofs.v, Simp_Props.v.

*Theorems.* `C102_variable_lists_exact`, `C102_simplifications_report_their_lists`, `C102_flags`, `C102_tryreduce_entries`, `C102_case`.

*Status note.* Unknown names in a tryreduce block are skipped without a message.

### C103 — Warnings about undefined names are exact (proved)

Validation warns that a variable is undefined exactly when it occurs on the right of a definition, objective, constraint or identity, is neither control nor shock nor left-hand side of a definition, identity or objective, and is not declared external; that a parameter is not calibrated exactly when it occurs in such an equation, no calibration item gives it and it is not external. Each name is reported once, in alphabetical order, and never as an error.

*Model and proof.* Val_Model.v, Val_Spec.v, Val_Proofs.v: occurrence as an inductive relation on expression trees.

*Theorems.* `C103_undefined_names`, `C103_undefined_report`, `C103_calibrated_parameter_warned_refuted`, `C103_left_hand_side_refuted`.

*Status note.* Refuted beyond that: a parameter calibrated with '-> alpha' is warned about although it is calibrated; a variable that only occurs on the left of constraints goes unnoticed.

### C104 — Which validation problems become exceptions (proved)

validate(raise_on_error=True) raises the first error of the report, exactly when the model has a repetition; with raise_on_error=False, and in preprocess with either setting of validate, no semantic error is raised.

*Model and proof.* Val_Props.v.

*Theorems.* `C104_raising`, `C104_preprocess_never_raises`, `C104_documented_error_refuted`.

*Status note.* preprocess is documented to raise GCNSemanticError for validate=True; it never does (C104_documented_error_refuted).

### C105 — Layout of a GCN text has no effect (proved)

Two texts with the same visible characters and with nonempty gaps (blanks, line breaks, comment lines) at the same places have the same result under parse_gcn, parse_equation and parse_block_from_text, whatever the gaps are, except that a gap of spaces between two words is kept (it may be part of an option's name).

*Model and proof.* Gcn_Spec.v: relayout; Gcn_Sim.v, Gcn_Layout.v.

*Theorems.* `C105_layout`, `C105_layout_equation`, `C105_layout_block`, `C105_case`, `C105_option_names_refuted`, `C105_gap_needed`.

*Status note.* The exception is needed: 'output  logfile' and 'output logfile' are different option names.

### C106 — How a GCN text is rejected (proved)

parse_gcn either returns a model, raises GCNGrammarError, or raises an exception of the arithmetic in a distribution's arguments (TypeError for a nested operation, or what the floating-point operation raises); parse_equation either returns or raises GCNGrammarError.

*Model and proof.* Gcn_Props.v: failures of the builders; no rule runs out of the model's recursion fuel (Gcn_Basic.v).

*Theorems.* `C106_outcomes`, `C106_equation_outcomes`, `C106_grammar_error_only_refuted`.

*Status note.* That GCNGrammarError is the only exception is refuted: mu = (1 + 2) * 3 raises TypeError. Python's own recursion limit is not modelled.

### C107 — The language of GCN files (proved)

parse_gcn accepts a text with the model m exactly if the text without its comments is a GCN file of the published grammar (special blocks, then one or more model blocks of components of equations, distributions and variable lists) and m is its meaning; parse_equation and parse_block_from_text accept exactly the equations and blocks of that grammar; a text has at most one reading.

*Model and proof.* Gcn_Grammar.v: a declarative grammar (which character sequences write which syntax), Gcn_Meaning.v: which model the syntax denotes; both independent of the parser. Gcn_Sound.v: what the parser accepts is derivable; Gcn_Complete*.v: it accepts everything derivable (ordered choice, cuts and error rules never get in the way); Gcn_Build.v: the AST builders compute the meaning.

*Theorems.* `C107_file`, `C107_equation`, `C107_block`, `C107_unambiguous`, `C107_one_equation`, `C107_case`, `C107_rejected`.

*Status note.* Both directions, for every text. The grammar records the real parser's quirks: 'alpha = Beta_x;' in a calibration block is taken for a distribution with a missing '~'; every arithmetic operator in a distribution has its own precedence level.

### C108 — Repeated components and the order of blocks (proved)

Of several components of one kind in a block, and of several special blocks of one kind in a file, only the last one is kept; special blocks are accepted only before the first model block.

*Model and proof.* Gcn_Props2.v, from C107: is_last in Gcn_Meaning.v says what 'the last one' is.

*Theorems.* `C108_last_component`, `C108_special_first`, `C108_components_accumulate_refuted`, `C108_case`.

*Status note.* That the equations of two identities components are all kept is refuted: the first ones are lost without an error. Special blocks: model_of in C107_file.

### C109 — Assumptions declared in a GCN file (proved)

After parse_gcn, the assumptions have an entry exactly for the variables listed in the last assumptions block, and such a variable has exactly these assumptions, all true: real, every kind it is listed under (case-insensitively), and positive if it is listed under unit_interval.

*Model and proof.* Gcn_Props2.v, from C107.

*Theorems.* `C109_assumptions`, `C109_case`, `C109_consistent_refuted`.

*Status note.* Contradictory kinds (positive and negative) are accepted (C109_consistent_refuted).

### C110 — Arithmetic in the arguments of a distribution (proved)

An argument or starting value of a distribution evaluates exactly if it is a number or numbers joined by one and the same operator, computed from left to right; any nested arithmetic, in any calibration component, makes parse_gcn fail.

*Model and proof.* Gcn_Props2.v, from C107.

*Theorems.* `C110_flat`, `C110_nested_rejected`, `C110_arithmetic_refuted`, `C110_case`.

*Status note.* That arithmetic works as usual is refuted: mu = 1+2*3, 10-2+3, 8/2*3 and (1+2)*3 all raise TypeError.

### C111 — A printed equation reads back (proved)

For every equation whose expressions keep their grouping when printed (see C02/C03), whose numbers print as literals reading back to the same number and whose names are identifiers, parse_equation of the printed equation and ';' returns the same equation without its tags; so it returns the equation itself exactly if it has no tags. Without the ';' the printed text never parses.

*Model and proof.* Gcn_Print.v: the printed text is a text of the grammar of C107 (Gcn_Grammar.v); then C107_equation.

*Theorems.* `C111_equation`, `C111_exact`, `C111_no_semicolon`, `C111_case`, `C111_tags_refuted`.

*Status note.* That tags survive is refuted (C111_tags_refuted): the printer drops them.

### C112 — A printed block reads back (proved)

For every block with identifiers as names, printable equations (C111), printable distributions and no calibration equation 'name = X...' with X... beginning with a distribution's or wrapper's name, parse_block_from_text of the printed block returns the same block without the tags of its equations and without the distributions of its shocks; so it returns the block itself exactly if it has neither.

*Model and proof.* Gcn_Print.v, Gcn_Print2.v, Gcn_Print3.v: printed components are texts of the grammar; block_meaning.

*Theorems.* `C112_block`, `C112_exact`, `C112_case`, `C112_shocks_refuted`.

*Status note.* That priors on shocks survive is refuted (C112_shocks_refuted).

### C113 — A printed model reads back (proved)

For every model read from a GCN text whose equations and numbers survive printing (C111, C112) and that has no tryreduce list, parse_gcn of the printed model succeeds and gives the same blocks (up to tags and distributions of shocks), the same options in the same order and for every variable the same assumptions; printing and reading once more changes nothing.

*Model and proof.* Gcn_Print3.v: printed models are texts of the grammar, grouping assumptions by kind loses nothing; Gcn_Parsed.v: what parsing returns has identifiers as names, distinct keys and consistent assumptions.

*Theorems.* `C113_model`, `C113_parsed`, `C113_stable`, `C113_case`, `C113_tryreduce_refuted`, `C113_grouping_refuted`, `C113_mistaken_refuted`.

*Status note.* The provisos are needed: a tryreduce list is printed without brackets and cannot be read (C113_tryreduce_refuted), a - (b - c) comes back as (a - b) - c (C113_grouping_refuted), alpha = (Beta_hh) is printed as a text the parser rejects (C113_mistaken_refuted).

### C114 — parse_block(name, content) (proved)

parse_block(name, content) raises for every name and content without a comment, because the text it builds lacks the final ';'.

*Model and proof.* Gcn_Props3.v, from C107_block: a block's text ends with ';'.

*Theorems.* `C114_parse_block`, `C114_case`.

*Status note.* The documented use is thereby refuted: no valid block content is accepted. With a content ending in '}; #' it succeeds (C114_case).

### C115 — What solver='scan_cycle_reduction' returns during estimation (proved)

With an iteration limit of at least one and tol at most 1e9, a policy T returned after k reported steps has 1 <= k <= max_iter; the matrices inverted were invertible; no earlier step met the tolerance and k < max_iter implies that step k met it; T solves the final stabilised system. Without jitter it differs from every solution X by hat^-1 A2_k X^(2^k+1), and it is an exact solution if the reduced lag matrix (the one watched), or the reduced lead matrix, has vanished. R is always the impact matrix of the T returned.

*Model and proof.* LA_EModel.v: the scan with its no-op branch; LA_EProofs.v: induction over the scan, the reduced recurrences of LA_Proofs.v.

*Theorems.* `C115_returned`, `C115_distance`, `C115_exact`, `C115_exact_lag`, `C115_impact`, `C115_case`, `C115_unconverged_refuted`.

*Status note.* Nothing tells an unconverged policy from a converged one: for x(t+1) + 3 x(t) + 3 x(t-1) = 0, which has no solution, a policy is returned for every iteration limit where the numeric solver reports failure (C115_unconverged_refuted).

### C116 — The residual that gates the density (proved)

The policy residual is the sum of squares of A + B T + C T T for the policy handed to the filter, in the user's order of variables and equations, whatever orders the solver works in; that policy solves the user's model exactly if the solver's T solves the reordered one. With add_solver_success_check a finite density bounds every squared entry of the residual by solver_tol, and an exact solution always passes. If the variables are already in the solver's order and T has no column outside the states, deterministic_norm and stochastic_norm are the norms of the residuals of the state columns and of the impact equation.

*Model and proof.* LA_EModel.v; LA_EProps.v: reindexing of sums by the two permutations.

*Theorems.* `C116_residual`, `C116_user_solution`, `C116_gate`, `C116_exact_passes`, `C116_norms`, `C116_norms_refuted`, `C116_default_refuted`.

*Status note.* For any other order the two norms mix the solver's matrices with the user's policy: an exact solution is reported with deterministic_norm 1/2 (C116_norms_refuted). By default nothing is gated (C116_default_refuted).

### C117 — The symbolic Blanchard-Kahn check (proved)

The eigenvalues examined are the roots of the regularised pencil and, without regularisation, contain every eigenvalue of every solution with its sign. Without regularisation and with the numeric set of leads the count of unstable roots is that of the numeric check, away from the unit circle. A variable written at t+1 whose lead has a zero coefficient adds one to both counts, for every regularisation in (0, 1): reading the leads off the equations does not change the verdict.

*Model and proof.* LA_EProps2.v: characteristic polynomials, uniqueness of factorisation (count_same of LA_BProofs.v), determinant of a block-triangular pencil.

*Theorems.* `C117_roots`, `C117_solution_roots`, `C117_counts_agree`, `C117_superfluous_lead`, `C117_case`.

*Status note.* The effect of a positive regularisation on roots close to the unit circle is not bounded here.

### C118 — The gradient of the eigenvalues (proved)

For a matrix with a basis of eigenvectors, listed in the order of the eigenvalues returned, the gradient of real_eig pairs with every real first-order change of the matrix to the change of the real and imaginary parts weighted by the incoming gradients.

*Model and proof.* LA_EProps2.v: trace identities.

*Theorems.* `C118_gradient`, `C118_case`.

*Status note.* For conjugate pairs the order in which perform and pullback list the two eigenvalues is LAPACK's and is assumed the same.

### C119 — block assembles nested lists like numpy.block (proved)

block refuses empty lists, tuples and leaves at different depths. Otherwise, for a tree of depth d, the result has max(1, d, the largest number of axes of a leaf) axes; siblings at height h are joined along axis -h, must agree on all other axes, and their lengths add up. Every entry of every leaf (with axes of length one added in front) appears at the place moved past the earlier siblings, every position of the result comes from exactly one entry of one leaf. It succeeds exactly when the shapes fit.

*Model and proof.* Ten_Model.v, Ten_Spec.v (independent relations uniform, shaped, lands), Ten_Block.v: induction on the depth.

*Theorems.* `C119_accepted_iff`, `C119_every_entry_in_its_place`, `C119_refused`, `C119_case`.

*Status note.* Entries are abstract values; dtypes are not modelled; joins check shapes as numpy does.

### C120 — A transposed join is the join of the transposes (proved)

For arrays of at least two axes and any join axis, the graph rewrite of a matrix-transposed concatenation has the same shape and the same entries, and fails exactly when the original fails.

*Model and proof.* Ten_Rewrites.v: induction on the list of inputs.

*Theorems.* `C120_transpose_of_join`, `C120_case`.

*Status note.* Non-negative axes within range (the code normalises negative ones).

### C121 — Splitting a join (proved)

Whenever the concatenation and the split are defined and the rewrite fires, it returns arrays with the same shapes and entries: the join's inputs when the split undoes it, the joins of the pieces when the axes differ. Along the join's own axis it fires exactly when the cuts are the inputs' lengths.

*Model and proof.* Ten_Rewrites.v.

*Theorems.* `C121_split_of_join`, `C121_applies_iff`, `C121_case`.

*Status note.* Static lengths are assumed known; with unknown lengths the code does nothing on the same axis.

### C122 — A block grid that is zero off the diagonal (proved)

If the blocks of the square grid line up in rows and columns, replacing the nested concatenation by a block diagonal changes neither shape nor entries. Without alignment the claim is false: [[a, 0 0], [0 0, b]] with widths 1, 2 / 2, 1 is a valid 2 x 3 concatenation that the rewrite turns into a 2 x 2 matrix.

*Model and proof.* Ten_Diag.v; the first form, for every grid, is refuted.

*Theorems.* `C122_block_diagonal`, `C122_unaligned_refuted`, `C122_case`.

*Status note.* Two axes only (no batch axes); _is_zero is assumed sound: what it calls zero is zero.

### C123 — Conversions that share a cache (proved)

For every sequence of sympy_to_pytensor and build_symbolic_jacobians calls sharing one cache, with or without common-subexpression elimination, and no user symbol named like a temporary (__cse_tmp_N): each symbol, identified by name and class, stands for one input throughout, different symbols for different inputs, and every graph ever returned computes its expression at the values of those inputs; numbers between expressions stay in place. Without the proviso on names the claim is false: a symbol __cse_tmp_0 converted after an elimination is not an input but the earlier subexpression.

*Model and proof.* Conv_Model.v, Conv_Spec.v (meaning of expressions and graphs, what sp.cse promises), Conv_Runs.v: induction on the history with the invariant that user keys hold distinct inputs.

*Theorems.* `C123_conversion_sound`, `C123_conversion_sound_case`, `C123_reserved_name_refuted`.

*Status note.* sp.cse is an oracle with its documented contract (cse_ok), shown to be met by a concrete elimination; symbols with the same name and class but other assumptions share an input, as in the code.

### C124 — Jacobian matrices built in one pass (proved)

After any history of conversions, build_symbolic_jacobians returns one matrix per (equations, symbols) pair, of shape (equations, symbols), empty ones included, and entry (i, j) computes the derivative of equation i with respect to symbol j.

*Model and proof.* Conv_Runs.v: slicing the flat list of reduced entries.

*Theorems.* `C124_jacobian_entries`, `C124_jacobian_entries_case`.

*Status note.* The derivative (and its steady-state form) is an abstract function of equation and symbol here; C12 and C44 are about those.

### C125 — An estimation model is wired to its free parameters (proved)

statespace_from_gcn, for a model whose deterministic parameters are formulas of the free ones and whose steady states are formulas of parameters: it refuses with NotImplementedError exactly when a variable has no steady-state formula (or there is no variable), and otherwise entry (i, j) of A, B, C is the derivative of equation i with respect to the j-th lag, current value, lead times the log-linear factor of variable j, and of D the derivative with respect to the shock, all evaluated with deterministic parameters and steady states computed from the free parameters. If a steady state is given in terms of another one that was inferred, the claim is false: the other one stays an unknown input of the matrices.

*Model and proof.* Conv_Wire.v: graph_replace as simultaneous substitution; the mappings characterised by lookup.

*Theorems.* `C125_wiring`, `C125_wiring_case`, `C125_chained_steady_state_refuted`.

*Status note.* Parameters and steady-state symbols have distinct names and non-reserved names; the order of equations and variables is the caller's (C22, C94).

### C126 — Values reach the inputs of compiled functions (proved)

compile_for_scipy evaluates the graph with each input at the keyword of its name, ignoring others, and raises TypeError exactly when some input has no keyword (or, always, when two inputs share a name). pack_and_compile evaluates it with steady-state node j at x_flat[j], even if only some nodes occur in the graph, and every other input at the frozen parameter of its name; it raises exactly when such a parameter is missing.

*Model and proof.* Comp_Model.v, Comp_Pack.v: the active indices enumerate the positions of the nodes that occur.

*Theorems.* `C126_by_keyword`, `C126_by_position`, `C126_ambiguous_name`, `C126_case`.

*Status note.* pytensor.function is evaluation; modes and the cache of compiled functions are not modelled.

### C127 — The parameter and steady-state functions (proved)

f_params(**kwargs) returns a dictionary with exactly the free and deterministic parameters in order, free ones as given and the others computed by their formulas; f_ss(**kwargs) one with exactly the variables that have a solution, in order, each with the value of its own formula. They raise TypeError exactly when a parameter is missing or unknown, MissingInputError exactly when a formula mentions a symbol that is not a parameter (for instance another variable's steady state), ValueError when there is nothing to compute.

*Model and proof.* Comp_Pack.v: the inputs of a converted formula are the symbols that occur in it.

*Theorems.* `C127_parameters`, `C127_steady_state`, `C127_case`.

*Status note.* Names distinct and not reserved.

### C128 — Model-implied autocorrelations are correlations (proved)

For every statespace model, number of lags and lag step s > 0, entry (a, b) of lag i of sample_autocorrelation_matrices (one draw) is the correlation of variable a with variable b, i*s periods earlier, in every run of the model that starts from its stationary distribution; with observed=True, of the observed series with their measurement errors. There are n_lags + 1 lags, a step of s reads every s-th lag of step one, the latent ones agree with the Model's autocorrelation function, every defined entry is between -1 and 1, and a series without variance has none. A step that is not positive is silently taken as one.

*Model and proof.* Acf_Model.v, Acf_Spec.v (runs of the model as vectors with an inner product), Acf_Props.v: induction on time.

*Theorems.* `C128_latent_is_correlation`, `C128_observed_is_correlation`, `C128_lags`, `C128_spacing`, `C128_not_positive_refuted`, `C128_same_as_model`, `C128_no_variance`, `C128_no_observed_variance`, `C128_bounded`, `C128_observed_bounded`, `C128_case_run`, `C128_case`.

*Status note.* The Lyapunov solver is assumed to return a solution; real closed field instead of floats; the loop over draws is not modelled.

### C129 — Low-frequency data on a high-frequency index (proved)

prepare_mixed_frequency_data: the result runs over consecutive calendar dates from the first one not before the smallest date; the values of each row are at the first (or last) date of the window that starts at the row's own first calendar date, the last such row winning, every other date holds NaN, and the result ends with the last date that has a value. If the dates have no gaps nothing is lost. After a gap later observations are silently dropped; a row dated at the end of its window lands one window late; every position other than 'first', misspelt ones included, means 'last'; a period of zero is an IndexError.

*Model and proof.* Mix_Model.v, Mix_Spec.v, Mix_Proofs.v: induction on the rows; a calendar is any increasing sequence of dates.

*Theorems.* `C129_placement`, `C129_aligned`, `C129_gap_refuted`, `C129_end_dates_refuted`, `C129_position_refuted`, `C129_no_dates`, `C129_zero_period_refuted`, `C129_case_calendar`, `C129_case`, `C129_case_hypothesis`, `C129_case_gap`.

*Status note.* pandas' date_range and frequencies are an abstract calendar; the index's freq attribute is not modelled.

### C130 — Parse failures carry their data through pyparsing (proved)

The message, error code, offending text and suggestions a parse failure is raised with are what decode recovers from its text and a copy carries, for all texts from which the separator cannot be produced (in particular all texts without a vertical bar), suggestions without commas; and only for those. Messages of other exceptions pass through unchanged. A date in the user's text that holds the separator loses code and message.

*Model and proof.* Err_Model.v, Err_Spec.v, Err_Proofs.v: split and join of strings.

*Theorems.* `C130_survives`, `C130_no_bar`, `C130_only_clean`, `C130_copy`, `C130_plain`, `C130_separator_in_source_refuted`, `C130_case`.

*Status note.* Strings of bytes.

### C131 — Where a syntax error is shown (proved)

For every text without tabs and every position in it, the error's line and column are those of the position: the source line shown is the line containing it, the column counts from its start, so that the character there is the one at the position; the pointer and the LSP range cover exactly the text that was found there, or one column if nothing was named; in the terminal form the pointer is under its column for lines up to 9999. False: at the end of the text eleven columns past the end are marked; invalid dates are marked at the start of their variable; tabs shift the column; beyond line 9999 the pointer is one column off.

*Model and proof.* Err_Props.v: a position splits the text into whole lines and a prefix of a line.

*Theorems.* `C131_position`, `C131_character`, `C131_pointer`, `C131_one_column`, `C131_end_of_text_refuted`, `C131_date_refuted`, `C131_tab_refuted`, `C131_terminal`, `C131_terminal_refuted`, `C131_case`.

*Status note.* pyparsing's lineno, col and expandtabs are modelled; colours are not.

### C132 — Suggestions for misspelt names (proved)

find_similar_names returns the best of the candidates that are similar enough, the best first and as many as asked for, names breaking ties, and whatever the order in which the candidates (sets) are given. If some candidate differs only in case, nothing is suggested.

*Model and proof.* Err_Props.v: sorting is canonical for a total order.

*Theorems.* `C132_best`, `C132_order`, `C132_other_case_refuted`, `C132_case`.

*Status note.* difflib's ratio and str.lower are parameters.

### C133 — A written expression keeps its value when it becomes symbolic (proved)

For every expression of a model file, the symbolic expression has, on every path and date and for every value of the parameters, the value of what is written: numbers, parameters, dated and steady-state variables, + - * / ^, the known functions, log with a base, expectations as under perfect foresight (powers with a base that is positive or a whole-number exponent). An expression is accepted exactly when its numbers are finite, its functions known and given one argument (log and sqrt also two); otherwise the error is a ValueError for an unknown function whatever its arguments, a TypeError for a wrong number of arguments or the error of the number. The symbols are exactly those written, except that a second argument of sqrt is silently dropped.

*Model and proof.* Load_Model.v (convert), Load_Spec.v (usual, bases_ok), Load_Proofs.v: induction on the expression.

*Theorems.* `C133_value`, `C133_accepted`, `C133_errors`, `C133_same_symbols`, `C133_unknown_function`, `C133_sqrt_ignores_second`, `C133_all_arguments_used_refuted`, `C133_usual_case`, `C133_case`.

*Status note.* SymPy's automatic simplification is not modelled; reals instead of floats.

### C134 — The equations of a loaded model are those of its blocks (proved)

For every parsed file with different block names and regular definitions that loads, the model's equations are, block after block in file order and leaving out steady-state blocks, the identities, one auxiliary equation per deep lag or lead, the constraints that are not excluded, the objective and one first-order condition per control. On every path on which the definitions hold, the ones before the first-order conditions vanish at all dates exactly if the written identities, kept constraints and objective hold and the auxiliary variables are the lags and leads they are named after. Of two blocks with one name, only the second one's equations are in the model, silently.

*Model and proof.* Load_Proofs2.v composes the models of the conversion, of the expansion of dates (C07, C08) and of the block solution (C15, C16, C47); Load_Proofs3.v for the solutions.

*Theorems.* `C134_equations`, `C134_same_solutions`, `C134_same_name`, `C134_every_block_counts_refuted`.

*Status note.* The first-order conditions' meaning is C16; perfect foresight; try_simplify=False.

### C135 — From text to equations (proved)

Whenever a text loads, its equations and steady state are those of the one model that the grammar reads in the text after removing comments; with different block names and regular definitions the equations are as in C134.

*Model and proof.* Load_Props.v: C107 composed with C134.

*Theorems.* `C135_text`, `C135_text_equations`, `C135_case`.

*Status note.* As C107 and C134.

### C136 — The steady state given in a model file (proved)

Without a steady-state block the given steady state is empty. Otherwise it has exactly the left-hand sides of the first such block's identities, in order; its values mention none of the symbols the block gives values to, and on every valuation on which the block's definitions and identities hold each value is the value of its symbol. With rules for different symbols that do not mention themselves the block is accepted exactly when the rules can be ordered, and a cycle is a ValueError; an identity whose left-hand side is not a symbol is never accepted. False: later steady-state blocks are silently ignored; a block called Steady is used as steady state and its identities are also equations of the model.

*Model and proof.* Load_Proofs3.v: the flattened rules of C10.

*Theorems.* `C136_none`, `C136_values`, `C136_accepted`, `C136_compound_refused`, `C136_one_role_refuted`, `C136_all_blocks_count_refuted`, `C136_case`.

*Status note.* A definition whose left-hand side is not a symbol adds no rule (in the code it replaces that subexpression).

### C137 — What eigenvalue sensitivities measure (proved)

eigenvalue_sensitivity reports the eigenvalues of the linear system at the steady state and parameter values used, each as often as it occurs, by increasing modulus, with the modulus; each gradient entry is the derivative of that eigenvalue in that parameter alone. When a user moves one parameter and calls again, the eigenvalue moves by the reported entry plus the entries of parameters computed from it times their response plus an unreported part, the response of the steady state; the entry is the full response exactly when nothing else moves. There is one column per parameter that occurs in the Jacobians; a supplied steady state needs a value for every variable and its parameters are ignored. False: that the entry is how the eigenvalue reacts to the parameter (an eigenvalue constant in p gets an entry above 2), and that a parameter with an effect has a column.

*Model and proof.* Sens_Model.v; Sens_Spec.v: paths of inputs; Sens_Proofs.v: total derivative along a call.

*Theorems.* `C137_parameters`, `C137_eigenvalues`, `C137_gradients_are_partial`, `C137_total_response`, `C137_exact_when_nothing_else_moves`, `C137_columns`, `C137_fails_without_parameters`, `C137_needs_every_value`, `C137_sensitivity_refuted`, `C137_case`, `C137_missing_column_refuted`.

*Status note.* Automatic differentiation is an oracle assumed to return partial derivatives; reals instead of floats.

### C138 — The panels of a figure (proved)

prepare_gridspec_figure gives one panel per plot, each two cells high and wide, in a grid with as few rows as possible; no two overlap, they follow reading order, and the last row is centred. It is refused exactly when there are no columns or no plots. plot_irf draws one panel per requested variable in the order asked for; a panel without labels on its time axis has another right below it; unknown names, an empty list and zero columns are refused.

*Model and proof.* Fig_Model.v, Fig_Props.v: arithmetic of rows and columns.

*Theorems.* `C138_panels`, `C138_disjoint`, `C138_last_row_centred`, `C138_refused`, `C138_irf`, `C138_irf_refused`, `C138_case`.

*Status note.* matplotlib is not modelled beyond the grid.

### C139 — The points of an eigenvalue plot (proved)

The axes are square and every point is strictly inside; the eigenvalues shown are exactly those that are neither dropped as zero nor as infinite, in order and with their own labels and gradients, and the count of dropped ones is right. Without a tolerance nothing below a million is dropped as infinite. False: that everything above a million is dropped.

*Model and proof.* Eplot_Model.v, Eplot_Props.v.

*Theorems.* `C139_axes`, `C139_filter`, `C139_default_tolerance`, `C139_infinite_dropped_refuted`, `C139_labels`, `C139_case`.

*Status note.* Reals instead of floats.

### C140 — Looking up an object of a model by name (proved)

Model.get(name) gives the shock, parameter or variable of that name, in this order of preference, and name_ss the steady state of the variable or shock; an unknown name is an IndexError whether or not similar names exist. With distinct names every variable and shock is found under both names. A parameter or variable whose own name ends in _ss cannot be reached by any name; asking for the steady state of a parameter is an AttributeError.

*Model and proof.* Get_Model.v, Get_Props.v: dictionary updates and suffixes.

*Theorems.* `C140_plain`, `C140_steady_state`, `C140_unknown`, `C140_round_trip`, `C140_ss_names_unreachable`, `C140_case`.

*Status note.* difflib.get_close_matches is a parameter.

### C141 — The priors of a model file (proved)

A prior is the named PreliZ distribution with the keywords as written, wrapped as written, maxent with plotting off. The parse result's distributions require every prior to build, the error being that of the first that does not, and have for each name the last prior written for it with its metadata. The loaded model drops in silence the priors that raise ValueError, TypeError or name an unknown distribution, stops on any other error, and has for each name the last written prior that builds; when all build the two agree. False: that a parameter with a prior in the file has one in the loaded model or loading fails (a misspelt keyword).

*Model and proof.* Pz_Model.v, Pz_Props.v: an invariant relating the dictionary to the priors read so far.

*Theorems.* `C141_built`, `C141_parsed`, `C141_parsed_error`, `C141_loaded`, `C141_loaded_error`, `C141_agree`, `C141_silent_loss_refuted`, `C141_case`.

*Status note.* PreliZ constructors are parameters that may raise.

### C142 — Walking and rewriting a syntax tree (proved)

A NodeTransformer calls its visit methods on the topmost nodes that have one, left to right, each on the state the previous one left, and never below a handled node; every other node keeps its class, fields and location, and is the very object given exactly when none of its parts was replaced (so a transformer that replaces nothing returns its argument) and otherwise a new object; nothing given is changed. collect_nodes_of_type returns, of all parts of the wanted class that are equal as syntax, exactly the one written first, and nothing else.

*Model and proof.* Vis_Model.v: nodes with identities; Vis_Spec.v: rewriting relation; Vis_Proofs.v: induction over the parts with the set of living objects.

*Theorems.* `C142_transform`, `C142_unchanged`, `C142_calls`, `C142_collect`, `C142_case`.

*Status note.* A user method is assumed to return a node whose parts exist, and not to mutate existing nodes (the dataclasses are frozen). Expression nodes and GCNEquation only.

### C143 — The cache of compiled functions (proved)

In every history of compile_pytensor_function and clear_compile_cache calls each answer is a function compiled for exactly the inputs, outputs, updates, givens and options asked for, or the error of compiling them; different requests never share a function object; the same request, made again without a clear and with fewer than 128 other requests between, returns the very same object without compiling. hits plus misses is the number of calls since the last clear, and at most 128 functions are held. False: that the same request always gets the same object (129 different requests evict it), and that the order of a givens dictionary does not matter for the cache.

*Model and proof.* Lru_Model.v: the list of entries, most recent first; Lru_Props.v: an invariant over histories.

*Theorems.* `C143_right`, `C143_distinct`, `C143_same_object`, `C143_info`, `C143_same_object_refuted`, `C143_dict_order_refuted`, `C143_case`.

*Status note.* pytensor.function is a parameter that may raise; threads are not modelled.

### C144 — The PyTensor view of a model, in any order (proved)

In every session of ss_tensors, param_tensors, equation_tensors, steady-state problems with fixed values and other conversions sharing the model's cache, in any order and number, there is one input per symbol: ss_tensors returns the inputs of the variables and calibrated parameters in order (without the known ones if filtered), param_tensors those of the chosen groups, equation_tensors graphs that have the equations' values, and with filter_known exactly the equations that still speak of an unknown variable after the known values are put in, in order, with those values. The same question always gets the same answer, and the filtered graphs have no inputs other than unknowns and parameters. False: that filtering keeps the system square.

*Model and proof.* Tens_Model.v on top of Conv_Model.v; Tens_Spec.v; Tens_Proofs.v: an invariant on the cache and the memoised graphs.

*Theorems.* `C144_session`, `C144_repeat`, `C144_closed`, `C144_fixed_values`, `C144_square_refuted`, `C144_case`.

*Status note.* graph_replace is simultaneous substitution of inputs; clones are the same tree.

### C145 — Seeds and generators given to the samplers (proved)

With a Python integer seed every sampling function gives the same table in every history, whatever was drawn before, and leaves all generators as they were. A Generator given to sample_from_priors or method='random' is the only thing read and the only thing advanced; numpy integers work there as Python ones do. bounds_from_priors gives, per prior and in order, its HDI or, if that raises ValueError, its quantiles 1-p and p, which cover 2p-1 and for p below one half are inverted so that sampling is refused. False: that a Generator or a numpy integer makes lhs/sobol/halton/poisson_disk sampling reproducible (they are silently ignored), and that the fallback bounds cover hdi_prob.

*Model and proof.* Seed_Model.v: generators by identity and entropy as a counter; Seed_Props.v: induction over histories.

*Theorems.* `C145_int_seed`, `C145_history`, `C145_generator`, `C145_numpy_integer`, `C145_ignored`, `C145_bounds`, `C145_fallback_mass`, `C145_fallback_refused`, `C145_reproducible_refuted`, `C145_numpy_refuted`, `C145_mass_refuted`, `C145_case`.

*Status note.* numpy, scipy and PreliZ draws are parameters, deterministic in the generator state. Reals instead of floats.

### C146 — Error objects and collections of errors (proved)

A parse error's text begins with its code and message and names its context, its place and every suggestion; a grammar error's message names what was found and everything expected, a semantic error's its symbol, and an error's diagnostic determines its message, severity, code and suggestions. with_location and with_context, in any number and order, change only the place of a plain or grammar error. A collector's queries are about exactly the errors added to it, in order: raise_first raises the first of severity ERROR, and nothing exactly when has_errors is false. A collection raised by raise_if_errors keeps its text but its errors are the collector's, now. False: that with_location works on every error (a semantic error raises TypeError) or keeps what a grammar error expected; that a collection's text is that of its errors; that raise_if_errors raises only if has_errors.

*Model and proof.* Errs_Model.v on top of Err_Model.v; Errs_Props.v: substrings and induction over histories.

*Theorems.* `C146_with`, `C146_placed`, `C146_with_semantic`, `C146_with_refuted`, `C146_forgets`, `C146_grammar_message`, `C146_semantic_message`, `C146_text`, `C146_diagnostic`, `C146_collector`, `C146_collection`, `C146_count_refuted`, `C146_warning_refuted`, `C146_case`.

*Status note.* The default code of a grammar error is taken as given.

### C147 — Artificial data from the prior (proved)

data_from_prior returns the parameters and the data of one and the same prior draw; cells are that draw's or missing, and with distinct dates every column misses exactly floor(pct * dates), none for pct <= 0. The graph is built with exactly the options given (unknown ones are a TypeError), or with none at all if the PyMC model already has data. The user's PyMC model is as it was whatever happens, unless it already had data and copies share their containers, in which case its data is overwritten; the statespace model forgets the dummy data on success. False: that the function's own default options are used (passing them is even a TypeError), and that a failed call leaves the statespace model clean.

*Model and proof.* Dfp_Model.v, Dfp_Props.v: case analysis of the outcomes; counting of distinct labels.

*Theorems.* `C147_model`, `C147_overwritten`, `C147_reset`, `C147_same_draw`, `C147_missing`, `C147_floor`, `C147_options`, `C147_ignored`, `C147_unknown`, `C147_defaults_refuted`, `C147_reset_refuted`, `C147_case`.

*Status note.* PyMC and numpy are parameters; choice without replacement and one value per date are premises. Exact fractions instead of floats.

### C148 — From a failure of the parser to the error shown (proved)

Every parsing failure becomes one error. For a failure of pyparsing itself the code is by the first description that fits: a parenthesis found or asked for (E007), a semicolon asked for or a component keyword found or a word where a brace was expected (E001), a brace (E002), a missing right-hand side (E005), else E000 with pyparsing's whole message; otherwise the message is the catalogue's title and the notes its fixes. A failure the grammar raised with a code keeps code, message, found text and place, and its notes are the catalogue's fixes, preceded by at most one hint: the best suggestion. False: that an expected semicolon is reported as E001 (a parenthesis found there is E007), and that the suggestions are on the error (they never are).

*Model and proof.* Cls_Model.v on top of Err_Model.v and Errs_Model.v; Cls_Props.v: substrings and case analysis.

*Theorems.* `C148_structural`, `C148_structural_text`, `C148_kept`, `C148_suggestions`, `C148_semicolon_refuted`, `C148_suggestions_refuted`, `C148_case`.

*Status note.* Titles, fixes and the similarity search are parameters; ASCII.

### C149 — The priors of a state space model in a PyMC model (proved)

to_pymc adds to the PyMC model exactly the priors of parameters that are neither excluded nor constant, and for each shock not excluded (by the shock's name) the priors of the parameters of its distribution; it succeeds exactly when no name occurs twice, and a ValueError leaves what was added before. With constant_params='auto' each input parameter is constant or in the model, and if every shock's standard deviation is a parameter sigma_<shock> with a prior, the state space finds every parameter it needs. A given list of constants is used as it is, or refused if one is not an input parameter. False: that exclude_priors keeps out the prior of a shock's standard deviation; that every needed parameter is there when each shock has a prior (another name than sigma_<shock>); that to_pymc always succeeds (two shocks with one standard deviation).

*Model and proof.* Pym_Model.v on top of Build_Model.v; Pym_Props.v: induction over the registrations.

*Theorems.* `C149_registered`, `C149_fails`, `C149_auto`, `C149_needed`, `C149_constants`, `C149_exclude_refuted`, `C149_needed_refuted`, `C149_shared_refuted`, `C149_case`.

*Status note.* PyMC is a list of named variables; only the names matter.

### C150 — The report after a model file is read (proved)

A warning that the model cannot be solved is given exactly when the numbers of equations and variables differ, and names both; the report says the model is ready exactly when they agree. Its lines give the counts of equations, variables, shocks, parameters, priors and calibrated parameters, and each list of removed names is shown, complete and in order, under its own heading exactly when it is not empty. The steady-state names are listed in order, each whole in one row, rows start in the column after the colon, a row of two or more names is at most 80 columns wide with tabs at 8, and a row ends only where the next name would not have fitted. The user's and the inferred names are together the keys of the final steady state, each once.

*Model and proof.* Rep_Model.v: the text, with str.expandtabs; Rep_Proofs.v: invariant of the wrapping loop; Rep_Props.v: the text as lines.

*Theorems.* `C150_steady_state_names_wrapped`, `C150_report_lines`, `C150_warning_iff_not_square`, `C150_report_says`, `C150_share`, `C150_case`.

*Status note.* Symbols are their printed names; logging and warnings.warn deliver what they are given.

### C151 — The first-order conditions of a loaded model file (proved)

When a model file is loaded, the last equations of a block with an optimisation problem are its first-order conditions, one for each control in the order written: on every path on which the block's definitions hold, and at every date, the equation for x[t] equals the derivative with respect to x[t], the variables the block defines moving along, of the discounted sum of the period Lagrangians. These are read off the text: the objective's right-hand side (negated with @minimize) less the sum, over the constraints, of the multiplier (the one written after the colon, or lambda__<initials of the block>_<i>) times left-hand side minus right-hand side; the discount factor is c in V[] = u + c * E[][V[1]], or 1 if only today's and yesterday's variables occur.

*Model and proof.* Lfoc_Spec.v: the problem on the written block, the meaning of C05/C134; Lfoc_Proofs.v: the converted block is an optimisation block of C17 and values, domains and multipliers agree.

*Theorems.* `C151_first_order_conditions`, `C151_text`, `C151_case`.

*Status note.* Objective and constraints with deeper lags: refuted by C17_deep_lag_through_auxiliary_refuted. The simplifications of C17 and C134 apply.

### C152 — How many roots are called explosive (proved)

determine_n_unstable with a cutoff hands it back and counts the roots |beta/alpha| above it. Without one it reports a cutoff in (1, 1.01] - 1.01, or half-way between 1 and a root between 1 + realsmall and 1.01 - with no root between 1 + realsmall and it; the count is at least the number of roots above 1 + realsmall and at most the number above the cutoff. If no root lies in the ring (1, 1 + realsmall], the count is the number of roots outside the unit circle, in any order of the pairs. The solver's own loop flags a coincident-zero pair anywhere and, if there is none, counts the roots on or outside the unit circle: it exceeds the helper's count exactly by the unit roots. The rows of a matrix are split without loss, the second part having the counted size. False: that the count is the number of roots above the reported cutoff or independent of the order in general; that the cutoff is independent of the order; that a coincident pair other than the last is reported by the helper.

*Model and proof.* Nun_Model.v over the reals; Nun_Props.v: invariant of the loop.

*Theorems.* `C152_given_cutoff`, `C152_inferred_cutoff`, `C152_count_outside`, `C152_count_any_order`, `C152_coincident_last`, `C152_solver_count`, `C152_solver_and_helper`, `C152_split`, `C152_case`, `C152_order_refuted`, `C152_cutoff_order_refuted`, `C152_coincident_refuted`.

*Status note.* Real numbers instead of floats; of _gensys_core only the counting loop (the rest: C23).

### C153 — What a parsed file shows before it is turned into a model (proved)

The converted equations of a parsed file have one entry per block name - the last block's - listing the equations of each component in order, priors left out; each side has the value of the side as written, and the metadata names multiplier and calibrated parameter; the conversion fails exactly when some equation, of the steady-state block or a calibration too, has an unknown function or a number that is not finite. get_block gives the first block of a name. all_equations are those of all blocks in order without the calibrations, all_variables and all_parameters exactly what is written in them. The calibration helper gives every parameter the value of the last item that sets it, every calibrated parameter the sides of its last equation, every prior its last one; the variables helper gives controls and whatever stands alone on a left-hand side, brought to today. A computed property of the parse result, once read, never changes; while the file is unchanged it is the value computed from it. False: that the equation shown for 'a = b -> p' follows from it (it is p = a - b); that get_block and the converted equations are about the same block; that all_parameters has the parameters of the calibrations, or the helper all variables of a block; that changes of the file after a property is read are seen.

*Model and proof.* Pmq_Model.v on top of Load_Model.v and Gcn_Model.v; Pmq_Props.v: inductions over blocks, items, expressions and histories.

*Theorems.* `C153_equation`, `C153_converts`, `C153_blocks`, `C153_entry`, `C153_get_block`, `C153_all`, `C153_calibration`, `C153_block_variables`, `C153_read_once`, `C153_read_fresh`, `C153_case`, `C153_calibrating_refuted`, `C153_same_block_refuted`, `C153_parameters_refuted`, `C153_block_variables_refuted`, `C153_changes_refuted`.

*Status note.* SymPy trees without automatic simplification; sp.Eq of two equal sides not modelled.

### C154 — What the terminal shows of an error (proved)

The terminal form of an error is: the severity with its code and the message; file:line:column; the line of the error with its number, directly followed by the pointer under the marked characters with the annotation; around it exactly the lines line-context..line-1 and line+1..line+context that the file has, each with its own number and text; then one help line if there are suggestions and one line for each note, in order. Without the source, or when the line is beyond its end, only the line kept in the error is shown, if there is one; without a location none. Colours add only escape sequences: removed, they leave exactly the text without colours; and there are none unless they are asked for, the output is a terminal, NO_COLOR is unset or empty and TERM is not dumb. A collection shows every error in order, separated by one empty line, and the number of them (warnings counted as errors, refuted as a count of errors); an empty one shows nothing.

*Model and proof.* The formatter line by line (Fmt_Model.v) on the error objects of Errs_Model.v. A terminal is specified as a reader that drops ESC..m; the texts are related by the same reader by induction on the parts. The source is given by its lines, not by the model's split.

*Theorems.* `C154_colour`, `C154_colour_collection`, `C154_no_colour`, `C154_no_escape`, `C154_marks`, `C154_context`, `C154_own_line`, `C154_no_place`, `C154_collection`, `C154_summary_counts_warnings`, `C154_case`.

*Status note.* Lines numbered 10000 and above move the pointer: C131_terminal_refuted.

### C155 — What the pair plots, the summary and the heat map show (proved)

plot_solvability draws, for the requested parameters (default: every column that varies and is not a result of the check), an n by n figure whose panel in row i and column j < i has the j-th parameter across and the i-th up and contains every draw exactly once: the solvable ones in blue, each failure stage in its own layer and colour (red, orange, green, purple and pink for the five known stages, grey for any other); the diagonal shows the values of the solvable and of the failing draws apart, the upper triangle nothing; axis labels name the parameters. Any other name (a constant column, an unknown one) and an empty request raise ValueError. plot_solvability_summary draws one bar for each outcome that occurs, as wide as its share, each beginning where the one before ends, and they fill exactly [0, 1] when every stage is a known one. plot_corner lays out its panels likewise, for two or more variables. plot_covariance_matrix writes in column j of row i the covariance of the i-th and the j-th name, under labels in the same order, whatever order the table has; an unknown name raises KeyError. Refuted: a corner plot of one variable raises TypeError; a heat map of a table that is not square raises ValueError.

*Model and proof.* A figure is its table of panels, a panel the data drawn in it and its labels (Panel_Model.v); masks and groups as in the code. The specification selects draws by their outcome with filter on the zipped table; induction on the draws relates the two, and a permutation argument gives exactly-once.

*Theorems.* `C155_solvability`, `C155_colours`, `C155_solvability_all`, `C155_solvability_refused`, `C155_every_draw_once`, `C155_summary`, `C155_corner`, `C155_corner_single_refuted`, `C155_corner_refused`, `C155_covariance`, `C155_covariance_all`, `C155_covariance_unknown`, `C155_heatmap_refuted`, `C155_case`.

*Status note.* Densities, histograms and styles are not modelled.

### C156 — Responses and simulations solve the linear model (proved)

Let T, R be a policy and an impact matrix of A x(t-1) + B x(t) + C E x(t+1) + D e(t) = 0 (which is what the solvers return: C24, C28, C65). Along every path that impulse_response_function or simulate computes, A x(t-1) + B x(t) + C x(t+1) + D e(t) equals C R e(t+1), so the model's equations hold exactly once no shocks come any more; in the responses to one scalar shock they hold in every period, for every shock. For every distribution of the next shock with finitely many values and mean zero, the equations hold with the expected value of the next simulated row in place of x(t+1), and the rows up to now do not depend on which value comes. If the model's remaining roots lie outside the unit circle, the paths computed without shocks are its only bounded ones.

*Model and proof.* No new model: theorems about Sim_Model.v's paths and LA_Spec.v's policy and impact equations (mathcomp matrices). A path's row is T times the row before plus R e; substituting in the model leaves the policy and impact equations. Deviations from the policy obey d(t) = G d(t+1) with G = -(B + C T)^-1 C; bounded and contracted means zero.

*Theorems.* `C156_surprise`, `C156_no_more_shocks`, `C156_impulse`, `C156_expected`, `C156_policy_path`, `C156_deviation`, `C156_only_bounded_path`, `C156_case`, `C156_case_response`.

*Status note.* The condition on the remaining roots is stated as: some power of G shrinks every vector by a fixed factor.

### C157 — What a validation error says and shows (proved)

An error raised while a model is validated shows, when the source and the place are known and the place is in the file, the message with its code, the file, line and column, the line before, the line itself with its number and carets, up to two lines after, and every note; the carets stand exactly under the characters they mark, whatever the number of digits of the line numbers, and are as many as the place has columns. Otherwise it is the message alone. A control that is in no equation is named with its block and is located by the first record of its base name; duplicate parameters are all named and the first one's place is shown; orphan parameters are named once each in whatever order the set is walked, with the singular exactly for one; every list of names in the other messages is complete. A block is refused for its objective and controls exactly when one of the two is missing or there are several objectives, all of which are listed. The message about the missing component names them the wrong way round.

*Model and proof.* Exc_Model.v follows _format_with_source line by line. A file is specified by its lines; the text shown is given as an explicit list of lines. Alignment: the line shown is split at the column and the carets' padding has the length of the first part; the width found from the last line shown is enough because printing is monotone in length (Dec_Lib.v).

*Theorems.* `C157_source_shown`, `C157_caret`, `C157_width`, `C157_aligned`, `C157_plain`, `C157_control`, `C157_duplicates`, `C157_problem`, `C157_missing_component_refuted`, `C157_orphans`, `C157_listed`, `C157_two_verbs_refuted`, `C157_case`, `C157_file`, `C157_orphans_case`.

*Status note.* Refuted for OptimizationProblemNotDefinedException: a block with an objective and no controls is said to have controls and no objective, and conversely. ExtraParameterError has two verbs in every case.

### C158 — Where variables, parameters and equations are in the source (proved)

The location recorded for a parameter, for a variable at time t and for a variable in a list of controls or shocks is exactly that of its characters: the line, the column of the first character, the column after the last one, and the text of the line, wherever it stands in the file. The parameter after an arrow is located itself, on whatever line it is, not at the arrow. An equation's location ends after its semicolon, or before the arrow when it calibrates a parameter, and begins at its first character when that is a name, a number or a function. A variable at another time, and an equation beginning with a sign or a bracket, are not located exactly.

*Model and proof.* Pos_Model.v on pyparsing's lineno and col (Err_Model.v). A place is specified by the line it is in and the text before it on that line; the file is the concatenation of its lines. Counting line feeds in the text before the place gives the line, the last line feed before it the column.

*Theorems.* `C158_parameter`, `C158_reference`, `C158_variable`, `C158_variable_refuted`, `C158_calibrating`, `C158_equation_end`, `C158_calibrating_end`, `C158_equation_start`, `C158_equation_start_refuted`, `C158_case`.

*Status note.* Refuted: a variable at any time but t ends two columns too late (the brackets are counted twice); an equation beginning with a minus sign, a bracket or E[] begins at its first name. The text inside a token is taken without blanks, as written by the printer; pyparsing's choice of the position of a match is not modelled.

### C159 — What the eigenvalue, autocorrelation, Kalman, prior and matrix figures show (proved)

plot_eigenvalues draws exactly the eigenvalues of modulus below 10, in order, red if the modulus is above 1, and names the number of those above 10; keyword parameters override linearize_model_kwargs. plot_eigenvalue_sensitivity has one panel for each parameter asked for, in order, each with all the kept eigenvalues - those inside the unit circle apart from those outside, none lost - and an arrow at exactly those whose change is above the fraction of the largest one, to where the derivative times the change of the parameter takes it; all points lie inside the axes. plot_acf has one panel for each variable, with every model that has it, in order, at the lags moved by the model's offset; offsets are dodge apart and centred; the reference comes last at its own lags. plot_kalman_filter shows for each variable its own draws of the output asked for and the data's column of its name. plot_priors shows all priors in order with their values, plot_estimated_matrix every entry with the names of its shocks. Exceptions, proved as refutations: a modulus of exactly 10 is neither drawn nor counted; the caller's linearize_model_kwargs keeps the overrides; sensitivities computed at other parameters are shown with the model's own values; tensors whose variable dimensions are named differently, or with other numbers of lags, cannot be overlaid, and all are drawn at the first one's lags; 'Predicted' passes the check of the output and is then not found; plot_priors with var_names draws the first priors instead of those; with fewer priors than columns the default height is 0; a symmetrical matrix hides its diagonal, so one shock shows nothing.

*Model and proof.* Plots_Model.v on Fig_Model.v (places), Eplot_Model.v (filter, axes) and Sens_Model.v (data, parameters). Figures are specified panel by panel: the k-th name, its place and its data.

*Theorems.* `C159_eigenvalues`, `C159_eigenvalues_ten_refuted`, `C159_eigenvalues_arguments`, `C159_eigenvalues_kwargs_refuted`, `C159_sensitivity`, `C159_sensitivity_refused`, `C159_sensitivity_values_refuted`, `C159_acf`, `C159_acf_offsets`, `C159_acf_refused`, `C159_acf_overlay_refuted`, `C159_kalman`, `C159_kalman_refused`, `C159_kalman_case_refuted`, `C159_priors`, `C159_priors_requested_refuted`, `C159_priors_refused`, `C159_priors_height_refuted`, `C159_matrix`, `C159_matrix_diagonal_refuted`, `C159_matrix_refused`, `C159_case`.

*Status note.* Means, intervals and densities are abstract; nan, sizes and styles are left out.

### C160 — Taking a special block out of a text (proved)

extract_special_block_content returns the first block of the text whole: its name in any case, white space including line ends, a brace and everything up to the first "};", and None exactly if the text has none. remove_special_block returns the text without every such block, met from left to right, and changes nothing else; a text without a block stays as it is. Refuted: a block that holds blocks itself (assumptions) is cut at the first inner "};" and the rest of it, with the inner blocks that follow, stays in the text; removing twice can remove more than removing once; the end of another word, and text in a comment, is taken for a block.

*Model and proof.* Rx_Model.v: a matcher for this regular expression with the leftmost and non-greedy semantics of re. The specification is declarative: a block's text as a concatenation, the first one by the length of what precedes it, removal as an inductive relation.

*Theorems.* `C160_extract`, `C160_remove`, `C160_one_block`, `C160_no_block`, `C160_nested_refuted`, `C160_nested_left`, `C160_twice_refuted`, `C160_words_refuted`, `C160_case`.

*Status note.* Case and white space are ASCII's; Unicode's are not modelled. Names with characters special to re are left out.

### C161 — The steady state a computation starts from, and what is reported about it (proved)

linearize_model evaluates the model at the given steady state, each variable at its own value, whatever the order of the entries and whether they stand under the variable's or the steady-state name; a missing variable raises KeyError. solve_model refuses a given point exactly when some equation is farther than 1e-8 from zero there; without one it solves with all the parameters. check_steady_state says that the steady state is found, or lists in order exactly the equations that do not hold, each with its own residual. print_steady_state prints every value once, variables first, each on its line, with the values ending below one another and the warning exactly if it is not a steady state. Refuted: solve_model and linearize_model go on from a point the solver returned without success; for a linear model nothing uses the zero steady state: without relations for it solving, linearizing and checking raise TypeError, with relations for some variables KeyError, and with all of them check_steady_state raises AttributeError; a given point is never described by check_steady_state, only accepted or refused; equations whose residual is nan are not listed; linearize_model overwrites "verbose" in the caller's steady_state_kwargs; an empty result raises ValueError when printed.

*Model and proof.* Stst_Model.v: the compiled functions and the solver are arbitrary functions of dictionaries. The point is specified by the entries a dictionary has for a variable; reports by an inductive relation that picks elements in order.

*Theorems.* `C161_point`, `C161_point_missing`, `C161_not_checked_refuted`, `C161_linearize_solves`, `C161_given`, `C161_linear_refuted`, `C161_linear_partial_refuted`, `C161_linear_check_refuted`, `C161_options_refuted`, `C161_listed`, `C161_found`, `C161_given_not_listed_refuted`, `C161_nan_refuted`, `C161_printed`, `C161_print_refuted`, `C161_case`.

*Status note.* Which variables are logged, and the orders of rows and columns, are other properties' (flags, permutations). Printed decimals are given texts.

### C162 — What figures of impulse responses, simulations and time series show (proved)

plot_irf draws for each variable asked for one panel, in order and in the places of C138, with that variable's responses: scenario after scenario, in each the shocks asked for in order; the colour is the shock's and the line style the scenario's, in every panel. The legend's texts stand beside lines of their own shock, the scenario legend is in the first panel only and names every scenario with its style; scenarios of a list are numbered from 0. plot_timeseries and plot_simulation draw one panel per variable in order with that variable's own data; with ci the band is between two quantiles that leave out equal parts on both sides and enclose exactly ci; an unknown variable raises KeyError or ValueError. Responses without shocks give one line per scenario, whatever shocks are asked for, and no legend of shocks. Refuted: from the fifth scenario on the line styles repeat, so that its lines look like the first one's; the first scenario decides what can be asked for, and a variable or shock another one lacks raises KeyError; an empty list raises StopIteration; one name given as a text is taken for a list of letters.

*Model and proof.* Irf_Model.v on Fig_Model.v (places, requests) and Plots_Model.v. A panel is its list of lines; the specification gives them as the concatenation over the numbered scenarios. Induction over the scenarios, with the labels as an invariant.

*Theorems.* `C162_scenarios`, `C162_irf`, `C162_scenario_legend`, `C162_five_scenarios_refuted`, `C162_missing_refuted`, `C162_empty_refuted`, `C162_without_shocks`, `C162_irf_without`, `C162_timeseries`, `C162_one_name_refuted`, `C162_simulation`, `C162_simulation_refused`, `C162_case`, `C162_case_without`.

*Status note.* Series are abstract; colours are positions in the cycle.

### C163 — What is said about an expression that cannot be parsed (proved)

Whenever a single expression (such as one of the observation_equations of configure) cannot be parsed, the GCNGrammarError says exactly one of eight things, decided by the failure alone in a fixed order: what the grammar itself raised for an empty call or a bad time index, an operator at the end, an incomplete expression, a missing operand, unbalanced parentheses, a bad variable, or pyparsing's own message; what was expected and found follows in quotes if it is known; the code is one of E006, E007, E008 and E010 by its own fixed order, the severity is ERROR, the context is the caller's, and in a text without tabs the line, the column and the line of text shown are those the same position of a whole file would have (C131), without an end. format_error_help gives for the name of a code its title, explanation and every cause and fix in order, one to a line, get_error_info its entry; any other name gives the empty text and None. Refuted: an empty call f() and a bad time index x[a] are shown with the parser's internal marks in the message ("Empty function call 'f()'||GCN||E008||GCN||f()||GCN||"), since the message is cut at a mark that is no longer used; the message and the code can disagree ("Invalid time index" with E008 for a variable called E008, "Missing operand" with E007); since pyparsing quotes what it found, an operator at the end is never named.

*Model and proof.* Xerr_Model.v transcribes both classifications, the conversion and the catalogue's texts on top of Err_Model, Errs_Model and Cls_Model; Xerr_Props.v states the cases as two inductive relations on occurrences of words, proves that what is said is the only thing the relation allows, and derives the refutations for all names and indices.

*Theorems.* `C163_message`, `C163_code`, `C163_place`, `C163_help`, `C163_marks_refuted`, `C163_codes_differ_refuted`, `C163_operator_refuted`, `C163_case`.

*Status note.* Which failure pyparsing reports is not modelled; ASCII only; the texts of the catalogue are parameters.

### C164 — Syntax trees as values and texts (proved)

Two different expression trees, of any depth and with any names, numbers and arguments the grammar can produce, are never written alike by str(): the parentheses it puts decide the tree. The text of every time index is read back as that index; step_forward and step_backward undo each other at every integer and raise ValueError at the steady state; an index is made from an integer or from 'ss', any other text raises ValueError; Variable.at changes the time only and to_ss gives the steady state. Tag.from_string accepts the three tags in any case and raises ValueError for any other text. Refuted for trees built by hand: a subtraction and a binary use of the negation operator are written alike, and so are a parameter called 'C[]' and the variable C at the present.

*Model and proof.* Node_Model.v transcribes the nodes' texts; Node_Props.v proves by induction on the length of the text that an expression followed by a delimiter determines both the tree and what follows.

*Theorems.* `C164_index_read_back`, `C164_steps`, `C164_at`, `C164_text`, `C164_text_refuted`, `C164_tags`, `C164_case`.

*Status note.* A number is its text (str of the float); locations take no part in comparisons; ASCII.


## Print Assumptions

* Closed under the global context: the other 672 property theorems.
* `ClassicalDedekindReals.sig_forall_dec`: `C78_case`, `C79_case`, `C137_parameters`, `C145_bounds`.
* `ClassicalDedekindReals.sig_forall_dec`, `ClassicalDedekindReals.sig_not_dec`, `Classical_Prop.classic`, `FunctionalExtensionality.functional_extensionality_dep`: `C18_closed_forms_agree`, `C18_output_on_the_right_refuted`, `C18_objective_with_definitions_refuted`, `C18_input_at_two_dates_refuted`, `C61_reparametrised_system_has_the_same_feasible_roots`, `C61_change_of_variable_is_invertible`, `C61_unit_interval_respected_refuted`, `C22_linearised_matrices`, `C23_negative_logged_refuted`, `C95_expressions_keep_their_value`, `C95_model_block`, `C133_usual_case`, `C133_case`, `C151_case`, `C153_calibrating_refuted`.
* `ClassicalDedekindReals.sig_forall_dec`, `ClassicalDedekindReals.sig_not_dec`, `FunctionalExtensionality.functional_extensionality_dep`: `C16_all_multipliers_are_variables`, `C17_first_order_conditions`, `C17_discount_factor_of_split_objective_refuted`, `C17_deep_lag_through_auxiliary_refuted`, `C21_case`, `C55_solutions_of_reduced_system_are_steady_states_refuted`, `C56_success_means_residuals_small_refuted_for_linear`, `C56_case`, `C57_calibrated_parameter_can_be_fixed_refuted`, `C57_case`, `C58_success_means_residuals_small_refuted`, `C58_success_means_residuals_small_refuted_by_provided_value`, `C58_case`, `C59_error_zero_iff_all_residuals_zero`, `C61_assumptions_and_bounds_respected`, `C61_bounds_by_variable_name_respected_refuted`, `C22_case`, `C62_calibrated_model_linearised_refuted`, `C62_linear_without_steady_state_refuted`, `C64_default_parameters_suffice_refuted`, `C33_case`, `C34_lost_entries_refuted`, `C34_case`, `C77_dictionary_ignores_paths_refuted`, `C80_case`, `C80_lagged_shock_refuted`, `C35_result`, `C35_more_iterations`, `C35_already_there`, `C35_returns`, `C35_success_refuted`, `C35_case`, `C82_every_step`, `C82_never_increases`, `C83_search_succeeds`, `C84_every_step`, `C84_bounded_by_start`, `C84_memory_one`, `C84_no_memory`, `C84_reuse_refuted`, `C84_case`, `C85_trust_region`, `C85_objective_falls`, `C85_levenberg_marquardt`, `C85_lm_objective_falls`, `C86_dogleg`, `C86_gauss_newton`, `C86_why_it_stops`, `C86_flat_refuted`, `C85_case`, `C87_chord`, `C87_chord_every_call`, `C87_chord_zero`, `C87_krylov_accuracy`, `C87_krylov_fixed`, `C87_unknown_method`, `C88_reuse`, `C88_counts`, `C88_limit`, `C88_failed_step_refuted`, `C88_limit_refuted`, `C37_case`, `C89_case`, `C36_refuted`, `C90_linearised_equation`, `C92_unchanged_refuted`, `C90_case`, `C91_case`, `C93_case`, `C93_hyperparameter_refuted`, `C137_eigenvalues`, `C137_gradients_are_partial`, `C137_total_response`, `C137_exact_when_nothing_else_moves`, `C137_columns`, `C137_fails_without_parameters`, `C137_needs_every_value`, `C137_sensitivity_refuted`, `C137_case`, `C137_missing_column_refuted`, `C151_first_order_conditions`, `C151_text`, `C152_given_cutoff`, `C152_inferred_cutoff`, `C152_count_outside`, `C152_count_any_order`, `C152_coincident_last`, `C152_solver_count`, `C152_solver_and_helper`, `C152_case`, `C152_order_refuted`, `C152_cutoff_order_refuted`, `C152_coincident_refuted`, `C159_sensitivity`, `C159_sensitivity_refused`, `C159_sensitivity_values_refuted`, `C159_case`.
* `ClassicalDedekindReals.sig_forall_dec`, `FunctionalExtensionality.functional_extensionality_dep`: `C12_derivative_of_discounted_sum`, `C21_added_values_solve_an_equation`, `C21_no_steady_state_lost`, `C55_every_steady_state_solves_the_reduced_system`, `C56_analytic_success_iff_residuals_small`, `C56_resolved_success_iff_residuals_small`, `C56_calibrated_parameter_with_analytic_steady_state_fails`, `C57_fixed_values_returned_and_checked`, `C57_bad_names_rejected`, `C58_success_means_residuals_small`, `C58_root_needs_square_system`, `C61_default_start_is_feasible`, `C61_start_is_feasible_for_user_bounds_refuted`, `C61_case`, `C22_structural_zeros`, `C22_succeeds`, `C23_flags_from_arguments`, `C23_flags_follow_names_refuted`, `C23_variables_suffice_refuted`, `C23_flag_count_refuted`, `C62_missing_parameter`, `C63_cache_transparent`, `C64_forward_variables`, `C64_fallback`, `C33_stacked_residual`, `C33_solution_satisfies_model`, `C34_assembled_blocks`, `C34_jacobian_is_derivative`, `C77_boundaries`, `C77_case`, `C77_missing_variable_is_one_refuted`, `C77_two_spellings_refuted`, `C78_merit_is_the_residual`, `C79_accepted_requests_are_valid`, `C79_valid_requests_are_accepted`, `C79_list_path_refuted`, `C80_requested_values`, `C80_deterministic_parameters_stay_refuted`, `C80_calibrated_parameter_refuted`, `C81_piecewise_guess`, `C81_step`, `C81_inferred_columns`, `C81_columns_once`, `C81_as_guess`, `C81_case`, `C82_case`, `C83_newton_direction`, `C83_case`, `C86_levenberg_marquardt`, `C37_hidden_states_are_lags`, `C89_observation`, `C36_measurement_errors`, `C91_stationary_covariance`, `C94_policy_order`, `C92_configure_succeeds_iff`, `C92_failed_configure`, `C93_parameters`, `C94_case`, `C95_clash_refuted`, `C133_value`, `C134_equations`, `C134_same_solutions`, `C135_text_equations`, `C134_same_name`, `C136_values`, `C139_axes`, `C139_filter`, `C139_default_tolerance`, `C139_infinite_dropped_refuted`, `C139_case`, `C145_int_seed`, `C145_history`, `C145_generator`, `C145_numpy_integer`, `C145_ignored`, `C145_fallback_mass`, `C145_fallback_refused`, `C145_reproducible_refuted`, `C145_numpy_refuted`, `C145_mass_refuted`, `C145_case`, `C153_equation`, `C159_eigenvalues`, `C159_eigenvalues_ten_refuted`, `C159_eigenvalues_arguments`, `C159_eigenvalues_kwargs_refuted`.
