{
 "claims": [
  {
   "property": "C01",
   "status": "proved",
   "theorems": [
    "C01_name_identifies_symbol",
    "C01_safe_name_identifies_symbol"
   ],
   "note": ""
  },
  {
   "property": "C02",
   "status": "proved",
   "theorems": [
    "C02_forward_backward_inverse",
    "C02_steps_add_up",
    "C02_identity_preserved",
    "C02_set_t_and_to_ss_forget_history",
    "C02_exit_ss",
    "C02_only_failure_is_stepping_ss"
   ],
   "note": ""
  },
  {
   "property": "C03",
   "status": "proved",
   "theorems": [
    "C03_step_in_ss_unchanged_refuted",
    "C03_step_in_ss_always_raises"
   ],
   "note": "The property as documented is false of the code: stepping a steady-state symbol raises TypeError. The refutation and the exact behaviour (always raises, never silently changes) are proved."
  },
  {
   "property": "C04",
   "status": "proved",
   "theorems": [
    "C04_roundtrip_iff_paren_safe",
    "C04_roundtrip_refuted"
   ],
   "note": "The unconditional round trip is false (witnesses a-(b-c), a/(b*c), (a^b)^c, a^(b*c)); the theorem is an exact iff."
  },
  {
   "property": "C05",
   "status": "proved",
   "theorems": [
    "C05_value_preserved",
    "C05_value_preserved_refuted"
   ],
   "note": "Unconditionally the claim is false (C05_value_preserved_refuted)."
  },
  {
   "property": "C06",
   "status": "proved",
   "theorems": [
    "C06_parser_implements_grammar",
    "C06_grammar_unambiguous",
    "C06_parser_total",
    "C06_minus_binds_tighter_than_power",
    "C06_usual_reading_of_minus_power_refuted"
   ],
   "note": ""
  },
  {
   "property": "C07",
   "status": "proved",
   "theorems": [
    "C07_all_dates_near",
    "C07_near_blocks_untouched",
    "C07_expansion_idempotent",
    "C07_annotations_kept"
   ],
   "note": ""
  },
  {
   "property": "C08",
   "status": "proved",
   "theorems": [
    "C08_same_solutions",
    "C08_every_solution_extends_uniquely",
    "C08_lags_exact_under_uncertainty",
    "C08_name_clash_refuted"
   ],
   "note": "The freshness proviso is necessary (C08_name_clash_refuted)."
  },
  {
   "property": "C09",
   "status": "proved",
   "theorems": [
    "C09_one_equation_per_auxiliary",
    "C09_once_per_model_refuted"
   ],
   "note": "True within one block; false for the whole model: two blocks that both use K[-2] each add K__lag1[] = K[-1], so the model is no longer square."
  },
  {
   "property": "C10",
   "status": "proved",
   "theorems": [
    "C10_success_exactly_when_acyclic",
    "C10_flattened_completely",
    "C10_self_reference_refuted"
   ],
   "note": "The proviso 'no definition mentions itself' is necessary: x := x + 1 is neither flattened nor reported (C10_self_reference_refuted)."
  },
  {
   "property": "C11",
   "status": "proved",
   "theorems": [
    "C11_forward_is_simultaneous_shift",
    "C11_backward_is_simultaneous_shift",
    "C11_round_trip",
    "C11_shift_meaning"
   ],
   "note": "An equation that mentions a steady-state value raises TypeError, although time stepping it is documented."
  },
  {
   "property": "C12",
   "status": "proved",
   "theorems": [
    "C12_derivative_of_discounted_sum",
    "C12_steady_state_terms_fail",
    "C12_dated_discount_factor_refuted"
   ],
   "note": "For discount factors built from parameters; with a dated discount factor the sum is wrong (C12_dated_discount_factor_refuted)."
  },
  {
   "property": "C13",
   "status": "proved",
   "theorems": [
    "C13_entries_independent",
    "C13_unshared_dictionaries_independent",
    "C13_union_leaves_operands_refuted",
    "C13_copies_independent_refuted",
    "C13_step_leaves_original_refuted"
   ],
   "note": "Entries and mode are independent for every history; the conversion metadata is shared by copy, |, value conversions and string-mode stepping (three refutations), and independent in all histories that avoid those."
  },
  {
   "property": "C14",
   "status": "proved",
   "theorems": [
    "C14_string_round_trip",
    "C14_far_dates_refuted",
    "C14_mixed_assumptions_refuted"
   ],
   "note": "Both provisos are necessary (refuted without them)."
  },
  {
   "property": "C15",
   "status": "proved",
   "theorems": [
    "C15_equation_numbers"
   ],
   "note": ""
  },
  {
   "property": "C16",
   "status": "proved",
   "theorems": [
    "C16_each_constraint_its_own_multiplier",
    "C16_all_multipliers_are_variables",
    "C16_user_multiplier_overwritten_refuted",
    "C16_solving_twice_refuted"
   ],
   "note": "The multiplier table files automatic multipliers under a counter instead of the equation's number: C16_user_multiplier_overwritten_refuted, C16_solving_twice_refuted."
  },
  {
   "property": "C17",
   "status": "proved",
   "theorems": [
    "C17_first_order_conditions",
    "C17_unconstrained_problem_refuted",
    "C17_discount_factor_of_split_objective_refuted",
    "C17_deep_lag_through_auxiliary_refuted"
   ],
   "note": "Proved for all well-formed blocks (optimisation_block). Refuted outside: a problem without constraints raises, a discount factor split over two addends is misread, a control's effect through a lag deeper than one period is lost once auxiliary variables replace it."
  },
  {
   "property": "C18",
   "status": "proved",
   "theorems": [
    "C18_closed_forms_agree",
    "C18_output_on_the_right_refuted",
    "C18_objective_with_definitions_refuted",
    "C18_unnamed_multiplier_with_definitions_refuted",
    "C18_input_at_two_dates_refuted"
   ],
   "note": "Each proviso is needed: with production = output the multiplier term gets the wrong sign; objectives that use definitions lose their derivative; unnamed multipliers with definitions make the solver raise; an input at two dates loses its discounted term."
  },
  {
   "property": "C19",
   "status": "proved",
   "theorems": [
    "C19_parameters_grouped_and_checked",
    "C19_block_order_irrelevant",
    "C19_undeclared_parameter_detected_refuted",
    "C19_one_group_per_parameter_refuted",
    "C19_needed_formulas_kept_refuted",
    "C19_accepted_parameters_computable_refuted"
   ],
   "note": "Stronger readings are refuted: an undeclared parameter passes when a formula mentions it; a name may be free and calibrated; a formula used only in a calibrating equation is dropped; an accepted model may have parameters that cannot be computed."
  },
  {
   "property": "C20",
   "status": "proved",
   "theorems": [
    "C20_update_is_local",
    "C20_idempotent",
    "C20_order_of_updates_irrelevant"
   ],
   "note": ""
  },
  {
   "property": "C21",
   "status": "proved",
   "theorems": [
    "C21_values_kept_and_extended",
    "C21_added_values_solve_an_equation",
    "C21_no_steady_state_lost",
    "C21_final_when_passes_suffice",
    "C21_case",
    "C21_hundred_passes_final_refuted"
   ],
   "note": "For every solver oracle that is sound/complete for one equation, every set and dictionary order and every number of passes. That the default 100 passes always suffice is refuted (chain of 101 equations listed in reverse)."
  },
  {
   "property": "C22",
   "status": "proved",
   "theorems": [
    "C22_orders_are_permutations",
    "C22_linearised_matrices",
    "C22_structural_zeros",
    "C22_succeeds",
    "C22_case"
   ],
   "note": "sympy's simplification and the CSE pass are one parameter that keeps values and adds no symbols. (The docstring of linearize_model swaps A and C; the theorem states what is returned: A for x[t-1], C for x[t+1].)"
  },
  {
   "property": "C23",
   "status": "proved",
   "theorems": [
    "C23_flags_from_arguments",
    "C23_flags_follow_names_refuted",
    "C23_variables_suffice_refuted",
    "C23_flag_count_refuted",
    "C23_negative_logged_refuted"
   ],
   "note": "Refuted beyond that: a user's dictionary in another order flags the wrong variables; one without calibrated parameters can raise IndexError; the documented length when log_linearize=False; loglin_negative_ss=True has no effect for variables of undeclared sign."
  },
  {
   "property": "C24",
   "status": "proved",
   "theorems": [
    "C24_returned_matrix_is_the_reduction",
    "C24_distance_to_every_solution",
    "C24_exact_when_the_lead_matrix_vanishes",
    "C24_impact_matrix_matches",
    "C24_partial_convergence_is_never_reported",
    "C24_case",
    "C24_exact_case",
    "C24_success_means_solution_refuted",
    "C24_success_means_tolerances_met_refuted"
   ],
   "note": "Proved over every ordered field, size and number of passes; rounding is not modelled. Refuted: a reported success does not mean that the matrix solves the equation (for every tolerance there is a model without any solution that 'succeeds'), nor that both tolerances were met."
  },
  {
   "property": "C25",
   "status": "proved",
   "theorems": [
    "C25_nonconvergence_escapes",
    "C25_documented_failures_never_happen",
    "C25_gives_up_exactly_when",
    "C25_case"
   ],
   "note": "False of the code: the loop gives up exactly in the stated situation, and then an undocumented ValueError (TypeError for one variable) escapes whatever on_failure is; (None, None) and the documented exception never happen. Both facts are proved for all inputs."
  },
  {
   "property": "C26",
   "status": "proved",
   "theorems": [
    "C26_adjoints_are_the_gradient",
    "C26_adjoints_with_jitter",
    "C26_adjoints_shape",
    "C26_case"
   ],
   "note": "With the jitter the code adds to the diagonal, the exact error term is given."
  },
  {
   "property": "C27",
   "status": "proved",
   "theorems": [
    "C27_system_is_the_model",
    "C27_leads_are_complete",
    "C27_small_leads_kept_refuted"
   ],
   "note": "A lead whose column of C has a positive absolute sum within the tolerance is dropped (C27_small_leads_kept_refuted)."
  },
  {
   "property": "C28",
   "status": "proved",
   "theorems": [
    "C28_backward_solution",
    "C28_backward_solution_without_leads",
    "C28_case"
   ],
   "note": ""
  },
  {
   "property": "C29",
   "status": "proved",
   "theorems": [
    "C29_norms",
    "C29_zero_norms",
    "C29_zero_norm_certifies_refuted"
   ],
   "note": "Refuted: the deterministic norm looks only at the columns of state variables, so T = 0 passes for every A. The theorems say exactly what zero norms do certify."
  },
  {
   "property": "C30",
   "status": "proved",
   "theorems": [
    "C30_outcome",
    "C30_counts_agree",
    "C30_solved_models_pass",
    "C30_case",
    "C30_roots_reported_refuted",
    "C30_satisfied_means_solvable_refuted"
   ],
   "note": "Refuted beyond that: the eigenvalues listed have the wrong sign (the pencil is negated twice), and a satisfied condition does not imply a stable solution (no rank condition is checked)."
  },
  {
   "property": "C31",
   "status": "proved",
   "theorems": [
    "C31_state_equation",
    "C31_closed_form",
    "C31_linear",
    "C31_superposition",
    "C31_simulate",
    "C31_simulate_follows",
    "C70_case"
   ],
   "note": "For every horizon, matrices and shock argument; rounding is not modelled."
  },
  {
   "property": "C32",
   "status": "proved",
   "theorems": [
    "C32_serial",
    "C32_nothing_lost",
    "C32_displacement",
    "C32_columns",
    "C32_renamed",
    "C32_parallel_alignment_iff",
    "C32_parallel_alignment_refuted",
    "C32_keyword_column_refuted",
    "C32_no_draws_refuted"
   ],
   "note": "Alignment on several cores is refuted for every table whose draws do not all have the same outcome (imap_unordered yields in completion order). A column named like a Python keyword (lambda) never reaches the model, and an empty table raises."
  },
  {
   "property": "C33",
   "status": "proved",
   "theorems": [
    "C33_stacked_residual",
    "C33_solution_satisfies_model",
    "C33_case"
   ],
   "note": "For every horizon, model, set order and argument list with a square compiled system. Shocks must be written without lags (lagged ones: C80)."
  },
  {
   "property": "C34",
   "status": "proved",
   "theorems": [
    "C34_assembled_blocks",
    "C34_jacobian_is_derivative",
    "C34_case",
    "C34_lost_entries_refuted"
   ],
   "note": "The proviso is needed (C34_lost_entries_refuted): the sparsity pattern is taken from the numbers of the first period, and x_t x_{t-1} at x_0 = 0 loses an entry."
  },
  {
   "property": "C35",
   "status": "proved",
   "theorems": [
    "C35_result",
    "C35_more_iterations",
    "C35_already_there",
    "C35_returns",
    "C35_success_refuted",
    "C35_case"
   ],
   "note": "success alone does not mean small residuals: a run may end successfully with a residual 25 times the tolerance because the last step was short (C35_success_refuted)."
  },
  {
   "property": "C36",
   "status": "proved",
   "theorems": [
    "C36_measurement_errors",
    "C36_refuted"
   ],
   "note": "The plain claim (each variance in the row of its own series) is refuted: observed [Y, C] with error on C puts the variance of C on Y (C36_refuted). The iff is exact."
  },
  {
   "property": "C37",
   "status": "proved",
   "theorems": [
    "C37_hidden_states_are_lags",
    "C37_case"
   ],
   "note": "For every model, argument list and path of the filter's state equation."
  },
  {
   "property": "C38",
   "status": "proved",
   "theorems": [
    "C38_declarations",
    "C38_case",
    "C38_empty_declaration_refuted"
   ],
   "note": ""
  },
  {
   "property": "C39",
   "status": "proved",
   "theorems": [
    "C39_comments",
    "C39_comments_equation",
    "C39_comments_block",
    "C39_any_comments",
    "C39_comment_takes_the_line",
    "C39_case"
   ],
   "note": "For every text, accepted or rejected, including comments with unbalanced brackets, semicolons and braces. The grammar's INVALID_TIME_INDEX rule does look at raw text (comments included); the theorem shows that this never changes the outcome."
  },
  {
   "property": "C40",
   "status": "proved",
   "theorems": [
    "C40_error_iff_repetition",
    "C40_counts",
    "C40_blocks_and_parameters",
    "C40_arrow_duplicates_refuted",
    "C40_case"
   ],
   "note": "Refuted for '-> alpha' items: two equations calibrating the same parameter are not reported."
  },
  {
   "property": "C41",
   "status": "proved",
   "theorems": [
    "C41_deep_leads_become_forecasts",
    "C41_exact_when_leads_linear",
    "C41_same_model_under_uncertainty_refuted"
   ],
   "note": "Without linearity the expanded block is a different model (C41_same_model_under_uncertainty_refuted)."
  },
  {
   "property": "C42",
   "status": "proved",
   "theorems": [
    "C42_definitions_expanded_at_all_dates"
   ],
   "note": ""
  },
  {
   "property": "C43",
   "status": "proved",
   "theorems": [
    "C43_alias_elimination_sound",
    "C43_constant_elimination_sound",
    "C43_elimination_sound_refuted",
    "C43_dated_alias_refuted"
   ],
   "note": "For right-hand sides with other dated variables it is false; the two refutations give the shapes that break."
  },
  {
   "property": "C44",
   "status": "proved",
   "theorems": [
    "C44_steady_state_form"
   ],
   "note": ""
  },
  {
   "property": "C45",
   "status": "proved",
   "theorems": [
    "C45_keys_of_one_kind",
    "C45_update_mixes_kinds_refuted"
   ],
   "note": "The exclusion of update() is necessary: C45_update_mixes_kinds_refuted."
  },
  {
   "property": "C46",
   "status": "proved",
   "theorems": [
    "C46_sort_keys",
    "C46_sort_keys_far_dates_refuted"
   ],
   "note": ""
  },
  {
   "property": "C47",
   "status": "proved",
   "theorems": [
    "C47_block_accepted_exactly_when_well_formed"
   ],
   "note": ""
  },
  {
   "property": "C48",
   "status": "proved",
   "theorems": [
    "C48_parameters_classified",
    "C48_conflicting_values_detected_refuted"
   ],
   "note": "A parameter that has a number and is also calibrated (or defined by a formula) is accepted silently (C48_conflicting_values_detected_refuted)."
  },
  {
   "property": "C49",
   "status": "proved",
   "theorems": [
    "C49_automatic_multipliers_distinct_within_block",
    "C49_automatic_multipliers_across_blocks_refuted",
    "C49_block_name_with_empty_word_refuted"
   ],
   "note": "Across blocks with the same initials names coincide, and a block name with an empty word has no automatic name (both refuted)."
  },
  {
   "property": "C50",
   "status": "proved",
   "theorems": [
    "C17_first_order_conditions",
    "C50_definition_at_other_date_eliminated_refuted"
   ],
   "note": "At any other date the defined variable stays in the system without an equation (C50_definition_at_other_date_eliminated_refuted)."
  },
  {
   "property": "C51",
   "status": "proved",
   "theorems": [
    "C51_order_independent_of_blocks_and_sets",
    "C51_variables_and_shocks_complete",
    "C51_natural_order",
    "C51_comparison_never_raises",
    "C51_numbers_in_numeric_order"
   ],
   "note": ""
  },
  {
   "property": "C52",
   "status": "proved",
   "theorems": [
    "C52_classified_by_date",
    "C52_order_deterministic",
    "C52_order_with_leading_zeros_refuted"
   ],
   "note": "With names that share a key (x1 / x01) the order varies (C52_order_with_leading_zeros_refuted)."
  },
  {
   "property": "C53",
   "status": "proved",
   "theorems": [
    "C53_three_aligned_lists",
    "C53_order_of_first_occurrence"
   ],
   "note": ""
  },
  {
   "property": "C54",
   "status": "proved",
   "theorems": [
    "C54_shock_sees_priors_up_to_its_block",
    "C54_parameter_priors",
    "C54_no_prior_lost_refuted",
    "C54_block_order_irrelevant_refuted"
   ],
   "note": "Consequence: a prior declared in a later block than the shock is lost from both lists, so the order of blocks matters (C54_no_prior_lost_refuted, C54_block_order_irrelevant_refuted)."
  },
  {
   "property": "C55",
   "status": "proved",
   "theorems": [
    "C55_every_steady_state_solves_the_reduced_system",
    "C55_reduced_system_is",
    "C55_each_inferred_value_removes_an_equation",
    "C55_reduced_system_stays_square_refuted",
    "C55_solutions_of_reduced_system_are_steady_states_refuted",
    "C55_case"
   ],
   "note": "That the reduced system stays square, and that its solutions are steady states even if a provided value is wrong, are refuted: the equation a wrong value violates is dropped unchecked."
  },
  {
   "property": "C56",
   "status": "proved",
   "theorems": [
    "C56_analytic_success_iff_residuals_small",
    "C56_resolved_success_iff_residuals_small",
    "C56_calibrated_parameter_with_analytic_steady_state_fails",
    "C56_success_means_residuals_small_refuted_for_linear",
    "C56_case"
   ],
   "note": "A model declared linear gets zeros and success whatever its equations (refuted)."
  },
  {
   "property": "C57",
   "status": "proved",
   "theorems": [
    "C57_fixed_values_returned_and_checked",
    "C57_bad_names_rejected",
    "C57_calibrated_parameter_can_be_fixed_refuted",
    "C57_case"
   ],
   "note": "The error message says that calibrated parameters may be fixed; that is false (C57_calibrated_parameter_can_be_fixed_refuted)."
  },
  {
   "property": "C58",
   "status": "proved",
   "theorems": [
    "C58_success_means_residuals_small",
    "C58_success_means_residuals_small_refuted",
    "C58_success_means_residuals_small_refuted_by_provided_value",
    "C58_root_needs_square_system",
    "C58_case"
   ],
   "note": "The optimizer's own success flag is believed without a residual check, and equations dropped because of provided values are never checked (both refuted)."
  },
  {
   "property": "C59",
   "status": "proved",
   "theorems": [
    "C59_error_zero_iff_all_residuals_zero",
    "C59_packed_function_evaluates_at_the_point",
    "C59_case"
   ],
   "note": ""
  },
  {
   "property": "C60",
   "status": "proved",
   "theorems": [
    "C60_helper_definitions_eliminated",
    "C60_known_values_labelled_correctly",
    "C60_symbolic_known_values_complete",
    "C60_symbolic_known_values_labelled_correctly_refuted",
    "C60_case"
   ],
   "note": "The symbolic labels of a partial steady state are misaligned (C60_symbolic_known_values_labelled_correctly_refuted)."
  },
  {
   "property": "C61",
   "status": "proved",
   "theorems": [
    "C61_reparametrised_system_has_the_same_feasible_roots",
    "C61_change_of_variable_is_invertible",
    "C61_assumptions_and_bounds_respected",
    "C61_default_start_is_feasible",
    "C61_unit_interval_respected_refuted",
    "C61_bounds_by_variable_name_respected_refuted",
    "C61_start_is_feasible_for_user_bounds_refuted",
    "C61_case"
   ],
   "note": "Refuted: a unit-interval variable loses its upper bound, bounds keyed by the plain variable name are ignored silently, and the default start may violate user bounds."
  },
  {
   "property": "C62",
   "status": "proved",
   "theorems": [
    "C62_missing_parameter",
    "C62_calibrated_model_linearised_refuted",
    "C62_linear_without_steady_state_refuted"
   ],
   "note": "The expectation that every model with a known steady state can be linearised is thereby refuted (two theorems)."
  },
  {
   "property": "C63",
   "status": "proved",
   "theorems": [
    "C63_cache_transparent",
    "C63_case",
    "C63_caller_verbose_kept_refuted"
   ],
   "note": "Arguments are not left alone: the caller's steady_state_kwargs['verbose'] is overwritten in the caller's dictionary (C63_caller_verbose_kept_refuted)."
  },
  {
   "property": "C64",
   "status": "proved",
   "theorems": [
    "C64_forward_variables",
    "C64_fallback",
    "C64_lead_indices",
    "C64_default_parameters_suffice_refuted"
   ],
   "note": "The set is cached at the default parameters; that it fits other parameter values is refuted (x = rho x[1])."
  },
  {
   "property": "C65",
   "status": "proved",
   "theorems": [
    "C65_gensys_returns_the_unique_stable_solution",
    "C65_existence_code_zero_means_no_stable_solution",
    "C65_solvable_models_are_solved",
    "C65_case"
   ],
   "note": "In exact arithmetic and for LAPACK results meeting their contract (sorted QZ with the stable eigenvalues first, singular values below the tolerance exactly zero), for models whose dropped columns of C are zero. C65_case exhibits a complete decomposition."
  },
  {
   "property": "C66",
   "status": "proved",
   "theorems": [
    "C66_outcome_follows_the_codes",
    "C66_codes",
    "C66_explanations_that_never_apply",
    "C66_failures_explained_refuted",
    "C66_unexplained_failure_reachable",
    "C66_interpreted_and_compiled"
   ],
   "note": "Explanations: two never apply, and the reachable codes (0,1) have none (C66_failures_explained_refuted, C66_unexplained_failure_reachable)."
  },
  {
   "property": "C67",
   "status": "proved",
   "theorems": [
    "C67_compiled_and_python_agree_on_convergence",
    "C67_agreement_refuted_when_giving_up",
    "C67_agreement_refuted_without_passes"
   ],
   "note": "When the Python loop gives up the compiled one returns zeros, and with no passes allowed they disagree (refuted)."
  },
  {
   "property": "C68",
   "status": "proved",
   "theorems": [
    "C68_solver_dispatch"
   ],
   "note": "The theorem gives the complete decision table: a model without leads is solved directly whatever solver is named, even if that name is invalid, so 'runs the solver that was named' is false there."
  },
  {
   "property": "C69",
   "status": "proved",
   "theorems": [
    "C69_no_constant_no_constant",
    "C69_constant_solves_refuted"
   ],
   "note": "With a constant the returned one is wrong - it is not solved with G_0 (C69_constant_solves_refuted, 2 y = y(t-1) + 1)."
  },
  {
   "property": "C70",
   "status": "proved",
   "theorems": [
    "C70_individual_scalar",
    "C70_individual_array",
    "C70_individual_dict",
    "C70_joint_scalar",
    "C70_joint_array",
    "C70_joint_cov",
    "C70_trajectory",
    "C70_trajectory_individual",
    "C70_bad_dict",
    "C70_bad_array",
    "C70_one_option",
    "C70_joint_dict_full",
    "C70_case",
    "C70_default_call_refuted",
    "C70_joint_dict_refuted",
    "C70_joint_dict_subset_refuted"
   ],
   "note": "Refuted: the default call always raises ValueError (zip of an empty list is unpacked); with return_individual_shocks=False a dictionary naming one shock applies its size to every shock, and one naming several but not all raises."
  },
  {
   "property": "C71",
   "status": "proved",
   "theorems": [
    "C71_dict",
    "C71_scalar",
    "C71_array",
    "C71_cov",
    "C71_one_option",
    "C71_refusals",
    "C71_psd",
    "C71_case",
    "C71_list_refuted",
    "C71_zero_refuted",
    "C71_flat_cov_refuted"
   ],
   "note": "Refuted beyond that: lists always raise TypeError, a zero standard deviation is accepted, a one-axis array of the right length passes as a covariance matrix."
  },
  {
   "property": "C72",
   "status": "proved",
   "theorems": [
    "C72_fixed_point",
    "C72_simulated_covariance",
    "C72_autocovariance",
    "C72_correlation",
    "C72_unit_diagonal",
    "C72_no_variance",
    "C72_bounded",
    "C72_case",
    "C72_case_correlation",
    "C72_dict_refuted",
    "C72_dict_ignored_refuted"
   ],
   "note": "S is positive semidefinite when T is stable. Refuted: shock_std_dict is forwarded to the autocovariances under the wrong keyword, so alone it always raises and together with another option it is ignored."
  },
  {
   "property": "C73",
   "status": "proved",
   "theorems": [
    "C73_solution",
    "C73_linear_system",
    "C73_steady_state",
    "C73_quiet_refuted",
    "C73_nan_refuted",
    "C73_plain_dict_refuted"
   ],
   "note": "Refuted beyond that: with verbose=False an incomplete set is returned with its holes; NaN residuals are accepted; a correct steady state given as a plain dict raises AttributeError."
  },
  {
   "property": "C74",
   "status": "proved",
   "theorems": [
    "C74_success",
    "C74_first_failure",
    "C74_success_small_norms",
    "C74_numerical_errors_contained",
    "C74_solver",
    "C74_abort_loses_table",
    "C74_nan_is_success_refuted",
    "C74_bk_errors_contained_refuted",
    "C74_unknown_solver_refuted"
   ],
   "note": "Refuted beyond that: NaN norms count as success; an error in the Blanchard-Kahn check (outside every try) aborts the whole table, as does any non-numerical error; an unknown solver name is reported as a failure of every draw."
  },
  {
   "property": "C75",
   "status": "proved",
   "theorems": [
    "C75_power_of_two",
    "C75_within_bounds",
    "C75_clipped",
    "C75_qmc_columns",
    "C75_subset",
    "C75_case",
    "C75_power_of_two_refuted"
   ],
   "note": "Refuted only for sample size 0, which the guard accepts."
  },
  {
   "property": "C76",
   "status": "proved",
   "theorems": [
    "C76_inferred",
    "C76_lengths",
    "C76_ambiguous_refuted"
   ],
   "note": "For models with as many shocks as variables the shock axis is thereby labelled with variables (C76_ambiguous_refuted)."
  },
  {
   "property": "C77",
   "status": "proved",
   "theorems": [
    "C77_boundaries",
    "C77_case",
    "C77_missing_variable_is_one_refuted",
    "C77_two_spellings_refuted",
    "C77_dictionary_ignores_paths_refuted"
   ],
   "note": "Refuted beyond that: a variable missing from a guess dictionary silently starts at 1.0; 'K' and 'K_ss' given together, the later wins; a guess dictionary is used at both ends although a parameter path ends elsewhere."
  },
  {
   "property": "C78",
   "status": "proved",
   "theorems": [
    "C78_merit_is_the_residual",
    "C78_case"
   ],
   "note": "The provisos are those of C52: names that share a sort key are ordered by the set's iteration order, so two compilations may order them differently."
  },
  {
   "property": "C79",
   "status": "proved",
   "theorems": [
    "C79_accepted_requests_are_valid",
    "C79_valid_requests_are_accepted",
    "C79_case",
    "C79_list_path_refuted"
   ],
   "note": "Paths given as plain lists raise TypeError before they are validated (C79_list_path_refuted)."
  },
  {
   "property": "C80",
   "status": "proved",
   "theorems": [
    "C80_requested_values",
    "C80_case",
    "C80_deterministic_parameters_stay_refuted",
    "C80_lagged_shock_refuted",
    "C80_calibrated_parameter_refuted"
   ],
   "note": "Refuted beyond that: deterministic parameters keep their default along a path of the parameter they are computed from; lagged shocks get the current value; a calibrated parameter in an equation makes compilation fail."
  },
  {
   "property": "C81",
   "status": "proved",
   "theorems": [
    "C81_piecewise_guess",
    "C81_step",
    "C81_inferred_columns",
    "C81_columns_once",
    "C81_as_guess",
    "C81_case"
   ],
   "note": "For non-negative starts and lengths."
  },
  {
   "property": "C82",
   "status": "proved",
   "theorems": [
    "C82_every_step",
    "C82_never_increases",
    "C82_case"
   ],
   "note": "Real arithmetic, finite values."
  },
  {
   "property": "C83",
   "status": "proved",
   "theorems": [
    "C83_newton_direction",
    "C83_search_succeeds",
    "C83_case"
   ],
   "note": ""
  },
  {
   "property": "C84",
   "status": "proved",
   "theorems": [
    "C84_every_step",
    "C84_bounded_by_start",
    "C84_memory_one",
    "C84_no_memory",
    "C84_reuse_refuted",
    "C84_case"
   ],
   "note": "Fresh is necessary: the history is not cleared between solves, and a reused object returns a point worse than its start (C84_reuse_refuted: x^3-2x+2 from 2, then from 1)."
  },
  {
   "property": "C85",
   "status": "proved",
   "theorems": [
    "C85_trust_region",
    "C85_objective_falls",
    "C85_levenberg_marquardt",
    "C85_lm_objective_falls",
    "C85_case"
   ],
   "note": ""
  },
  {
   "property": "C86",
   "status": "proved",
   "theorems": [
    "C86_dogleg",
    "C86_gauss_newton",
    "C86_why_it_stops",
    "C86_flat_refuted",
    "C86_levenberg_marquardt",
    "C85_case"
   ],
   "note": "The curvature proviso is necessary: with residual 9e-10 and Jacobian 1e-3 the dogleg takes the whole radius though the Newton step fits, and the model rises (C86_flat_refuted)."
  },
  {
   "property": "C87",
   "status": "proved",
   "theorems": [
    "C87_chord",
    "C87_chord_every_call",
    "C87_chord_zero",
    "C87_krylov_accuracy",
    "C87_krylov_fixed",
    "C87_unknown_method"
   ],
   "note": ""
  },
  {
   "property": "C88",
   "status": "proved",
   "theorems": [
    "C88_reuse",
    "C88_counts",
    "C88_limit",
    "C88_failed_step_refuted",
    "C88_limit_refuted"
   ],
   "note": "The evaluations of a failed last step are not counted (C88_failed_step_refuted); with max_reject above 50 the announced total can be exceeded (C88_limit_refuted)."
  },
  {
   "property": "C89",
   "status": "proved",
   "theorems": [
    "C89_observation",
    "C89_case"
   ],
   "note": ""
  },
  {
   "property": "C90",
   "status": "proved",
   "theorems": [
    "C90_linearised_equation",
    "C90_case"
   ],
   "note": "Needs parameter names that do not start with _tilde_ (the code separates these by a Symbol assumption)."
  },
  {
   "property": "C91",
   "status": "proved",
   "theorems": [
    "C91_stationary_covariance",
    "C91_case"
   ],
   "note": ""
  },
  {
   "property": "C92",
   "status": "proved",
   "theorems": [
    "C92_configure_succeeds_iff",
    "C92_failed_configure",
    "C92_unchanged_refuted",
    "C37_case"
   ],
   "note": "That a failed configure changes nothing is refuted (C92_unchanged_refuted): a lead in an observation equation leaves the new observed list with the old states; a state name of a previous configuration is accepted, then fails half-way."
  },
  {
   "property": "C93",
   "status": "proved",
   "theorems": [
    "C93_parameters",
    "C93_case",
    "C93_hyperparameter_refuted"
   ],
   "note": "A prior hyperparameter in an observation equation is accepted but not exposed, and the design matrix depends on it (C93_hyperparameter_refuted)."
  },
  {
   "property": "C94",
   "status": "proved",
   "theorems": [
    "C94_policy_order",
    "C94_case"
   ],
   "note": ""
  },
  {
   "property": "C95",
   "status": "proved",
   "theorems": [
    "C95_expressions_keep_their_value",
    "C95_model_block",
    "C95_case",
    "C95_clash_refuted"
   ],
   "note": "Expressions in SymPy's canonical form. A variable called K_ss and the steady state of K are written alike (C95_clash_refuted)."
  },
  {
   "property": "C96",
   "status": "proved",
   "theorems": [
    "C96_declarations",
    "C96_locals",
    "C96_equations_closed",
    "C96_formulas_closed",
    "C96_steady_block",
    "C96_case",
    "C96_undeclared_parameter_refuted",
    "C96_chained_formula_refuted"
   ],
   "note": "use_cse=False. Refuted without the provisos: a deterministic or calibrated parameter is used and assigned but not declared; a steady-state formula that uses another steady-state value writes a name (Y_ss) that is defined nowhere."
  },
  {
   "property": "C97",
   "status": "proved",
   "theorems": [
    "C97_three_decimals",
    "C97_values_written",
    "C97_exact_values_refuted"
   ],
   "note": "Exactness is refuted: 0.9996 is written 1.000, 0.0004 is written 0.000."
  },
  {
   "property": "C98",
   "status": "proved",
   "theorems": [
    "C98_solutions_survive",
    "C98_case"
   ],
   "note": "SymPy's simplify and automatic evaluation are parameters assumed to keep values."
  },
  {
   "property": "C99",
   "status": "proved",
   "theorems": [
    "C99_solutions_extend",
    "C99_case",
    "C98_case"
   ],
   "note": "SymPy adds no symbols and keeps values (parameters of the theorem)."
  },
  {
   "property": "C100",
   "status": "proved",
   "theorems": [
    "C100_isolated_stage_stays_square",
    "C100_case",
    "C100_unmatched_refuted"
   ],
   "note": "Without the assignment it is refuted: an equation with two isolated variables takes both along, one of them not requested, and the result is not square."
  },
  {
   "property": "C101",
   "status": "proved",
   "theorems": [
    "C101_constants_equivalent",
    "C101_constants_are_removed",
    "C101_case",
    "C101_two_roots_refuted",
    "C101_steady_state_refuted",
    "C101_unsolvable_constant_crashes"
   ],
   "note": "Refuted without the provisos: with two roots the first is taken (P^2 = 1 becomes P = -1); an equation about P[ss] alone replaces P at all dates. An unsolvable equation raises IndexError."
  },
  {
   "property": "C102",
   "status": "proved",
   "theorems": [
    "C102_variable_lists_exact",
    "C102_simplifications_report_their_lists",
    "C102_flags",
    "C102_tryreduce_entries",
    "C102_case"
   ],
   "note": "Unknown names in a tryreduce block are skipped without a message."
  },
  {
   "property": "C103",
   "status": "proved",
   "theorems": [
    "C103_undefined_names",
    "C103_undefined_report",
    "C103_calibrated_parameter_warned_refuted",
    "C103_left_hand_side_refuted"
   ],
   "note": "Refuted beyond that: a parameter calibrated with '-> alpha' is warned about although it is calibrated; a variable that only occurs on the left of constraints goes unnoticed."
  },
  {
   "property": "C104",
   "status": "proved",
   "theorems": [
    "C104_raising",
    "C104_preprocess_never_raises",
    "C104_documented_error_refuted"
   ],
   "note": "preprocess is documented to raise GCNSemanticError for validate=True; it never does (C104_documented_error_refuted)."
  },
  {
   "property": "C105",
   "status": "proved",
   "theorems": [
    "C105_layout",
    "C105_layout_equation",
    "C105_layout_block",
    "C105_case",
    "C105_option_names_refuted",
    "C105_gap_needed"
   ],
   "note": "The exception is needed: 'output  logfile' and 'output logfile' are different option names."
  },
  {
   "property": "C106",
   "status": "proved",
   "theorems": [
    "C106_outcomes",
    "C106_equation_outcomes",
    "C106_grammar_error_only_refuted"
   ],
   "note": "That GCNGrammarError is the only exception is refuted: mu = (1 + 2) * 3 raises TypeError. Python's own recursion limit is not modelled."
  },
  {
   "property": "C107",
   "status": "proved",
   "theorems": [
    "C107_file",
    "C107_equation",
    "C107_block",
    "C107_unambiguous",
    "C107_one_equation",
    "C107_case",
    "C107_rejected"
   ],
   "note": "Both directions, for every text. The grammar records the real parser's quirks: 'alpha = Beta_x;' in a calibration block is taken for a distribution with a missing '~'; every arithmetic operator in a distribution has its own precedence level."
  },
  {
   "property": "C108",
   "status": "proved",
   "theorems": [
    "C108_last_component",
    "C108_special_first",
    "C108_components_accumulate_refuted",
    "C108_case"
   ],
   "note": "That the equations of two identities components are all kept is refuted: the first ones are lost without an error. Special blocks: model_of in C107_file."
  },
  {
   "property": "C109",
   "status": "proved",
   "theorems": [
    "C109_assumptions",
    "C109_case",
    "C109_consistent_refuted"
   ],
   "note": "Contradictory kinds (positive and negative) are accepted (C109_consistent_refuted)."
  },
  {
   "property": "C110",
   "status": "proved",
   "theorems": [
    "C110_flat",
    "C110_nested_rejected",
    "C110_arithmetic_refuted",
    "C110_case"
   ],
   "note": "That arithmetic works as usual is refuted: mu = 1+2*3, 10-2+3, 8/2*3 and (1+2)*3 all raise TypeError."
  },
  {
   "property": "C111",
   "status": "proved",
   "theorems": [
    "C111_equation",
    "C111_exact",
    "C111_no_semicolon",
    "C111_case",
    "C111_tags_refuted"
   ],
   "note": "That tags survive is refuted (C111_tags_refuted): the printer drops them."
  },
  {
   "property": "C112",
   "status": "proved",
   "theorems": [
    "C112_block",
    "C112_exact",
    "C112_case",
    "C112_shocks_refuted"
   ],
   "note": "That priors on shocks survive is refuted (C112_shocks_refuted)."
  },
  {
   "property": "C113",
   "status": "proved",
   "theorems": [
    "C113_model",
    "C113_parsed",
    "C113_stable",
    "C113_case",
    "C113_tryreduce_refuted",
    "C113_grouping_refuted",
    "C113_mistaken_refuted"
   ],
   "note": "The provisos are needed: a tryreduce list is printed without brackets and cannot be read (C113_tryreduce_refuted), a - (b - c) comes back as (a - b) - c (C113_grouping_refuted), alpha = (Beta_hh) is printed as a text the parser rejects (C113_mistaken_refuted)."
  },
  {
   "property": "C114",
   "status": "proved",
   "theorems": [
    "C114_parse_block",
    "C114_case"
   ],
   "note": "The documented use is thereby refuted: no valid block content is accepted. With a content ending in '}; #' it succeeds (C114_case)."
  },
  {
   "property": "C115",
   "status": "proved",
   "theorems": [
    "C115_returned",
    "C115_distance",
    "C115_exact",
    "C115_exact_lag",
    "C115_impact",
    "C115_case",
    "C115_unconverged_refuted"
   ],
   "note": "Nothing tells an unconverged policy from a converged one: for x(t+1) + 3 x(t) + 3 x(t-1) = 0, which has no solution, a policy is returned for every iteration limit where the numeric solver reports failure (C115_unconverged_refuted)."
  },
  {
   "property": "C116",
   "status": "proved",
   "theorems": [
    "C116_residual",
    "C116_user_solution",
    "C116_gate",
    "C116_exact_passes",
    "C116_norms",
    "C116_norms_refuted",
    "C116_default_refuted"
   ],
   "note": "For any other order the two norms mix the solver's matrices with the user's policy: an exact solution is reported with deterministic_norm 1/2 (C116_norms_refuted). By default nothing is gated (C116_default_refuted)."
  },
  {
   "property": "C117",
   "status": "proved",
   "theorems": [
    "C117_roots",
    "C117_solution_roots",
    "C117_counts_agree",
    "C117_superfluous_lead",
    "C117_case"
   ],
   "note": "The effect of a positive regularisation on roots close to the unit circle is not bounded here."
  },
  {
   "property": "C118",
   "status": "proved",
   "theorems": [
    "C118_gradient",
    "C118_case"
   ],
   "note": "For conjugate pairs the order in which perform and pullback list the two eigenvalues is LAPACK's and is assumed the same."
  },
  {
   "property": "C119",
   "status": "proved",
   "theorems": [
    "C119_accepted_iff",
    "C119_every_entry_in_its_place",
    "C119_refused",
    "C119_case"
   ],
   "note": "Entries are abstract values; dtypes are not modelled; joins check shapes as numpy does."
  },
  {
   "property": "C120",
   "status": "proved",
   "theorems": [
    "C120_transpose_of_join",
    "C120_case"
   ],
   "note": "Non-negative axes within range (the code normalises negative ones)."
  },
  {
   "property": "C121",
   "status": "proved",
   "theorems": [
    "C121_split_of_join",
    "C121_applies_iff",
    "C121_case"
   ],
   "note": "Static lengths are assumed known; with unknown lengths the code does nothing on the same axis."
  },
  {
   "property": "C122",
   "status": "proved",
   "theorems": [
    "C122_block_diagonal",
    "C122_unaligned_refuted",
    "C122_case"
   ],
   "note": "Two axes only (no batch axes); _is_zero is assumed sound: what it calls zero is zero."
  },
  {
   "property": "C123",
   "status": "proved",
   "theorems": [
    "C123_conversion_sound",
    "C123_conversion_sound_case",
    "C123_reserved_name_refuted"
   ],
   "note": "sp.cse is an oracle with its documented contract (cse_ok), shown to be met by a concrete elimination; symbols with the same name and class but other assumptions share an input, as in the code."
  },
  {
   "property": "C124",
   "status": "proved",
   "theorems": [
    "C124_jacobian_entries",
    "C124_jacobian_entries_case"
   ],
   "note": "The derivative (and its steady-state form) is an abstract function of equation and symbol here; C12 and C44 are about those."
  },
  {
   "property": "C125",
   "status": "proved",
   "theorems": [
    "C125_wiring",
    "C125_wiring_case",
    "C125_chained_steady_state_refuted"
   ],
   "note": "Parameters and steady-state symbols have distinct names and non-reserved names; the order of equations and variables is the caller's (C22, C94)."
  },
  {
   "property": "C126",
   "status": "proved",
   "theorems": [
    "C126_by_keyword",
    "C126_by_position",
    "C126_ambiguous_name",
    "C126_case"
   ],
   "note": "pytensor.function is evaluation; modes and the cache of compiled functions are not modelled."
  },
  {
   "property": "C127",
   "status": "proved",
   "theorems": [
    "C127_parameters",
    "C127_steady_state",
    "C127_case"
   ],
   "note": "Names distinct and not reserved."
  },
  {
   "property": "C128",
   "status": "proved",
   "theorems": [
    "C128_latent_is_correlation",
    "C128_observed_is_correlation",
    "C128_lags",
    "C128_spacing",
    "C128_not_positive_refuted",
    "C128_same_as_model",
    "C128_no_variance",
    "C128_no_observed_variance",
    "C128_bounded",
    "C128_observed_bounded",
    "C128_case_run",
    "C128_case"
   ],
   "note": "The Lyapunov solver is assumed to return a solution; real closed field instead of floats; the loop over draws is not modelled."
  },
  {
   "property": "C129",
   "status": "proved",
   "theorems": [
    "C129_placement",
    "C129_aligned",
    "C129_gap_refuted",
    "C129_end_dates_refuted",
    "C129_position_refuted",
    "C129_no_dates",
    "C129_zero_period_refuted",
    "C129_case_calendar",
    "C129_case",
    "C129_case_hypothesis",
    "C129_case_gap"
   ],
   "note": "pandas' date_range and frequencies are an abstract calendar; the index's freq attribute is not modelled."
  },
  {
   "property": "C130",
   "status": "proved",
   "theorems": [
    "C130_survives",
    "C130_no_bar",
    "C130_only_clean",
    "C130_copy",
    "C130_plain",
    "C130_separator_in_source_refuted",
    "C130_case"
   ],
   "note": "Strings of bytes."
  },
  {
   "property": "C131",
   "status": "proved",
   "theorems": [
    "C131_position",
    "C131_character",
    "C131_pointer",
    "C131_one_column",
    "C131_end_of_text_refuted",
    "C131_date_refuted",
    "C131_tab_refuted",
    "C131_terminal",
    "C131_terminal_refuted",
    "C131_case"
   ],
   "note": "pyparsing's lineno, col and expandtabs are modelled; colours are not."
  },
  {
   "property": "C132",
   "status": "proved",
   "theorems": [
    "C132_best",
    "C132_order",
    "C132_other_case_refuted",
    "C132_case"
   ],
   "note": "difflib's ratio and str.lower are parameters."
  },
  {
   "property": "C133",
   "status": "proved",
   "theorems": [
    "C133_value",
    "C133_accepted",
    "C133_errors",
    "C133_same_symbols",
    "C133_unknown_function",
    "C133_sqrt_ignores_second",
    "C133_all_arguments_used_refuted",
    "C133_usual_case",
    "C133_case"
   ],
   "note": "SymPy's automatic simplification is not modelled; reals instead of floats."
  },
  {
   "property": "C134",
   "status": "proved",
   "theorems": [
    "C134_equations",
    "C134_same_solutions",
    "C134_same_name",
    "C134_every_block_counts_refuted"
   ],
   "note": "The first-order conditions' meaning is C16; perfect foresight; try_simplify=False."
  },
  {
   "property": "C135",
   "status": "proved",
   "theorems": [
    "C135_text",
    "C135_text_equations",
    "C135_case"
   ],
   "note": "As C107 and C134."
  },
  {
   "property": "C136",
   "status": "proved",
   "theorems": [
    "C136_none",
    "C136_values",
    "C136_accepted",
    "C136_compound_refused",
    "C136_one_role_refuted",
    "C136_all_blocks_count_refuted",
    "C136_case"
   ],
   "note": "A definition whose left-hand side is not a symbol adds no rule (in the code it replaces that subexpression)."
  },
  {
   "property": "C137",
   "status": "proved",
   "theorems": [
    "C137_parameters",
    "C137_eigenvalues",
    "C137_gradients_are_partial",
    "C137_total_response",
    "C137_exact_when_nothing_else_moves",
    "C137_columns",
    "C137_fails_without_parameters",
    "C137_needs_every_value",
    "C137_sensitivity_refuted",
    "C137_case",
    "C137_missing_column_refuted"
   ],
   "note": "Automatic differentiation is an oracle assumed to return partial derivatives; reals instead of floats."
  },
  {
   "property": "C138",
   "status": "proved",
   "theorems": [
    "C138_panels",
    "C138_disjoint",
    "C138_last_row_centred",
    "C138_refused",
    "C138_irf",
    "C138_irf_refused",
    "C138_case"
   ],
   "note": "matplotlib is not modelled beyond the grid."
  },
  {
   "property": "C139",
   "status": "proved",
   "theorems": [
    "C139_axes",
    "C139_filter",
    "C139_default_tolerance",
    "C139_infinite_dropped_refuted",
    "C139_labels",
    "C139_case"
   ],
   "note": "Reals instead of floats."
  },
  {
   "property": "C140",
   "status": "proved",
   "theorems": [
    "C140_plain",
    "C140_steady_state",
    "C140_unknown",
    "C140_round_trip",
    "C140_ss_names_unreachable",
    "C140_case"
   ],
   "note": "difflib.get_close_matches is a parameter."
  },
  {
   "property": "C141",
   "status": "proved",
   "theorems": [
    "C141_built",
    "C141_parsed",
    "C141_parsed_error",
    "C141_loaded",
    "C141_loaded_error",
    "C141_agree",
    "C141_silent_loss_refuted",
    "C141_case"
   ],
   "note": "PreliZ constructors are parameters that may raise."
  },
  {
   "property": "C142",
   "status": "proved",
   "theorems": [
    "C142_transform",
    "C142_unchanged",
    "C142_calls",
    "C142_collect",
    "C142_case"
   ],
   "note": "A user method is assumed to return a node whose parts exist, and not to mutate existing nodes (the dataclasses are frozen). Expression nodes and GCNEquation only."
  },
  {
   "property": "C143",
   "status": "proved",
   "theorems": [
    "C143_right",
    "C143_distinct",
    "C143_same_object",
    "C143_info",
    "C143_same_object_refuted",
    "C143_dict_order_refuted",
    "C143_case"
   ],
   "note": "pytensor.function is a parameter that may raise; threads are not modelled."
  },
  {
   "property": "C144",
   "status": "proved",
   "theorems": [
    "C144_session",
    "C144_repeat",
    "C144_closed",
    "C144_fixed_values",
    "C144_square_refuted",
    "C144_case"
   ],
   "note": "graph_replace is simultaneous substitution of inputs; clones are the same tree."
  },
  {
   "property": "C145",
   "status": "proved",
   "theorems": [
    "C145_int_seed",
    "C145_history",
    "C145_generator",
    "C145_numpy_integer",
    "C145_ignored",
    "C145_bounds",
    "C145_fallback_mass",
    "C145_fallback_refused",
    "C145_reproducible_refuted",
    "C145_numpy_refuted",
    "C145_mass_refuted",
    "C145_case"
   ],
   "note": "numpy, scipy and PreliZ draws are parameters, deterministic in the generator state. Reals instead of floats."
  },
  {
   "property": "C146",
   "status": "proved",
   "theorems": [
    "C146_with",
    "C146_placed",
    "C146_with_semantic",
    "C146_with_refuted",
    "C146_forgets",
    "C146_grammar_message",
    "C146_semantic_message",
    "C146_text",
    "C146_diagnostic",
    "C146_collector",
    "C146_collection",
    "C146_count_refuted",
    "C146_warning_refuted",
    "C146_case"
   ],
   "note": "The default code of a grammar error is taken as given."
  },
  {
   "property": "C147",
   "status": "proved",
   "theorems": [
    "C147_model",
    "C147_overwritten",
    "C147_reset",
    "C147_same_draw",
    "C147_missing",
    "C147_floor",
    "C147_options",
    "C147_ignored",
    "C147_unknown",
    "C147_defaults_refuted",
    "C147_reset_refuted",
    "C147_case"
   ],
   "note": "PyMC and numpy are parameters; choice without replacement and one value per date are premises. Exact fractions instead of floats."
  },
  {
   "property": "C148",
   "status": "proved",
   "theorems": [
    "C148_structural",
    "C148_structural_text",
    "C148_kept",
    "C148_suggestions",
    "C148_semicolon_refuted",
    "C148_suggestions_refuted",
    "C148_case"
   ],
   "note": "Titles, fixes and the similarity search are parameters; ASCII."
  },
  {
   "property": "C149",
   "status": "proved",
   "theorems": [
    "C149_registered",
    "C149_fails",
    "C149_auto",
    "C149_needed",
    "C149_constants",
    "C149_exclude_refuted",
    "C149_needed_refuted",
    "C149_shared_refuted",
    "C149_case"
   ],
   "note": "PyMC is a list of named variables; only the names matter."
  },
  {
   "property": "C150",
   "status": "proved",
   "theorems": [
    "C150_steady_state_names_wrapped",
    "C150_report_lines",
    "C150_warning_iff_not_square",
    "C150_report_says",
    "C150_share",
    "C150_case"
   ],
   "note": "Symbols are their printed names; logging and warnings.warn deliver what they are given."
  },
  {
   "property": "C151",
   "status": "proved",
   "theorems": [
    "C151_first_order_conditions",
    "C151_text",
    "C151_case"
   ],
   "note": "Objective and constraints with deeper lags: refuted by C17_deep_lag_through_auxiliary_refuted. The simplifications of C17 and C134 apply."
  },
  {
   "property": "C152",
   "status": "proved",
   "theorems": [
    "C152_given_cutoff",
    "C152_inferred_cutoff",
    "C152_count_outside",
    "C152_count_any_order",
    "C152_coincident_last",
    "C152_solver_count",
    "C152_solver_and_helper",
    "C152_split",
    "C152_case",
    "C152_order_refuted",
    "C152_cutoff_order_refuted",
    "C152_coincident_refuted"
   ],
   "note": "Real numbers instead of floats; of _gensys_core only the counting loop (the rest: C23)."
  },
  {
   "property": "C153",
   "status": "proved",
   "theorems": [
    "C153_equation",
    "C153_converts",
    "C153_blocks",
    "C153_entry",
    "C153_get_block",
    "C153_all",
    "C153_calibration",
    "C153_block_variables",
    "C153_read_once",
    "C153_read_fresh",
    "C153_case",
    "C153_calibrating_refuted",
    "C153_same_block_refuted",
    "C153_parameters_refuted",
    "C153_block_variables_refuted",
    "C153_changes_refuted"
   ],
   "note": "SymPy trees without automatic simplification; sp.Eq of two equal sides not modelled."
  },
  {
   "property": "C154",
   "status": "proved",
   "theorems": [
    "C154_colour",
    "C154_colour_collection",
    "C154_no_colour",
    "C154_no_escape",
    "C154_marks",
    "C154_context",
    "C154_own_line",
    "C154_no_place",
    "C154_collection",
    "C154_summary_counts_warnings",
    "C154_case"
   ],
   "note": "Lines numbered 10000 and above move the pointer: C131_terminal_refuted."
  },
  {
   "property": "C155",
   "status": "proved",
   "theorems": [
    "C155_solvability",
    "C155_colours",
    "C155_solvability_all",
    "C155_solvability_refused",
    "C155_every_draw_once",
    "C155_summary",
    "C155_corner",
    "C155_corner_single_refuted",
    "C155_corner_refused",
    "C155_covariance",
    "C155_covariance_all",
    "C155_covariance_unknown",
    "C155_heatmap_refuted",
    "C155_case"
   ],
   "note": "Densities, histograms and styles are not modelled."
  },
  {
   "property": "C156",
   "status": "proved",
   "theorems": [
    "C156_surprise",
    "C156_no_more_shocks",
    "C156_impulse",
    "C156_expected",
    "C156_policy_path",
    "C156_deviation",
    "C156_only_bounded_path",
    "C156_case",
    "C156_case_response"
   ],
   "note": "The condition on the remaining roots is stated as: some power of G shrinks every vector by a fixed factor."
  },
  {
   "property": "C157",
   "status": "proved",
   "theorems": [
    "C157_source_shown",
    "C157_caret",
    "C157_width",
    "C157_aligned",
    "C157_plain",
    "C157_control",
    "C157_duplicates",
    "C157_problem",
    "C157_missing_component_refuted",
    "C157_orphans",
    "C157_listed",
    "C157_two_verbs_refuted",
    "C157_case",
    "C157_file",
    "C157_orphans_case"
   ],
   "note": "Refuted for OptimizationProblemNotDefinedException: a block with an objective and no controls is said to have controls and no objective, and conversely. ExtraParameterError has two verbs in every case."
  },
  {
   "property": "C158",
   "status": "proved",
   "theorems": [
    "C158_parameter",
    "C158_reference",
    "C158_variable",
    "C158_variable_refuted",
    "C158_calibrating",
    "C158_equation_end",
    "C158_calibrating_end",
    "C158_equation_start",
    "C158_equation_start_refuted",
    "C158_case"
   ],
   "note": "Refuted: a variable at any time but t ends two columns too late (the brackets are counted twice); an equation beginning with a minus sign, a bracket or E[] begins at its first name. The text inside a token is taken without blanks, as written by the printer; pyparsing's choice of the position of a match is not modelled."
  },
  {
   "property": "C159",
   "status": "proved",
   "theorems": [
    "C159_eigenvalues",
    "C159_eigenvalues_ten_refuted",
    "C159_eigenvalues_arguments",
    "C159_eigenvalues_kwargs_refuted",
    "C159_sensitivity",
    "C159_sensitivity_refused",
    "C159_sensitivity_values_refuted",
    "C159_acf",
    "C159_acf_offsets",
    "C159_acf_refused",
    "C159_acf_overlay_refuted",
    "C159_kalman",
    "C159_kalman_refused",
    "C159_kalman_case_refuted",
    "C159_priors",
    "C159_priors_requested_refuted",
    "C159_priors_refused",
    "C159_priors_height_refuted",
    "C159_matrix",
    "C159_matrix_diagonal_refuted",
    "C159_matrix_refused",
    "C159_case"
   ],
   "note": "Means, intervals and densities are abstract; nan, sizes and styles are left out."
  },
  {
   "property": "C160",
   "status": "proved",
   "theorems": [
    "C160_extract",
    "C160_remove",
    "C160_one_block",
    "C160_no_block",
    "C160_nested_refuted",
    "C160_nested_left",
    "C160_twice_refuted",
    "C160_words_refuted",
    "C160_case"
   ],
   "note": "Case and white space are ASCII's; Unicode's are not modelled. Names with characters special to re are left out."
  },
  {
   "property": "C161",
   "status": "proved",
   "theorems": [
    "C161_point",
    "C161_point_missing",
    "C161_not_checked_refuted",
    "C161_linearize_solves",
    "C161_given",
    "C161_linear_refuted",
    "C161_linear_partial_refuted",
    "C161_linear_check_refuted",
    "C161_options_refuted",
    "C161_listed",
    "C161_found",
    "C161_given_not_listed_refuted",
    "C161_nan_refuted",
    "C161_printed",
    "C161_print_refuted",
    "C161_case"
   ],
   "note": "Which variables are logged, and the orders of rows and columns, are other properties' (flags, permutations). Printed decimals are given texts."
  },
  {
   "property": "C162",
   "status": "proved",
   "theorems": [
    "C162_scenarios",
    "C162_irf",
    "C162_scenario_legend",
    "C162_five_scenarios_refuted",
    "C162_missing_refuted",
    "C162_empty_refuted",
    "C162_without_shocks",
    "C162_irf_without",
    "C162_timeseries",
    "C162_one_name_refuted",
    "C162_simulation",
    "C162_simulation_refused",
    "C162_case",
    "C162_case_without"
   ],
   "note": "Series are abstract; colours are positions in the cycle."
  },
  {
   "property": "C163",
   "status": "proved",
   "theorems": [
    "C163_message",
    "C163_code",
    "C163_place",
    "C163_help",
    "C163_marks_refuted",
    "C163_codes_differ_refuted",
    "C163_operator_refuted",
    "C163_case"
   ],
   "note": "Which failure pyparsing reports is not modelled; ASCII only; the texts of the catalogue are parameters."
  },
  {
   "property": "C164",
   "status": "proved",
   "theorems": [
    "C164_index_read_back",
    "C164_steps",
    "C164_at",
    "C164_text",
    "C164_text_refuted",
    "C164_tags",
    "C164_case"
   ],
   "note": "A number is its text (str of the float); locations take no part in comparisons; ASCII."
  }
 ]
}