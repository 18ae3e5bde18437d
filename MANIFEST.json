{
 "claims": [
  {
   "property": "C01",
   "status": "proved",
   "theorems": [
    "C01_simple_rounding_valid",
    "C01_simple_rounding_total_on_integer_data",
    "C01_without_exact_data_refuted"
   ],
   "note": "Validity for every MIP whose data the tolerances read exactly; the refuted theorem shows the proviso is needed."
  },
  {
   "property": "C02",
   "status": "proved",
   "theorems": [
    "C02_gcdv_is_greatest_common_divisor",
    "C02_zero_entry_is_undefined",
    "C02_emitted_cut_is_reduced",
    "C02_negative_argument_refuted",
    "C02_generator_reaches_undefined_refuted"
   ],
   "note": "Greatest common divisor for all nonempty lists of positive ints; a zero entry divides by zero (reachable)."
  },
  {
   "property": "C03",
   "status": "proved",
   "theorems": [
    "C03_pool_emits_exactly_the_violated_cuts",
    "C03_more_than_refuted"
   ],
   "note": "Exact set and order of cuts; 'more than' in the header is 'at least' in the code (refuted)."
  },
  {
   "property": "C04",
   "status": "proved",
   "theorems": [
    "C04_implication_cuts_are_implied",
    "C04_with_looser_bounds_refuted"
   ],
   "note": "For current bounds inside the recorded ones; the refutation shows the proviso is needed."
  },
  {
   "property": "C05",
   "status": "proved",
   "theorems": [
    "C05_param_setters",
    "C05_constructor_unchecked_refuted"
   ],
   "note": "Over IEEE doubles incl. NaN and infinities; the constructor does no checks (refuted)."
  },
  {
   "property": "C06",
   "status": "proved",
   "theorems": [
    "C06_clique_cuts_valid",
    "C06_clique_total",
    "C06_set_packing_cuts_valid",
    "C06_negative_column_refuted"
   ],
   "note": "Both the scanning mode and the set-packing mode; the refutation shows the sign proviso is needed."
  },
  {
   "property": "C07",
   "status": "proved",
   "theorems": [
    "C07_shape_of_clique_cuts",
    "C07_strict_violation_refuted"
   ],
   "note": "Violation at least the tolerance (strictness is false, refuted); at least three members when the LP solution satisfies the rows."
  },
  {
   "property": "C08",
   "status": "partial",
   "theorems": [
    "C08_enumeration_partial",
    "C08_every_row_is_extended_partial",
    "C08_maximal_clique_missed_refuted"
   ],
   "note": "Completeness is false in the code (refuted: the position is a reference parameter, so only the first-fit clique is examined). Proved: termination and the exact result."
  },
  {
   "property": "C09",
   "status": "proved",
   "theorems": [
    "C09_min_violation_unchanged",
    "C09_nothing_else_changes",
    "C09_early_exit_refuted"
   ],
   "note": "Exactly when it holds; the early-exit failure is shown by the refutation."
  },
  {
   "property": "C10",
   "status": "proved",
   "theorems": [
    "C10_packing_cuts_valid",
    "C10_fixed_column_refuted"
   ],
   "note": "Any LP solution, row list, reduced costs, tie-breaking sort and random numbers; the refutation shows the proviso on fixed columns is needed."
  },
  {
   "property": "C11",
   "status": "proved",
   "theorems": [
    "C11_covering_cuts_valid",
    "C11_fixed_column_refuted"
   ],
   "note": "As C10."
  },
  {
   "property": "C12",
   "status": "proved",
   "theorems": [
    "C12_setter_ranges",
    "C12_settings_have_no_effect",
    "C12_default_limits_hold",
    "C12_user_limit_refuted"
   ],
   "note": "The settings have no effect; the intended reading is refuted."
  },
  {
   "property": "C13",
   "status": "proved",
   "theorems": [
    "C13_tightening_keeps_solutions",
    "C13_unordered_sets_refuted"
   ],
   "note": "Under the listing proviso of the statement; refuted for other listings."
  },
  {
   "property": "C14",
   "status": "proved",
   "theorems": [
    "C14_infeasibility_is_real",
    "C14_overlapping_sets_refuted"
   ],
   "note": "As C13."
  },
  {
   "property": "C15",
   "status": "proved",
   "theorems": [
    "C15_cuts_valid",
    "C15_tiny_coefficient_refuted",
    "C15_looser_bounds_later_refuted"
   ],
   "note": "All histories; refutations show the provisos are needed."
  },
  {
   "property": "C16",
   "status": "proved",
   "theorems": [
    "C16_mode_setter",
    "C16_mode_history",
    "C16_mir_mode_setter",
    "C16_mir_mode_history",
    "C16_mir_constructor_differs"
   ],
   "note": "Both generators; the constructor's check differs from the setter's (it accepts 2)."
  },
  {
   "property": "C17",
   "status": "proved",
   "theorems": [
    "C17_derived_knapsack",
    "C17_column_cut_only_if_infeasible",
    "C17_tiny_coefficient_refuted"
   ],
   "note": "The refutation shows the size condition is needed."
  },
  {
   "property": "C18",
   "status": "proved",
   "theorems": [
    "C18_exact_knapsack",
    "C18_any_profits",
    "C18_fractional_profits_refuted",
    "C18_negative_profit_refuted"
   ],
   "note": "Any number of items; termination with an explicit bound on the number of steps."
  },
  {
   "property": "C19",
   "status": "proved",
   "theorems": [
    "C19_lifted_cover_valid",
    "C19_lifted_cover_valid_grid",
    "C19_not_minimal_refuted",
    "C19_tolerance_gap_refuted"
   ],
   "note": ""
  },
  {
   "property": "C20",
   "status": "proved",
   "theorems": [
    "C20_up_down_lifting_valid",
    "C20_inexact_one_refuted"
   ],
   "note": ""
  },
  {
   "property": "C21",
   "status": "proved",
   "theorems": [
    "C21_uncomplement"
   ],
   "note": "The step shared by the two lifting routines in use; the two seqLift routines are only called under #if 0 and not modelled."
  },
  {
   "property": "C22",
   "status": "partial",
   "theorems": [
    "C22_greedy",
    "C22_lp_most_violated",
    "C22_pseudo_john_ellis",
    "C22_john_ellis",
    "C22_exact_partial",
    "C22_exact_refuted",
    "C22_exact_tiny_refuted"
   ],
   "note": "Full for four searches; for the exact search the claim is false (refuted) and proved up to the tolerance."
  },
  {
   "property": "C23",
   "status": "proved",
   "theorems": [
    "C23_knapsack_memory",
    "C23_reset_refuted"
   ],
   "note": "For histories without a non-positive count after a positive one, including absence of leaks; that case is refuted."
  },
  {
   "property": "C24",
   "status": "proved",
   "theorems": [
    "C24_cuts_valid",
    "C24_single_row_valid",
    "C24_network_valid",
    "C24_tiny_coefficient_refuted",
    "C24_fractional_upper_refuted",
    "C24_changed_rows_refuted"
   ],
   "note": "All histories, parameters, aggregation depths. C24_cuts_valid assumes that no coefficient of an aggregated row falls below the tolerance in the run; this follows from the data for single rows and for network rows. The refutations show the provisos are needed."
  },
  {
   "property": "C25",
   "status": "proved",
   "theorems": [
    "C25_cuts_valid",
    "C25_default_cleaning_valid",
    "C25_nonbasic_free_refuted",
    "C25_unbounded_small_refuted",
    "C25_negative_scale_refuted"
   ],
   "note": "All seven cleaning procedures, any square root and rational approximation. C25_cuts_valid asks that removed coefficients have the needed finite bound and that a cut still cuts off the solution when it is scaled to integers; for the default procedure both follow from bounded columns. Refutations show each condition is needed."
  },
  {
   "property": "C26",
   "status": "proved",
   "theorems": [
    "C26_entry_round_trip",
    "C26_negative_sequence_refuted"
   ],
   "note": "Round trip for every sequence below 2^31; a negative sequence destroys the flag (refuted)."
  },
  {
   "property": "C27",
   "status": "proved",
   "theorems": [
    "C27_tables_list_exactly_the_recorded_implications",
    "C27_recorded_implication_lost_refuted",
    "C27_upper_duplicates_kept_refuted"
   ],
   "note": "Exact up to the one code equal to the internal sentinel; the loss in that case is shown by the refutation."
  },
  {
   "property": "C28",
   "status": "proved",
   "theorems": [
    "C28_pools_are_values",
    "C28_knapsack_covers_are_values",
    "C28_save_without_columns"
   ],
   "note": "CglStored and the row list of CglKnapsackCover as heap machines refined by value semantics; the odd hole generator's copies are C36."
  },
  {
   "property": "C29",
   "status": "proved",
   "theorems": [
    "C29_fixColumns_loses_no_solution",
    "C29_fixColumns_without_packDown_refuted"
   ],
   "note": "For packed tables; without packDown a continuous target reads uninitialised memory (refuted)."
  },
  {
   "property": "C30",
   "status": "proved",
   "theorems": [
    "C30_implication_cuts_valid"
   ],
   "note": "For packed tables and 0/1 bounds on the 0-1 columns."
  },
  {
   "property": "C31",
   "status": "proved",
   "theorems": [
    "C31_complete_file_is_read_back",
    "C31_truncated_file_loops_refuted"
   ],
   "note": "Complete files only; a truncated file loops forever in a release build (refuted)."
  },
  {
   "property": "C32",
   "status": "proved",
   "theorems": [
    "C32_gmi_param_setters"
   ],
   "note": "All setters."
  },
  {
   "property": "C33",
   "status": "partial",
   "theorems": [
    "C33_redsplit_param_setters_partial",
    "C33_getMAXDYN_refuted"
   ],
   "note": "All getters except getMAXDYN, for which the claim is false (refuted)."
  },
  {
   "property": "C34",
   "status": "partial",
   "theorems": [
    "C34_redsplit2_param_setters_partial",
    "C34_strategy_lists_hold_strategies",
    "C34_setMAX_SUPP_REL_has_no_effect_refuted"
   ],
   "note": "All getters except the relative support limit and minimum violation, for which the claim is false (refuted)."
  },
  {
   "property": "C35",
   "status": "partial",
   "theorems": [
    "C35_search_terminates_partial",
    "C35_row_list_overflow_refuted"
   ],
   "note": "Termination and absence of any other undefined behaviour are proved; memory safety itself is false (refuted on a one-row covering model)."
  },
  {
   "property": "C36",
   "status": "partial",
   "theorems": [
    "C36_copies_with_row_list_agree",
    "C36_copy_without_row_list_agrees",
    "C36_assigned_generator_finds_nothing_refuted"
   ],
   "note": "Holds for copies made by copy construction from a generator without list and for all copies with a non-empty list; false for assignment without list (refuted)."
  },
  {
   "property": "C37",
   "status": "proved",
   "theorems": [
    "C37_terminates_safely",
    "C37_assertions_hold",
    "C37_assertion_on_infeasible_refuted",
    "C37_repeated_column_refuted",
    "C37_large_table_refuted",
    "C37_no_sets_refuted",
    "C37_empty_first_set_refuted"
   ],
   "note": "Every condition of the statement is shown to be needed by a refutation."
  },
  {
   "property": "C38",
   "status": "proved",
   "theorems": [
    "C38_bounds_attained",
    "C38_wide_range_refuted"
   ],
   "note": "For listings in increasing order before any repetition; the refutation shows the limit of thirty values is needed."
  },
  {
   "property": "C39",
   "status": "proved",
   "theorems": [
    "C39_history_does_not_matter",
    "C39_same_model",
    "C39_presolve_hints_refuted",
    "C39_mir_history_does_not_matter",
    "C39_mir_same_model"
   ],
   "note": "Both generators."
  },
  {
   "property": "C40",
   "status": "proved",
   "theorems": [
    "C40_cuts_valid",
    "C40_infeasible_point_refuted"
   ],
   "note": ""
  },
  {
   "property": "C41",
   "status": "proved",
   "theorems": [
    "C41_never_throws",
    "C41_cuts_violated",
    "C41_fewer_rows_refuted"
   ],
   "note": ""
  },
  {
   "property": "C42",
   "status": "proved",
   "theorems": [
    "C42_cuts_violated",
    "C42_violation_before_cleaning",
    "C42_unbounded_integer_vacuous",
    "C42_wide_integer_refuted",
    "C42_unbounded_integer_refuted"
   ],
   "note": ""
  },
  {
   "property": "C43",
   "status": "proved",
   "theorems": [
    "C43_finishes",
    "C43_gcd",
    "C43_overflow_refuted"
   ],
   "note": ""
  },
  {
   "property": "C44",
   "status": "proved",
   "theorems": [
    "C44_no_point_lost",
    "C44_reasonable_bound_refuted",
    "C44_maximise_offset_refuted",
    "C44_tiny_elements_refuted"
   ],
   "note": "The stage run with maxProbe <= 0, no snapshot, no clique information."
  },
  {
   "property": "C45",
   "status": "proved",
   "theorems": [
    "C45_always_returns",
    "C45_fractional_bound_refuted"
   ],
   "note": "Same scope as C44."
  },
  {
   "property": "C46",
   "status": "proved",
   "theorems": [
    "C46_freed_rows_implied",
    "C46_fixed_column_refuted",
    "C46_removed_row_refuted",
    "C46_reasonable_bound_refuted"
   ],
   "note": "Same scope as C44."
  },
  {
   "property": "C47",
   "status": "proved",
   "theorems": [
    "C47_cuts_valid",
    "C47_integer_data_valid",
    "C47_bounded_integer_data_valid",
    "C47_mixed_cut_refuted",
    "C47_far_columns_refuted"
   ],
   "note": "Exact arithmetic; gomoryType_ 0. The refutations show the conditions on the rational stage and on the size of the point are needed."
  },
  {
   "property": "C48",
   "status": "proved",
   "theorems": [
    "C48_cuts_say_something"
   ],
   "note": ""
  },
  {
   "property": "C49",
   "status": "proved",
   "theorems": [
    "C49_finishes",
    "C49_bounded_finishes",
    "C49_integer_data_finishes",
    "C49_in_bounds_refuted"
   ],
   "note": ""
  },
  {
   "property": "C50",
   "status": "partial",
   "theorems": [
    "C50_marks_partial",
    "C50_marks_refuted"
   ],
   "note": "False as stated (refuted with option 16 in a node with a tightened bound); proved for calls whose bounds have not been tightened."
  },
  {
   "property": "C51",
   "status": "proved",
   "theorems": [
    "C51_cuts_valid",
    "C51_cuts_valid_at_node",
    "C51_huge_values_refuted"
   ],
   "note": "All histories; the choice in the heap and the time limits are arbitrary parameters."
  },
  {
   "property": "C52",
   "status": "proved",
   "theorems": [
    "C52_cuts_violated",
    "C52_violation_amount"
   ],
   "note": ""
  },
  {
   "property": "C53",
   "status": "partial",
   "theorems": [
    "C53_marked_cuts_global_partial",
    "C53_marked_cuts_global_refuted"
   ],
   "note": "False as stated (refuted: flag set after an unflagged call in a node); proved for histories in which every call since the refresh was made with the flag."
  },
  {
   "property": "C54",
   "status": "proved",
   "theorems": [
    "C54_call_returns",
    "C54_refresh_returns",
    "C54_no_overflow_refuted",
    "C54_explicit_zeros_refuted"
   ],
   "note": "The signed overflow in the shortest path search is one of the two outcomes of C54_call_returns, and only where overflow does not wrap; C54_no_overflow_refuted shows it happens."
  },
  {
   "property": "C55",
   "status": "proved",
   "theorems": [
    "C55_copy_is_silent",
    "C55_copy_refreshed",
    "C55_assign_aborts",
    "C55_copy_equivalent_refuted"
   ],
   "note": ""
  },
  {
   "property": "C56",
   "status": "proved",
   "theorems": [
    "C56_refresh_forgets",
    "C56_refresh_no_rows_refuted"
   ],
   "note": ""
  },
  {
   "property": "C57",
   "status": "proved",
   "theorems": [
    "C57_valid",
    "C57_valid_exact",
    "C57_free_row_refuted",
    "C57_same_sign_refuted",
    "C57_exact_refuted"
   ],
   "note": "C57_valid is the general statement with the tolerance, C57_valid_exact the one for grid data; the conditions on two-entry rows and lower bounds are hypotheses, the refutations show they matter."
  },
  {
   "property": "C58",
   "status": "proved",
   "theorems": [
    "C58_violated",
    "C58_limited",
    "C58_off"
   ],
   "note": ""
  },
  {
   "property": "C59",
   "status": "proved",
   "theorems": [
    "C59_returns",
    "C59_returns_grid",
    "C59_zero_coefficient_refuted",
    "C59_tiny_lower_bound_refuted"
   ],
   "note": ""
  },
  {
   "property": "C60",
   "status": "proved",
   "theorems": [
    "C60_keeps",
    "C60_close_coefficients_refuted"
   ],
   "note": "The conflict graph and the extension are parameters: adjacency must be a true conflict (graph_sound), the extension a superset whose new literals conflict with all others (ext_spec)."
  },
  {
   "property": "C61",
   "status": "proved",
   "theorems": [
    "C61_never_weaker",
    "C61_same_points",
    "C61_large_coefficient_refuted",
    "C61_second_call_refuted"
   ],
   "note": "Same parameters as C60; earlier calls on the object must have extended nothing, C61_second_call_refuted shows why."
  },
  {
   "property": "C62",
   "status": "proved",
   "theorems": [
    "C62_reported"
   ],
   "note": ""
  },
  {
   "property": "C63",
   "status": "proved",
   "theorems": [
    "C63_constructs",
    "C63_returns",
    "C63_long_name_refuted",
    "C63_empty_matrix_refuted",
    "C63_other_row_refuted",
    "C63_second_call_refuted"
   ],
   "note": ""
  },
  {
   "property": "C64",
   "status": "proved",
   "theorems": [
    "C64_valid",
    "C64_continuous_column_refuted"
   ],
   "note": "The solver of the cone program is a parameter; only feasibility of its answer is used."
  },
  {
   "property": "C65",
   "status": "proved",
   "theorems": [
    "C65_returns",
    "C65_canonical_refuted",
    "C65_gaps_refuted",
    "C65_no_rows_refuted"
   ],
   "note": ""
  },
  {
   "property": "C66",
   "status": "proved",
   "theorems": [
    "C66_deepest",
    "C66_violated_refuted"
   ],
   "note": "Needs optimality of the answer of the cone solver and finite row lower bounds."
  },
  {
   "property": "C67",
   "status": "proved",
   "theorems": [
    "C67_beta"
   ],
   "note": ""
  },
  {
   "property": "C68",
   "status": "proved",
   "theorems": [
    "C68_valid"
   ],
   "note": "The conflict graph, the clique search, the extender and the cut pool are parameters with the specifications of env_ok."
  },
  {
   "property": "C69",
   "status": "proved",
   "theorems": [
    "C69_violated"
   ],
   "note": "Same parameters as C68; the search must only report cliques of at least the weight asked for."
  },
  {
   "property": "C70",
   "status": "proved",
   "theorems": [
    "C70_getters",
    "C70_extension_method",
    "C70_call_keeps",
    "C70_limit_refuted",
    "C70_calls_reported_refuted",
    "C70_base_limit_refuted"
   ],
   "note": ""
  },
  {
   "property": "C71",
   "status": "proved",
   "theorems": [
    "C71_returns",
    "C71_wrong_graph",
    "C71_infeasible_refuted"
   ],
   "note": ""
  },
  {
   "property": "C72",
   "status": "proved",
   "theorems": [
    "C72_valid"
   ],
   "note": "The separator is a parameter: closed walks of at least five literals with centres adjacent to each other and to the rim (wheel_ok)."
  },
  {
   "property": "C73",
   "status": "partial",
   "theorems": [
    "C73_violated_partial",
    "C73_lifting_refuted"
   ],
   "note": "Proved when at most half of the rim is complemented; false otherwise."
  },
  {
   "property": "C74",
   "status": "proved",
   "theorems": [
    "C74_returns",
    "C74_wrong_graph",
    "C74_extension",
    "C74_clone_refuted"
   ],
   "note": ""
  },
  {
   "property": "C75",
   "status": "proved",
   "theorems": [
    "C75_scratch_safe",
    "C75_assignment_refuted"
   ],
   "note": "The arrays of one object are one block in the model."
  },
  {
   "property": "C76",
   "status": "proved",
   "theorems": [
    "C76_rows",
    "C76_bounds",
    "C76_negative_bound_refuted",
    "C76_near_integer_refuted",
    "C76_small_range_refuted"
   ],
   "note": "Exact arithmetic. The factorisation is a parameter (fact_ok: no other basic column, no row without bounds)."
  },
  {
   "property": "C77",
   "status": "proved",
   "theorems": [
    "C77_form"
   ],
   "note": ""
  },
  {
   "property": "C78",
   "status": "proved",
   "theorems": [
    "C78_returns",
    "C78_large_coefficient_refuted",
    "C78_empty_cut_refuted"
   ],
   "note": ""
  },
  {
   "property": "C79",
   "status": "proved",
   "theorems": [
    "C79_formulation_rows_ignored",
    "C79_nothing",
    "C79_global",
    "C79_away"
   ],
   "note": ""
  },
  {
   "property": "C80",
   "status": "proved",
   "theorems": [
    "C80_cuts_valid_within_tolerance",
    "C80_cuts_valid_exact",
    "C80_near_integer_refuted",
    "C80_small_range_refuted"
   ],
   "note": "Exact arithmetic. Basis and tableau rows are parameters with the specification lp_ok."
  },
  {
   "property": "C81",
   "status": "proved",
   "theorems": [
    "C81_cut_form",
    "C81_dynamism",
    "C81_not_violated_refuted",
    "C81_dynamism_refuted"
   ],
   "note": "C81_cut_form is stated for EPS_RELAX_REL = 0, the default."
  },
  {
   "property": "C82",
   "status": "proved",
   "theorems": [
    "C82_reduction",
    "C82_terminates",
    "C82_step_refuted"
   ],
   "note": ""
  },
  {
   "property": "C83",
   "status": "proved",
   "theorems": [
    "C83_no_bad_read",
    "C83_bad_read_refuted"
   ],
   "note": ""
  },
  {
   "property": "C84",
   "status": "proved",
   "theorems": [
    "C84_no_cut",
    "C84_old_cuts_kept"
   ],
   "note": ""
  },
  {
   "property": "C85",
   "status": "proved",
   "theorems": [
    "C85_default_adds_nothing",
    "C85_tree_adds_nothing",
    "C85_default_changes_nothing"
   ],
   "note": "Mode 4 (generateCuts4) is a parameter of the model."
  },
  {
   "property": "C86",
   "status": "proved",
   "theorems": [
    "C86_cuts_keep_feasible",
    "C86_same_feasible_points",
    "C86_column_cuts_applied",
    "C86_equation_dropped_refuted",
    "C86_overrun_drops_row_refuted",
    "C86_overrun_fixes_refuted",
    "C86_fractional_bound_refuted"
   ],
   "note": "Exact arithmetic; CoinSort_2 is a parameter (any stable or unstable sort by key)."
  },
  {
   "property": "C87",
   "status": "proved",
   "theorems": [
    "C87_one_left"
   ],
   "note": "Set packing rows without fixed columns."
  },
  {
   "property": "C88",
   "status": "proved",
   "theorems": [
    "C88_returns",
    "C88_default_object_refuted",
    "C88_overrun_refuted",
    "C88_large_bound_refuted"
   ],
   "note": ""
  },
  {
   "property": "C89",
   "status": "proved",
   "theorems": [
    "C89_copy_fresh",
    "C89_copy_after_call",
    "C89_copy_after_two_refuted"
   ],
   "note": ""
  },
  {
   "property": "C90",
   "status": "proved",
   "theorems": [
    "C90_cuts_valid",
    "C90_columns_exist",
    "C90_when_entering_refuted",
    "C90_later_range_refuted",
    "C90_fractional_bound_refuted",
    "C90_columns_exist_refuted"
   ],
   "note": "Exact arithmetic; the simplex interface is a parameter assumed exact; the numerical choices are arbitrary."
  },
  {
   "property": "C91",
   "status": "proved",
   "theorems": [
    "C91_cut_form",
    "C91_no_empty_cut",
    "C91_empty_cut_refuted",
    "C91_not_violated_refuted"
   ],
   "note": ""
  },
  {
   "property": "C92",
   "status": "proved",
   "theorems": [
    "C92_terminates",
    "C92_limits"
   ],
   "note": ""
  },
  {
   "property": "C93",
   "status": "proved",
   "theorems": [
    "C93_safe",
    "C93_initial_rule_refuted",
    "C93_all_violated_refuted",
    "C93_added_column_refuted",
    "C93_extra_cut_refuted"
   ],
   "note": "Array accesses of the numerical search itself (reduced costs) are not modelled."
  },
  {
   "property": "C94",
   "status": "proved",
   "theorems": [
    "C94_old_cuts_kept",
    "C94_parameters_kept",
    "C94_silent_after_ranges"
   ],
   "note": ""
  },
  {
   "property": "C95",
   "status": "proved",
   "theorems": [
    "C95_copy",
    "C95_assign",
    "C95_assign_refuted",
    "C95_assigned_object_refuted"
   ],
   "note": ""
  },
  {
   "property": "C96",
   "status": "proved",
   "theorems": [
    "C96_weaker",
    "C96_form",
    "C96_weaker2"
   ],
   "note": ""
  },
  {
   "property": "C97",
   "status": "proved",
   "theorems": [
    "C97_rows"
   ],
   "note": ""
  },
  {
   "property": "C98",
   "status": "proved",
   "theorems": [
    "C98_cuts_valid",
    "C98_single_row_valid",
    "C98_network_valid",
    "C98_clp_default_refuted"
   ],
   "note": "Exact arithmetic; sorting, clean-up and insertion of cuts are parameters."
  },
  {
   "property": "C99",
   "status": "proved",
   "theorems": [
    "C99_outcomes",
    "C99_single_row_done",
    "C99_network_done",
    "C99_small_slack_refuted",
    "C99_fewer_rows_refuted"
   ],
   "note": ""
  },
  {
   "property": "C100",
   "status": "proved",
   "theorems": [
    "C100_form",
    "C100_length"
   ],
   "note": ""
  },
  {
   "property": "C101",
   "status": "proved",
   "theorems": [
    "C101_constructor",
    "C101_settings_history",
    "C101_object_after",
    "C101_minus_two",
    "C101_marks",
    "C101_clp_loses_setting_refuted"
   ],
   "note": ""
  },
  {
   "property": "C102",
   "status": "proved",
   "theorems": [
    "C102_copy_same",
    "C102_used_copy_refuted"
   ],
   "note": ""
  },
  {
   "property": "C103",
   "status": "proved",
   "theorems": [
    "C103_insertions",
    "C103_stored_equivalent",
    "C103_multiplier_zero_refuted"
   ],
   "note": "hashCut and same of OSI are parameters."
  },
  {
   "property": "C104",
   "status": "proved",
   "theorems": [
    "C104_refused_exactly",
    "C104_repeated",
    "C104_distinct_without_collisions",
    "C104_unique_refuted"
   ],
   "note": ""
  },
  {
   "property": "C105",
   "status": "proved",
   "theorems": [
    "C105_erase",
    "C105_erase_succeeds",
    "C105_erase_last_refuted",
    "C105_insert_after_erase_refuted"
   ],
   "note": ""
  },
  {
   "property": "C106",
   "status": "proved",
   "theorems": [
    "C106_copy_needs_full_array",
    "C106_copy_refuted",
    "C106_unique_add_cuts",
    "C106_insert_after_add_cuts_refuted"
   ],
   "note": ""
  },
  {
   "property": "C107",
   "status": "proved",
   "theorems": [
    "C107_few_cuts",
    "C107_just_best_refuted",
    "C107_all_or_nothing",
    "C107_only_stored"
   ],
   "note": "A stored cut has effectiveness 0, as the OSI constructor sets it."
  },
  {
   "property": "C108",
   "status": "proved",
   "theorems": [
    "C108_no_point_lost",
    "C108_same_columns"
   ],
   "note": "The sort is any permutation, the random numbers are arbitrary."
  },
  {
   "property": "C109",
   "status": "proved",
   "theorems": [
    "C109_same_points",
    "C109_same_points_refuted"
   ],
   "note": ""
  },
  {
   "property": "C110",
   "status": "proved",
   "theorems": [
    "C110_rows",
    "C110_all_refuted"
   ],
   "note": ""
  },
  {
   "property": "C111",
   "status": "proved",
   "theorems": [
    "C111_always_done"
   ],
   "note": ""
  },
  {
   "property": "C112",
   "status": "proved",
   "theorems": [
    "C112_removed",
    "C112_copy_stays"
   ],
   "note": ""
  },
  {
   "property": "C113",
   "status": "proved",
   "theorems": [
    "C113_copy",
    "C113_assigned_to_new_refuted"
   ],
   "note": ""
  },
  {
   "property": "C114",
   "status": "proved",
   "theorems": [
    "C114_optimum_kept",
    "C114_only_markers",
    "C114_pairs_refuted"
   ],
   "note": ""
  },
  {
   "property": "C115",
   "status": "proved",
   "theorems": [
    "C115_always_done",
    "C115_stored_zeros_refuted"
   ],
   "note": ""
  },
  {
   "property": "C116",
   "status": "proved",
   "theorems": [
    "C116_defined_by_row",
    "C116_rounded"
   ],
   "note": ""
  },
  {
   "property": "C117",
   "status": "proved",
   "theorems": [
    "C117_good_points_kept",
    "C117_only_fixes",
    "C117_fixed",
    "C117_fractional_refuted"
   ],
   "note": ""
  },
  {
   "property": "C118",
   "status": "proved",
   "theorems": [
    "C118_only_fixes",
    "C118_done",
    "C118_all_at_lower",
    "C118_at_upper_refuted",
    "C118_discard_refuted",
    "C118_outside_refuted"
   ],
   "note": "The sort is any permutation."
  },
  {
   "property": "C119",
   "status": "proved",
   "theorems": [
    "C119_collected",
    "C119_replaced",
    "C119_none_refuted"
   ],
   "note": ""
  },
  {
   "property": "C120",
   "status": "proved",
   "theorems": [
    "C120_points_kept",
    "C120_integer_points_kept",
    "C120_negative_is_infeasible",
    "C120_points_lost_refuted",
    "C120_points_gained_refuted"
   ],
   "note": "The sort of a row is any permutation; exact arithmetic."
  },
  {
   "property": "C121",
   "status": "proved",
   "theorems": [
    "C121_bounds"
   ],
   "note": ""
  },
  {
   "property": "C122",
   "status": "proved",
   "theorems": [
    "C122_rows_imply",
    "C122_nothing_gained"
   ],
   "note": ""
  },
  {
   "property": "C123",
   "status": "proved",
   "theorems": [
    "C123_same_points",
    "C123_close",
    "C123_kept_or_integer"
   ],
   "note": "CoinRational is an arbitrary function."
  },
  {
   "property": "C124",
   "status": "proved",
   "theorems": [
    "C124_done",
    "C124_large_refuted",
    "C124_stored_zero_refuted",
    "C124_overflow_refuted",
    "C124_copy_refuted"
   ],
   "note": ""
  },
  {
   "property": "C125",
   "status": "proved",
   "theorems": [
    "C125_optimum_kept",
    "C125_only_markers"
   ],
   "note": ""
  },
  {
   "property": "C126",
   "status": "proved",
   "theorems": [
    "C126_always_done",
    "C126_infeasible",
    "C126_count_refuted",
    "C126_infeasible_refuted"
   ],
   "note": ""
  },
  {
   "property": "C127",
   "status": "proved",
   "theorems": [
    "C127_defined_by_row",
    "C127_rounded",
    "C127_pair"
   ],
   "note": ""
  },
  {
   "property": "C128",
   "status": "proved",
   "theorems": [
    "C128_columns",
    "C128_rows",
    "C128_no_presolve",
    "C128_sorted",
    "C128_done",
    "C128_order_refuted",
    "C128_gap_refuted"
   ],
   "note": "The presolves are arbitrary arrays; CBC_USE_PAPILO is not modelled."
  },
  {
   "property": "C129",
   "status": "proved",
   "theorems": [
    "C129_moved",
    "C129_done",
    "C129_bounds_refuted",
    "C129_order_refuted"
   ],
   "note": ""
  }
 ]
}