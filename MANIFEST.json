{
 "claims": [
  {
   "property": "C01",
   "status": "proved",
   "theorems": [
    "C01_add",
    "C01_sub",
    "C01_mul",
    "C01_div",
    "C01_rem",
    "C01_rem_literal_refuted",
    "C01_neg",
    "C01_incr",
    "C01_decr",
    "C01_abs"
   ],
   "note": "All operators. For % the literal reading is refuted (C01_rem_literal_refuted): min % -1 throws although the remainder 0 fits."
  },
  {
   "property": "C02",
   "status": "proved",
   "theorems": [
    "C02_history",
    "C02_erase",
    "C02_erase_range",
    "C02_erase_less_than",
    "C02_erase_greater_than",
    "C02_intersect_with",
    "C02_canonical"
   ],
   "note": ""
  },
  {
   "property": "C03",
   "status": "proved",
   "theorems": [
    "C03_queries",
    "C03_contains_any_of",
    "C03_iteration",
    "C03_gaps",
    "C03_each_interval",
    "C03_each_interval_minus"
   ],
   "note": ""
  },
  {
   "property": "C04",
   "status": "partial",
   "theorems": [
    "C04_insert_strictly_above_partial",
    "C04_insert_at_upper_refuted"
   ],
   "note": "The documented precondition is refuted (appending the current upper bound again breaks the invariant and size); proved for strictly larger values, which is what the code base uses."
  },
  {
   "property": "C05",
   "status": "proved",
   "theorems": [
    "C05_handle_value",
    "C05_accessors",
    "C05_intersection_tests"
   ],
   "note": ""
  },
  {
   "property": "C06",
   "status": "proved",
   "theorems": [
    "C06_inference_exact"
   ],
   "note": ""
  },
  {
   "property": "C07",
   "status": "proved",
   "theorems": [
    "C07_change_kind",
    "C07_kinds_exact"
   ],
   "note": ""
  },
  {
   "property": "C08",
   "status": "proved",
   "theorems": [
    "C08_test_literal",
    "C08_negation",
    "C08_negation_swaps_answers",
    "C08_literally",
    "C08_crossed_range_refuted"
   ],
   "note": "For every literal the public factories can build. A range condition assembled directly with crossed bounds is refuted (C08_crossed_range_refuted)."
  },
  {
   "property": "C09",
   "status": "proved",
   "theorems": [
    "C09_backtrack_restores"
   ],
   "note": ""
  },
  {
   "property": "C10",
   "status": "proved",
   "theorems": [
    "C10_no_solution_lost"
   ],
   "note": ""
  },
  {
   "property": "C11",
   "status": "proved",
   "theorems": [
    "C11_root_terminates",
    "C11_every_move_terminates"
   ],
   "note": ""
  },
  {
   "property": "C12",
   "status": "proved",
   "theorems": [
    "C12_no_lost_wakeups"
   ],
   "note": ""
  },
  {
   "property": "C13",
   "status": "partial",
   "theorems": [
    "C13_watch_lost_refuted",
    "C13_forbidden_tuple_accepted_refuted",
    "C13_watches_fire_partial",
    "C13_watches_maintained_partial"
   ],
   "note": "False as stated: after a round boundary at which some propagator claimed idempotence, watches whose conditions became true in that round never fire (C13_watch_lost_refuted and C13_forbidden_tuple_accepted_refuted, a concrete problem made of real constraints). Proved: if no propagator makes such claims, then at every node of every session no armed watch has a condition that is certain (C13_watches_fire_partial), and any propagator that meets the contract keeps_watch has its invariant at every node (C13_watches_maintained_partial)."
  },
  {
   "property": "C14",
   "status": "proved",
   "theorems": [
    "C14_disabled_below",
    "C14_retired_root",
    "C14_retired",
    "C14_eligible_again"
   ],
   "note": ""
  },
  {
   "property": "C15",
   "status": "partial",
   "theorems": [
    "C15_reports_satisfy_constraints",
    "C15_modelled_constraints",
    "C15_negative_table_violated_refuted"
   ],
   "note": "Proved for every problem made of modelled constraints and every exhaustive heuristic; false of problems with a NegativeTable (C15_negative_table_violated_refuted), as a consequence of C13."
  },
  {
   "property": "C16",
   "status": "proved",
   "theorems": [
    "C16_each_solution_once",
    "C16_never_repeated",
    "C16_modelled_constraints",
    "C16_throwing_constructors"
   ],
   "note": "For every problem made of modelled constraints and every exhaustive heuristic, without restarts (with restarts see C19)."
  },
  {
   "property": "C17",
   "status": "proved",
   "theorems": [
    "C17_optimum",
    "C17_modelled_constraints"
   ],
   "note": ""
  },
  {
   "property": "C18",
   "status": "proved",
   "theorems": [
    "C18_stopping"
   ],
   "note": ""
  },
  {
   "property": "C19",
   "status": "partial",
   "theorems": [
    "C19_nothing_lost_partial",
    "C19_search_ends",
    "C19_reported_twice_refuted"
   ],
   "note": "Nothing is lost and the search ends in either mode; nothing is reported twice if the learned nogoods are scanned. In the default, watched mode a solution can be reported twice (C19_reported_twice_refuted), a consequence of C13."
  },
  {
   "property": "C20",
   "status": "proved",
   "theorems": [
    "C20_luby_terms",
    "C20_cutoffs",
    "C20_luby_unique",
    "C20_powers_of_two",
    "C20_unbounded",
    "C20_scale_zero_refuted"
   ],
   "note": "Scale 0 gives cutoffs of 0 and a solve that never ends (C20_scale_zero_refuted)."
  },
  {
   "property": "C21",
   "status": "partial",
   "theorems": [
    "C21_variable_orders",
    "C21_value_orders_partial",
    "C21_heuristics",
    "C21_split_negated_view_refuted"
   ],
   "note": "All provided variable and value orders; the two splitting value orders only on handles that are not negated views, of which the claim is false (C21_split_negated_view_refuted)."
  },
  {
   "property": "C22",
   "status": "proved",
   "theorems": [
    "C22_sums",
    "C22_sum_comparisons",
    "C22_negated_inequality",
    "C22_conditions",
    "C22_range_conditions"
   ],
   "note": "Conditions on one handle, range conditions, weighted sums and their comparisons. Arithmetic on sums is unbounded in the model; overflow is C01's subject."
  },
  {
   "property": "C23",
   "status": "proved",
   "theorems": [
    "C23_comparison",
    "C23_reified_comparison"
   ],
   "note": ""
  },
  {
   "property": "C24",
   "status": "proved",
   "theorems": [
    "C24_equality",
    "C24_equality_consistent",
    "C24_reified_equality"
   ],
   "note": ""
  },
  {
   "property": "C25",
   "status": "proved",
   "theorems": [
    "C25_plus",
    "C25_minus"
   ],
   "note": "For consistency::BC; the tabulated levels are C48."
  },
  {
   "property": "C26",
   "status": "proved",
   "theorems": [
    "C26_abs"
   ],
   "note": ""
  },
  {
   "property": "C27",
   "status": "partial",
   "theorems": [
    "C27_inequality",
    "C27_reified_inequality",
    "C27_equality",
    "C27_reified_equality_partial",
    "C27_cancelled_terms_refuted",
    "C27_constant_condition_partial",
    "C27_false_condition_refuted",
    "C27_true_condition_refuted",
    "C27_inequality_consistent",
    "C27_equality_consistent",
    "C27_tidying"
   ],
   "note": "All forms proved for any sum, with repeated variables, views and constants; inequalities shown domain-consistent, equalities shown consistent with sums on both sides. False for reified equalities whose terms cancel to a constant below the value (C27_cancelled_terms_refuted) and for LinearEqualityIf/LinearNotEqualsIf with constant conditions (C27_false_condition_refuted, C27_true_condition_refuted). Slack watches and incremental folding not modelled."
  },
  {
   "property": "C28",
   "status": "partial",
   "theorems": [
    "C28_value_consistent_correct_partial",
    "C28_value_consistency_partial",
    "C28_value_consistent_refuted",
    "C28_all_different_correct",
    "C28_all_different_except_correct"
   ],
   "note": "AllDifferent with its default (generalised arc consistent, staged or not) propagation and AllDifferentExcept are proved correct for all handles. With value consistency instead, AllDifferent is correct if no handle that has a single value when the constraint is posted can share it with another, and refuted without that condition: a variable or constant already fixed at posting time is never propagated, so a violating solution is reported."
  },
  {
   "property": "C29",
   "status": "partial",
   "theorems": [
    "C29_table",
    "C29_table_wrong_length",
    "C29_table_domain_consistent",
    "C29_table_residues",
    "C29_negative_table_sound_partial",
    "C29_negative_table_enforced_partial",
    "C29_negative_table_obeyed_partial"
   ],
   "note": "Table is complete: meaning, exceptions, domain consistency in one run, and that residues make no difference. NegativeTable is proved sound, and in problems in which no propagator claims idempotence every node has each tuple ruled out or with two positions that may still differ, so a complete assignment obeys it (C29_negative_table_enforced_partial, C29_negative_table_obeyed_partial). That it always notices a forbidden tuple when other propagators make claims is false (C13, C15_negative_table_violated_refuted)."
  },
  {
   "property": "C30",
   "status": "partial",
   "theorems": [
    "C30_count",
    "C30_among_partial",
    "C30_among_no_exception",
    "C30_among_counting_itself_refuted",
    "C30_among_views_refuted",
    "C30_minimum",
    "C30_maximum",
    "C30_minmax_no_exception_partial",
    "C30_minmax_throws_refuted",
    "C30_in",
    "C30_element",
    "C30_element_2d",
    "C30_element_2d_accepted",
    "C30_element_consistent",
    "C30_element_2d_consistent",
    "C30_element_bounds_consistent"
   ],
   "note": "Element (one and two dimensions, also domain and bounds consistency), Count, Among, Min, Max and In. Among only if no variable is behind two different handles: otherwise it accepts violating assignments (C30_among_counting_itself_refuted, C30_among_views_refuted). Min and Max can throw when the result is a view of one of the variables (C30_minmax_throws_refuted)."
  },
  {
   "property": "C31",
   "status": "proved",
   "theorems": [
    "C31_and",
    "C31_or",
    "C31_over_variables"
   ],
   "note": ""
  },
  {
   "property": "C32",
   "status": "partial",
   "theorems": [
    "C32_scanned_nogoods",
    "C32_watched_nogoods_sound_partial"
   ],
   "note": "Exact for the scanning propagator. For the watching one soundness; that it misses nothing is false in general because of C13."
  },
  {
   "property": "C33",
   "status": "proved",
   "theorems": [
    "C33_every_value_once",
    "C33_no_value_twice",
    "C33_value_read",
    "C33_no_shorter",
    "C33_fits_exactly"
   ],
   "note": "For all 64-bit bounds, overflow included."
  },
  {
   "property": "C34",
   "status": "proved",
   "theorems": [
    "C34_reified_inequality",
    "C34_conditions",
    "C34_same_row",
    "C34_equality",
    "C34_clause",
    "C34_fully_reified",
    "C34_bound_defined",
    "C34_equality_defined",
    "C34_view_defined"
   ],
   "note": "Row arithmetic is unbounded in the model. Names are found, not introduced on the fly (EnsureNames::Yes is not modelled)."
  },
  {
   "property": "C35",
   "status": "proved",
   "theorems": [
    "C35_round_trip",
    "C35_written_apart",
    "C35_reads_the_grammar",
    "C35_unambiguous",
    "C35_reading_ends",
    "C35_blank_is_empty",
    "C35_read_write_read",
    "C35_sequences",
    "C35_bare_round_trip",
    "C35_lines_round_trip",
    "C35_unwritable_refuted"
   ],
   "note": "Atoms that are empty or contain delimiters do not survive (C35_unwritable_refuted); no writer in the code base produces one."
  },
  {
   "property": "C36",
   "status": "proved",
   "theorems": [
    "C36_power2",
    "C36_power"
   ],
   "note": ""
  },
  {
   "property": "C37",
   "status": "proved",
   "theorems": [
    "C37_restored"
   ],
   "note": ""
  },
  {
   "property": "C38",
   "status": "proved",
   "theorems": [
    "C38_model_exact",
    "C38_objective"
   ],
   "note": "For variables with a bits encoding and {0,1} variables; one-hot encodings of wider ranges and names overridden by a CakeBitNaming are not modelled. Which rows each constraint declares is not modelled here."
  },
  {
   "property": "C39",
   "status": "proved",
   "theorems": [
    "C39_all_different_domain_consistent",
    "C39_staged_domain_consistent",
    "C39_all_different_except_domain_consistent"
   ],
   "note": "For handles with distinct underlying variables; with one variable behind two handles the code does not aim for this."
  },
  {
   "property": "C40",
   "status": "partial",
   "theorems": [
    "C40_all_equal_sound",
    "C40_all_equal_partial",
    "C40_all_equal_gap_refuted",
    "C40_all_equal_views_refuted",
    "C40_all_equal_consistent"
   ],
   "note": "False of the code in general: the propagator disables itself too early (refuted for a domain with a gap and for two views of a variable). Proved: no solution is ever lost; exactness if the first variable has at most two neighbouring values and no variable is behind two handles; domain consistency when nothing more is inferred."
  },
  {
   "property": "C41",
   "status": "proved",
   "theorems": [
    "C41_increasing",
    "C41_increasing_consistent"
   ],
   "note": "Exact for any overlap of the handles; domain consistent if no variable is behind two of them."
  },
  {
   "property": "C42",
   "status": "proved",
   "theorems": [
    "C42_n_value",
    "C42_at_most_one"
   ],
   "note": "Exact for any overlap of the handles."
  },
  {
   "property": "C43",
   "status": "proved",
   "theorems": [
    "C43_parity"
   ],
   "note": "Exact for any overlap of the conditions; range conditions must not be crossed (C08)."
  },
  {
   "property": "C44",
   "status": "partial",
   "theorems": [
    "C44_inverse_partial",
    "C44_inverse_domain_consistent",
    "C44_inverse_offset_refuted"
   ],
   "note": "Proved for lists counted from the same number, which includes the default; refuted for different numbers (C44_inverse_offset_refuted). Domain consistency after one run is proved when no variable is behind two of the handles."
  },
  {
   "property": "C45",
   "status": "proved",
   "theorems": [
    "C45_symmetric_all_different"
   ],
   "note": "For all lists of handles, including views and repeated variables."
  },
  {
   "property": "C46",
   "status": "proved",
   "theorems": [
    "C46_value_precede",
    "C46_seq_precede_chain"
   ],
   "note": "For all chains and lists of handles, including views and repeated variables."
  },
  {
   "property": "C47",
   "status": "proved",
   "theorems": [
    "C47_lex_correct",
    "C47_lex_if_correct",
    "C47_lex_iff_correct",
    "C47_lex_domain_consistent"
   ],
   "note": "For all lists of handles; domain consistency of the unconditional forms when no variable is behind two of the handles."
  },
  {
   "property": "C48",
   "status": "proved",
   "theorems": [
    "C48_plus_correct",
    "C48_minus_correct",
    "C48_plus_domain_consistent",
    "C48_minus_domain_consistent",
    "C48_linear_correct",
    "C48_linear_domain_consistent"
   ],
   "note": "For all domains and handles. The table is built when the constraint is installed rather than in the last initialiser; it may then have tuples that other initialisers have ruled out."
  },
  {
   "property": "C49",
   "status": "proved",
   "theorems": [
    "C49_multiply_correct",
    "C49_multiply_domain_consistent",
    "C49_multiply_bounds",
    "C49_square_bounds",
    "C49_multiply_bounds_consistent_refuted",
    "C49_square_roots"
   ],
   "note": "For all domains and handles, on unbounded integers. That the propagator is bounds consistent, as documented, is refuted for operands that may both be of either sign with a result that cannot be zero, and proved otherwise."
  },
  {
   "property": "C50",
   "status": "proved",
   "theorems": [
    "C50_divide_correct",
    "C50_modulus_correct",
    "C50_divide_domain_consistent",
    "C50_modulus_domain_consistent",
    "C50_division_rests",
    "C50_quotient_found_refuted"
   ],
   "note": "For all domains and handles, on unbounded integers, so without the case of the least 64-bit number divided by -1. That the propagator computes the quotient once dividend and divisor are known is refuted."
  },
  {
   "property": "C51",
   "status": "proved",
   "theorems": [
    "C51_regular_correct",
    "C51_regular_maps_correct",
    "C51_regular_table_correct",
    "C51_regular_domain_consistent"
   ],
   "note": "States without an entry in the transition map have no transitions in the model; the code would index outside it."
  },
  {
   "property": "C52",
   "status": "proved",
   "theorems": [
    "C52_mdd_correct",
    "C52_mdd_sizes",
    "C52_mdd_domain_consistent",
    "C52_mdd_empty_refuted"
   ],
   "note": "For at least one variable; for none the claim is refuted. Targets beyond the next layer have no transitions in the model; the code would index outside a vector."
  },
  {
   "property": "C53",
   "status": "proved",
   "theorems": [
    "C53_automaton_exact",
    "C53_refused_exactly",
    "C53_unambiguous",
    "C53_reference_exact",
    "C53_constraint_correct",
    "C53_constraint_refused",
    "C53_constraint_domain_consistent"
   ],
   "note": "Numbers and repetition counts in the text are unbounded in the model."
  },
  {
   "property": "C54",
   "status": "partial",
   "theorems": [
    "C54_checked_power_exact",
    "C54_power_correct_partial",
    "C54_domain_consistent",
    "C54_variable_exponent_domain_consistent",
    "C54_power_rests",
    "C54_cancelled_refuted",
    "C54_least_integer_refuted"
   ],
   "note": "Proved unless the constraint is a linear equality without variables, or the result may be the least integer; false there (refuted with witnesses)."
  },
  {
   "property": "C55",
   "status": "proved",
   "theorems": [
    "C55_global_cardinality_correct",
    "C55_every_interval_balanced",
    "C55_only_cover_left",
    "C55_repeated_values_refuted"
   ],
   "note": "The values in the cover must differ: otherwise solutions are lost, C55_repeated_values_refuted. Bounds consistency only; the flow algorithm for GAC is separate."
  },
  {
   "property": "C56",
   "status": "proved",
   "theorems": [
    "C56_circuit_is_an_order",
    "C56_prevent_correct",
    "C56_refused_unsatisfiable",
    "C56_short_cycles_prevented"
   ],
   "note": "The Prevent algorithm. with_gac_all_different, which adds an AllDifferent, is not modelled."
  },
  {
   "property": "C57",
   "status": "partial",
   "theorems": [
    "C57_components_correct",
    "C57_refused_unsatisfiable",
    "C57_connected",
    "C57_returns_partial",
    "C57_returns_refuted"
   ],
   "note": "That every run returns is false of the code with its default options (C57_returns_refuted, finding 29); it is proved for the options that do not prune. The rest is proved for all options."
  },
  {
   "property": "C58",
   "status": "proved",
   "theorems": [
    "C58_rectangles_correct",
    "C58_refused",
    "C58_no_cell_shared",
    "C58_apart"
   ],
   "note": ""
  },
  {
   "property": "C59",
   "status": "proved",
   "theorems": [
    "C59_sort_correct",
    "C59_refused",
    "C59_never_throws",
    "C59_bounds_consistent",
    "C59_one_run_is_enough"
   ],
   "note": ""
  },
  {
   "property": "C60",
   "status": "proved",
   "theorems": [
    "C60_gac_cardinality_correct",
    "C60_every_value_supported",
    "C60_never_throws",
    "C60_flow_is_largest",
    "C60_unsorted_cover_refuted",
    "C60_repeated_values_refuted"
   ],
   "note": ""
  },
  {
   "property": "C61",
   "status": "partial",
   "theorems": [
    "C61_arg_sort_correct",
    "C61_refused",
    "C61_each_rank_supported_partial",
    "C61_reachable_exactly",
    "C61_explained",
    "C61_counts_bound_place",
    "C61_bounds_consistent_refuted"
   ],
   "note": "Correctness, refusal, exactness of the ranks and of their explanations are proved in full. The claimed bounds consistency of the permutation is refuted (finding 31); what holds instead, support of each value on its own, is C61_each_rank_supported_partial."
  },
  {
   "property": "C62",
   "status": "partial",
   "theorems": [
    "C62_knapsack_correct",
    "C62_refused",
    "C62_domain_consistent",
    "C62_fails_exactly",
    "C62_strategies_agree",
    "C62_accept_alike_refuted"
   ],
   "note": "Correctness, refusal, domain consistency after one run and the agreement of the strategies are proved in full. That both strategies accept the same problems is refuted (finding 32)."
  },
  {
   "property": "C63",
   "status": "partial",
   "theorems": [
    "C63_bin_packing_correct",
    "C63_refused",
    "C63_bounds_consistent",
    "C63_upfront_consistent_partial",
    "C63_upfront_consistent_refuted",
    "C63_default_consistent_refuted",
    "C63_strategies_agree_refuted",
    "C63_default_is_bounds",
    "C63_sweep_afresh",
    "C63_sweep_idle"
   ],
   "note": "Correctness, refusal, bounds consistency, independence of what is remembered, and consistency per bin of the upfront strategy for putting items into bins and for loads are proved in full. Consistency per bin of the default strategy and of items elsewhere, and that both strategies infer the same, are refuted (finding 33)."
  },
  {
   "property": "C64",
   "status": "partial",
   "theorems": [
    "C64_smart_table_correct",
    "C64_refused",
    "C64_satisfiable_at_rest",
    "C64_reads_stay_inside",
    "C64_lex_correct",
    "C64_lex_accepted",
    "C64_cycle_refuted",
    "C64_repeated_refuted",
    "C64_view_refuted",
    "C64_different_view_refuted",
    "C64_listed_view_refuted",
    "C64_domain_consistent_refuted",
    "C64_lex_shared_refuted"
   ],
   "note": "Correctness for rows without cycles whose entries can be seen from a listed variable, refusal, satisfiability at rest, safe reads and LexSmartTable on different variables are proved in full. Rows with cycles, entries seen through views only, repeated variables, and domain consistency are refuted (findings 34 to 37)."
  },
  {
   "property": "C65",
   "status": "proved",
   "theorems": [
    "C65_min_distance_correct",
    "C65_refused",
    "C65_forward_at_rest",
    "C65_support_at_rest",
    "C65_matching_at_rest",
    "C65_never_throws",
    "C65_consistent_refuted"
   ],
   "note": "Correctness at all levels, refusal, what holds at rest and the absence of the exception are proved in full. Consistency of all points together is not claimed by the code and is refuted (finding 38)."
  },
  {
   "property": "C66",
   "status": "proved",
   "theorems": [
    "C66_initial_potential",
    "C66_audit_exact",
    "C66_repair",
    "C66_bounds",
    "C66_solutions_closed"
   ],
   "note": "Proved in full for the functions of difference_incremental.cc, and for what its caller makes of the result of a pass."
  },
  {
   "property": "C67",
   "status": "proved",
   "theorems": [
    "C67_first_call",
    "C67_every_call",
    "C67_never_broken",
    "C67_potentials_survive"
   ],
   "note": "Proved in full for the incremental route."
  },
  {
   "property": "C68",
   "status": "proved",
   "theorems": [
    "C68_visits",
    "C68_visits_canonical",
    "C68_heap_order",
    "C68_containment_propagates",
    "C68_containment_sound",
    "C68_containment_economical"
   ],
   "note": "Proved in full for the containment links."
  },
  {
   "property": "C69",
   "status": "proved",
   "theorems": [
    "C69_every_request_answered",
    "C69_cells_reject",
    "C69_wipeout",
    "C69_coverings_sound",
    "C69_cells",
    "C69_defined_once"
   ],
   "note": "Proved in full for the coverings."
  },
  {
   "property": "C70",
   "status": "proved",
   "theorems": [
    "C70_finishes",
    "C70_contradiction",
    "C70_removed_arcs",
    "C70_fixed_conditions",
    "C70_nothing_missed"
   ],
   "note": "Proved in full, without the count of zero cycles."
  }
 ]
}