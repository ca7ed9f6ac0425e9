{"id": "C01", "title": "Integer arithmetic is exact or throws", "statement": "Every arithmetic operation on Integer (+, -, *, /, %, unary minus, ++, --, +=, -=, abs) either returns the mathematically exact result, or throws IntegerOverflow; it throws exactly when the exact result does not fit in 64 bits (or the divisor is zero), and never wraps.", "quantifier": "all pairs of 64-bit values", "why_tests_cant": "2^128 operand pairs; the interesting ones are at the corners of sign and magnitude, and the portable fallback has a separate division-based check per sign quadrant.", "anchors": ["gcs/integer.hh: Integer operators", "gcs/innards/integer_overflow.hh: add_overflows, sub_overflows, mul_overflows"]}
{"id": "C02", "title": "IntervalSet mutators are set operations", "statement": "Starting from an interval set that is a sorted sequence of disjoint non-touching closed intervals, erase, erase_range, erase_less_than, erase_greater_than, clear, intersect_with and in-order insert_at_end produce a set with exactly the expected members, and leave the representation sorted, disjoint and non-touching.", "quantifier": "all well-formed interval sets, all arguments, all sequences of operations", "why_tests_cant": "The number of representations is unbounded, and most branches depend on how an argument sits relative to several interval end points at once.", "anchors": ["gcs/interval_set.hh: erase, erase_range, erase_less_than, erase_greater_than, intersect_with, insert_at_end"]}
{"id": "C03", "title": "IntervalSet queries and iteration agree with membership", "statement": "size, lower, upper, contains, contains_any_of, has_holes, each, each_reversed, each_interval, each_gap, each_gap_interval and each_interval_minus report exactly the members (or non-members between the bounds, or set difference) of the set, in order, each once.", "quantifier": "all well-formed interval sets (pairs of sets for the binary operations)", "why_tests_cant": "Two-cursor merge walks have unboundedly many interleavings of interval end points.", "anchors": ["gcs/interval_set.hh: size, contains, contains_any_of, each, each_gap, each_interval_minus, each_reversed"]}
{"id": "C04", "title": "Appending at or after the current upper bound is safe", "statement": "The documented contract of insert_at_end (value, or lower end, greater than or equal to the current upper bound) is enough for the result to be a well-formed set with the value added.", "quantifier": "all well-formed interval sets and all values satisfying the documented precondition", "why_tests_cant": "The boundary value is permitted by the documentation but no caller in the tests uses it.", "anchors": ["gcs/interval_set.hh: insert_at_end"]}
{"id": "C05", "title": "Views behave as the variable transformed", "statement": "For a variable x, the handles x + c, x - c, -x and any nesting of them, and constants, report as their domain exactly the image of x's domain under the arithmetic expression: bounds, membership, size, holes, unique value, iteration and copies all agree with that image.", "quantifier": "all domains, all views built by any sequence of offset and negate operations", "why_tests_cant": "Every accessor has its own hand-written view adjustment, and negation swaps bounds and reverses intervals.", "anchors": ["gcs/variable_id.cc: operator+, operator-", "gcs/innards/state.cc: deview, lower_bound, upper_bound, bounds, in_domain, copy_of_values, domain_intersects_with, domains_intersect, each_value_immutable, optional_single_value, domain_size"]}
{"id": "C06", "title": "Making an inference keeps exactly the agreeing values", "statement": "Inferring a condition (==, !=, <, >=, in range, not in range) on a variable, view or constant either reports a contradiction exactly when no value of the domain satisfies the condition, or leaves exactly the values which satisfy it, and changes no other variable.", "quantifier": "all states, all variable handles, all six condition kinds and all values", "why_tests_cant": "Each condition kind has separate domain surgery and separate view rewriting; the product is too large to enumerate.", "anchors": ["gcs/innards/state.cc: infer, infer_equal, infer_not_equal, infer_less_than, infer_greater_than_or_equal, infer_in_range, infer_not_in_range, change_state_for_*"]}
{"id": "C07", "title": "The reported kind of change is accurate", "statement": "The classification returned by an inference is right: NoChange exactly when the domain is unchanged, Instantiated exactly when it changed to a single value, BoundsChanged only when a bound moved, InteriorValuesChanged only when both bounds stayed the same.", "quantifier": "all states, all handles, all conditions", "why_tests_cant": "Wake-ups are driven by this classification, so a misreport silently loses propagation on rare domain shapes.", "anchors": ["gcs/innards/state.cc: change_state_for_equal, change_state_for_not_equal, change_state_for_less_than, change_state_for_greater_than_or_equal, change_state_for_not_in_range, change_state_for_in_range"]}
{"id": "C08", "title": "Testing a condition never lies", "statement": "Testing a condition against the current domains answers definitely-true exactly when every remaining value satisfies it, definitely-false exactly when none does, and undecided otherwise; negating a condition complements its meaning and swaps the two definite answers.", "quantifier": "all states with non-empty domains, all conditions constructible through the public factories", "why_tests_cant": "Needs every domain shape against every operator through every view.", "anchors": ["gcs/innards/state.cc: test_literal", "gcs/variable_condition.hh: operator!, in_range, not_in_range", "gcs/innards/literal.cc: is_literally_true_or_false"]}
{"id": "C09", "title": "Backtracking restores everything", "statement": "After new_epoch, any sequence of inferences, guesses, nested epochs and backtracks, backtracking to the returned timestamp restores every domain, every constraint's backtrackable state and the guess list to what they were, and runs each registered on-backtrack action of the undone epochs exactly once.", "quantifier": "all states and all well-nested operation histories", "why_tests_cant": "Histories are unbounded and the restored data is spread over four parallel stacks.", "anchors": ["gcs/innards/state.cc: new_epoch, backtrack, guess, on_backtrack, add_constraint_state"]}
{"id": "C10", "title": "Propagation never loses a solution", "statement": "If every installed propagator only removes values that appear in no solution of its constraint, then propagation to a fixpoint keeps every solution that was present in the domains when it started, and reports failure only if there was none.", "quantifier": "all problems, states, guess lists, and all propagators obeying their contract", "why_tests_cant": "Quantifies over all propagators, schedules and histories.", "anchors": ["gcs/innards/propagators.cc: Propagators::propagate", "gcs/innards/inference_tracker.hh: track_impl, record_firing_inference"]}
{"id": "C11", "title": "Propagation always terminates", "statement": "Propagation finishes for every finite problem: the number of propagator executions is bounded by a function of the number of propagators and the total number of domain values.", "quantifier": "all problems, states and propagators", "why_tests_cant": "A divergence would show up as a hang on some unlucky schedule.", "anchors": ["gcs/innards/propagators.cc: Propagators::propagate"]}
{"id": "C12", "title": "No lost wake-ups from ordinary triggers", "statement": "When propagation reports success, every propagator that is neither disabled nor retired is at its own fixpoint for the current domains: it was run, or not woken, only when its declared triggers and its idempotence claim entitle the engine to skip it.", "quantifier": "all problems using change, bounds and instantiation triggers, all claims of idempotence that are true, all schedules, all sequences of guesses and backtracks", "why_tests_cant": "Lost wake-ups depend on the interleaving of runs, claims, and the per-round replay.", "anchors": ["gcs/innards/propagators.cc: propagate, enqueue_if_idle, requeue, requeue_unless_already_seen", "gcs/innards/propagators-fwd.hh: PropagatorState"]}
{"id": "C13", "title": "No lost wake-ups from condition watches", "statement": "A propagator that watches a condition is woken, and told which watch fired, whenever the condition becomes true during propagation, regardless of which other propagator made it true and of what that propagator returned.", "quantifier": "all problems mixing condition watches with other propagators, all schedules", "why_tests_cant": "Only shows when a watch becomes true in a round in which some other propagator claimed idempotence.", "anchors": ["gcs/innards/propagators.cc: requeue, requeue_unless_already_seen, propagate"]}
{"id": "C14", "title": "Disabling is scoped to the subtree", "statement": "A propagator that asks to be disabled until backtrack is not run again below that node, and is eligible again, with its wake-ups working, as soon as search backtracks above the node where it asked; a permanently retired propagator never runs again.", "quantifier": "all schedules of runs, disables, guesses and backtracks", "why_tests_cant": "The queue is one array with four regions whose boundaries are moved by swaps and restored by callbacks.", "anchors": ["gcs/innards/propagators.cc: propagate, disable_propagators_for_constraints"]}
{"id": "C15", "title": "Every reported solution satisfies every constraint", "statement": "Each assignment passed to the solution callback gives every problem variable a value from its declared domain and satisfies every posted constraint.", "quantifier": "all problems built from the modelled constraints, all branching heuristics that keep splitting until the variables of the constraints are fixed, all callbacks", "why_tests_cant": "Needs all problems and all search orders.", "anchors": ["gcs/solve.cc: solve_with_state, solve_with"]}
{"id": "C16", "title": "Enumeration is complete and duplicate-free", "statement": "When a search without an objective runs to completion, each solution of the problem is passed to the callback exactly once.", "quantifier": "all problems, all exhaustive branching heuristics", "why_tests_cant": "Needs all problems; a lost subtree looks like a legitimately smaller answer.", "anchors": ["gcs/solve.cc: solve_with_state, solve_with"]}
{"id": "C17", "title": "Optimisation ends at an optimum", "statement": "When a search with an objective runs to completion, each reported solution is strictly better than the previous one, the last one is optimal, and if none is reported there is no solution.", "quantifier": "all problems with an objective, minimising or maximising, all exhaustive branching heuristics", "why_tests_cant": "Needs all problems and search orders.", "anchors": ["gcs/solve.cc: solve_with_state", "gcs/problem.cc: minimise, maximise"]}
{"id": "C18", "title": "Stopping early is honoured and is not reported as completion", "statement": "If the solution or trace callback returns false, no further solution is reported and the completed callback is not called; the completed callback is called exactly when the search space was exhausted.", "quantifier": "all problems and all callback behaviours", "why_tests_cant": "Callback decisions may happen at any node of any tree.", "anchors": ["gcs/solve.cc: solve_with_state, solve_with"]}
{"id": "C19", "title": "Restarts lose and duplicate nothing", "statement": "With restarts enabled, what is learned from the abandoned part of the tree excludes only regions that were completely explored, so that search over all passes reports each solution exactly once and still terminates with the same verdict.", "quantifier": "all problems, all restart schedules, all points at which a cutoff may fall", "why_tests_cant": "The cutoff can fall at any node, and the learned condition drops some decisions on the path.", "anchors": ["gcs/solve.cc: solve_with_state, solve_with", "gcs/constraints/nogoods/nogoods.cc"]}
{"id": "C20", "title": "The restart schedule is the Luby sequence", "statement": "The i-th cutoff is the i-th term of the Luby sequence times the scale, every term is a power of two, and the cutoffs exceed any bound, so that some pass has a cutoff larger than any given tree.", "quantifier": "all positions in the schedule and all scales", "why_tests_cant": "The sequence is infinite.", "anchors": ["gcs/restarts.cc: luby_term, RestartSchedule"]}
{"id": "C21", "title": "Branching heuristics partition the choices", "statement": "Each provided value ordering yields conditions such that every value of the chosen variable's domain satisfies exactly one of them and each condition strictly shrinks the domain; each provided variable ordering picks an unassigned variable from its list, and picks none exactly when all are assigned.", "quantifier": "all domains with at least two values, all random draws", "why_tests_cant": "All domain shapes and all random seeds.", "anchors": ["gcs/search_heuristics.cc: value_order::*, variable_order::*, branch_with, branch_sequence"]}
{"id": "C22", "title": "Expressions mean what they say", "statement": "Weighted sums built with the expression operators, and conditions built with the comparison operators, evaluate to the arithmetic value of the expression they were written as.", "quantifier": "all expressions", "why_tests_cant": "Unbounded expression shapes.", "anchors": ["gcs/expression.hh", "gcs/variable_condition.hh: operator<, operator<=, operator>, operator>="]}
{"id": "C23", "title": "Comparison constraints are enforced exactly", "statement": "LessThan, LessThanEqual and their greater-than counterparts (and reified forms) remove only values in no solution, and accept a full assignment exactly when the comparison holds.", "quantifier": "all domains of the two variables and the control condition", "why_tests_cant": "All domain shapes.", "anchors": ["gcs/constraints/comparison/comparison.cc"]}
{"id": "C24", "title": "Equality and disequality constraints are enforced exactly", "statement": "Equals, NotEquals and their reified forms remove only values in no solution and accept a full assignment exactly when the relation holds.", "quantifier": "all domains", "why_tests_cant": "All domain shapes.", "anchors": ["gcs/constraints/equals/equals.cc"]}
{"id": "C25", "title": "Plus and Minus are enforced exactly and claim idempotence truthfully", "statement": "a + b = result (and a - b = result) propagation removes only values in no solution, rejects every violating full assignment, reaches bounds consistency, and re-running it immediately would change nothing.", "quantifier": "all domains and all variable handles whose underlying variables are distinct", "why_tests_cant": "The loop-to-fixpoint has unboundedly many steps.", "anchors": ["gcs/constraints/plus_minus/plus.cc", "gcs/constraints/plus_minus/minus.cc"]}
{"id": "C26", "title": "Abs is enforced exactly", "statement": "Abs removes only values in no solution and rejects every violating full assignment.", "quantifier": "all domains", "why_tests_cant": "All domain shapes around zero.", "anchors": ["gcs/constraints/abs/abs.cc"]}
{"id": "C27", "title": "Linear constraints are enforced exactly", "statement": "Linear inequality and equality propagation removes only values in no solution, rejects every violating full assignment, and simplification of the terms (merging duplicates, dropping zeros, moving constants) preserves the set of solutions.", "quantifier": "all coefficient vectors and domains", "why_tests_cant": "Unboundedly many terms and coefficients.", "anchors": ["gcs/constraints/linear/propagate.cc", "gcs/constraints/linear/utils.cc"]}
{"id": "C28", "title": "AllDifferent is enforced exactly", "statement": "All-different propagation removes only values in no solution and rejects every full assignment with a repeat.", "quantifier": "all numbers of variables and domains", "why_tests_cant": "Unbounded.", "anchors": ["gcs/constraints/all_different/vc_all_different.cc", "gcs/constraints/all_different/gac_all_different.cc", "gcs/constraints/all_different/all_different_except.cc"]}
{"id": "C29", "title": "Table constraints are enforced exactly", "statement": "Posting a table restricts solutions to exactly the assignments that match one of its tuples (wildcards match anything), throws exactly for tuples of the wrong length, and each run leaves exactly the supported values, whatever supports it remembers from earlier. Negative tables reject exactly the assignments that match a forbidden tuple.", "quantifier": "all tables and domains", "why_tests_cant": "Unbounded.", "anchors": ["gcs/constraints/extensional_utils.cc", "gcs/constraints/table/table.cc", "gcs/constraints/table/negative_table.cc"]}
{"id": "C30", "title": "Element, counting and extremum constraints are enforced exactly", "statement": "Element, Count, Among, Min and Max propagation removes only values in no solution and rejects every violating full assignment.", "quantifier": "all arrays and domains", "why_tests_cant": "Unbounded.", "anchors": ["gcs/constraints/element/element.cc", "gcs/constraints/count/count.cc", "gcs/constraints/among/among.cc", "gcs/constraints/min_max/min_max.cc"]}
{"id": "C31", "title": "Logical constraints are enforced exactly", "statement": "And and Or over conditions (with a reification condition) remove only values in no solution and reject every violating full assignment.", "quantifier": "all lists of conditions and domains", "why_tests_cant": "Unbounded.", "anchors": ["gcs/constraints/logical/logical.cc"]}
{"id": "C32", "title": "Learned nogoods are enforced exactly", "statement": "The nogood store removes a value only when all other conditions of some nogood hold, and rejects every assignment satisfying all conditions of some nogood.", "quantifier": "all stores and domains", "why_tests_cant": "Unbounded.", "anchors": ["gcs/constraints/nogoods/nogoods.cc"]}
{"id": "C33", "title": "The binary encoding of a variable is a bijection on its domain", "statement": "The bit weights chosen for a variable with bounds [lower, upper] represent every value in the bounds exactly once.", "quantifier": "all pairs of bounds", "why_tests_cant": "2^128 pairs.", "anchors": ["gcs/innards/proofs/bits_encoding.cc"]}
{"id": "C34", "title": "Reified inequalities in the emitted model mean the implication", "statement": "The pseudo-Boolean row written for 'if these conditions hold then this linear inequality holds' is satisfied by exactly the assignments that satisfy the implication.", "quantifier": "all coefficient vectors, right-hand sides, and sets of reification conditions", "why_tests_cant": "Unbounded.", "anchors": ["gcs/innards/proofs/emit_inequality_to.cc", "gcs/innards/proofs/simplify_literal.cc"]}
{"id": "C35", "title": "S-expressions round-trip", "statement": "Printing an s-expression and parsing the text gives back the same s-expression.", "quantifier": "all s-expressions with legal atoms", "why_tests_cant": "Unbounded nesting.", "anchors": ["gcs/innards/s_expr.cc"]}
{"id": "C36", "title": "Integer powers are exact or refused", "statement": "Raising an integer to an integer power gives the exact result, or 1 div base^|exp| for a negative exponent, or is refused exactly when the result is undefined or does not fit in 64 bits.", "quantifier": "all 64-bit bases and exponents", "why_tests_cant": "2^128 pairs; the square-and-multiply loop may overflow in an intermediate that is not needed.", "anchors": ["gcs/innards/power.cc: power2, checked_integer_power"]}
{"id": "C37", "title": "Backtracking restores the watch bookkeeping", "statement": "Whatever happened below a node, when search returns to it the armed condition watches, the backtrackable scratch values of every propagator, the domains, the constraint states and the pending backtracking actions are what they were, and no stale notification is left to be delivered.", "quantifier": "all sequences of propagation, guessing and backtracking, all edits propagators make to their watches", "why_tests_cant": "depends on unbounded histories of arming, firing, clearing and undoing", "anchors": ["gcs/innards/propagators.cc:propagate", "gcs/innards/propagators.cc:RefinedWatchContext", "gcs/innards/state.cc:backtrack"]}
{"id": "C38", "title": "The emitted pseudo-Boolean model has exactly the problem's solutions", "statement": "Read as values for the variables, the solutions of the rows written to the model file (variable bounds, condition and view definitions, constraint rows) are exactly the assignments within bounds that satisfy every declared constraint, and the objective line orders them as the objective variable does.", "quantifier": "all sets of variables, views, named conditions, flags and constraint rows, in either Boolean encoding, and all assignments", "why_tests_cant": "A proof checked against a model with an extra or a missing solution certifies the wrong statement, and no run of the solver shows it; the claim is over all models and all assignments.", "anchors": ["gcs/innards/proofs/proof_model.cc", "gcs/innards/proofs/names_and_ids_tracker.cc: need_gevar, need_direct_encoding_for, need_view, reify"]}
{"id": "C39", "title": "AllDifferent removes everything that can be removed", "statement": "When AllDifferent or AllDifferentExcept has nothing more to do, each remaining value of each variable is part of some assignment, from the remaining values, that satisfies the constraint.", "quantifier": "all numbers of variables, domains and excluded values, and every run of the propagator", "why_tests_cant": "Needs matching theory over graphs of any size; missing prunings never show up as wrong solutions.", "anchors": ["gcs/constraints/all_different/gac_all_different.cc", "gcs/constraints/all_different/all_different.cc", "gcs/constraints/all_different/all_different_except.cc"]}
{"id": "C40", "title": "AllEqual means that all the values are the same", "statement": "Posting AllEqual over any list of variables allows exactly the assignments in which they all have the same value: none of those is ever removed, and no other assignment is reported. When it has nothing more to do each remaining value of each variable is part of such an assignment.", "quantifier": "all numbers of variables, domains with or without gaps, views and repeated variables, and every moment of a search at which the propagator runs", "why_tests_cant": "The wrong answers depend on the shapes of the domains at the moment the propagator disables itself.", "anchors": ["gcs/constraints/all_equal/all_equal.cc"]}
{"id": "C41", "title": "Increasing and Decreasing chains", "statement": "Increasing, StrictlyIncreasing, Decreasing and StrictlyDecreasing allow exactly the assignments in which each value is less than, at most, greater than or at least every later one, and remove every value that is part of no such assignment.", "quantifier": "all numbers of variables, domains, views and repeated variables, and every run of the propagator", "why_tests_cant": "The sweeps over the bounds act on chains of any length.", "anchors": ["gcs/constraints/increasing/increasing.cc", "gcs/constraints/increasing/increasing.hh"]}
{"id": "C42", "title": "NValue and AtMostOne", "statement": "NValue allows exactly the assignments in which its first variable is the number of different values of the others. AtMostOne allows exactly those in which at most one position of the list has the given value. The count and the value may be among the variables.", "quantifier": "all numbers of variables, domains, views and repeated variables", "why_tests_cant": "Quantifies over every way in which the variables may overlap and every partial assignment.", "anchors": ["gcs/constraints/n_value/n_value.cc", "gcs/constraints/at_most_one/at_most_one.cc"]}
{"id": "C43", "title": "Parity", "statement": "ParityOdd allows exactly the assignments in which an odd number of its conditions holds, even if several conditions are about the same variable.", "quantifier": "all lists of conditions and all domains", "why_tests_cant": "Quantifies over every partial assignment and every overlap of conditions.", "anchors": ["gcs/constraints/parity/parity.cc"]}
{"id": "C44", "title": "Inverse", "statement": "Inverse over two lists, each counted from a given number, allows exactly the assignments in which each value of either list is a position of the other whose value refers back, and removes every value that is part of no such assignment. It is refused only if there are none.", "quantifier": "all lengths, starting numbers, domains, views and repeated variables, and every run of the propagator", "why_tests_cant": "The propagator alternates channelling and matching until nothing changes; completeness needs matching theory for lists of any length.", "anchors": ["gcs/constraints/inverse/inverse.cc"]}
{"id": "C45", "title": "SymmetricAllDifferent", "statement": "SymmetricAllDifferent allows exactly the assignments in which each value is a position of the list whose value refers back.", "quantifier": "all lengths, starting numbers, domains, views and repeated variables", "why_tests_cant": "Quantifies over every partial assignment and every overlap of variables.", "anchors": ["gcs/constraints/all_different/symmetric_all_different.cc"]}
{"id": "C46", "title": "Value precedence", "statement": "ValuePrecede allows exactly the assignments in which each occurrence of a value of the chain comes after an occurrence of its predecessor in the chain. SeqPrecedeChain allows exactly those in which each occurrence of a value above 1 comes after an occurrence of the value below it.", "quantifier": "all chains, including ones with repeated values, all lists of variables, domains, views and repeated variables", "why_tests_cant": "The propagators disable themselves for the rest of a branch, so that a mistake shows only for particular histories.", "anchors": ["gcs/constraints/value_precede/value_precede.cc", "gcs/constraints/seq_precede_chain/seq_precede_chain.cc"]}
{"id": "C47", "title": "Lexicographic comparison", "statement": "LexLessThan, LexLessThanEqual, LexGreaterThan and LexGreaterEqual allow exactly the assignments for which the two lists compare so in the dictionary order, also under a condition or as the definition of one; once a run has nothing to infer, every value left is part of such an assignment.", "quantifier": "all lengths, which need not be equal, domains, views, repeated variables and conditions, and every history of the branch", "why_tests_cant": "How far the lists agree is remembered along the branch; a mistake there shows only for particular histories.", "anchors": ["gcs/constraints/lex/lex.cc", "gcs/constraints/innards/reified_dispatcher.hh"]}
{"id": "C48", "title": "Tabulated arithmetic", "statement": "Plus, Minus and linear equalities have the same solutions whether or not they are turned into a table; where they are, one run of the table's propagator leaves only values that belong to a solution of the constraint.", "quantifier": "all consistency levels, thresholds, domains, coefficients, conditions, views and repeated variables", "why_tests_cant": "One value of each tuple is computed by division instead of being tried, and which one depends on the sizes of the domains.", "anchors": ["gcs/constraints/innards/tabulation.cc", "gcs/constraints/plus_minus/plus.cc", "gcs/constraints/plus_minus/minus.cc", "gcs/constraints/linear/linear_equality.cc"]}
{"id": "C49", "title": "Multiplication", "statement": "Multiply accepts exactly the assignments in which the result is the product of the operands, at each level of consistency, with constants, views, squares and repeated variables; without a table, after a run the bounds are within what the others allow; with one, every value left belongs to a solution.", "quantifier": "all domains, signs, handles, thresholds and consistency levels", "why_tests_cant": "Bounds of quotients by intervals that contain zero, and rounding of negative quotients and of square roots, have many cases, and few of them arise in any one test.", "anchors": ["gcs/constraints/multiply/multiply.cc", "gcs/constraints/multiply/signed_multiply.cc", "gcs/constraints/innards/product_bounds.hh"]}
{"id": "C50", "title": "Division and remainder", "statement": "Divide accepts exactly the assignments in which the divisor is not zero and the quotient is that of the dividend by the divisor, rounded towards zero; Modulus does the same for the remainder, which has the sign of the dividend; at each level of consistency, for all signs, constants, views and repeated variables. With a table, every value left belongs to a solution; without one, a run leaves nothing for another to do.", "quantifier": "all domains, signs, handles, thresholds and consistency levels", "why_tests_cant": "Which bound follows from which depends on the signs of the dividend, the divisor and the result, each of which may be open, and on where the divisor's domain straddles zero.", "anchors": ["gcs/constraints/divide_modulus/divide_modulus.cc", "gcs/constraints/innards/linear_stages.cc"]}
{"id": "C51", "title": "Words of an automaton", "statement": "Regular accepts exactly the assignments whose values, in order, are a word that the automaton accepts from state 0, for deterministic and nondeterministic automata given as transitions, maps or a table in which -1 means no transition. If no variable occurs twice, then after each propagation every remaining value belongs to an accepted word of remaining values, however the search went back and forth before.", "quantifier": "all automata, domains, handles and histories of the graph", "why_tests_cant": "The propagator repairs a graph left behind by earlier runs, edge by edge, in both directions; whether an edge was missed shows only for particular automata and orders of removal.", "anchors": ["gcs/constraints/regular/regular.cc"]}
{"id": "C52", "title": "Paths of a decision diagram", "statement": "MDD accepts exactly the assignments whose values lead from the root to an accepting terminal, is refused exactly if its sizes do not fit, and propagates as C51.", "quantifier": "all diagrams, domains, handles and histories of the graph", "why_tests_cant": "As C51.", "anchors": ["gcs/constraints/mdd/mdd.cc"]}
{"id": "C53", "title": "Words of a regular expression", "statement": "Regular over an expression accepts exactly the assignments whose values the expression matches, with literals, classes, negated classes, the wildcard, juxtaposition, alternatives and repetitions read as usual, whatever the initial domains. A text is refused exactly if it is not a well-formed expression, a text never has two readings with different words, and the automaton and the reference matcher agree with it.", "quantifier": "all texts, alphabets, words, domains and handles", "why_tests_cant": "A parser, an automaton construction and the removal of silent moves come together here; a wrong precedence, or a lost transition, shows only for particular nestings of operators.", "anchors": ["gcs/constraints/regular/regex.cc", "gcs/constraints/regular/regular.cc"]}
{"id": "C54", "title": "Powers", "statement": "Power(x, k, z) accepts exactly the assignments in which z is x to the k, where a negative power is rounded towards zero and zero has no negative powers, for every sign and size of the exponent, constant or variable, at every consistency level, and whatever variables the handles share. The checked power of an integer is exact whenever the power fits, and refused otherwise. Tabulated, or with a variable exponent, only values that belong to a solution are left.", "quantifier": "all domains, handles, exponents and consistency levels", "why_tests_cant": "The algorithm differs for constant bases, exponents 0 and 1, negative, large and other exponents, and works by a chain of multiplications over clamped variables; overflow depends on the exact operands.", "anchors": ["gcs/innards/power.cc", "gcs/constraints/power/power.cc", "gcs/constraints/power/power_table.cc"]}
{"id": "C55", "title": "Global cardinality", "statement": "GlobalCardinality with bounds consistency accepts exactly the assignments in which each count is the number of variables that take its value and, if it is closed, only values in the cover are taken, provided the values in the cover differ; in which order they are listed does not matter. Once its propagator has nothing more to infer, Hall's conditions on the counts and the variables hold for the values in every interval, and after the propagator for closed covers only values in the cover are left.", "quantifier": "all domains, covers, counts and handles, repeated or shared ones included", "why_tests_cant": "The propagator goes on using numbers it has read before its own inferences changed them, for every pair of ends of an interval; a bound that is off by one removes a solution only when a set of variables is exactly tight.", "anchors": ["gcs/constraints/global_cardinality/global_cardinality.cc", "gcs/constraints/global_cardinality/bounds_global_cardinality.cc: propagate_bounds_global_cardinality"]}
{"id": "C56", "title": "Circuit, preventing short cycles", "statement": "Circuit with the Prevent algorithm accepts exactly the assignments in which following the successors from any node leads to every node, that is, in which the nodes can be listed so that each is followed by its successor and the last by the first; the constructor only throws if there is no such assignment. After every run, no successor can take the value of one that is fixed, and every cycle through some but not all nodes, other than from a node to itself, that an assignment left has needs two successors that are not fixed yet.", "quantifier": "all domains, successor lists and handles, with any search and backtracking in between", "why_tests_cant": "The chains are kept in arrays that every newly fixed successor updates and backtracking restores, and both phases feed each other; whether the arrays still describe the chains depends on the history of the search.", "anchors": ["gcs/constraints/circuit/circuit.cc", "gcs/constraints/circuit/circuit_prevent.cc: propagate_circuit_using_prevent, prevent_small_cycles_incrementally"]}
{"id": "C57", "title": "Circuit, with strongly connected components", "statement": "Circuit with its default algorithm, and any of the options for pruning on or off, accepts exactly the assignments in which following the successors from any node leads to every node, and the constructor only throws if there is none. A run that ends without a contradiction was given domains in which every node leads to every other, and leaves no cycle through some but not all nodes that a single successor, not fixed by the run, would close. Every run returns.", "quantifier": "all domains, non-empty successor lists, handles and options, with any search and backtracking in between", "why_tests_cant": "The pruning rules rest on visit numbers and lowest links kept across a recursive exploration of a graph that the rules themselves change; whether the loop that follows fixed successors ends depends on what they have fixed.", "anchors": ["gcs/constraints/circuit/circuit.cc", "gcs/constraints/circuit/circuit_scc.cc: explore, check_sccs, propagate_circuit_using_scc", "gcs/constraints/circuit/circuit_base.cc: prevent_small_cycles"]}
{"id": "C58", "title": "Rectangles that do not overlap", "statement": "The two-dimensional disjunctive constraint accepts exactly the assignments in which any two rectangles are beside or above each other, where unless it is strict those without an area are left out: no cell is then in two rectangles. The constructor throws exactly for lists of different lengths or a negative constant size. When there is nothing more to infer, no two rectangles must take the same cell, and of two that must take the same column neither, put at either end of where it may go, takes a row the other must take; and the other way round.", "quantifier": "all domains, lists of positions and sizes that are not negative, whether variables, views or constants and whatever they share, strict or not, with any search and backtracking in between", "why_tests_cant": "Sizes may be variables that reach zero, rectangles are left out according to the bounds when posting, and the pushes on one axis follow from compulsory parts on the other, which tests sample for few rectangles.", "anchors": ["gcs/constraints/disjunctive_2d/disjunctive_2d.cc: Disjunctive2D, prepare, install_propagators"]}
{"id": "C59", "title": "Sorting", "statement": "The sort constraint accepts exactly the assignments in which the second list has the values of the first, each as often, in order. The constructor throws exactly for lists of different lengths. The propagator never throws, whatever the bounds: the explanations it looks for always exist. One run of it finds either that no values between the bounds will do, or for every handle the best bounds there are, and when there is nothing more to infer each bound of each handle belongs to values between the bounds that satisfy the constraint.", "quantifier": "all domains, lists of handles of any length, whatever variables they share, with any search and backtracking in between", "why_tests_cant": "The greedy matchings and strongly connected components give best bounds by a theorem about convex graphs, and the search for the explanation of each bound relies on one existing. The code says that this has been checked on random cases; only a proof covers all bounds.", "anchors": ["gcs/constraints/sort/sort.cc: Sort, propagate_sortedness, install_sortedness_propagator"]}
{"id": "C60", "title": "Global cardinality with generalised arc consistency", "statement": "With generalised arc consistency, global cardinality accepts exactly the assignments in which each value of the cover is taken as often as its count says, and, if closed, no other value is taken. When there is nothing more to infer, every remaining value of every variable belongs to values for all variables such that each value of the cover is taken a number of times between the bounds of its count. The propagator never throws for want of an explanation. The flow it uses is always found, and is the largest there is.", "quantifier": "all domains, variables, covers with different values (in order unless closed), and counts, with any search and backtracking in between; the last two for every cover", "why_tests_cant": "The pruning rests on the theory of flows with lower bounds and of strongly connected components of the residual graph, and each failure has to come with a violated set of values that a heuristic closure finds. Tests sample small covers.", "anchors": ["gcs/constraints/global_cardinality/gac_global_cardinality.cc", "gcs/constraints/global_cardinality/global_cardinality.cc: GlobalCardinality"]}
{"id": "C61", "title": "Sorting permutations", "statement": "ArgSort accepts exactly the assignments in which the second list names the indices of the first, each once, in the order of their elements, with ties broken by position. Posting throws exactly if the lists have different lengths. The variables it creates for the sorted elements neither add nor remove solutions. An index is removed from a position exactly if no elements between their bounds put it there, and the reason that is given for that is right. When there is nothing more to infer the positions should be bounds consistent.", "quantifier": "all offsets, domains and lists of variables, views and constants, with any search and backtracking in between", "why_tests_cant": "The ranks an element can have are found by trying a few values between its bounds, and ties leave holes among them. Whether the values tried are enough, and whether a threshold exists for each hole, has to be shown for all bounds.", "anchors": ["gcs/constraints/sort/arg_sort.cc", "gcs/constraints/sort/arg_sort.hh: ArgSort", "gcs/constraints/sort/sort.cc"]}
{"id": "C62", "title": "Knapsacks", "statement": "Knapsack accepts exactly the assignments in which each total is the sum of the items times their coefficients. A single run makes all inferences there are: it fails exactly if no solution is left, and otherwise each value left to an item or a total belongs to a solution. The two proof strategies infer the same and accept the same problems; a problem is turned down exactly if it has no row, not as many rows as totals, rows of different lengths, a negative coefficient, or not as many coefficients as items.", "quantifier": "all coefficients that are not negative, numbers of rows, domains without negative values (holes included) and lists of variables, views and constants", "why_tests_cant": "A dynamic programme goes forward over the items, dropping values as it goes, then back, and only then looks at totals. Whether one round is enough, and whether a graph built before the search begins has all the nodes that are needed later, depends on every combination of domains.", "anchors": ["gcs/constraints/knapsack/knapsack.cc", "gcs/constraints/knapsack/knapsack_upfront.cc", "gcs/constraints/knapsack/knapsack.hh: Knapsack", "dev_docs/knapsack.md"]}
{"id": "C63", "title": "Bin packing", "statement": "BinPacking accepts exactly the assignments that put each item into one of the bins so that what is in each bin adds up to its load, or to no more than its capacity. When it has nothing left to infer, loads and items agree with the least and the most that can be in a bin; and with generalised arc consistency, the default, each value left to an item or a load goes with each bin taken alone, whichever of the two proof strategies is used. What the default strategy remembers between calls does not change what it infers. It is turned down exactly if not every item has a size, a size or capacity is negative, or there is no bin.", "quantifier": "all sizes and capacities that are not negative, numbers of bins, domains (holes included), lists of variables, views and constants, and histories of earlier calls", "why_tests_cant": "The bounds pass, the graph built in advance, and the graph that is swept again from the first change to the last each cut off different values; whether what is left has a solution per bin depends on every combination of domains, and whether remembered layers are still right depends on every history of calls.", "anchors": ["gcs/constraints/bin_packing/bin_packing.cc: run_stage2, propagate_bin, run_stage3_for_bin, build_fwd_dag", "gcs/constraints/bin_packing/bin_packing.hh: BinPacking", "dev_docs/bin-packing.md"]}
{"id": "C64", "title": "Smart tables", "statement": "SmartTable accepts exactly the assignments under which every entry of at least one row holds, where an entry compares two variables, or a variable with a value, or says that a variable is in a set or not. When it has nothing left to infer some row can still be satisfied, and every value left to a variable is in a solution. It never reads the end of an empty list of values. It is turned down exactly if an entry compares a variable with itself, or is about a constant or an unlisted variable. LexSmartTable accepts exactly the assignments under which its first list is lexicographically greater than its second.", "quantifier": "all lists of variables, rows, domains (holes included), and orders in which a hash table goes through the variables of a row", "why_tests_cant": "Each row is turned into trees whose roots depend on the iteration order of a hash table, and two filtering passes share maps of values; whether they agree with the rows depends on every shape of row, every order and every combination of domains.", "anchors": ["gcs/constraints/smart_table/smart_table.cc: build_tree, filter_edge, filter_and_check_valid, filter_again_and_remove_supported, propagate_using_smart_str", "gcs/constraints/lex/lex_smart_table.cc: LexSmartTable"]}
{"id": "C65", "title": "Least distance between selected sites", "statement": "MinDistance accepts, at each of its levels of propagation, exactly the assignments that put each point on a site, with every pair of points at least as far apart as is required of it, and with the variable for the least distance equal to the least distance between two points. When it has nothing left to infer, a pair can be as far apart as the greatest value of that variable, and values of pairs support each other to the degree that the level promises; at the levels with matching, the sites that are left after a maximal matching of those too near each other are enough. The exception for a missing guard is never thrown. It is turned down exactly if there are fewer than two points or a matrix is not of the right form.", "quantifier": "all matrices of distances and requirements, lists of points (views, constants and repeated variables included), levels, domains and states", "why_tests_cant": "The matching bound depends on a binary search over levels that is not monotone, on the order in which a matching is built and on the sites that are left; whether it cuts off a solution, or runs into the exception that is claimed to be unreachable, is a question about every matrix and every state.", "anchors": ["gcs/constraints/min_distance/min_distance.cc:MinDistance::prepare", "gcs/constraints/min_distance/min_distance.cc:MinDistance::install_propagators", "gcs/constraints/min_distance/min_distance.cc:install_forward_propagator", "gcs/constraints/min_distance/min_distance.cc:install_matching_propagator"]}
{"id": "C66", "title": "Algorithms of difference logic", "statement": "For differences x - y <= d, the first computation returns a potential if and only if some values satisfy all differences. When a difference is added, the repair returns a potential for all of them, or reports failure, and leaves the potential as it was, only if no values satisfy them. A pass over bounds, given a potential and the record of what earlier passes did, never throws, infers exactly the least bounds that no difference tightens, gives each inference after the one that it depends on, and leaves a record that is right for the next pass. All end, and leave their workspaces clean.", "quantifier": "all graphs (parallel arcs and loops included), flags that say which arcs are in the graph, potentials, bounds, records of earlier passes, forced nodes and leftover contents of the workspaces", "why_tests_cant": "A lost inference is invisible: every answer is still right and every proof still checks, so only the comparison with a least fixed point over every history shows it. Early termination, stale heap entries and the gate each depend on an invariant over all arcs.", "anchors": ["gcs/constraints/difference/difference_incremental.cc:difference_initial_potential", "gcs/constraints/difference/difference_incremental.cc:difference_invalid_potential_arc", "gcs/constraints/difference/difference_incremental.cc:difference_repair_potential", "gcs/constraints/difference/difference_incremental.cc:difference_incremental_bounds"]}
{"id": "C67", "title": "Difference logic loses nothing over a search", "statement": "However a search has gone until now - guesses, changes of domains by other constraints, conditions of differences that came to hold, calls of the propagator that ended in a contradiction at any point, backtracks over any number of guesses - the next call of the incremental difference propagator infers exactly the least bounds that the differences in force imply from the current ones, each justified by one difference and the bounds before it, or reports a negative cycle, and then no values satisfy the differences. It never throws.", "quantifier": "all graphs, conditions, bounds, and all finite sequences of guesses, domain changes, calls, contradictions and backtracks", "why_tests_cant": "The record of what was propagated is restored lazily from an undo trail of which only the length is kept by the solver, and the potential is never restored at all. An error shows only after particular sequences of guesses and backtracks, and only as propagation that is missing, which no solution count and no proof reveals.", "anchors": ["gcs/constraints/difference/difference_graph.cc:run_incremental", "gcs/constraints/difference/difference_graph.cc:DifferencePropagatorMemory", "gcs/constraints/difference/difference_graph.cc:DifferenceTrailEntry", "gcs/constraints/difference/difference_graph.cc:install_difference_propagator"]}
{"id": "C68", "title": "Range literals are linked to all that they contain", "statement": "In whatever order the range and equality literals of a variable are introduced into a proof, the clauses written between them let unit propagation reject every literal inside a rejected one, and accept every literal around an accepted one. Each clause is true of every value, is about literals that were defined, and was needed when it was written, as no other literal lay between. Finding the literals visits exactly the stored intervals around or inside the one asked for, once each and in order, whatever was inserted before and whatever the priorities.", "quantifier": "all sequences of definitions of range and equality literals, all intervals, all priorities", "why_tests_cant": "A clause that is missing shows only in a later proof step that fails to check, for particular orders of definition; the set of intervals prunes by bounds that must be kept through every rotation.", "anchors": ["gcs/innards/interval_tree.hh:IntervalTree", "gcs/innards/proofs/names_and_ids_tracker.cc:NamesAndIDsTracker::link_immediate_containment", "gcs/innards/proofs/names_and_ids_tracker.cc:NamesAndIDsTracker::define_plain_invar", "gcs/innards/proofs/names_and_ids_tracker.cc:NamesAndIDsTracker::need_direct_encoding_for"]}
{"id": "C69", "title": "Range literals are covered by the cells they span", "statement": "In whatever order equality and range literals of a variable are asked for in a proof, each request is answered by a literal that exists. Rejecting the present cells inside a range literal rejects the range literal by unit propagation, however often the cells were split since; rejecting all cells is a conflict. Each clause written for this is true of every value within the bounds and mentions only literals that were defined. The cells make up the range of the variable, and each equality literal within the bounds is a cell. No literal is defined twice.", "quantifier": "all bounds, all sequences of requests for equality and range literals", "why_tests_cant": "The cells are refined in place while older clauses are never revisited, and defining a cell of one value re-enters the refinement. Whether a proof step checks depends on clauses written long before, in an order that tests do not reach.", "anchors": ["gcs/innards/proofs/names_and_ids_tracker.cc:NamesAndIDsTracker::need_invar", "gcs/innards/proofs/names_and_ids_tracker.cc:NamesAndIDsTracker::init_interval_partition", "gcs/innards/proofs/names_and_ids_tracker.cc:NamesAndIDsTracker::ensure_partition_cut", "gcs/innards/proofs/names_and_ids_tracker.cc:NamesAndIDsTracker::need_direct_encoding_for"]}
{"id": "C70", "title": "Simplifying difference constraints at the root changes nothing", "statement": "Simplification of the difference constraints before search terminates. It reports a contradiction exactly if the unconditional differences have no solution. Each difference that it removes, conditional or not, follows from the unconditional ones that are kept, so that no bound is lost. Each condition that it makes false comes with a path of unconditional differences that forms a negative cycle with the conditional one, so the condition is false in every solution. Nothing is missed: no kept difference is longer than a path of unconditional ones, no two kept unconditional ones are equal, and every condition with such a cycle is made false.", "quantifier": "all graphs, all roles of their arcs", "why_tests_cant": "Equal and parallel arcs and cycles of weight zero decide which arcs may be removed together: each may be redundant while all are not. Tests see few such graphs.", "anchors": ["gcs/constraints/difference/difference_simplify.cc:simplify_difference_graph", "gcs/constraints/difference/difference_simplify.hh:DifferenceSimplifyOutcome", "gcs/constraints/difference/difference_simplify.hh:DifferenceSimplifyRole"]}
