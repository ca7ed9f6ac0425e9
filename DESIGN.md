# Design of the formal model

The model is written in Rocq (Coq 8.16.1) under `rocq/theories/`. It follows the C++ source in `/repo`
function by function; every definition cites the file and lines it models. This file says what is
modelled, how each property is proved, what is trusted, and what was found.

## Architecture

| Layer | Files | What it models |
|---|---|---|
| 1 | `Integer.v`, `IntervalSet.v` | checked 64-bit arithmetic; the sorted-interval set |
| 2 | `Vars.v`, `State.v` | variable handles and views, conditions, literals; domains, inference, epochs |
| 3 | `Engine.v` | the propagation queue, triggers, idempotence claims, disabling, condition watches |
| 4 | `Session.v`, `Search.v`, `Solve.v` | depth-first search, objective, stopping, restarts with learned nogoods |
| 5 | `Heuristics.v` | variable and value orderings |
| 6 | one file per constraint family | the propagators themselves |
| 7 | utilities | encodings, expressions, s-expressions, powers |

For each model file `X.v` there is a `XProofs.v` with the lemmas and a `XProperties.v` which contains only
the property theorems (each closed by `exact`), their `Print Assumptions`, and non-vacuity examples. Specifications
that are needed to state a property but are not part of the code are in `*Spec.v` files.

Conventions:

* Integers are unbounded `Z`, except in `Integer.v` and where a property is about overflow. The C++ throws
  `IntegerOverflow` rather than wrapping, so the unbounded model describes every run that does not throw.
* Non-determinism (random draws, user callbacks, user heuristics, the propagators of constraints that are not
  modelled) is a universally quantified argument of the theorem.
* Unbounded loops get explicit fuel; a separate `OutOfFuel` outcome is excluded by the statement or proved unreachable.
* C++ undefined behaviour (reading an end iterator) is a distinct outcome (`None`).

## Per-property plan

* C01: model the portable overflow checks branch by branch over `Z` restricted to the 64-bit range; prove equal to the
  range test on the exact result.
* C02, C03, C04: `list (Z*Z)` model of each loop; refinement to the predicate `In`; invariant by induction. C04 is
  expected to be false at the boundary value (refuted, plus the true version with strict inequality).
* C05 - C08: state = list of interval sets; each accessor and inference modelled with its own view adjustment; theorems
  against the one-line specification `value of a view = (negate ? -v : v) + add`.
* C09: induction over operation histories with nesting.
* C10 - C14: an executable model of `Propagators::propagate` with its queue arrays, quantified over arbitrary propagators
  satisfying a stated contract; invariants over rounds. C13 is expected to be refuted (see Findings).
* C15 - C19: fuelled model of `solve_with_state` and `solve_with` over the engine model; induction on the search tree.
* C20: `luby_term` against the textbook recursive definition.
* C21: each value ordering against `exactly one yielded condition holds`.
* C22 - C32, others: each propagator as a function from the state to the sequence of inferences it makes; proved to obey the
  contract used in C10 - C19 so that the search theorems apply to problems made of them.
* C33, C34: arithmetic of the encodings: sums of weighted bits, and the coefficient of a reified inequality.
* C35: print/parse round trip of s-expressions.
* C36: the power routine against repeated multiplication.
* C37: the watches, their stored values and the trail as a state machine over epochs; equality of states up to order.
* C38: the pseudo-Boolean formula that is written out for a problem, against the problem's own solutions: one direction
  by decoding a satisfying assignment, the other by encoding.
* C39: bipartite matching by augmenting paths, Tarjan's algorithm and the residual graph, each proved on its own, then
  Berge's and Regin's arguments for the propagator.

* C40 - C43: as for C22 - C32; AllEqual and the ordered chains are also shown to be domain consistent when they have
  nothing more to infer.
* C44 - C46: as for C22 - C32. The channelling and the matching of Inverse are repeated until nothing changes (`Settle.v`);
  that the loop ends, and that nothing is left to remove when it does, is shown from the number of values left.
* C47: as for C28. How far the lists are known to agree is kept in a constraint state; the invariant is that the
  handles before it are fixed and equal.
* C48: the enumeration is shown to yield exactly the accepted assignments, however the variables are ordered and
  whichever value is computed instead of tried; the rest is C29 for the table that results.
* C49: one pass is a program that reads domains and infers; what it infers is sound if each step is so for the
  domains read, and what it leaves is read off from the pass having nothing more to say. The quotients and square
  roots are compared with `Z.div` and `Z.sqrt`. The table is as in C48.
* C50: as C49, with a program of linear stages and bounds on the product of two absolute values. The relation is
  `Z.quot` and `Z.rem`; the variables that the constraint creates have values exactly when the relation holds, and
  the table is installed over them.
* C51: the layered graph is a list of edges kept in a constraint state. Invariant: it is trimmed, that is, every edge
  is entered and left except at the ends, and it has every accepting run over the present domains; then each value it
  supports is on such a run. Accepting is an inductive relation over words.
* C52: the same graph with different transitions in each layer; accepting is a path through the layers.
* C53: a grammar of expressions and of tokens is given as inductive relations, and matching as a recursive predicate.
  The parser is sound and complete for the grammar; the automaton is correct by induction over the expression, each
  fragment having its own states; removing silent moves keeps the words; the matcher finds all the ends of matches.
* C54: powers of integers are Coq's, with negative powers rounded towards zero. The chain of multiplications is proved by
  induction over its length, each variable it creates being wide enough for the power it stands for.
* C55: the propagation function is a sequence of reads and inferences, in which what was read before is remembered; each
  inference follows from counting: those confined to some values are no more than the sum of the counts, and those that
  can take one no fewer. What a run that infers nothing implies is read off the same sequence.
* C56: the arrays of chains and the unassigned successors are the constraint state. What they mean is stated for each
  assignment left that gives different successors: each unspliced node ends a chain, the chains have all nodes, and the
  edge that would close one is excluded. Splicing an edge keeps this, by the facts about following a one-to-one function
  in TourProofs. A pass ends with no unspliced and no unassigned node fixed, so that with all successors fixed one chain
  with all nodes has been closed.
* C57: the exploration is specified by what it does to the order of visits: the nodes come in the order of their numbers,
  the lowest link of a node is one that it leads to, and every edge seen stays within the nodes seen. A tour is a walk
  along all nodes, so a set of nodes that it enters once and that has one edge out has that edge in the tour
  (TourSetProofs); this gives each of the pruning rules. That a run returns is proved for the options that do not prune,
  where the successors that are fixed are all different; it is refuted for the default (finding 29).
* C58: the propagation function is a sequence of reads and inferences, so each loop is shown to say nothing wrong, to check
  each pair once everything is fixed, and to leave things as stated when nothing changes. Rectangles left out when posting
  have no area in any assignment that is possible then. That a size has a negative lower bound when posting (the solver
  throws then) is excluded by a hypothesis.
* C59: the positions each handle may take form an interval, so the greedy sweep from either end finds a matching if there is
  one, and if it gets stuck some band of positions has too many handles (pigeonhole). The matching of the downward sweep has
  the least greatest values, the upward one the greatest least values. A handle can be at exactly the positions in its
  component, by the theorem about matchings and components that C13 uses, on a graph whose vertices are handles and
  positions. For each inferred bound, if the search for a band failed there would be a matching that attains a better one.
  The code's own comment on these exceptions is that random sweeps did not reach them; `C59_never_throws` shows that nothing
  does. Simplifications: linear instead of binary search, `find_components` (C13) instead of a recursive function, and an
  exception would come before rather than between the inferences.
* C60: Dinic's algorithm is proved to give a flow with a cut that nothing more crosses, within fuel that is the total leaving
  the source, so the flow is the largest (MaxFlowProofs). For the network of a cover with lower bounds, such a flow uses up
  all that is needed exactly if there is an assignment of values to variables within the bounds (GacNetworkProofs). A value
  that is not in the flow's assignment belongs to another one exactly if the edge is within a component of the residual graph
  (GacFlowProofs), and if not all that is needed is used up the cut contains values whose bounds are violated, which the
  closure from the unmatched side finds (GacCutProofs). GacCardinalityProofs carries this over to domains. An exception is a
  distinct verdict. Simplification: an edge of the network is named by its ends, since no two join the same vertices.
* C61: the rank of an element is the number of those that come before it, and an order is right exactly if each element
  stands where its rank says (ArgSortOrderProofs). The two counts only change at the bounds of other elements, so the last
  candidate that is not above a value does for it, and all ranks between the counts can be had, changing one element at a
  time. ArgSortProofs has the propagators: those for sorting, channelling and being different only have to keep solutions,
  the one for ranks decides when all is fixed. Simplification: an index out of range, which the bounds defined first exclude,
  does nothing instead of being undefined behaviour. Missing: that positions are bounds consistent, which is refuted.
* C62: the layers of the dynamic programme hold the sums that the first items can reach. Going forward, each solution's
  path stays in the layers, and each node has a predecessor; going backward, each node that stays has a successor. So a
  value that stays has a path through all layers, which ends in possible totals (`run_obeys`), and with the items already
  decided added this is a solution. Both strategies run the same code on different items and caps; for the graph built in
  advance it is shown that no solution within the first domains leaves it (`static_has`). Simplification: prepare throws
  if an item or a total can be negative; the model goes on, and the theorems assume that none can.
* C63: what is in a bin is the load of a choice of items (`load_of`); the bounds pass compares it with the choices of those
  that have to be there and of all that can. For the graph built in advance, each solution stays in the layers
  (`trimmed_have`), and each edge that stays is part of a whole choice (`trimmed_whole`), from which an assignment is chosen.
  For the remembered sweep an invariant says that the layers belong to the remembered flags (`sweep_ok`), so that going on
  from the first change to the last gives what a first sweep gives; and each choice the flags allow stays alive, so that it
  never infers anything (`sweep_keeps`). Simplifications: the sweep in the propagator starts afresh each time; prepare
  throws if an item can be outside the bins or a load can be negative, and the model goes on. Missing: consistency per
  bin of the default strategy and of items that can be elsewhere, which are refuted.
* C64: the trees of a row are grown as the code grows them, from an order of the variables that stands for the hash table
  (`forest`); they are apart, list one side of each comparison last (`separate_trees`, `ordered`), and hold every entry if
  the comparisons make no cycle (`forest_all`). No pass removes a value of an assignment under which a row holds
  (`try_trees_sound`); when the variables are known an entry that fails leaves an empty list (`fixed_edge`); and when
  nothing more is inferred an assignment is put together from the last entry of a tree to its first (`tree_witness`).
  The selectors are variables of the constraint's own. Simplifications: exceptions that an entry causes when it is first
  looked at are raised when the constraint is posted; the proofs are not modelled. Missing: rows with a cycle, entries
  seen through views, repeated variables and consistency, which are refuted.
* C65: what each pass infers follows from the distances of the assignment (`forward_tells`, `check_tells`); what the
  matching infers follows because points at least `t` apart are on different sites and use at most one end of each edge
  of a matching of nearer sites (`far_apart_count`). The binary search is only shown to return a level that is refuted
  (`search_found`), and to refute the highest one if it can (`search_none`), as refutation is not monotone for maximal
  matchings. That there is a guard follows from counting the positions that each site had when the constraint was posted
  (`guard_present`). Simplification: the proofs are not modelled, except for the count that the exception depends on.
  Missing: consistency of all points together, which is refuted.
* C66: if there is a potential, then there is a greatest one that is nowhere positive, and each round of relaxation makes
  one more node equal to it (`relax_rounds_found`), so `n + 1` rounds suffice. The repair and the pass over bounds are
  proved with invariants over the heap, stale entries included (`repairing`, `settling`), which have a list of the arcs of
  the current node that are still to be looked at. Both loops are given fuel, and the number of entries and of arcs that
  are out of nodes not yet done shows that it suffices. Simplifications: arrays over nodes are functions; the two arrays
  of the adjacency structure are not modelled, only the arcs that they list for a node.
* C67: the solver is a relation between memories and stacks of epochs (`reached`), which says nothing of how it searches.
  The invariant (`good`) is about what the memory would be after unwinding to the mark of each epoch: the gates are at
  most the bounds and no recorded arc raises them, the recorded arcs are in force, and those of an older epoch are among
  those of a newer one, so that the potentials, which are not restored, are right for all of them. Whatever a call pushes
  can be undone exactly (`extends`). A call that ends in a contradiction publishes nothing. In that case the negated
  potential may be older than the potential; the invariant shows that it is still right. Simplifications: proofs, static
  bounds, the audit and the route without incrementality are left out, and it is left to the environment whether an
  inference empties a domain.
* C68: the treap is a tree with explicit null dereferences, which never happen. The pruned visits are filters of the
  inorder list of intervals. For the links the invariant is that there is a chain of clauses between any two defined
  literals one of which is inside the other: a new literal is linked to a least container below any given one, and to a
  greatest contained one above any given one. Rejection and acceptance are stated as closure under the clauses, that is,
  unit propagation over them. Simplifications: the definitions of the literals, the order clauses, the partition into
  cells and the links to views are left out. The seeding of the tree goes through the equalities in the order in which
  they were defined, and not by value; `C68_visits_canonical` shows that this makes no difference.
* C69: the boundaries are a sorted list, and a cell is what lies between two consecutive ones. The invariant is that each
  range literal that meets the bounds is rejected by any set of literals that is closed under the coverings and has the
  present cells inside it; a split keeps it, since the covering of the split cell rejects that cell from its halves. The
  recursion between `need_direct_encoding_for` and `ensure_partition_cut` has fuel 3, and the theorems say that it never
  runs out. Simplifications: the definitions of the literals, the order clauses, the links (C68) and the views are left
  out; a range outside the bounds has no covering and is rejected by the order clauses.
* C70: the search from a source keeps that each distance is the weight of a path of the base graph, and that each parent
  accounts for the distance of its node. A removed base arc is either longer than a path or equal to an arc that stays
  kept. That the kept arcs imply each path is by induction on the reduced weight of the path: a removed arc is replaced by
  a strictly lighter path, or by its equal. The two loops have fuel, and `C70_finishes` says that some fuel is enough: the
  search reaches a node, or lowers a distance, or shortens the queue, and the parents always form a tree, also along
  arcs of reduced weight zero. That nothing is missed rests on the invariant that the arcs out of each node that was
  reached are relaxed, or the node is in the queue with its distance. The count of the cycles of weight zero, which is only reported, is left out.

## Trusted base

* Coq 8.16.1's kernel, including `vm_compute` (used only in examples and in refutations by a concrete witness).
* The reading of the C++ that the model embodies. Nothing is extracted, and there is no link to the compiled program.
* `Print Assumptions` stands beneath every property theorem, and says `Closed under the global context` for each of them:
  no theorem depends on any axiom. `coqchk -o` lists seven names of the standard library's `Coq.ssr.ssrunder.Under_rel`
  (`Under_rel`, `Under_rel_from_rel`, `Under_relE`, `Over_rel`, `over_rel`, `over_rel_done`, `under_rel_done`). They are the
  fields of a module type of that library, which is loaded indirectly; none of the theorems uses them. There are no
  other axioms.

### What is modelled

| Code | Model |
|---|---|
| `gcs/integer.hh`, `innards/integer_overflow.hh` | `Integer.v` |
| `interval_set.hh` | `IntervalSet.v` |
| `variable_id.hh`, `variable_condition.hh`, `innards/literal.hh` and views | `Vars.v` |
| `innards/state.{hh,cc}` | `State.v` (domains, inference, tests, iteration), `Epochs.v` (epochs, guesses, constraint states) |
| `innards/propagators.{hh,cc}`, `innards/inference_tracker.hh` | `Engine.v`, `Tracker.v` |
| `solve.cc`, `restarts.cc`, `problem.cc` | `Session.v`, `Search.v`, `Solve.v`, `LubySpec.v` |
| `constraints/nogoods/nogoods.cc` | `Nogoods.v` |
| `search_heuristics.cc` | `Heuristics.v` |
| `expression.hh`, `constraints/linear/` | `Expressions.v`, `Linear.v` |
| `constraints/innards/reified_*`, `triggers.cc` | `Reify.v` |
| `constraints/{equals,comparison,plus_minus,abs,in,min_max,count,among,logical,linear}` | one file each, as named |
| `constraints/element/` | `Element.v` (any number of dimensions; theorems for one and two) |
| `constraints/all_different/` | `AllDifferent.v`, `Scc.v`, `Matching.v`, `GacAllDifferent.v` |
| `constraints/table/`, `constraints/extensional_utils.cc` | `Table.v`, `NegativeTable.v` |
| `constraints/{all_equal,increasing,n_value,at_most_one,parity}` | `AllEqual.v`, `Increasing.v`, `NValue.v`, `Parity.v` |
| `constraints/{inverse,value_precede,seq_precede_chain}`, `constraints/all_different/symmetric_all_different.cc` | `Inverse.v`, `Settle.v`, `Precede.v` |
| `constraints/lex/lex.cc`, `constraints/innards/reified_dispatcher.hh` with a constraint state | `Lex.v`, `StatefulReify.v` |
| `constraints/innards/tabulation.{hh,cc}` and its use in `plus_minus` and `linear` | `Tabulation.v` |
| `constraints/innards/product_bounds.hh` | `ProductBounds.v` |
| `constraints/multiply` | `Multiply.v`, `Passes.v` |
| `constraints/innards/linear_stages` (inequalities) | `Stages.v` |
| `constraints/divide_modulus` | `DivideModulus.v` |
| `constraints/regular/regular.cc` (propagator, constructors), `constraints/mdd/mdd.cc` (propagator, constructor) | `Layered.v` |
| `constraints/regular/regex.cc`, and `Regular` from an expression in `regular.cc` | `Regex.v` (numbers in the text are unbounded, see finding 25) |
| `innards/power.cc`, `constraints/power/power.cc`, `constraints/power/power_table.cc` | `Power.v` |
| `constraints/global_cardinality/global_cardinality.cc`, `bounds_global_cardinality.cc` | `GlobalCardinality.v` (bounds consistency; a binary search in a sorted vector is membership) |
| `constraints/circuit/circuit.cc`, `circuit_prevent.cc` | `Circuit.v` (the two constraint states are one; `with_gac_all_different` is not modelled) |
| `constraints/circuit/circuit_scc.cc`, `prevent_small_cycles` in `circuit_base.cc` | `CircuitScc.v` (without the proof logging, which is most of the file; an empty list of successors is undefined behaviour and left out) |
| `constraints/disjunctive_2d/disjunctive_2d.cc` | `Disjunctive2D.v` (without the model for the proof and its justifications) |
| `constraints/sort/sort.cc` | `Sortedness.v` (without the model for the proof and its justifications, but with the searches for them that may throw) |
| `constraints/global_cardinality/gac_global_cardinality.cc` | `MaxFlow.v`, `GacCardinality.v` (without the justifications, but with the search for the values that violate their bounds, which may throw; `std::binary_search` as libstdc++ has it, since the vector need not be sorted) |
| `constraints/sort/arg_sort.cc` | `ArgSort.v` (without the proof, except for how holes are told apart) |
| `constraints/knapsack/knapsack.cc`, `knapsack_upfront.cc` | `Knapsack.v` (without the proofs; interning of nodes is left out) |
| `constraints/bin_packing/bin_packing.cc` | `BinPacking.v` (without the proofs) |
| `constraints/smart_table/smart_table.cc`, `constraints/lex/lex_smart_table.cc` | `SmartTable.v` (without the proofs) |
| `constraints/min_distance/min_distance.cc` | `MinDistance.v` (without the proofs) |
| `constraints/difference/difference_incremental.{hh,cc}` | `Difference.v` |
| `constraints/difference/difference_graph.cc` | `DifferenceSession.v` (the incremental route: memory, trail, `run_incremental`; not the encoding, the simplification stage, the proofs or the audit) |
| `innards/interval_tree.hh` | `IntervalTree.v` (all of it) |
| `innards/proofs/names_and_ids_tracker.cc` (containment) | `Containment.v` (`link_immediate_containment`, and the parts of `define_plain_invar` and `need_direct_encoding_for` that keep the tree) |
| `innards/proofs/names_and_ids_tracker.cc` (cells) | `Partition.v` (`need_invar`, `init_interval_partition`, `ensure_partition_cut`, and the part of `need_direct_encoding_for` that keeps the cells) |
| `constraints/difference/difference_simplify.cc` | `Simplify.v` (`simplify_difference_graph`, without the count of zero cycles) |
| `innards/s_expr.cc` | `SExpr.v` |
| the encodings in `innards/proofs/` | `BitsEncoding.v`, `PseudoBoolean.v` |

`Catalogue.v` gathers the constraints that are modelled into one type of posted constraints, so that the theorems about
`solve` can be stated for arbitrary lists of them.

### What is not modelled

* Proof logging beyond the encodings: the justifications, reasons and hints that are passed to the inference tracker, and
  the proof lines written. The model's trackers carry inferences only. (No claim is made about proofs being accepted.)
* Statistics, timing, tracing and the presolvers.
* Overflow outside `Integer.v`: integers are unbounded elsewhere, so a theorem is about runs in which nothing throws.
* Threads: a solve is single-threaded, and asking it to stop is modelled as an arbitrary schedule of the moments at which
  the flag becomes visible.
* The constraints that do not appear in the table above. Theorems about the engine and the search hold for any
  propagators that meet the stated contract.

## Findings

Each was found while trying to prove the property, and is stated as a theorem whose name ends in `_refuted` where the
model covers it.

1. **Condition watches can be lost (soundness).** `Propagators::propagate`: at a round boundary at which any propagator has
   claimed idempotence, the events of the round are replayed for the coarse triggers only, and the tracker is reset, so a
   watch whose condition became true in that round never fires. `C13_watch_lost_refuted`,
   `C13_forbidden_tuple_accepted_refuted`: u + 0 = x, u + 0 = y with NegativeTable forbidding x = y = 1 accepts
   u = x = y = 1. Consequences for a whole solve: `C15_negative_table_violated_refuted` (a forbidden solution is
   reported) and `C19_reported_twice_refuted` (a restart's nogood is ignored, and a solution is reported again). Without
   such claims no watch is lost: `C13_watches_fire_partial`.
2. `IntervalSet::insert_at_end` with the value that is already the greatest one breaks the representation (C04).
3. `test_literal` answers Undecided for a range condition whose bounds are crossed (`C08_crossed_range_refuted`).
4. A Luby restart schedule with scale 0 restarts for ever (`C20_scale_zero_refuted`).
5. Edges of the integer range: `each_value` up to the greatest representable integer throws at the final increment; a negated view
   of the least integer throws; `luby * scale` wraps; `each_interval_minus` computes one past an upper bound.
6. Documentation: `restarts.hh` says that enumerating with restarts throws, and it does not; `with_largest_value` is
   declared and has no definition.
7. The least integer modulo -1 throws, although the remainder is 0 (C01).
8. Under restarts with an incumbent, the pass at the root has a non-empty seed of guesses, so that the queue is not rebuilt, and
   nogoods that have just been learned are not armed until later.
9. `initialise` notices contradictions that throw, and not those an initialiser reports through the `_or_stop` calls.
10. `ReifiedEquals::clone` drops `_neq`, which affects names and s-expressions only.
11. Refined nogoods: the catching up at the root is skipped if a watch fired before the propagator runs in that pass.
12. The splitting value orders on a negated view yield conditions that do not partition the values
    (`C21_split_negated_view_refuted`).
13. Among accepts wrong assignments when the counting variable is also counted, or when one variable is counted through two views
    (`C30_among_counting_itself_refuted`, `C30_among_views_refuted`).
14. Min and Max throw if the result is a view of one of the variables (`C30_minmax_throws_refuted`).
15. S-expressions with empty atoms, or atoms that contain delimiters, do not survive being written and read
    (`C35_unwritable_refuted`).
16. A linear equality reified by a constantly true or false literal is mistreated (`C27_false_condition_refuted`,
    `C27_true_condition_refuted`; `literal_to_reif`, linear_equality.cc:506-515).
17. A reified linear equality whose terms all cancel is accepted although the constant is below the value
    (`C27_cancelled_terms_refuted`).
18. AllDifferent with value consistency ignores a handle that already has a single value when it is posted, so that another
    variable may take the same value (`C28_value_consistent_refuted`; all_different.cc:124-130). The default, staged
    consistency is rescued by its second stage.
19. AllEqual disables itself as soon as its first variable has one value after it has narrowed the bounds, but by then the
    others need not: with x in {1, 5} and y in 2..9 the bounds become 5 and 2..5, no domain has a hole, and x = 5, y = 2
    is reported (`C40_all_equal_gap_refuted`; all_equal.cc:140-144). With two views of one variable it goes wrong
    without a gap (`C40_all_equal_views_refuted`).
20. Inverse with the two lists counted from different numbers is always found unsatisfiable: the values given to the
    all-different part are the positions of the first list instead of those of the second
    (`C44_inverse_offset_refuted`; inverse.cc:151-153).
21. Documentation: `seq_precede_chain.hh` says that every positive value must come after the value below it; the constraint
    asks this of the values above 1 only.
22. `Multiply` without a table is not bounds consistent, as `multiply.hh` has it: if both operands may be of either
    sign and the result cannot be zero, bounds without support stay, even counting fractions
    (`C49_multiply_bounds_consistent_refuted`: x in -1..4, y in -1..3, z in 5..10, where x = -1 is possible only with
    y at most -5). In all other cases they go (`C49_multiply_bounds`). No solution is lost.
23. `Divide` without a table does not compute the quotient of known numbers if it is zero: with x = 0, y = 1 and q in
    -3..3 the propagator removes nothing, because q is tied to its absolute value only once its sign is known
    (`C50_quotient_found_refuted`). No solution is lost, but q has to be branched on.
24. `MDD` over no variables accepts even if its terminals are not accepting: the propagator has no value to remove
    and does not look at the terminals, where `Regular` does (`C52_mdd_empty_refuted`).
25. A number in a regular expression is read into a `long long` without a check (`regex.cc:73-76`): from twenty digits
    on, and for some of nineteen, this overflows, which is undefined. The model reads the number that is written.
26. **Power with nothing left to decide** (`constraints/power/power.cc:114-140`, `constraints/linear/propagate.cc:214-222`).
    With a constant base, or exponent 0 or 1, Power is a linear equality. If no variable is left in it (all constants, or
    x to the first being x + 1), only `0 <= value` is checked, so that Power(2, 3, 7) is accepted when not tabulated.
    Proved as `C54_cancelled_refuted`.
27. **Power and the least integer** (`constraints/power/power.cc:142-160`). With a constant exponent of more than 62 the
    base is restricted to -1, 0 and 1, although (-2)^63 is representable and `checked_integer_power` computes it. Proved
    as `C54_least_integer_refuted`.
28. **Global cardinality with a value listed twice** (`constraints/global_cardinality/bounds_global_cardinality.cc:158-398`).
    The sum of the counts of a run of values counts a repeated value twice, but a variable that takes it only once, so
    that GlobalCardinality([x], [1, 1], [1, 1]) is found unsatisfiable. Nothing checks that the values differ. Proved as
    `C55_repeated_values_refuted`.
29. **Circuit, as it is by default, may never return.** propagate_circuit_using_scc (circuit_scc.cc:1064-1084) drops the
    successors that check_sccs has fixed from the unassigned ones without propagating that the others are different, and
    prevent_small_cycles (circuit_base.cc:74-122) then follows fixed successors until it is back where it started or at one
    that is not fixed. If two nodes have been given the same successor the walk may go round a cycle that it did not start
    in. `C57_returns_refuted` has nine nodes for which this happens in the first propagation: 7 -> 3 -> 6 -> 3 -> 6 and so
    on. With all options that prune off it cannot happen (`C57_returns_partial`). Also: an empty Circuit writes outside
    SCCPropagatorData's arrays (circuit_scc.cc:66-83), and `with_prune_within` is never read.
30. **Global cardinality with generalised arc consistency and a cover that is not in order**
    (`constraints/global_cardinality/gac_global_cardinality.cc`). The propagator looks for values in the cover with
    `std::binary_search`, but the cover is sorted only for bounds consistency (global_cardinality.cc). If the cover is not
    closed, a value that the search misses is taken for one outside the cover and removed with those: with x in {1, 3, 7},
    values [3, 1] and counts [0, 1] the solver reports that there is no solution, although x = 1 is one
    (`C60_unsorted_cover_refuted`). Values listed twice lose solutions here too (`C60_repeated_values_refuted`).
31. **ArgSort is not bounds consistent on the permutation** (`constraints/sort/arg_sort.cc`). The comments say that the
    propagators give "exactly" bounds(Z) consistency on the permutation, since an assignment that puts an index at a position
    "is a full solution". It need not agree with the domains of the other positions. With three elements in 0..1 and the
    last one known to come first, the first two are 1 and come in the order in which they stand; the solver infers neither
    (`C61_bounds_consistent_refuted`). Only solutions matter to a user, and these are right (`C61_arg_sort_correct`).
32. **Knapsack's strategies do not accept the same problems** (`constraints/knapsack/knapsack.cc`, `knapsack_upfront.cc`).
    knapsack.hh says that they draw the same inferences and find the same solutions. They do if both accept the problem
    (`C62_strategies_agree`), but only the one that builds its graph in advance compares the number of coefficients with the
    number of items. The default ignores coefficients that are left over (`C62_accept_alike_refuted`), and throws
    std::out_of_range during propagation instead of InvalidProblemDefinitionException if there are too few.
33. **BinPacking's default consistency is only bounds consistency** (`constraints/bin_packing/bin_packing.cc`). bin_packing.hh
    says that the default is generalised arc consistency per bin, and that both proof strategies draw the same inferences.
    In the default strategy `run_stage3_for_bin` takes every node of the last layer that can be reached as an end, whatever
    the bin's load or capacity is, and the graph has a node for every sum of sizes. So each node that can be reached is
    alive, the sweep never infers anything (`C63_sweep_idle`), and each call does exactly what it does with bounds
    consistency (`C63_default_is_bounds`). With three items of size 3 and a load between 4 and 5 it does not see that there
    is no way to fill the bin (`C63_default_consistent_refuted`), although the other strategy fails
    (`C63_strategies_agree_refuted`). That one is consistent for putting items into a bin and for loads
    (`C63_upfront_consistent_partial`), but it never infers that an item has to be in a bin
    (`C63_upfront_consistent_refuted`: sizes 2 and 3, and a load of 2 or 5).
34. **SmartTable drops comparisons that close a cycle** (`constraints/smart_table/smart_table.cc`, `build_tree`). An entry
    whose variables have both been visited is left out of the trees, so it is never looked at when propagating. Two
    comparisons of the same two variables are enough: the row {X <= Y, X != Y} accepts X = Y (`C64_cycle_refuted`).
    LexSmartTable makes such rows if its lists share variables: (X, Y) is accepted as greater than (Y, X) when X = Y
    (`C64_lex_shared_refuted`).
35. **SmartTable fills up the values of views with zeros** (`set_for_actual_var`). For a view the list of values keeps its
    old length, and what is not filled is 0, so it is never empty, and a row that is about a view is never found invalid:
    {Y + 1 == 3} accepts every Y (`C64_view_refuted`), and {X != Y + 1} accepts X = Y + 1 (`C64_different_view_refuted`).
    If the list has a view only, the values are those of nothing, and all solutions are lost (`C64_listed_view_refuted`,
    which dev_docs/view-proof-logging.md mentions as over-pruning).
36. **SmartTable lists the values of a repeated variable repeatedly** (`propagate_using_smart_str`). Then a value is taken
    out of the list once only: with X three times in the list, {X != Y} accepts X = Y (`C64_repeated_refuted`).
37. **SmartTable is not domain consistent** (`constraints/smart_table/smart_table.cc`). `filter_again_and_remove_supported` goes through a tree in the same order as
    `filter_and_check_valid`, from the leaves to the root, and not back: what the root loses does not get to the leaves.
    Whether a value without support is seen depends on the order of a hash table (`C64_domain_consistent_refuted`,
    `C64_order_example`). When nothing more is inferred there is a solution, though (`C64_satisfiable_at_rest`).
38. **MinDistance infers nothing from three points on a ring of five sites** (`constraints/min_distance/min_distance.cc`).
    A maximal matching of sites that are too near leaves three of five, so all levels are at rest although there is no
    solution (`C65_consistent_refuted`). The documentation does not promise more.
