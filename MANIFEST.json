{
 "claims": [
  {
   "property": "C01",
   "status": "proved",
   "theorems": [
    "C01_merge_cost_minimal"
   ],
   "note": "exact minimum over all sequences of 2-to-1 and 3-to-1 mergers"
  },
  {
   "property": "C02",
   "status": "proved",
   "theorems": [
    "C02_find_n_m_l_optimal",
    "C02_find_n_m_l_zero"
   ],
   "note": "optimal over all pairs (n', m'), no search box"
  },
  {
   "property": "C03",
   "status": "proved",
   "theorems": [
    "C03_fewer_looped_than_wanted",
    "C03_divide_never_free"
   ],
   "note": "l < X, hence the l == x branch of divide_cost is dead"
  },
  {
   "property": "C04",
   "status": "proved",
   "theorems": [
    "C04_greedy_branches",
    "C04_tree_info"
   ],
   "note": "termination, minimal number of parts, exact saved splitters"
  },
  {
   "property": "C05",
   "status": "proved",
   "theorems": [
    "C05_extract_cost_positive",
    "C05_divide_cost_positive",
    "C05_merge_cost_positive"
   ],
   "note": "no exception and cost >= 1 on the stated domains"
  },
  {
   "property": "C06",
   "status": "partial",
   "theorems": [
    "C06_divide_flow_refuted",
    "C06_extract_flow_refuted",
    "C06_divide_flow_partial",
    "C06_extract_flow_partial"
   ],
   "note": "REFUTED in general: the code uses x + l*x/(2^n*3^m) where the expansion builds x + l*x/d; witnesses (910, 13) and (1010, 202). Proved exact when the real flow is within the limit."
  },
  {
   "property": "C07",
   "status": "proved",
   "theorems": [
    "C07_remove_pairs_counts",
    "C07_remove_pairs_disjoint",
    "C07_remove_pairs_sums",
    "C07_remove_pairs_sorted"
   ],
   "note": "for any key type with decidable equality; order, sums and counts"
  },
  {
   "property": "C08",
   "status": "proved",
   "theorems": [
    "C08_fractions_to_integers"
   ],
   "note": "exact scaling and minimality (also divides every other valid ratio)"
  },
  {
   "property": "C09",
   "status": "proved",
   "theorems": [
    "C09_group_values"
   ],
   "note": "Proved for every list of positive integers; the forest, its leaves, tags and cost are characterised."
  },
  {
   "property": "C10",
   "status": "proved",
   "theorems": [
    "C10_load_prepares_search",
    "C10_load_preserves_request",
    "C10_load_groups_targets",
    "C10_load_is_parse_then_load"
   ],
   "note": "Proved against the declarative relation `reduced`; grouping of the targets in a second theorem; `load` is parse_user_input followed by load_values."
  },
  {
   "property": "C11",
   "status": "partial",
   "theorems": [
    "C11_load_total_refuted",
    "C11_load_total_partial"
   ],
   "note": "Refuted: `3 to 1 2` raises ValueError. The partial theorem gives the exact set of requests that raise."
  },
  {
   "property": "C12",
   "status": "proved",
   "theorems": [
    "C12_format_parse_round_trip",
    "C12_gather_permutes"
   ],
   "note": "through str(), Counter, split() and both slash spellings; equal values come back gathered (a permutation)"
  },
  {
   "property": "C13",
   "status": "proved",
   "theorems": [
    "C13_repeating_decimals",
    "C13_terminating_decimals"
   ],
   "note": "with uniqueness of the rational having that expansion"
  },
  {
   "property": "C14",
   "status": "partial",
   "theorems": [
    "C14_malformed_rejected_refuted",
    "C14_malformed_rejected_partial",
    "C14_well_formed_accepted_partial"
   ],
   "note": "REFUTED in general: '1.5.7' is accepted as 1.5. Proved: exactly the strings starting with digits and a dot are accepted, in particular all well formed ones."
  },
  {
   "property": "C15",
   "status": "proved",
   "theorems": [
    "C15_fastlist",
    "C15_fastlist_raise"
   ],
   "note": "any operation sequence, against a plain list reference; raising operations change nothing"
  },
  {
   "property": "C16",
   "status": "proved",
   "theorems": [
    "C16_history"
   ],
   "note": "any interleaving of appends and the one-time loading by prompt_toolkit"
  },
  {
   "property": "C17",
   "status": "proved",
   "theorems": [
    "C17_all_sums"
   ],
   "note": "all positive lists"
  },
  {
   "property": "C18",
   "status": "partial",
   "theorems": [
    "C18_cheapest_sum_refuted",
    "C18_cheapest_sum_partial"
   ],
   "note": "REFUTED in general: all_sums([3,1,2]) reports 2 values for 3. Proved when all decompositions of the sum use equally many values."
  },
  {
   "property": "C19",
   "status": "partial",
   "theorems": [
    "C19_linear_combinations_refuted",
    "C19_linear_combinations_partial"
   ],
   "note": "REFUTED in general: stale trailing coefficients. Proved: one yield per solution, right up to its last non-zero coefficient."
  },
  {
   "property": "C20",
   "status": "proved",
   "theorems": [
    "C20_steps_conserve_flow"
   ],
   "note": "every recorded operation of every run; also that each operation was possible and correctly priced"
  },
  {
   "property": "C21",
   "status": "proved",
   "theorems": [
    "C21_explored_trees_are_networks",
    "C21_known_trees_are_explored"
   ],
   "note": "all runs, all oracles; queue and solutions included"
  },
  {
   "property": "C22",
   "status": "proved",
   "theorems": [
    "C22_attached_solutions_deliver_integers",
    "C22_solutions_deliver_targets"
   ],
   "note": "both halves: the open ends are the grouped targets, and after attach_leaves the target integers"
  },
  {
   "property": "C23",
   "status": "proved",
   "theorems": [
    "C23_solutions_have_best_size",
    "C23_best_size_never_increases"
   ],
   "note": "with monotonicity when the run goes on"
  },
  {
   "property": "C24",
   "status": "proved",
   "theorems": [
    "C24_size_is_total_cost"
   ],
   "note": "through an explicit history of operations"
  },
  {
   "property": "C25",
   "status": "proved",
   "theorems": [
    "C25_solve_terminates"
   ],
   "note": "explicit bound on the number of iterations, uniform in the random choices and scores"
  },
  {
   "property": "C26",
   "status": "proved",
   "theorems": [
    "C26_purge_loses_no_solution",
    "C26_queue_holds_no_solution",
    "C26_purge_is_exact"
   ],
   "note": "for every state of the queue; plus that no solution ever waits in the queue and that an unstopped purge removes exactly the entries that are too large"
  },
  {
   "property": "C27",
   "status": "proved",
   "theorems": [
    "C27_no_configuration_revisited"
   ],
   "note": "histories of explored trees have pairwise distinct tuples of open values"
  },
  {
   "property": "C28",
   "status": "proved",
   "theorems": [
    "C28_belts_within_limit"
   ],
   "note": "also: merges respect the limit whatever the sources"
  },
  {
   "property": "C29",
   "status": "proved",
   "theorems": [
    "C29_needed_values_are_kept"
   ],
   "note": "strictly more occurrences open than needed"
  },
  {
   "property": "C30",
   "status": "partial",
   "theorems": [
    "C30_ancestor_values_avoided_refuted",
    "C30_ancestor_values_avoided_partial"
   ],
   "note": "REFUTED, with the program's own scores: for 9 to 4 5 two 3 are merged into a 6 that is later divided into two 3 again, because deepcopy resets the past of every node below a root. Proved: the node's own value and that of some root above it are avoided."
  },
  {
   "property": "C31",
   "status": "proved",
   "theorems": [
    "C31_deepcopy_is_faithful",
    "C31_trees_share_no_node"
   ],
   "note": "explicit correspondence of nodes; trees of a run never share a node"
  },
  {
   "property": "C32",
   "status": "proved",
   "theorems": [
    "C32_levels_increase"
   ],
   "note": "all runs"
  },
  {
   "property": "C33",
   "status": "partial",
   "theorems": [
    "C33_stop_never_lost_refuted",
    "C33_stop_before_search_lost_refuted",
    "C33_stop_keeps_solutions_refuted",
    "C33_stop_during_search_partial",
    "C33_stop_during_saving_partial",
    "C33_reads_are_monotone_partial",
    "C33_stopped_search_ends_partial",
    "C33_stop_bounds_work_partial",
    "C33_stopped_run_saves_partial"
   ],
   "note": "Refuted in two ways: a stop before self.solving is set or between the search and the saving is lost, and a stop between the test of the main loop and dequeue makes solve raise TypeError, so found solutions are not saved. Proved over all interleavings: a stop that arrives during the search or the saving is seen by all later reads; a stopped search ends and raises only when dequeue is the first to see the stop; otherwise the first solution is saved. A single solution is saved whatever self.concluding."
  },
  {
   "property": "C34",
   "status": "proved",
   "theorems": [
    "C34_not_running_when_thread_ends",
    "C34_main_returns",
    "C34_prompt_means_idle",
    "C34_run_starts_idle"
   ],
   "note": "Small-step model of the two threads and (nested) signal handlers, every interleaving. load is one step; daemon threads, join and prompt_toolkit as documented."
  },
  {
   "property": "C35",
   "status": "partial",
   "theorems": [
    "C35_search_is_complete_refuted",
    "C35_routes_found_partial"
   ],
   "note": "REFUTED: 1000 1000 to 4x 500 is declared unsolvable because the four 500 are first grouped into a 2000 no belt can carry Proved: no route of operations that respects the rules of the search (RouteSpec.v, in terms of flows alone) to the targets within the initial bound is missed by a run that ends without a solution."
  },
  {
   "property": "C36",
   "status": "partial",
   "theorems": [
    "C36_unit_independent_refuted",
    "C36_unit_independent_partial"
   ],
   "note": "REFUTED: 400.5 400.5 to 801 is declared unsolvable, and an extraction of a real flow of 30 is drawn as a single splitter. Proved: real flows of merges respect the limit; whole-unit problems are treated correctly."
  },
  {
   "property": "C37",
   "status": "partial",
   "theorems": [
    "C37_different_solutions_kept_refuted",
    "C37_different_solutions_kept_partial"
   ],
   "note": "REFUTED, with the program's own scores and comparisons: Tree.__eq__ compares unlabelled undirected graphs, so for 7 to 1 2 4 a different network of the same shape is dropped. Proved: nothing else is dropped (see also C64)."
  },
  {
   "property": "C38",
   "status": "proved",
   "theorems": [
    "C38_branch_bookkeeping"
   ],
   "note": "all n, m, l; per-level counts, their bounds and the total"
  },
  {
   "property": "C39",
   "status": "partial",
   "theorems": [
    "C39_expand_divide_partial",
    "C39_overloaded",
    "C39_expand_divide_refuted"
   ],
   "note": "REFUTED when the flow with the loop-back exceeds the belt limit: ternary loop-back branches go to the divided node and the extra node gets no input (1010 / 5). Proved in full within the limit; over the limit everything but the loop-back target."
  },
  {
   "property": "C40",
   "status": "proved",
   "theorems": [
    "C40_expand_extract",
    "C40_overloaded"
   ],
   "note": "all values and belts, within and over the belt limit; flows, splitter count, links, tags and untouched nodes"
  },
  {
   "property": "C41",
   "status": "partial",
   "theorems": [
    "C41_expanded_solutions_saved_refuted",
    "C41_first_solution_expanded_partial",
    "C41_distinct_targets_saved_partial",
    "C41_low_flow_saved_partial"
   ],
   "note": "REFUTED: a recorded solution with an overloaded loop-back (1010 to 202 808) raises TypeError while being expanded, and the remaining solutions are not saved. Proved: without overloaded nodes the first solution is saved as found and expanded, and with distinct targets all solutions are; with a total flow of at most 600 no node is overloaded."
  },
  {
   "property": "C42",
   "status": "partial",
   "theorems": [
    "C42_expand_merge_partial",
    "C42_expand_merge_refuted"
   ],
   "note": "REFUTED with parallel belts: after 19 / 19 a merger that takes one of two belts cuts both. Proved when each parent feeds the node through one belt: fan-in, exact number of mergers, conserved inflow, links, untouched nodes."
  },
  {
   "property": "C43",
   "status": "partial",
   "theorems": [
    "C43_saved_whenever_possible_refuted",
    "C43_first_solution_saved_partial",
    "C43_distinct_targets_partial",
    "C43_saved_in_order_partial"
   ],
   "note": "REFUTED: solutions share the nodes of target groups; 30 to 1 1 1 1 1 5 20 never ends saving its second solution. Proved: the first solution is drawn correctly, all are if the targets are distinct, files are written in order and completely unless something raises"
  },
  {
   "property": "C44",
   "status": "partial",
   "theorems": [
    "C44_whole_network_refuted",
    "C44_round_trip_partial",
    "C44_first_solution_round_trip_partial"
   ],
   "note": "REFUTED for solutions with several components (only the one of the first root is written). Proved: that component is rebuilt exactly, in particular for the first solution of every run."
  },
  {
   "property": "C45",
   "status": "partial",
   "theorems": [
    "C45_only_produced_files_removed_refuted",
    "C45_produced_files_removed_partial"
   ],
   "note": "REFUTED: the pattern is matched as a prefix, so solution1.png.bak is removed. Proved: all produced names are removed, and exactly the names starting like one"
  },
  {
   "property": "C46",
   "status": "proved",
   "theorems": [
    "C46_scoring_never_raises",
    "C46_caching_changes_nothing",
    "C46_score_unique"
   ],
   "note": "For all stops, targets and positive sources compute does not raise and, unless stopped at its first line, the score is at least the square of the matched targets. Without a stop and with right caches the search's score is the one of an independent specification (best one-operation gain per sum of sources), which is unique, and both caches stay right. Floats are exact rationals in the model."
  },
  {
   "property": "C47",
   "status": "proved",
   "theorems": [
    "C47_queue_is_sorted",
    "C47_dequeue_is_total"
   ],
   "note": "for runs and for any sorted queue"
  },
  {
   "property": "C48",
   "status": "proved",
   "theorems": [
    "C48_decimal_representation_info"
   ],
   "note": "termination, finiteness, least number of decimals, pre-period"
  },
  {
   "property": "C49",
   "status": "proved",
   "theorems": [
    "C49_problem_name_reloads"
   ],
   "note": "Proved for every accepted request."
  },
  {
   "property": "C50",
   "status": "proved",
   "theorems": [
    "C50_tags_describe_construction"
   ],
   "note": "all nodes of all explored trees"
  },
  {
   "property": "C51",
   "status": "proved",
   "theorems": [
    "C51_solve_raises_only_when_stopped"
   ],
   "note": "the only exception is the TypeError of a stop request between the loop test and dequeue (see C33)"
  },
  {
   "property": "C52",
   "status": "partial",
   "theorems": [
    "C52_best_size_is_minimal_refuted",
    "C52_routes_not_better_partial"
   ],
   "note": "REFUTED: only the smaller part of a source is ever extracted, so 80 to 20 60 ends with size 3 instead of 1 Proved: no route that respects the rules of the search beats the recorded solutions, unless it passes through flows that a solution has passed through."
  },
  {
   "property": "C53",
   "status": "partial",
   "theorems": [
    "C53_expand_split_partial",
    "C53_expand_split_refuted"
   ],
   "note": "REFUTED: the new splitter is its own child but not its own parent. Proved: everything else, and that this is the only link recorded at one end."
  },
  {
   "property": "C54",
   "status": "partial",
   "theorems": [
    "C54_more_matches_score_higher_refuted",
    "C54_repeated_targets_refuted",
    "C54_more_matches_score_higher_partial"
   ],
   "note": "Refuted with no match against one match (60 and 70 from 130), and for repeated targets. Proved for distinct targets, which are all that load ever hands to the search, when at least one target is matched: the score lies between m*m and m*m+2."
  },
  {
   "property": "C55",
   "status": "proved",
   "theorems": [
    "C55_stopping_later_loses_nothing"
   ],
   "note": "Same oracles for score, random choice and tree equality in both runs."
  },
  {
   "property": "C56",
   "status": "partial",
   "theorems": [
    "C56_left_only_from_prompt_refuted",
    "C56_left_only_when_not_running_partial"
   ],
   "note": "Refuted: Ctrl+C during load leaves the CLI after the command. Proved: only a handler that has read running as False leads to leaving."
  },
  {
   "property": "C57",
   "status": "proved",
   "theorems": [
    "C57_initial_bound_is_attained"
   ],
   "note": "The network may carry more than 1200 on the merged belt; the search itself only merges within the limit."
  },
  {
   "property": "C58",
   "status": "partial",
   "theorems": [
    "C58_drawing_shows_network_refuted",
    "C58_drawing_shows_network_partial",
    "C58_first_solution_drawn_partial"
   ],
   "note": "REFUTED: a drawn node is known by its text, which has three digits of the id, so two ends of 12 to 6 6 may become one box. Proved when the texts differ: one box per node with its flow and level, one arrow per belt, ranks by level; the first solution saved meets the other conditions. pygraphviz as documented; colours, layout and rendering are not modelled."
  },
  {
   "property": "C59",
   "status": "proved",
   "theorems": [
    "C59_only_signals_stop"
   ],
   "note": "Over all interleavings without a signal; load is one step."
  },
  {
   "property": "C60",
   "status": "partial",
   "theorems": [
    "C60_stop_spares_saving_refuted",
    "C60_stop_spares_saving_partial"
   ],
   "note": "Refuted: the search may end by itself after the signal and before the handler looks at self.solving; the handler then stops the saving. Proved: spared if the handler looks at self.solving during the search, however late it clears it."
  },
  {
   "property": "C61",
   "status": "partial",
   "theorems": [
    "C61_nothing_missed_refuted",
    "C61_nothing_missed_partial"
   ],
   "note": "REFUTED: sources of the same flow are tried once, whichever comes first; in 2 2 8 to 3 9 the first 4 may not be halved (2 would come back), the others may but are not looked at. Proved when no flow comes back to any source as large as the ones used. The rules are read at the end of the search, when they are strictest."
  },
  {
   "property": "C62",
   "status": "proved",
   "theorems": [
    "C62_belts_within_total"
   ],
   "note": "In the reduced integers of the search, also for solutions with the target groups attached."
  },
  {
   "property": "C63",
   "status": "proved",
   "theorems": [
    "C63_no_solution_forgotten"
   ],
   "note": "Over all orders of the search and all answers to the comparison of networks."
  },
  {
   "property": "C64",
   "status": "proved",
   "theorems": [
    "C64_equality_is_same_shape",
    "C64_recorded_shapes_differ",
    "C64_every_shape_recorded"
   ],
   "note": "Tree.__eq__ is modelled (networkx.is_isomorphic as a plain search for an isomorphism) and proved to decide the equality of shapes for the trees of a run. Over all scores and orders of the search."
  },
  {
   "property": "C65",
   "status": "partial",
   "theorems": [
    "C65_expanded_network_works_partial",
    "C65_distinct_targets_work_partial",
    "C65_small_totals_meet_conditions",
    "C65_expanded_network_works_refuted"
   ],
   "note": "REFUTED in full: the only solution of 9 to 1 8 is saved without an exception, but of two belts from a splitter to a target one is lost when the other is led to a merger, and no flow arrives as 1 and 8. Proved for the first solution, and for every solution when the targets are pairwise distinct: without an overloaded node and without such a lost belt, the whole expanded drawing works. Totals of at most eight units always meet both conditions. Missing: later solutions when a target is repeated."
  },
  {
   "property": "C66",
   "status": "proved",
   "theorems": [
    "C66_nothing_left_to_expand"
   ],
   "note": "for every recorded solution without an overloaded node, whether belts get lost or not; the walk over changing lists of children reaches every node that still has a tag"
  },
  {
   "property": "C67",
   "status": "proved",
   "theorems": [
    "C67_extraction_takes_smaller_part"
   ],
   "note": "for the operations applied and for the tags left on the nodes of every tree explored"
  },
  {
   "property": "C68",
   "status": "proved",
   "theorems": [
    "C68_queue_holds_scores",
    "C68_more_matches_come_later",
    "C68_best_match_is_taken"
   ],
   "note": "with the scores the program computes (C46); before a solution is known the choice is random"
  },
  {
   "property": "C69",
   "status": "proved",
   "theorems": [
    "C69_size_is_the_price_of_the_nodes",
    "C69_every_tree_is_listed"
   ],
   "note": "prices are read off the final tree (links, values and tags), independently of the order of the operations"
  },
  {
   "property": "C70",
   "status": "proved",
   "theorems": [
    "C70_size_counts_the_machines"
   ],
   "note": "machines are counted in the saved drawing itself (nodes with several belts in or out); the price formulas of src/cost.py are proved equal to the counts of the expansion"
  },
  {
   "property": "C71",
   "status": "partial",
   "theorems": [
    "C71_size_is_the_machines_partial",
    "C71_size_is_the_machines_refuted"
   ],
   "note": "REFUTED in full: the only solution of 2 3 to 1 1 1 1 1 has size 5 and a drawing of four machines, because the merger of the sources also takes the belt led back. Proved: without overloaded nodes and lost belts the drawing never needs more machines than the size, and exactly as many when no such merger is shared."
  }
 ]
}