# Formal model of lakazatong/satis in Rocq (Coq 8.16.1)

The properties are in `properties.jsonl`, the claims made about them in `MANIFEST.json`, the model and
the proofs in `rocq/theories/`. Build: `cd rocq && coq_makefile -f _CoqProject -o Makefile && make -j4`.

## Layout

| kind | files | content |
|------|-------|---------|
| model | `Base`, `Cost`, `Utils`, `Fractions`, `Load`, `Tree`, `TreeEq`, `Search`, `Real`, `Expand`, `Conclude`, `Score`, `Run`, `Cli`, `Draw` | executable functions that follow the Python source function by function; every definition cites the lines it models |
| specification | `CostSpec`, `UtilsSpec`, `FractionsSpec`, `LoadSpec`, `InitialSpec`, `TreeSpec`, `SearchSpec`, `ExpandSpec`, `ConcludeSpec`, `ScoreSpec`, `CliSpec`, `DrawSpec`, `CompleteSpec`, `RouteSpec`, `SavedSpec`, `RealSpec`, `SizeSpec`, `FlowSpec`, `MachineSpec` | short definitions the statements use; they do not run the model (except that `RouteSpec` and `SizeSpec` price operations with the cost functions of C01-C06, and `SavedSpec` and `FlowSpec` name the loop-backs that `find_n_m_l`, characterised by C02, returns) |
| proofs | `*Proofs`, `*Lemmas`, `*Inv`, `*Grow`, `*Ops`, `*Gen`, `*Init`, `*Safe`, `Flow*`, `Cover*`, `Halves`, `RunRule`, `*Witness` | lemmas, and concrete runs used as witnesses |
| properties | `Prop*` | only the property theorems, each closed by `exact some_lemma` with `Print Assumptions` beneath, and the examples that show their hypotheses can be met |

## Conventions of the model

- Python `int` is `Z`; `Fraction` is the canonical rational `Qc`; `str` is a list of code points (`list Z`).
- An exception is a value: `res A = Ok a | Err e`. Loops are structural, or run on explicit fuel; running
  out of fuel is the error `OutOfFuel`, which no Python program raises. Theorems either exclude it in their
  statement or hold for every amount of fuel ("after any number of iterations").
- Objects live in a heap (a list of node records); a reference is an address; mutation returns a new heap.
  Aliasing is therefore visible (C31, C43).
- A generator is a function that takes its consumer, so that the reads of shared state between two
  resumptions happen where they do in Python.
- What the program does not determine is an oracle that the theorems quantify over: the instant of a stop
  request (the number of reads of `self.solving` that still see `True`), the random choices of `dequeue`,
  and, to keep the theorems independent of them, the score of a tree and the answers of `Tree.__eq__`.
  `Score.v` and `TreeEq.v` model these two; `Real.v` is the oracle that answers with them. Every run that
  refutes a property about the search is a run of such an oracle (`realistic`), so that the counterexamples
  are not due to scores or answers the program would not give.
- Threads and signals (`Cli.v`) are a small-step relation over all interleavings.

## Trusted base

1. Coq's kernel (8.16.1). `vm_compute` is used in proofs of witnesses; `coqchk` rechecks them without the VM.
2. `Print Assumptions` is printed under every property theorem. It answers "Closed under the global
   context" for every one of them: no axiom is used, neither of the standard library nor of our own.
   (`coqchk -o` lists the seven sealed constants `Coq.ssr.ssrunder.Under_rel.*` because the standard library's
   `ssreflect` plugin files are loaded; no theorem depends on them.)
3. The reading of the Python source: the model is tied to the code only by the citations. The code was not
   run.
4. The specifications (`*Spec.v`) and the statements in `Prop*.v`.
5. The assumptions about what is outside the repository, listed below.

### What is modelled

| source | modelled | not modelled |
|--------|----------|--------------|
| `config.py` | belt speeds, limit, the pattern and the names of solution files | logging, `short_repr` and the other printing options (`logging = False` as committed) |
| `src/cost.py` | everything | |
| `src/utils/math.py` | `compute_gcd`, `find_linear_combinations`, `all_sums` | `get_divisors` (unused) |
| `src/utils/other.py`, `fastlist.py` | everything | |
| `src/utils/fractions.py` | everything | |
| `src/utils/solver.py` | everything that is used | `debug_parsed_values`, printed messages |
| `src/utils/cli.py` | the history class; `CLI.run`, `main`, `catching_run`, `exit` as threads and signals | `load_recent_directories`, the text of the prompt |
| `src/utils/text.py`, `graveyard.py` | | printing; commented-out code |
| `src/node.py` | construction, `extract`, `divide`, `merge`, `split`, `_deepcopy`, the four expansions, `expand`, `expand_roots` and the level passes, `wrap`, `unwrap`, `group_values`, `populate` and the shape of `save` | rendering by graphviz, `repr_*` texts |
| `src/tree.py` | `__init__`, `deepcopy`, `add`, `save`, `attach_leaves`, `to_nx_graph`, `__eq__` | `quick_solve` and its helpers (never called, and they refer to undefined names), `pretty`, `__str__` |
| `src/score.py` | `ScoreCalculator` in full, with both caches and the reads of `solving` | commented-out code |
| `src/solver.py` | `load`, `best_size_upper_bond`, `reset`, the four generators, `is_solution`, `solve` with its inner functions, `clear_solution_files`, `conclude`, `stop`, `run` | `log`, `close`, printed messages, commented-out code |
| `main.py` | | the entry point and the example class `Test` |

### Simplifications and assumptions

- Only ASCII digits are digits (`\d`, `int()` and `isdigit()` know more). `strip()` before `split()` is
  omitted: it does not change the result. `int()` never sees surrounding white space.
- Floats of the score are exact rationals; the `OverflowError` for 1024 and more unmatched sources is out.
- `bisect.insort` is a linear scan, equal on the sorted lists it is used on.
- `uuid4()` never repeats. Node ids are addresses. `treelike.TreeLike` defines neither `__eq__` nor
  `__bool__` nor `__len__`.
- Python's recursion limit and memory are unbounded.
- `networkx.is_isomorphic` decides isomorphism of the undirected unlabelled graphs; the model has a plain
  search for an isomorphism in its place.
- `str` of the tuples in a `.data` file and `ast.literal_eval` are inverse to each other (C44).
- Graphviz draws what it is given, writing files succeeds, `os.remove` succeeds (a directory with a
  solution's name would make it raise).
- pygraphviz identifies a node by `str(node)`, which with `short_repr` is made of the value, the last three
  characters of the id, the tags and the level (C58).
- CPython executes one read or write of an attribute atomically; a signal handler runs on the main thread;
  `prompt` and `Thread` behave as documented. `load` is one step in the model of the threads.
- The prints are dropped. They could only raise if standard output is closed.

## Properties: what is modelled and how it is proved

`partial` covers both "proved in part" and "refuted": a theorem whose name ends in `_refuted` shows with a
concrete witness that the property as stated is false of the code; the `_partial` theorem next to it is
what holds instead.

| id | modelled | proof | status | theorems |
|----|----------|-------|--------|----------|
| C01 | `merge_cost`; spec: sequences of 2- and 3-to-1 mergers | closed form by induction; lower bound by counting | proved | `C01_merge_cost_minimal` |
| C02 | `count_splits`, `find_n_m_l`; spec: splitter trees | closed form, monotonicity outside the searched box, fold invariant | proved | `C02_find_n_m_l_optimal`, `C02_find_n_m_l_zero` |
| C03 | same | explicit competitors 3^m, 4*3^(m-1), 2*3^m | proved | `C03_fewer_looped_than_wanted`, `C03_divide_never_free` |
| C04 | `compute_tree_info`, `compute_n_looping_branches`; spec: lists of subtree sizes | mixed radix closed form, exchange argument on the divisor chain | proved | `C04_greedy_branches`, `C04_tree_info` |
| C05 | `extract_cost`, `divide_cost`, `merge_cost` | superadditivity of floor, C03 | proved | `C05_extract_cost_positive`, `C05_divide_cost_positive`, `C05_merge_cost_positive` |
| C06 | both cost functions against the flow the expansion builds | computed witnesses; equality when the real flow is within the limit | partial | `C06_divide_flow_refuted`, `C06_extract_flow_refuted`, `C06_divide_flow_partial`, `C06_extract_flow_partial` |
| C07 | `remove_pairs` with insertion-ordered counters | counting | proved | `C07_remove_pairs_counts`, `C07_remove_pairs_disjoint`, `C07_remove_pairs_sums`, `C07_remove_pairs_sorted` |
| C08 | `fractions_to_integers` | lcm fold | proved | `C08_fractions_to_integers` |
| C09 | `group_values` on a forest | invariant of the regrouping rounds; the level gets shorter | proved | `C09_group_values` |
| C10 | `load` from the text on; spec: `reduced`, `prepared` | composition of C07-C09, C12; divisibility and minimum folds | proved | `C10_load_prepares_search`, `C10_load_preserves_request`, `C10_load_groups_targets`, `C10_load_is_parse_then_load` |
| C11 | same | witness; exact set of raising requests | partial | `C11_load_total_refuted`, `C11_load_total_partial` |
| C12 | formatter and parser on code points | digit strings, splitting lemmas | proved | `C12_format_parse_round_trip`, `C12_gather_permutes` |
| C13 | `parse_decimal`, `parse_fraction`; spec: (repeating) expansions | geometric sums over Q | proved | `C13_repeating_decimals`, `C13_terminating_decimals` |
| C14 | same | witness; characterisation of the accepted strings | partial | `C14_malformed_rejected_refuted`, `C14_malformed_rejected_partial`, `C14_well_formed_accepted_partial` |
| C15 | `FastList` as a state machine | invariant by induction over operations | proved | `C15_fastlist`, `C15_fastlist_raise` |
| C16 | `UniqueInMemoryHistory` | invariant by induction over operations | proved | `C16_history` |
| C17 | `all_sums` | fold invariant | proved | `C17_all_sums` |
| C18 | same | witness; fold invariant with equal counts | partial | `C18_cheapest_sum_refuted`, `C18_cheapest_sum_partial` |
| C19 | `find_linear_combinations` with the shared list | witness; induction over the index | partial | `C19_linear_combinations_refuted`, `C19_linear_combinations_partial` |
| C20 | heap of nodes, trees, generators, `solve` | global invariant `Inv` of the search preserved by every step, ghost log of the operations | proved | `C20_steps_conserve_flow` |
| C21 | same | same invariant (`wf` of every tree) | proved | `C21_explored_trees_are_networks`, `C21_known_trees_are_explored` |
| C22 | same, and `attach_leaves` | same invariant; planting of the groups | proved | `C22_attached_solutions_deliver_integers`, `C22_solutions_deliver_targets` |
| C23 | same | same invariant; monotonicity along the run | proved | `C23_solutions_have_best_size`, `C23_best_size_never_increases` |
| C24 | same; spec: `history` | induction over the log | proved | `C24_size_is_total_cost` |
| C25 | same | weight of the queue decreases; explicit bound | proved | `C25_solve_terminates` |
| C26 | `purge_queue`; spec: `leads` | positive costs (C05); loop invariant of the purge | proved | `C26_purge_loses_no_solution`, `C26_queue_holds_no_solution`, `C26_purge_is_exact` |
| C27 | same | past tuples are in the invariant | proved | `C27_no_configuration_revisited` |
| C28 | same | invariant | proved | `C28_belts_within_limit` |
| C29 | `compute_cant_use` | counting; ghost log | proved | `C29_needed_values_are_kept` |
| C30 | pasts of nodes | computed run; what remains in the invariant | partial | `C30_ancestor_values_avoided_refuted`, `C30_ancestor_values_avoided_partial` |
| C31 | `_deepcopy`, `Tree.deepcopy` | depth-first invariant with a renaming | proved | `C31_deepcopy_is_faithful`, `C31_trees_share_no_node` |
| C32 | levels | invariant | proved | `C32_levels_increase` |
| C33 | `solve` with every read of the flag; `run`; threads and signals | schedules as witnesses; invariant over all interleavings; relational argument about the stop | partial | `C33_stop_never_lost_refuted`, `C33_stop_before_search_lost_refuted`, `C33_stop_keeps_solutions_refuted`, `C33_stop_during_search_partial`, `C33_stop_during_saving_partial`, `C33_reads_are_monotone_partial`, `C33_stopped_search_ends_partial`, `C33_stop_bounds_work_partial`, `C33_stopped_run_saves_partial` |
| C34 | threads and signals | invariant over all interleavings | proved | `C34_not_running_when_thread_ends`, `C34_main_returns`, `C34_prompt_means_idle`, `C34_run_starts_idle` |
| C35 | executable search; spec: `route` | computed run; induction along the route with C61's completeness | partial | `C35_search_is_complete_refuted`, `C35_routes_found_partial` |
| C36 | same | computed runs; scaling of real flows | partial | `C36_unit_independent_refuted`, `C36_unit_independent_partial` |
| C37 | `solution_found`; spec: `isomorphic`, `same_network` | computed run; case analysis | partial | `C37_different_solutions_kept_refuted`, `C37_different_solutions_kept_partial` |
| C38 | `compute_looping_branches` | level by level invariant | proved | `C38_branch_bookkeeping` |
| C39 | `expand_divide` | level by level construction; witness over the limit | partial | `C39_expand_divide_partial`, `C39_overloaded`, `C39_expand_divide_refuted` |
| C40 | `expand_extract` | level by level construction | proved | `C40_expand_extract`, `C40_overloaded` |
| C41 | `conclude` after a run | computed run for the refutation; an invariant of the traversal that expands one node after the other, with an explicit decreasing measure, for the rest | partial | `C41_expanded_solutions_saved_refuted`, `C41_first_solution_expanded_partial`, `C41_distinct_targets_saved_partial`, `C41_low_flow_saved_partial` |
| C42 | `expand_merge` | loop invariant; witness with parallel belts | partial | `C42_expand_merge_partial`, `C42_expand_merge_refuted` |
| C43 | `conclude` over a shared heap | computed run; frame arguments | partial | `C43_saved_whenever_possible_refuted`, `C43_first_solution_saved_partial`, `C43_distinct_targets_partial`, `C43_saved_in_order_partial` |
| C44 | `wrap`, `unwrap` | depth-first invariant; witness with two components | partial | `C44_whole_network_refuted`, `C44_round_trip_partial`, `C44_first_solution_round_trip_partial` |
| C45 | pattern of names, directory as a list of names | witness; characterisation of the matched names | partial | `C45_only_produced_files_removed_refuted`, `C45_produced_files_removed_partial` |
| C46 | `ScoreCalculator`; spec: best gain per sum | uniqueness of the specification; caches as an invariant | proved | `C46_scoring_never_raises`, `C46_caching_changes_nothing`, `C46_score_unique` |
| C47 | queue | invariant; case analysis | proved | `C47_queue_is_sorted`, `C47_dequeue_is_total` |
| C48 | `decimal_representation_info` | division loops, multiplicative order | proved | `C48_decimal_representation_info` |
| C49 | `load` | C10 and C12 | proved | `C49_problem_name_reloads` |
| C50 | tags of nodes | invariant | proved | `C50_tags_describe_construction` |
| C51 | `solve` | invariant, with C05 for the costs | proved | `C51_solve_raises_only_when_stopped` |
| C52 | executable search; spec: `route` | computed run; induction along the route with C61's completeness | partial | `C52_best_size_is_minimal_refuted`, `C52_routes_not_better_partial` |
| C53 | `expand_split` | symbolic execution; witness | partial | `C53_expand_split_partial`, `C53_expand_split_refuted` |
| C54 | score specification | bounds of the score; witness | partial | `C54_more_matches_score_higher_refuted`, `C54_repeated_targets_refuted`, `C54_more_matches_score_higher_partial` |
| C55 | `solve` twice, with different instants of the stop | simulation until the first difference, then monotonicity | proved | `C55_stopping_later_loses_nothing` |
| C56 | threads and signals | schedule as a witness; invariant | partial | `C56_left_only_from_prompt_refuted`, `C56_left_only_when_not_running_partial` |
| C57 | `best_size_upper_bond`, operations on trees | explicit sequence of operations (C20's step lemma) | proved | `C57_initial_bound_is_attained` |
| C58 | `str(node)`, `populate` and the part of `Node.save` that builds the graph | induction on the traversal with an invariant on boxes and arrows; a run as a witness | partial | `C58_drawing_shows_network_refuted`, `C58_drawing_shows_network_partial`, `C58_first_solution_drawn_partial` |
| C59 | threads and signals | invariant over all interleavings | proved | `C59_only_signals_stop` |
| C60 | threads and signals | schedule as a witness; invariant | partial | `C60_stop_spares_saving_refuted`, `C60_stop_spares_saving_partial` |
| C61 | `solve` with an unbounded log of what it tried | completeness of each generator by weakest preconditions; the rules only get stricter; a run as a witness | partial | `C61_nothing_missed_refuted`, `C61_nothing_missed_partial` |
| C62 | `solve`, `attach_leaves` | invariant of the search; induction over the attached groups | proved | `C62_belts_within_total` |
| C63 | `solve` | invariant: every built tree with the targets is counted | proved | `C63_no_solution_forgotten` |
| C64 | `tree_eq`, `solution_found`, `solve`; spec: `isomorphic` | correctness of the search for an isomorphism; induction over the operations of a run | proved | `C64_equality_is_same_shape`, `C64_recorded_shapes_differ`, `C64_every_shape_recorded` |
| C65 | `expand` and `Node.save` on networks of the search; spec: `works` | invariant of the walk: flows on all belts of the partly expanded drawing; a run as a witness | partial | `C65_expanded_network_works_partial`, `C65_distinct_targets_work_partial`, `C65_small_totals_meet_conditions`, `C65_expanded_network_works_refuted` |
| C66 | `expand` on networks of the search; spec: `reached` | invariant of the walk over changing lists: what is not yet visited stays ahead of some index | proved | `C66_nothing_left_to_expand` |
| C67 | `extract_sims`, the tags `extract` leaves | invariant over the search | proved | `C67_extraction_takes_smaller_part` |
| C68 | `enqueue`, `dequeue` with the scores of `ScoreCalculator` | invariant of the queue; bounds of C54 | proved | `C68_queue_holds_scores`, `C68_more_matches_come_later`, `C68_best_match_is_taken` |
| C69 | `Tree.add`, `Tree.deepcopy`, the operations of `Node` | invariant of the run; one operation changes the price of one node or adds one merger | proved | `C69_size_is_the_price_of_the_nodes`, `C69_every_tree_is_listed` |
| C70 | `divide_cost`, `extract_cost`, `merge_cost`, attaching of groups, `expand`; spec: `machines`, `spared` | the flow invariant of the expansion also counts machines made and still to be made; the price formulas are rewritten as sums over the levels of the splitter tree | proved | `C70_size_counts_the_machines` |
| C71 | as C70 | from C70; witness by computation | partial | `C71_size_is_the_machines_partial`, `C71_size_is_the_machines_refuted` |

## Testing the theorems against wrong programs

`seeded/LOG.jsonl` has one line per edited definition: the edit, the claim it breaks, the theorems whose
proofs failed after the edit, and what was tightened as a result. The edits are made in a copy of the
development; a lemma that no longer proves is replaced by an assumption so that everything that depends on it
can be listed. A theorem counts as failing if its own proof or one it depends on fails.

What this does and does not show. `theorems_failed` lists theorems whose proofs stopped replaying, not theorems
shown to have become false. Proof scripts also stop after edits that keep the meaning: the control (a rewriting
of `divide_ter` with the same result) and every edit known to be equivalent but one made theorems "fail". One of
them, dropping the test of the length in `is_solution`, had been logged as breaking C22 until no counterexample
could be found; values are positive and totals agree, so it changes nothing. Long
lists often come from one lemma that everything rests on, and a script over the time limit (90 to 400 s) was
counted as stopped. So a non-empty list is weak evidence that a theorem excludes the wrong program; only an
empty list is informative by itself. `verdict` keeps these apart: `refuted` (the negation of the theorem's
statement, copied verbatim, was proved in the edited model without axioms; the same proof fails on the unedited
model), `proof scripts stopped` (nothing more is known), `false alarm` (an edit expected to be equivalent),
`false alarm possible` (no claim was expected to break), `not detected`, `inconclusive`. Of the 186 lines
138 are `refuted` and 28 `proof scripts stopped`: for the latter it has not been shown that any theorem became
false.
