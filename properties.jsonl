{"id": "C01", "title": "merge_cost is the exact minimum number of 3-to-1 mergers", "statement": "merge_cost(n, t) equals the least k such that some sequence of k mergers, each replacing 2 or 3 belts by one, leaves at most t belts out of n: it is achievable, and no shorter sequence achieves it. It is 0 when n <= t.", "quantifier": "all integers n >= 0 and t >= 1, and all sequences of mergers", "why_tests_cant": "Tests sample a few (n, t); optimality quantifies over every merger sequence.", "anchors": ["src/cost.py:merge_cost"]}
{"id": "C02", "title": "find_n_m_l returns a globally minimal splitter tree", "statement": "For every X >= 1, find_n_m_l(X) returns (n, m, l, s) with 2^n*3^m = X + l, l >= 0, s = the number of splitters of the full tree made of n binary levels followed by m ternary levels, and no pair (n', m') whatsoever with 2^n'*3^m' >= X has a smaller tree. X = 0 raises ValueError.", "quantifier": "all integers X, all competing pairs (n', m') of naturals, including those outside the searched box", "why_tests_cant": "The code searches only a finite box; that nothing outside it is better is a universal statement.", "anchors": ["src/cost.py:find_n_m_l", "src/cost.py:count_splits"]}
{"id": "C03", "title": "Fewer branches are looped back than are wanted", "statement": "For every X >= 1 the l returned by find_n_m_l(X) is strictly smaller than X. Hence divide_cost never takes its 'l == x -> 0' branch for a divisor of x.", "quantifier": "all integers X >= 1", "why_tests_cant": "Depends on the arithmetic of 3-smooth numbers for arbitrarily large X.", "anchors": ["src/cost.py:find_n_m_l", "src/cost.py:divide_cost"]}
{"id": "C04", "title": "Greedy branch decomposition uses the fewest subtrees and counts the saved splitters exactly", "statement": "compute_n_looping_branches(l, *compute_tree_info(n, m)) terminates and returns (b, s): b is the least number of full subtrees of the (n, m) tree whose leaves total l, and s is the total number of splitters of the subtrees it chooses, which equals sum over depths j of floor(l / leaves of a depth-j subtree).", "quantifier": "all n, m and all l >= 0, against every other decomposition", "why_tests_cant": "Optimality of a greedy algorithm over all decompositions.", "anchors": ["src/cost.py:compute_n_looping_branches", "src/cost.py:compute_tree_info"]}
{"id": "C05", "title": "Every operation has a strictly positive, well defined cost", "statement": "extract_cost(x, c) returns an integer >= 1 for every x >= 3 and 0 < c < x, divide_cost(x, d) returns an integer >= 1 for every x >= 2 and d >= 2 dividing x, merge_cost(k, 1) >= 1 for k >= 2; none of these calls raises.", "quantifier": "all integers x, c, d, k in the stated ranges", "why_tests_cant": "A single zero or exception would make scoring divide by zero or the search loop for ever; there are infinitely many inputs.", "anchors": ["src/cost.py:extract_cost", "src/cost.py:divide_cost", "src/cost.py:merge_cost", "src/score.py:score_extract"]}
{"id": "C06", "title": "The cost functions compare the belt limit with the real looped-back flow", "statement": "Whenever dividing x into d parts needs a loop-back, the cost functions charge for an overloaded input exactly when the flow really entering the splitter tree, x + l*x/d, exceeds the belt limit (this is the flow the expansion code builds).", "quantifier": "all x, d with d dividing x", "why_tests_cant": "Needs agreement of two independently written formulas on every input.", "anchors": ["src/cost.py:divide_cost", "src/cost.py:extract_cost", "src/node.py:expand_divide", "src/node.py:expand_extract"]}
{"id": "C07", "title": "remove_pairs is exact multiset cancellation", "statement": "remove_pairs(a, b) returns lists in which every value v occurs max(0, count_a(v) - count_b(v)) and max(0, count_b(v) - count_a(v)) times respectively; the two results share no value, the difference of the sums is unchanged, and sorted inputs give sorted outputs.", "quantifier": "all pairs of lists", "why_tests_cant": "Multiset law over all lists with arbitrary repetition.", "anchors": ["src/utils/other.py:remove_pairs"]}
{"id": "C08", "title": "fractions_to_integers scales exactly and minimally", "statement": "fractions_to_integers(fs) returns integers and a ratio u >= 1 such that integer_i = f_i * u exactly for every i, order is preserved, and u is the least positive integer that makes all f_i * u integral.", "quantifier": "all non-empty lists of fractions", "why_tests_cant": "Exactness and minimality over all rationals.", "anchors": ["src/utils/fractions.py:fractions_to_integers"]}
{"id": "C09", "title": "group_values folds equal values into a forest without losing flow", "statement": "Node.group_values(values) on positive values terminates and returns a strictly increasing list of roots with the same total; each inner node has at least two children of equal value summing to its own value; the leaves below the roots are exactly the given values (with multiplicity); the reported cost is the sum of divide_cost over inner nodes, and inner nodes with more than three children (and only they) are tagged for expansion.", "quantifier": "all lists of positive integers", "why_tests_cant": "Iterated regrouping to a fixed point; depth and shape unbounded.", "anchors": ["src/node.py:group_values"]}
{"id": "C10", "title": "load balances the problem and preserves the request", "statement": "If load succeeds on positive values, the loaded sources and targets have equal totals, both are sorted, share no value before grouping, and divided by unit_flow_ratio they are the user's values plus at most one generated value (the difference of totals, on the lighter side) minus equal source/target pairs.", "quantifier": "all lists of positive source and target fractions", "why_tests_cant": "Universal over user problems.", "anchors": ["src/solver.py:load"]}
{"id": "C11", "title": "load accepts every well formed problem", "statement": "For any lists of strictly positive source and target fractions, load either reports that there is nothing to do or succeeds; it does not raise.", "quantifier": "all lists of positive fractions", "why_tests_cant": "Only specific totals fail; sampling misses them.", "anchors": ["src/solver.py:load", "src/solver.py:best_size_upper_bond", "src/cost.py:extract_cost"]}
{"id": "C12", "title": "Formatting a problem and parsing it back is the identity", "statement": "For any nonempty lists of non-negative fractions, parse_user_input(format_fractions(sources) + ' to ' + format_fractions(targets)) returns the same sources and targets (equal values gathered together), also after history replaced the special slash by '/'.", "quantifier": "all lists of non-negative fractions (terminating, repeating, integral, repeated)", "why_tests_cant": "Round-trip over all rationals and repetition patterns.", "anchors": ["src/utils/fractions.py:format_fractions", "src/utils/fractions.py:parse_fraction", "src/utils/solver.py:parse_user_input", "src/utils/cli.py:UniqueInMemoryHistory.append_string"]}
{"id": "C13", "title": "Decimal notation denotes the rational with that (repeating) expansion", "statement": "parse_fraction('w.f(r)') is the unique rational x whose decimal expansion is w.f followed by r repeated for ever: for every k, x lies within 10^-(|f|+k|r|) above the value of w.f r^k.", "quantifier": "all digit strings w, f, r and every truncation length k", "why_tests_cant": "Infinite expansion; all digit strings.", "anchors": ["src/utils/fractions.py:parse_decimal", "src/utils/fractions.py:parse_fraction"]}
{"id": "C14", "title": "Malformed numbers are rejected", "statement": "parse_fraction accepts a string containing a dot only if the whole string has the form w.f, w.(r) or w.f(r).", "quantifier": "all strings", "why_tests_cant": "Universal over strings.", "anchors": ["src/utils/fractions.py:parse_decimal"]}
{"id": "C15", "title": "FastList is a duplicate-free list with exact membership", "statement": "After any sequence of append, extend, remove, pop and clear on a fresh FastList, the list has no duplicates, contains(x) is true exactly when x is in the list, elements keep their first-insertion order, and a raising operation leaves the list unchanged.", "quantifier": "all operation sequences", "why_tests_cant": "State-machine invariant over unbounded histories.", "anchors": ["src/utils/fastlist.py:FastList"]}
{"id": "C16", "title": "Input history is duplicate-free and ordered by recency", "statement": "After any sequence of append_string calls, each remembered command (with the special slash normalised) occurs exactly once, and commands are ordered by the time of their last use, newest first.", "quantifier": "all sequences of entered commands", "why_tests_cant": "Unbounded histories.", "anchors": ["src/utils/cli.py:UniqueInMemoryHistory"]}
{"id": "C17", "title": "all_sums enumerates exactly the non-empty subset sums", "statement": "For positive numbers, the keys of all_sums(numbers) are exactly the sums of non-empty sub-multisets of numbers, and the count attached to a key is the size of some sub-multiset with that sum.", "quantifier": "all lists of positive integers", "why_tests_cant": "Exponentially many subsets, all lists.", "anchors": ["src/utils/math.py:all_sums"]}
{"id": "C18", "title": "all_sums reports the cheapest way to reach each sum", "statement": "The count attached to each sum is the smallest number of values that reach it.", "quantifier": "all lists of positive integers", "why_tests_cant": "Universal claim over subsets.", "anchors": ["src/utils/math.py:all_sums", "src/score.py:compute"]}
{"id": "C19", "title": "find_linear_combinations yields exactly the solutions", "statement": "find_linear_combinations(x, y) yields exactly the vectors c >= 0 with sum c_i*x_i = y.", "quantifier": "all lists of positive x and all y", "why_tests_cant": "Universal over instances; depends on stale state in a shared buffer.", "anchors": ["src/utils/math.py:find_linear_combinations"]}
{"id": "C20", "title": "Each search step conserves flow and its prediction is exact", "statement": "Whenever the search applies extract, divide, split or merge to a tree, the resulting sorted tuple of open values equals the tuple predicted by the corresponding *_sims generator, and its total equals the previous total.", "quantifier": "all reachable trees, all candidate operations", "why_tests_cant": "Every reachable search state.", "anchors": ["src/solver.py:extract_sims", "src/solver.py:divide_sims", "src/solver.py:split_sims", "src/solver.py:merge_sims", "src/node.py:extract", "src/node.py:merge", "src/tree.py:add"]}
{"id": "C21", "title": "Every explored tree is a flow-conserving network from the given sources", "statement": "In every tree the search ever enqueues or records: roots carry exactly the loaded source values; every consumed node either splits into children whose values sum to its own, or is one of the inputs of a merge node whose value is the sum of its inputs; parent and child links agree; open sources are exactly the nodes without children, sorted by value; all values are positive.", "quantifier": "all runs: every random choice, every stop time, every score function", "why_tests_cant": "Unbounded search histories.", "anchors": ["src/solver.py:solve", "src/tree.py:Tree", "src/node.py:Node"]}
{"id": "C22", "title": "Recorded solutions deliver exactly the targets", "statement": "At any time, for every recorded solution, the values of its open ends are exactly the (grouped) target values in order, and after attach_leaves on fresh leaves the open ends are exactly the requested target integers with multiplicity.", "quantifier": "all runs, all random choices, all stop times", "why_tests_cant": "Every reachable solver state.", "anchors": ["src/solver.py:is_solution", "src/solver.py:solve", "src/tree.py:attach_leaves"]}
{"id": "C23", "title": "Recorded solutions all have the best size seen", "statement": "At any time during or after solve, all recorded solutions have size equal to best_size, solutions_count is their number, best_size never increases, and the branch announcing an impossible case is never executed.", "quantifier": "all runs, all random choices, all stop times", "why_tests_cant": "Depends on stale bound checks inside lazily evaluated generators.", "anchors": ["src/solver.py:solution_found", "src/solver.py:enqueue"]}
{"id": "C24", "title": "Size of a tree is the total cost of its operations", "statement": "The size of every explored tree equals the sum of the costs of the operations that built it, hence is at least the number of operations.", "quantifier": "all runs", "why_tests_cant": "Unbounded histories.", "anchors": ["src/tree.py:add", "src/solver.py:try_op"]}
{"id": "C25", "title": "solve always terminates", "statement": "Without any stop request, solve terminates on every loaded problem with positive values, whatever the random choices and scores.", "quantifier": "all loaded problems, all random choices and score functions", "why_tests_cant": "Termination over all schedules.", "anchors": ["src/solver.py:solve"]}
{"id": "C26", "title": "Purging the queue loses no solution", "statement": "A tree removed by purge_queue can not lead by any sequence of search operations to a solution of size <= best_size.", "quantifier": "all queue states and all continuations", "why_tests_cant": "Quantifies over all futures.", "anchors": ["src/solver.py:purge_queue"]}
{"id": "C27", "title": "No configuration is revisited", "statement": "Along the history of any explored tree the tuples of open values are pairwise distinct.", "quantifier": "all runs", "why_tests_cant": "Unbounded histories.", "anchors": ["src/solver.py:extract_sims", "src/tree.py:add", "src/utils/fastlist.py:FastList"]}
{"id": "C28", "title": "Belts never exceed the limit", "statement": "If every given source is at most the belt limit (1200), then every node of every explored tree is at most the limit; in particular no merge above the limit is performed.", "quantifier": "all runs", "why_tests_cant": "Every reachable tree.", "anchors": ["src/solver.py:merge_sims"]}
{"id": "C29", "title": "Values already matching targets are not consumed", "statement": "The search never operates on a value all of whose occurrences among the open sources are needed by targets of that value.", "quantifier": "all trees and targets", "why_tests_cant": "Universal over states.", "anchors": ["src/utils/solver.py:compute_cant_use"]}
{"id": "C30", "title": "An operation never recreates an ancestor's value", "statement": "No operation produces a value that was carried by an ancestor of the node it is applied to.", "quantifier": "all runs", "why_tests_cant": "History property over all runs.", "anchors": ["src/node.py:_deepcopy", "src/solver.py:merge_sims", "src/solver.py:extract_sims"]}
{"id": "C31", "title": "deepcopy is an isolated faithful copy", "statement": "Tree.deepcopy yields a tree with the same node ids, values, expansion tags and edges (children lists reversed, parent lists permuted), the same levels (roots at level 0), sources, past and size, made of new nodes only; the original is untouched and no two trees of a run share a node.", "quantifier": "all reachable trees", "why_tests_cant": "Graph traversal over arbitrary DAGs.", "anchors": ["src/node.py:_deepcopy", "src/tree.py:deepcopy"]}
{"id": "C32", "title": "Drawing levels strictly increase along every edge", "statement": "In every explored tree each child's level is strictly greater than its parents' levels, and every open source sits on the current level.", "quantifier": "all runs", "why_tests_cant": "Every reachable tree.", "anchors": ["src/tree.py:add", "src/node.py:extract"]}
{"id": "C33", "title": "A stop request is never lost and never loses found solutions", "statement": "Whenever stop is requested while the backend is running, the search or the saving ends early without an exception, and the solutions found so far are saved.", "quantifier": "all instants at which stop can arrive", "why_tests_cant": "Schedule-dependent.", "anchors": ["src/solver.py:stop", "src/solver.py:run", "src/solver.py:solve", "src/utils/cli.py:CLI"]}
{"id": "C34", "title": "After a run the CLI is ready for the next command", "statement": "Whatever the backend does (success, exception, stop at any time), when its thread ends backend.running is false and main returns; the solver flags are those of an idle solver after the next load.", "quantifier": "all outcomes and interleavings", "why_tests_cant": "Schedule-dependent.", "anchors": ["src/utils/cli.py:CLI.main", "src/solver.py:run", "src/solver.py:reset"]}
{"id": "C35", "title": "If a simple network exists the exhaustive search finds one", "statement": "If the search ends without being stopped and without a solution, no network of the supported operations within the belt limit realises the request.", "quantifier": "all problems", "why_tests_cant": "Completeness over all networks.", "anchors": ["src/solver.py:solve", "src/node.py:group_values"]}
{"id": "C36", "title": "Problems are solved independently of the unit of flow", "statement": "Belt speeds are compared with real flows: a fractional problem is treated like the same flows in the game's unit; an extraction shown as a single splitter extracts a real belt speed.", "quantifier": "all fractional problems", "why_tests_cant": "Universal over problems.", "anchors": ["src/solver.py:load", "src/solver.py:merge_sims", "src/node.py:extract"]}
{"id": "C37", "title": "Different solutions are kept", "statement": "A solution of the best size is discarded only if an identical network was already recorded.", "quantifier": "all pairs of solutions", "why_tests_cant": "Universal over graphs.", "anchors": ["src/tree.py:__eq__", "src/solver.py:solution_found"]}
{"id": "C38", "title": "Branch bookkeeping of an expansion is consistent", "statement": "compute_looping_branches(n, m, l, compute_branches_count(n, m)) terminates for 0 <= l; at each level the recorded cut branches plus the recorded ignored branches equal the number of level slots lying in chosen subtrees, and at the bottom level they total l.", "quantifier": "all n, m, l", "why_tests_cant": "All parameters.", "anchors": ["src/cost.py:compute_looping_branches"]}
{"id": "C39", "title": "Expanding a division builds a regular splitter tree", "statement": "expand_divide(node, d) gives every splitter it builds exactly two outputs on binary levels and three on ternary levels, attaches each of the d original children exactly once, sends exactly the chosen loop-back branches back, uses n_splitters - n_saved splitters (the number divide_cost charges), and never indexes out of range.", "quantifier": "all divisors d >= 2 and node values", "why_tests_cant": "All sizes of trees.", "anchors": ["src/node.py:expand_divide", "src/cost.py:divide_cost"]}
{"id": "C40", "title": "Expanding an extraction builds a regular splitter tree with the right flows", "statement": "expand_extract(node, c) gives every splitter exactly two or three outputs; the extract, overflow and loop nodes receive branches whose flows total c, value - c and the looped flow; it uses the number of splitters extract_cost charges.", "quantifier": "all values x > 2 and 0 < c < x", "why_tests_cant": "All sizes of trees.", "anchors": ["src/node.py:expand_extract", "src/cost.py:extract_cost"]}
{"id": "C41", "title": "Expanded solutions can always be saved", "statement": "Expanding and re-levelling a recorded solution never raises.", "quantifier": "all recorded solutions", "why_tests_cant": "Only overloaded loop-backs fail.", "anchors": ["src/node.py:expand_extract", "src/node.py:expand_roots", "src/node.py:tag_levels_update"]}
{"id": "C42", "title": "Expanding a merge respects the merger fan-in and conserves flow", "statement": "expand_merge(node, threshold) ends with at most threshold parents for node and exactly three inputs for each merger it creates, using merge_cost(number of parents, threshold) mergers, and parent/child links stay consistent.", "quantifier": "all numbers of parents, thresholds 2 and 3", "why_tests_cant": "All fan-ins; parallel edges.", "anchors": ["src/node.py:expand_merge", "src/node.py:merge"]}
{"id": "C43", "title": "Saving one solution does not affect another", "statement": "Attaching, saving and expanding solution i leaves the data used to save solution j unchanged, so every recorded solution gets saved.", "quantifier": "all pairs of recorded solutions", "why_tests_cant": "Aliasing between solutions.", "anchors": ["src/solver.py:conclude", "src/tree.py:attach_leaves", "src/node.py:expand_divide"]}
{"id": "C44", "title": "wrap/unwrap round-trips a saved network", "statement": "unwrap(wrap(root)) rebuilds every node of the network with its value, id, level, parents, children and expansion tags, and returns its level-0 nodes.", "quantifier": "all networks", "why_tests_cant": "All graphs.", "anchors": ["src/node.py:wrap", "src/node.py:unwrap"]}
{"id": "C45", "title": "Concluding replaces exactly the previous solution files", "statement": "Before saving, conclude removes from the problem directory the files produced by earlier runs for this problem and nothing else.", "quantifier": "all directory contents", "why_tests_cant": "All file names.", "anchors": ["src/solver.py:clear_solution_files", "config.py:solution_regex"]}
{"id": "C46", "title": "Scoring never fails and ranks matched targets first", "statement": "ScoreCalculator.compute never raises on positive sources and returns a score at least the square of the number of matched targets; caching does not change the result.", "quantifier": "all positive sources and targets", "why_tests_cant": "All inputs; exponential sums.", "anchors": ["src/score.py:ScoreCalculator"]}
{"id": "C47", "title": "The queue is ordered and dequeue is total", "statement": "The queue stays sorted by (score, -size); dequeue always returns an element of a non-empty queue; once a solution is known it returns one of maximal score and, among those, minimal size.", "quantifier": "all runs", "why_tests_cant": "All schedules and scores.", "anchors": ["src/solver.py:enqueue", "src/solver.py:dequeue"]}
{"id": "C48", "title": "decimal_representation_info classifies every fraction", "statement": "decimal_representation_info(f) terminates and returns (True, m) exactly when f has a finite decimal expansion, m being the least number of decimals; otherwise it returns False together with the length of the non-repeating part, or None when that length is 0.", "quantifier": "all fractions", "why_tests_cant": "All rationals.", "anchors": ["src/utils/fractions.py:decimal_representation_info"]}
{"id": "C49", "title": "Re-entering a problem's name loads the same problem", "statement": "If load succeeds on positive values, then loading the problem's own name (the directory name later offered in the history), with or without the special slash, succeeds and yields exactly the same problem: same sources, targets, unit ratio, groups, bounds and name.", "quantifier": "all lists of positive source and target fractions", "why_tests_cant": "Round trip through formatting, parsing, balancing and cancellation for all requests.", "anchors": ["src/solver.py:load", "src/utils/cli.py:load_recent_directories", "src/utils/fractions.py:format_fractions"]}
{"id": "C50", "title": "Expansion tags describe how nodes were built", "statement": "In every explored tree a node with at least two children carries exactly the expansion tag of the extract, divide or split that produced these children (none for a belt-speed extraction or a division by 2 or 3), after the merge tag it carries exactly when it results from merging more than three nodes.", "quantifier": "all runs, all nodes", "why_tests_cant": "Every reachable tree; wrong tags only show in expanded drawings.", "anchors": ["src/node.py:extract", "src/node.py:divide", "src/node.py:split", "src/node.py:merge"]}
{"id": "C51", "title": "The search raises nothing", "statement": "On every loaded problem solve raises no exception, except the TypeError of unpacking None when a stop request falls between the test of the main loop and the test in dequeue.", "quantifier": "all loaded problems, all random choices, scores and stop instants", "why_tests_cant": "All schedules.", "anchors": ["src/solver.py:solve", "src/solver.py:dequeue"]}
{"id": "C52", "title": "The best size found is minimal", "statement": "If the search ends without being stopped, no network of the supported operations within the belt limit delivers the grouped targets with a smaller size than the recorded solutions.", "quantifier": "all problems", "why_tests_cant": "Optimality over all networks.", "anchors": ["src/solver.py:solve", "src/solver.py:extract_sims"]}
{"id": "C53", "title": "Expanding a split inserts one looping splitter with consistent links", "statement": "expand_split(node, c) of a node with two outputs of c/3 and an overflow puts one new splitter under the node: its outputs are itself and the two outputs of c/3, it carries both, the overflow stays on the node, every other node is unchanged, and each link is recorded at both ends.", "quantifier": "all networks, nodes, belt speeds and orders of the children", "why_tests_cant": "All orders of children and surrounding networks.", "anchors": ["src/node.py:expand_split", "src/solver.py:split_sims"]}
{"id": "C54", "title": "Sources matching more targets score higher", "statement": "For the same targets, sources among which more targets are present have a strictly higher score.", "quantifier": "all positive sources and targets", "why_tests_cant": "Compares all pairs of sources; the bound needs the number of sums and the best gain of each.", "anchors": ["src/score.py:ScoreCalculator.compute"]}
{"id": "C55", "title": "Stopping later loses nothing", "statement": "A search stopped later (or never) has applied all the operations of the one stopped earlier, and has either found strictly smaller solutions or still has all those of the earlier one.", "quantifier": "all loaded problems, all pairs of instants, all scores and random choices", "why_tests_cant": "Relates two executions that differ only in the instant of the stop; needs every pair of instants.", "anchors": ["src/solver.py:solve", "src/solver.py:solution_found", "src/solver.py:enqueue"]}
{"id": "C56", "title": "The command line is left only from the prompt", "statement": "The loop of CLI.run ends only because of what happens at the prompt (exit, quit, q, Ctrl+C, end of file).", "quantifier": "all interleavings of the threads and the signals", "why_tests_cant": "Schedule-dependent.", "anchors": ["src/utils/cli.py:CLI.exit", "src/utils/cli.py:CLI.run"]}
{"id": "C57", "title": "The initial bound on the size is attained", "statement": "For every loaded problem, merging all sources and extracting the targets one after the other leads from the initial tree to the targets by sensible operations, and the size of the result plus the size of the groups is exactly the initial best size.", "quantifier": "all loaded problems", "why_tests_cant": "The bound is computed by a closed loop over the targets; that it is the price of a real network needs every multiset of flows.", "anchors": ["src/solver.py:best_size_upper_bond", "src/solver.py:load", "src/node.py:Node"]}
{"id": "C58", "title": "A saved drawing shows the network", "statement": "The drawing of every saved solution has one box per node, labelled with its flow in the unit of the request, one arrow per belt, and groups the nodes by level, whatever ids the nodes were given.", "quantifier": "all loaded problems, runs and assignments of distinct ids", "why_tests_cant": "Boxes are identified by a text that contains three random hexadecimal digits; a test run rarely meets a collision.", "anchors": ["src/node.py:populate", "src/node.py:Node.save", "src/node.py:repr_node_id"]}
{"id": "C59", "title": "Nothing but a signal stops a run", "statement": "From the start of the backend thread until a signal arrives, every read of self.solving by the search and of self.concluding by the saving gives True.", "quantifier": "all interleavings of the threads", "why_tests_cant": "The flags are reset and set by three functions on two threads; a stale False from an earlier run shows only in some schedules.", "anchors": ["src/solver.py:run", "src/solver.py:reset", "src/solver.py:stop", "src/utils/cli.py:CLI.main"]}
{"id": "C60", "title": "A stop of the search spares the saving", "statement": "One Ctrl+C during the search ends the search only; the solutions found so far are then saved without being cut short, until another signal arrives.", "quantifier": "all interleavings of the threads and the signals", "why_tests_cant": "Schedule-dependent: the search may end by itself between the signal and the handler's look at self.solving.", "anchors": ["src/solver.py:stop", "src/solver.py:run", "src/utils/cli.py:CLI.exit"]}
{"id": "C61", "title": "The search misses nothing its rules allow", "statement": "A search that runs to its end without being stopped has tried, on every tree it has built, every extraction, division, split and merge that none of its rules (wanted flows, smallest flow, size of the best solution, belt limit, flows that come back, flows seen before) speaks against, on flows of the same sizes.", "quantifier": "all loaded problems, scores, orders of the queue and trees built", "why_tests_cant": "An operation skipped by a wrong filter leaves no trace: the search still ends with a correct, only larger, network.", "anchors": ["src/solver.py:solve", "src/solver.py:extract_sims", "src/solver.py:divide_sims", "src/solver.py:split_sims", "src/solver.py:merge_sims"]}
{"id": "C62", "title": "No belt carries more than all sources together", "statement": "Every node of a tree built by the search, and every node of a recorded solution after its target groups are attached, carries at most the sum of the source flows.", "quantifier": "all loaded problems, orders of the search and trees built", "why_tests_cant": "A merge that counts a flow twice is only seen on the tree where it happens; there are unboundedly many.", "anchors": ["src/tree.py:Tree", "src/tree.py:attach_leaves", "src/solver.py:merge_sims"]}
{"id": "C63", "title": "No solution that was built is forgotten", "statement": "If the search ends without being stopped, then for every tree it ever built that delivers the grouped targets a solution of at most its size is recorded.", "quantifier": "all loaded problems, orders of the search and trees built", "why_tests_cant": "A solution dropped by the purge or by the comparison with the best size is only missed on the run where it was the smallest.", "anchors": ["src/solver.py:solution_found", "src/solver.py:enqueue", "src/solver.py:solve"]}
{"id": "C64", "title": "One recorded solution for each shape", "statement": "Tree.__eq__ answers whether two trees of a search have the same shape as undirected graphs. No two recorded solutions have the same shape, and in a search that is not stopped every solution built that has the best size has the shape of a recorded one, and none is smaller.", "quantifier": "all loaded problems, scores, random choices, stops and trees built", "why_tests_cant": "Which solutions meet in the comparison depends on the random order of the search; a duplicate or a lost shape shows up only in some orders of large problems.", "anchors": ["src/tree.py:__eq__", "src/tree.py:to_nx_graph", "src/solver.py:solution_found"]}
{"id": "C65", "title": "The expanded drawing of a solution is a network that works", "statement": "When a solution is expanded for saving, the drawing consists of belts, splitters with two or three outputs and mergers with at most three inputs through which the flows of the sources arrive as the flows of the targets: there are flows on all its belts such that what enters a node leaves it, splitters divide evenly, or overflow behind a belt of a slower tier, and the ends of the drawing receive the targets.", "quantifier": "all loaded problems, orders of the search and solutions", "why_tests_cant": "The rewriting of belts by loops and mergers depends on the remainders of all flows in the network; each wrong rewiring shows only for particular flows.", "anchors": ["src/node.py:expand", "src/node.py:expand_extract", "src/node.py:expand_divide", "src/node.py:expand_split", "src/node.py:expand_merge", "src/node.py:save"]}
{"id": "C66", "title": "Nothing is left to expand", "statement": "When a solution whose nodes carry no overloaded belts is expanded for saving, the expansion ends without an exception and no node of the drawing still waits to be expanded: every extraction, division, merge and split has been replaced by splitters and mergers.", "quantifier": "all loaded problems, orders of the search and solutions", "why_tests_cant": "The walk goes over lists of children that the expansion of each node rewrites; a node that slips past the index of the walk is only skipped for particular orders and shapes.", "anchors": ["src/node.py:expand", "src/node.py:expand_extract", "src/node.py:expand_divide", "src/node.py:expand_split", "src/node.py:expand_merge", "src/tree.py:save"]}
{"id": "C67", "title": "An extraction takes the smaller part", "statement": "Every extraction the search applies, and every extraction that a node of a tree is still to be expanded by, takes out a flow of less than half of the node's value.", "quantifier": "all loaded problems, orders of the search and trees explored", "why_tests_cant": "A bound of the range that is off by one is only seen for values of the right parity next to a belt speed.", "anchors": ["src/solver.py:extract_sims", "src/solver.py:extract", "src/node.py:expand_extract"]}
{"id": "C68", "title": "The search takes up the most promising tree", "statement": "Every tree waits in the queue with the score of its own sources. Among trees that match at least one target, one that matches more comes later in the queue, and once a solution is known the tree taken up next matches at least as many targets as any tree left behind (a tree with no match may come before trees with one).", "quantifier": "all loaded problems, orders of the search and states of the queue", "why_tests_cant": "The queue holds unboundedly many trees in an order that depends on all their scores; a wrong order only makes the search slower.", "anchors": ["src/solver.py:enqueue", "src/solver.py:dequeue", "src/score.py:compute"]}
{"id": "C69", "title": "The size of a network is the price of its nodes", "statement": "The size of every tree the search builds, which it minimises and by which it prunes, is the sum over the nodes of the tree of what the node costs: the mergers that bring its parents together, and, if it is split, the price of that split read off its own tag (one splitter without a tag).", "quantifier": "all loaded problems, orders of the search and trees built", "why_tests_cant": "The size is a running total kept beside the tree over unboundedly many copies and operations; a missed or doubled cost does not show in the network.", "anchors": ["src/tree.py:add", "src/tree.py:deepcopy", "src/solver.py:try_op"]}
{"id": "C70", "title": "The size of a solution counts the machines of its drawing", "statement": "When the network of a solution, with its target groups attached, has no overloaded node and no lost belt, the expanded drawing holds exactly the splitters and mergers counted by the size of the solution plus the size of the groups, less one merger for every node into which an even number of belts is merged while its own splitting leads an odd number of belts back. So the drawing never needs more machines than the printed bound `size <= ...` says.", "quantifier": "all loaded problems, orders of the search and recorded solutions", "why_tests_cant": "The cost formulas and the expansion are two unrelated pieces of code; that they agree on every division, extraction and merge of unbounded size is an identity over all counts of belts at all levels.", "anchors": ["src/cost.py:divide_cost", "src/cost.py:extract_cost", "src/cost.py:merge_cost", "src/node.py:expand", "src/solver.py:run"]}
{"id": "C71", "title": "The size of a solution is the number of machines in its drawing", "statement": "The size of a solution plus the size of its groups is the number of splitters and mergers in the expanded drawing.", "quantifier": "all loaded problems, orders of the search and recorded solutions", "why_tests_cant": "The cost formulas are evaluated without ever building the network they price.", "anchors": ["src/cost.py:divide_cost", "src/cost.py:extract_cost", "src/node.py:expand"]}
