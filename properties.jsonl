{"id": "C01", "title": "assign_opt is optimal", "statement": "For every matrix of non-negative finite costs (any number of rows and columns), assign_opt returns an assignment that gives min(rows, cols) rows a column each, never gives one column to two rows, and whose total cost is no larger than that of any other assignment of that size; the returned cost is exactly the sum of the selected entries.", "quantifier": "all non-empty rectangular matrices of finite non-negative costs, all competing assignments", "why_tests_cant": "the optimality claim compares against factorially many competitors and the Hungarian covering loop has data dependent paths; tests only sample four matrices", "anchors": ["src/gasur/utilities/graphs_subroutines.py:assign_opt", "src/gasur/utilities/graphs_subroutines.py:__aop_step2a..__aop_step5", "src/gasur/utilities/graphs_subroutines.py:__aop_build_assign", "src/gasur/utilities/graphs_subroutines.py:__aop_comp_assign"]}
{"id": "C02", "title": "assign_opt respects forbidden (inf) entries", "statement": "When some entries are +inf, assign_opt never selects an inf entry (such rows get -1), it assigns as many rows as any inf-free assignment can, and among the inf-free assignments of that size its cost is minimal.", "quantifier": "all matrices over non-negative finite costs and +inf", "why_tests_cant": "the big-M replacement (10*max*rows*cols) must dominate for every matrix, and Murty's ranking relies on it for all sub-problems", "anchors": ["src/gasur/utilities/graphs_subroutines.py:assign_opt", "src/gasur/utilities/graphs_subroutines.py:__aop_comp_assign"]}
{"id": "C03", "title": "assign_opt always terminates normally on valid input, and rejects negative input", "statement": "On every matrix without negative finite entries assign_opt finishes (the cover/prime/augment loops terminate, no index goes out of bounds); it raises exactly when a finite entry is negative, and on an all-inf matrix returns no assignment at cost 0.", "quantifier": "all matrices", "why_tests_cant": "termination of mutually recursive loops cannot be established by running examples", "anchors": ["src/gasur/utilities/graphs_subroutines.py:assign_opt", "src/gasur/utilities/graphs_subroutines.py:__aop_step3", "src/gasur/utilities/graphs_subroutines.py:__aop_step4", "src/gasur/utilities/graphs_subroutines.py:__aop_step5"]}
{"id": "C04", "title": "murty_m_best returns valid, pairwise different assignments", "statement": "Every assignment returned by murty_m_best gives each row a value between 0 (missed) and the number of columns, no column is given to two rows, and no two returned assignments are equal.", "quantifier": "all 2-D cost matrices with finite or +inf entries, all m", "why_tests_cant": "distinctness and validity must hold for every node of the partition tree", "anchors": ["src/gasur/utilities/graphs.py:murty_m_best", "src/gasur/utilities/graphs.py:__murty_helper"]}
{"id": "C05", "title": "murty_m_best costs match the assignments", "statement": "The k-th returned cost equals the sum of the original cost entries selected by the k-th returned assignment, missed rows contributing 0.", "quantifier": "all 2-D cost matrices, all m, all returned positions", "why_tests_cant": "the cost goes through a shift by the minimum and back, for every matrix", "anchors": ["src/gasur/utilities/graphs.py:murty_m_best"]}
{"id": "C06", "title": "murty_m_best returns exactly the m best", "statement": "Costs are non-decreasing, every assignment that is not returned costs at least as much as the last one returned, and the number returned is min(m, number of feasible assignments).", "quantifier": "all 2-D cost matrices, all m, all competing assignments", "why_tests_cant": "compares against all possible assignments", "anchors": ["src/gasur/utilities/graphs.py:murty_m_best", "src/gasur/utilities/graphs.py:__murty_helper"]}
{"id": "C07", "title": "murty_m_best degenerate inputs", "statement": "m = 0 yields no assignment and no cost, and a cost array that is not 2-D is rejected, whatever the entries.", "quantifier": "all inputs with m=0 or wrong dimension", "why_tests_cant": "small but must hold for all entries", "anchors": ["src/gasur/utilities/graphs.py:murty_m_best"]}
{"id": "C08", "title": "bfm_shortest_path returns a real path of the reported length", "statement": "On every cost matrix without negative cycles, if the destination distance is finite then the returned node list starts at src, ends at dst, uses only existing links and its total link cost equals the returned distance.", "quantifier": "all square matrices whose link graph has no negative cycle, all src/dst", "why_tests_cant": "predecessor-pointer reconstruction could loop or drift from the distance for some relaxation order", "anchors": ["src/gasur/utilities/graphs.py:bfm_shortest_path", "src/gasur/utilities/graphs.py:__bfm_helper"]}
{"id": "C09", "title": "bfm_shortest_path is shortest, and empty only when unreachable", "statement": "The returned distance is a lower bound for the cost of every path from src to dst; the returned path is empty if and only if no path exists.", "quantifier": "all square matrices without negative cycles, all paths", "why_tests_cant": "compares against all paths", "anchors": ["src/gasur/utilities/graphs.py:bfm_shortest_path", "src/gasur/utilities/graphs.py:__bfm_helper"]}
{"id": "C10", "title": "k_shortest: the first path is the best subset", "statement": "The first index list returned by k_shortest is a subset of states with minimum total cost among all subsets, and the first cost is that total plus eps.", "quantifier": "all cost vectors whose entries are at least eps in magnitude, all k>=1, all subsets", "why_tests_cant": "2^n competitors", "anchors": ["src/gasur/utilities/graphs.py:k_shortest", "src/gasur/utilities/graphs.py:__k_short_helper"]}
{"id": "C11", "title": "k_shortest output size and termination", "statement": "k_shortest terminates for every input, returns as many costs as paths, at most k of them, at least one when k >= 1, and none when k = 0.", "quantifier": "all cost vectors, all k", "why_tests_cant": "loop bound over all inputs", "anchors": ["src/gasur/utilities/graphs.py:k_shortest", "src/gasur/utilities/graphs.py:__k_short_helper"]}
{"id": "C12", "title": "k_shortest paths are duplicate free index lists", "statement": "Every returned path only contains valid state indices, each at most once.", "quantifier": "all cost vectors, all k, every returned path", "why_tests_cant": "must hold for every deviation path", "anchors": ["src/gasur/utilities/graphs.py:k_shortest", "src/gasur/utilities/graphs.py:__k_short_helper"]}
{"id": "C13", "title": "k_shortest cost equals the cost of its path", "statement": "Each returned cost equals the sum of the costs of the states on the returned path (plus eps).", "quantifier": "all cost vectors, all k, every returned position", "why_tests_cant": "each returned position of arbitrarily long runs", "anchors": ["src/gasur/utilities/graphs.py:__k_short_helper"]}
{"id": "C14", "title": "k_shortest returns k different, best-ranked subsets", "statement": "The returned paths are pairwise different, costs are non-decreasing, and no subset that is left out is cheaper than a returned one.", "quantifier": "all cost vectors, all k", "why_tests_cant": "compares with all subsets", "anchors": ["src/gasur/utilities/graphs.py:__k_short_helper"]}
{"id": "C15", "title": "k_shortest considers every state, including zero cost ones", "statement": "A state whose log-cost is 0 (probability 1/2) is a candidate like any other: when k is at least 2^n every subset is returned.", "quantifier": "all cost vectors", "why_tests_cant": "all inputs including the measure-zero value 0 that random tests never hit", "anchors": ["src/gasur/utilities/graphs.py:__bfm_helper (init)", "src/gasur/utilities/graphs.py:k_shortest"]}
{"id": "C16", "title": "a_star_search returns a walkable path", "statement": "A returned path starts at start, each step moves to one of the 8 neighbours, stays inside the maze, every cell after the start is free, no cell is repeated, and (unless the iteration limit was hit) it ends at end.", "quantifier": "all mazes, starts, ends, costs", "why_tests_cant": "all grids and all expansion orders", "anchors": ["src/gasur/utilities/graphs.py:a_star_search", "src/gasur/utilities/graphs_subroutines.py:astar_return_path"]}
{"id": "C17", "title": "a_star_search finds a path whenever one exists", "statement": "Within the iteration limit, a_star_search returns nothing only if no walkable path from start to end exists.", "quantifier": "all mazes, starts, ends", "why_tests_cant": "completeness quantifies over all possible paths", "anchors": ["src/gasur/utilities/graphs.py:a_star_search"]}
{"id": "C18", "title": "a_star_search returns a shortest path", "statement": "The returned path has the minimum number of moves among all walkable paths.", "quantifier": "all mazes", "why_tests_cant": "compares against all paths", "anchors": ["src/gasur/utilities/graphs.py:a_star_search"]}
{"id": "C19", "title": "a_star_search reports the path cost", "statement": "The second returned value is the cost of the returned path.", "quantifier": "all mazes", "why_tests_cant": "all inputs", "anchors": ["src/gasur/utilities/graphs_subroutines.py:astar_return_path"]}
{"id": "C20", "title": "gibbs samples are one-to-one assignments", "statement": "For every random stream, every row of the returned assignments gives each variable a valid column and no column to two variables.", "quantifier": "all finite cost matrices with at least twice as many columns as rows, all iteration counts, all random draws in [0,1)", "why_tests_cant": "quantifies over all random streams", "anchors": ["src/gasur/utilities/sampling.py:gibbs"]}
{"id": "C21", "title": "gibbs costs match, rows are unique and sorted", "statement": "Returned assignments are pairwise different, lexicographically sorted, at most num_iters many, and each returned cost is the sum of the selected entries of its row.", "quantifier": "all cost matrices, iteration counts and random streams", "why_tests_cant": "all random streams", "anchors": ["src/gasur/utilities/sampling.py:gibbs"]}
{"id": "C22", "title": "gibbs always contains the initial solution", "statement": "The all-'missed' initial solution (columns N..2N-1) is always among the returned assignments.", "quantifier": "all cost matrices, all random streams, num_iters >= 1", "why_tests_cant": "all random streams", "anchors": ["src/gasur/utilities/sampling.py:gibbs"]}
{"id": "C23", "title": "OSPA is symmetric", "statement": "Swapping estimates and truth leaves the OSPA value, the localization and the cardinality unchanged (Euclidean and Manhattan core).", "quantifier": "all state sets, cut-offs and powers", "why_tests_cant": "all pairs of sets", "anchors": ["src/gasur/utilities/distributions.py:calculate_ospa"]}
{"id": "C24", "title": "OSPA component bounds and zero on equal sets", "statement": "Localization and cardinality lie in [0,c]; the OSPA of a set with itself is 0.", "quantifier": "all state sets, c > 0, p >= 1", "why_tests_cant": "all sets and parameters", "anchors": ["src/gasur/utilities/distributions.py:calculate_ospa"]}
{"id": "C25", "title": "OSPA never exceeds the cut-off", "statement": "The OSPA value is at most c.", "quantifier": "all state sets, c > 0, p >= 1", "why_tests_cant": "all sets and parameters", "anchors": ["src/gasur/utilities/distributions.py:calculate_ospa"]}
{"id": "C26", "title": "OSPA does not depend on object slots", "statement": "The OSPA value at a time step only depends on which states exist then, not on which slots (columns) of the input arrays they occupy.", "quantifier": "all existence patterns and slot permutations", "why_tests_cant": "all patterns of births and deaths", "anchors": ["src/gasur/utilities/distributions.py:calculate_ospa", "src/gasur/swarm_estimator/tracker.py:_ospa_setup_emat"]}
{"id": "C27", "title": "Mahalanobis core distance uses the inverse covariance", "statement": "With the MAHALANOBIS core the distance is sqrt((x-y)^T Sigma^-1 (x-y)) as documented.", "quantifier": "all states and covariances", "why_tests_cant": "all covariances; identity covariances hide the error", "anchors": ["src/gasur/utilities/distributions.py:calculate_ospa", "src/gasur/utilities/distributions.py:OSPAMethod"]}
{"id": "C28", "title": "OSPA(2) only depends on the tracks in its window", "statement": "The OSPA(2) value at a time step is unchanged by permuting object slots and by anything outside the last win_len steps.", "quantifier": "all track histories, window lengths", "why_tests_cant": "all histories", "anchors": ["src/gasur/utilities/distributions.py:calculate_ospa2"]}
{"id": "C29", "title": "OSPA(2) is defined for every existence pattern", "statement": "calculate_ospa2 returns values for tracks that appear and disappear at arbitrary times.", "quantifier": "all existence patterns", "why_tests_cant": "all histories of births and deaths", "anchors": ["src/gasur/utilities/distributions.py:calculate_ospa2", "src/gasur/utilities/distributions.py:calculate_ospa"]}
{"id": "C30", "title": "OSPA cardinality component only depends on the two counts", "statement": "The cardinality component equals (c^p*|m-n|/max(m,n))^(1/p) where m and n are the numbers of existing objects; 0 when both are 0 and c when exactly one is 0.", "quantifier": "all sets", "why_tests_cant": "all sets", "anchors": ["src/gasur/utilities/distributions.py:calculate_ospa"]}
{"id": "C31", "title": "PHD predict: expected number of objects", "statement": "After predict the total weight equals prob_survive times the previous total plus the total birth weight, and the surviving components come first in their old order with the filter's predicted states, followed by the births.", "quantifier": "all mixtures, all birth models, any inner filter", "why_tests_cant": "all mixtures", "anchors": ["src/gasur/swarm_estimator/tracker.py:ProbabilityHypothesisDensity.predict", "src/gasur/swarm_estimator/tracker.py:_predict_prob_density"]}
{"id": "C32", "title": "PHD correct: component count and mass", "statement": "After correct with N measurements there are (N+1) times as many components; missed-detection components keep state and get weight (1-pd)*w; the detection weights of one measurement add to S/(clutter+S) <= 1, so total weight <= (1-pd)*W + N.", "quantifier": "all mixtures, all measurement lists, any inner filter", "why_tests_cant": "all mixtures and measurement lists", "anchors": ["src/gasur/swarm_estimator/tracker.py:ProbabilityHypothesisDensity.correct", "src/gasur/swarm_estimator/tracker.py:_correct_prob_density"]}
{"id": "C33", "title": "PHD lists stay aligned", "statement": "Under every sequence of predict/correct/cleanup calls the lists of weights, means and covariances have equal length, and weights stay non-negative.", "quantifier": "all operation histories, all inputs", "why_tests_cant": "all histories", "anchors": ["src/gasur/swarm_estimator/tracker.py:ProbabilityHypothesisDensity"]}
{"id": "C34", "title": "PHD prune keeps exactly the heavy components", "statement": "Pruning keeps exactly the components with weight >= threshold, in order, unchanged.", "quantifier": "all mixtures and thresholds", "why_tests_cant": "all mixtures", "anchors": ["src/gasur/swarm_estimator/tracker.py:ProbabilityHypothesisDensity._prune"]}
{"id": "C35", "title": "PHD merge terminates and preserves mass and mean", "statement": "Merging terminates, preserves the total weight and the weighted sum of means, and every original component is merged into exactly one output component.", "quantifier": "all mixtures with positive weights, all thresholds >= 0", "why_tests_cant": "termination and conservation for all mixtures", "anchors": ["src/gasur/swarm_estimator/tracker.py:ProbabilityHypothesisDensity._merge"]}
{"id": "C36", "title": "PHD merge is moment matched", "statement": "The covariance of a merged component accounts for the spread of the merged means (second moment preserved).", "quantifier": "all mixtures", "why_tests_cant": "all mixtures", "anchors": ["src/gasur/swarm_estimator/tracker.py:ProbabilityHypothesisDensity._merge"]}
{"id": "C37", "title": "PHD cap bounds the mixture and keeps the mass", "statement": "With max_gauss >= 1, after capping there are at most max_gauss components, they are the heaviest ones in their old order, and the total weight is unchanged; if the mixture is already small nothing changes.", "quantifier": "all mixtures with positive weights, all caps, any sorting order of ties", "why_tests_cant": "all mixtures and tie-breaking orders", "anchors": ["src/gasur/swarm_estimator/tracker.py:ProbabilityHypothesisDensity._cap"]}
{"id": "C38", "title": "PHD state extraction", "statement": "extract_states appends one entry per call that repeats each component with weight >= extract_threshold round(weight) times, in order, with covariances aligned to states; every such component is reported at least once.", "quantifier": "all mixtures", "why_tests_cant": "all mixtures, incl. exact ties of the rounding", "anchors": ["src/gasur/swarm_estimator/tracker.py:ProbabilityHypothesisDensity.extract_states"]}
{"id": "C39", "title": "Measurement gating only filters", "statement": "_gate_meas returns a subsequence of the measurements in their original order without repetition, and a measurement is kept iff it is within the gate of at least one component.", "quantifier": "all measurements and components", "why_tests_cant": "all inputs", "anchors": ["src/gasur/swarm_estimator/tracker.py:RandomFiniteSetBase._gate_meas"]}
{"id": "C40", "title": "Gating uses the squared Mahalanobis distance", "statement": "The gating statistic is (z-est)^T S^-1 (z-est) for the innovation covariance S.", "quantifier": "all innovations and covariances", "why_tests_cant": "diagonal covariances hide the difference", "anchors": ["src/gasur/swarm_estimator/tracker.py:RandomFiniteSetBase._gate_meas"]}
{"id": "C41", "title": "CPHD cardinality distribution is a distribution", "statement": "After predict and correct the cardinality distribution has max_expected_card+1 non-negative entries that add up to 1.", "quantifier": "all prior distributions, births, measurement likelihoods, 0<prob_survive<1", "why_tests_cant": "all inputs", "anchors": ["src/gasur/swarm_estimator/tracker.py:CardinalizedPHD.predict", "src/gasur/swarm_estimator/tracker.py:CardinalizedPHD._correct_prob_density"]}
{"id": "C42", "title": "CPHD survival prediction is binomial thinning", "statement": "The survival part of the predicted cardinality distribution is sum_i C(i,j) ps^j (1-ps)^(i-j) rho(i).", "quantifier": "all prior distributions", "why_tests_cant": "all inputs", "anchors": ["src/gasur/swarm_estimator/tracker.py:CardinalizedPHD.predict"]}
{"id": "C43", "title": "CPHD works with certain survival", "statement": "predict produces a valid cardinality distribution for prob_survive = 1 (the class default) and with an empty birth model.", "quantifier": "all prior distributions", "why_tests_cant": "all inputs", "anchors": ["src/gasur/swarm_estimator/tracker.py:CardinalizedPHD.predict"]}
{"id": "C44", "title": "CPHD extraction", "statement": "extract_states takes components in decreasing weight until the number of agents reaches the cardinality estimate; agents_per_state is aligned with the states, all entries are positive and the total without the last entry is below the estimate.", "quantifier": "all mixtures and distributions", "why_tests_cant": "all mixtures", "anchors": ["src/gasur/swarm_estimator/tracker.py:CardinalizedPHD.extract_states"]}
{"id": "C45", "title": "CPHD correction does not depend on the survival probability", "statement": "The corrected weights and cardinality distribution depend on detection and clutter parameters, not on prob_survive.", "quantifier": "all inputs", "why_tests_cant": "all inputs", "anchors": ["src/gasur/swarm_estimator/tracker.py:CardinalizedPHD._correct_prob_density"]}
{"id": "C46", "title": "GLMB hypothesis probabilities are a distribution", "statement": "After every predict, correct (without filter failure), prune and cap, the association probabilities are positive and add up to 1.", "quantifier": "all operation histories, all inner filters, all measurement lists, 0<ps,pd<1, positive clutter", "why_tests_cant": "all histories", "anchors": ["src/gasur/swarm_estimator/tracker.py:_gen_birth_hyps", "src/gasur/swarm_estimator/tracker.py:_gen_surv_hyps", "src/gasur/swarm_estimator/tracker.py:_set_pred_hyps", "src/gasur/swarm_estimator/tracker.py:_gen_cor_hyps", "src/gasur/swarm_estimator/tracker.py:GeneralizedLabeledMultiBernoulli._prune", "src/gasur/swarm_estimator/tracker.py:GeneralizedLabeledMultiBernoulli._cap"]}
{"id": "C47", "title": "GLMB cardinality distribution matches the hypotheses", "statement": "Entry n of the cardinality distribution is the total probability of the hypotheses with n tracks, after correct, prune and cap - and after predict.", "quantifier": "all states", "why_tests_cant": "all histories", "anchors": ["src/gasur/swarm_estimator/tracker.py:_calc_card_dist", "src/gasur/swarm_estimator/tracker.py:GeneralizedLabeledMultiBernoulli.predict"]}
{"id": "C48", "title": "GLMB hypotheses refer to existing tracks", "statement": "Under every sequence of operations every index in every hypothesis refers to an entry of the track table.", "quantifier": "all histories", "why_tests_cant": "all histories", "anchors": ["src/gasur/swarm_estimator/tracker.py:GeneralizedLabeledMultiBernoulli"]}
{"id": "C49", "title": "GLMB labels identify tracks", "statement": "Within every hypothesis no two tracks carry the same label; labels never change during a track's life.", "quantifier": "all histories with distinct (rounded) timesteps", "why_tests_cant": "all histories", "anchors": ["src/gasur/swarm_estimator/tracker.py:_gen_birth_tab", "src/gasur/swarm_estimator/tracker.py:_set_pred_hyps", "src/gasur/swarm_estimator/tracker.py:_gen_cor_hyps"]}
{"id": "C50", "title": "GLMB: a measurement feeds at most one track", "statement": "In every hypothesis two different tracks are never associated with the same measurement at the same time step.", "quantifier": "all histories following predict/correct/cleanup", "why_tests_cant": "all histories", "anchors": ["src/gasur/swarm_estimator/tracker.py:_gen_cor_hyps", "src/gasur/swarm_estimator/tracker.py:_gen_cor_tab"]}
{"id": "C51", "title": "GLMB duplicate hypotheses are merged", "statement": "After predict no two hypotheses have the same set of tracks and merging preserves the total probability of every track set.", "quantifier": "all hypothesis lists", "why_tests_cant": "all inputs", "anchors": ["src/gasur/swarm_estimator/tracker.py:_clean_predictions"]}
{"id": "C52", "title": "GLMB track table compaction is transparent", "statement": "_clean_updates removes exactly the unused tracks, keeps the order of the others, and every kept hypothesis refers to the same tracks as before.", "quantifier": "all tables and hypotheses", "why_tests_cant": "all inputs", "anchors": ["src/gasur/swarm_estimator/tracker.py:_clean_updates"]}
{"id": "C53", "title": "GLMB prune", "statement": "Pruning keeps exactly the hypotheses with probability above the threshold, in order, rescaled by a common factor to total 1.", "quantifier": "all hypothesis lists, thresholds", "why_tests_cant": "all inputs", "anchors": ["src/gasur/swarm_estimator/tracker.py:GeneralizedLabeledMultiBernoulli._prune"]}
{"id": "C54", "title": "GLMB cap", "statement": "Capping leaves at most max_hyps hypotheses, the most probable ones, rescaled to total 1, and changes nothing when there are no more than max_hyps.", "quantifier": "all hypothesis lists, caps, sort tie orders", "why_tests_cant": "all inputs", "anchors": ["src/gasur/swarm_estimator/tracker.py:GeneralizedLabeledMultiBernoulli._cap"]}
{"id": "C55", "title": "GLMB extracted lists are aligned", "statement": "After extract_states, for every past time step states, labels and covariances have the same length and the labels of a time step are pairwise different; there is one entry per completed time step.", "quantifier": "all histories following predict/correct/cleanup", "why_tests_cant": "all histories", "anchors": ["src/gasur/swarm_estimator/tracker.py:extract_states", "src/gasur/swarm_estimator/tracker.py:_update_extract_hist"]}
{"id": "C56", "title": "GLMB keeps earlier extracted tracks that do not conflict", "statement": "A previously extracted track whose label is not re-extracted and whose (time, measurement) pairs are not claimed by the new tracks stays extractable.", "quantifier": "all histories", "why_tests_cant": "all histories", "anchors": ["src/gasur/swarm_estimator/tracker.py:_update_extract_hist"]}
{"id": "C57", "title": "GLMB extracts the MAP-cardinality hypothesis", "statement": "extract_states uses a hypothesis with the most probable cardinality, and among those the one with the highest probability.", "quantifier": "all hypothesis lists", "why_tests_cant": "all inputs", "anchors": ["src/gasur/swarm_estimator/tracker.py:extract_states"]}
{"id": "C58", "title": "extract_most_prob_states terminates", "statement": "extract_most_prob_states terminates for every threshold and returns probabilities in non-increasing order, all at least the threshold after the first, leaving the filter itself unchanged.", "quantifier": "all filters, all thresholds", "why_tests_cant": "non-termination cannot be observed by a test", "anchors": ["src/gasur/swarm_estimator/tracker.py:extract_most_prob_states"]}
{"id": "C59", "title": "GLMB save/load round trip", "statement": "Loading a saved state into a fresh instance reproduces every attribute of the original filter.", "quantifier": "all filter states", "why_tests_cant": "all states", "anchors": ["src/gasur/swarm_estimator/tracker.py:save_filter_state", "src/gasur/swarm_estimator/tracker.py:load_filter_state"]}
{"id": "C60", "title": "A saved state is a snapshot", "statement": "Later operations on the filter do not change an already saved state.", "quantifier": "all operation sequences after saving", "why_tests_cant": "all interleavings", "anchors": ["src/gasur/swarm_estimator/tracker.py:save_filter_state"]}
{"id": "C61", "title": "GLMB track histories have the right length", "statement": "For every track used by a hypothesis after correct, state, weight, covariance and association histories have one entry per time step since birth.", "quantifier": "all histories following predict/correct/cleanup", "why_tests_cant": "all histories", "anchors": ["src/gasur/swarm_estimator/tracker.py:_predict_track_tab_entry", "src/gasur/swarm_estimator/tracker.py:_correct_track_tab_entry", "src/gasur/swarm_estimator/tracker.py:_gen_birth_tab"]}
{"id": "C62", "title": "JGLMB hypothesis probabilities are a distribution", "statement": "After correct the joint GLMB's hypothesis probabilities are positive and add up to 1.", "quantifier": "all histories, all random streams", "why_tests_cant": "all random streams", "anchors": ["src/gasur/swarm_estimator/tracker.py:JointGeneralizedLabeledMultiBernoulli.correct"]}
{"id": "C63", "title": "JGLMB hypotheses are valid", "statement": "After correct every index of every hypothesis is within the track table, no measurement feeds two tracks of a hypothesis, and no track appears twice.", "quantifier": "all histories, all random streams", "why_tests_cant": "all random streams", "anchors": ["src/gasur/swarm_estimator/tracker.py:JointGeneralizedLabeledMultiBernoulli.correct"]}
{"id": "C64", "title": "target_center is the mean of the targets", "statement": "target_center returns the arithmetic mean of the target means and is independent of their order.", "quantifier": "all non-empty target lists", "why_tests_cant": "all lists", "anchors": ["src/gasur/guidance.py:DensityBased.target_center"]}
{"id": "C65", "title": "update_targets result and side effects", "statement": "After update_targets the targets are the new waypoints followed by the old targets (unless reset), with equal weights adding up to 1, and the caller's list is not modified.", "quantifier": "all waypoint lists", "why_tests_cant": "all lists", "anchors": ["src/gasur/guidance.py:DensityBased.update_targets", "src/gasur/guidance.py:DensityBased.convert_waypoints"]}
{"id": "C66", "title": "find_nearest_target", "statement": "Returns a target no farther than any other target (the first such), and nothing when there are no targets.", "quantifier": "all states and target lists", "why_tests_cant": "all lists", "anchors": ["src/gasur/guidance.py:ELQRGaussian.find_nearest_target"]}
{"id": "C67", "title": "initialize keeps one object per measurement", "statement": "initialize yields exactly one Gaussian object per measured Gaussian, in order, with the measured mean, covariance and weight, and reuses each previous object at most once.", "quantifier": "all measurement sets and previous objects", "why_tests_cant": "all inputs", "anchors": ["src/gasur/guidance.py:ELQRGaussian.initialize"]}
{"id": "C68", "title": "density_based_cost ignores ordering", "statement": "The density based cost is unchanged by permuting the objects (with weights and covariances) or the targets, and equals the documented combination of the double sums.", "quantifier": "all mixtures", "why_tests_cant": "all permutations", "anchors": ["src/gasur/guidance.py:DensityBased.density_based_cost"]}
{"id": "C69", "title": "Constructor validation", "statement": "DensityBased rejects y_ref >= 1, ELQRGaussian rejects similar_thresh >= 1 and GaussianObject rejects weights <= 0, and they accept everything else.", "quantifier": "all parameter values", "why_tests_cant": "all values", "anchors": ["src/gasur/guidance.py:DensityBased.__init__", "src/gasur/guidance.py:ELQRGaussian.__init__", "src/gasur/guidance.py:GaussianObject.__init__"]}
{"id": "C70", "title": "A matched Gaussian can be re-initialised", "statement": "After a first initialize/iterate, a second initialize whose measurement matches an existing object succeeds and carries over its control inputs.", "quantifier": "all matched re-initialisations", "why_tests_cant": "needs two consecutive calls over all states", "anchors": ["src/gasur/guidance.py:ELQRGaussian.initialize"]}
{"id": "C71", "title": "gibbs draws by inverse transform", "statement": "A uniform draw u selects, among the columns no other variable holds, exactly the column whose normalised cumulative exp(-cost) interval contains u; so a column is chosen with probability proportional to exp(-cost).", "quantifier": "all cost rows, all current solutions, all u in [0,1)", "why_tests_cant": "all draws and weights", "anchors": ["src/gasur/utilities/sampling.py:gibbs"]}
{"id": "C73", "title": "The PHD constructor's gate is used", "statement": "A PHD (or CPHD) filter constructed with inv_chi2_gate=g and gating_on=True gates measurements with threshold g.", "quantifier": "all gate values, all mixtures, all measurements", "why_tests_cant": "all gate values and measurement sets", "anchors": ["src/gasur/swarm_estimator/tracker.py:ProbabilityHypothesisDensity.__init__", "src/gasur/swarm_estimator/tracker.py:RandomFiniteSetBase.__init__"]}
{"id": "C72", "title": "calculate_ospa accepts None gaps", "statement": "Truth and estimate lists of the tracker's calculate_ospa may contain None entries for objects that do not exist at that time.", "quantifier": "all lists of optional states", "why_tests_cant": "all patterns of None entries", "anchors": ["src/gasur/swarm_estimator/tracker.py:_ospa_setup_tmat", "src/gasur/swarm_estimator/tracker.py:_ospa_setup_emat"]}
{"id": "C74", "title": "OSPA (p=1) is a metric", "statement": "With p=1 the OSPA value satisfies the triangle inequality, and for every p it is 0 only if both sets hold the same states.", "quantifier": "all triples of finite state sets, all dimensions, c > 0", "why_tests_cant": "ranges over all triples of sets of any size", "anchors": ["src/gasur/utilities/distributions.py:calculate_ospa"]}
{"id": "C75", "title": "CPHD corrected components belong to their measurement", "statement": "Every component created by correct carries the mean and covariance the inner filter computes for its own measurement, in measurement order after the missed-detection components.", "quantifier": "all inner filters, mixtures and measurement lists", "why_tests_cant": "a Kalman filter hides it; ranges over all inner filters", "anchors": ["src/gasur/swarm_estimator/tracker.py:CardinalizedPHD._correct_prob_density"]}
{"id": "C76", "title": "CPHD works without clutter", "statement": "correct produces a valid distribution with clutter_rate = 0 (the class default).", "quantifier": "all states and measurement lists", "why_tests_cant": "all inputs", "anchors": ["src/gasur/swarm_estimator/tracker.py:CardinalizedPHD._correct_prob_density"]}
{"id": "C77", "title": "CPHD prediction of the mixture", "statement": "predict yields the propagated components with weights times prob_survive, in order, followed by the components of all birth terms in order, and changes nothing else of the filter but the cardinality distribution.", "quantifier": "all mixtures, inner filters and birth models", "why_tests_cant": "all mixtures", "anchors": ["src/gasur/swarm_estimator/tracker.py:CardinalizedPHD.predict"]}
{"id": "C78", "title": "CPHD gating", "statement": "correct with gating on equals correct with gating off applied to the gated measurements, and the gated measurements are the ones recorded.", "quantifier": "all gates, mixtures, measurement lists", "why_tests_cant": "all inputs", "anchors": ["src/gasur/swarm_estimator/tracker.py:CardinalizedPHD.correct"]}
{"id": "C79", "title": "update_targets terminates", "statement": "update_targets returns for every list of waypoints, including the filter's own list of target means.", "quantifier": "all target lists", "why_tests_cant": "must hold for all inputs, not only sampled ones", "anchors": ["src/gasur/guidance.py:DensityBased.update_targets"]}
{"id": "C80", "title": "Waypoints of every dimension convert", "statement": "convert_waypoints accepts every nonempty list of waypoints of every state dimension.", "quantifier": "all dimensions, all waypoints", "why_tests_cant": "must hold for all inputs, not only sampled ones", "anchors": ["src/gasur/guidance.py:DensityBased.convert_waypoints"]}
{"id": "C81", "title": "Wayarea covariances are covariances", "statement": "Every covariance made by convert_waypoints is symmetric and positive semidefinite.", "quantifier": "all waypoint lists", "why_tests_cant": "must hold for all inputs, not only sampled ones", "anchors": ["src/gasur/guidance.py:DensityBased.convert_waypoints"]}
{"id": "C82", "title": "Wayareas are usable Gaussians", "statement": "Every covariance made by convert_waypoints is positive definite, so densities can be evaluated.", "quantifier": "all waypoint lists", "why_tests_cant": "must hold for all inputs, not only sampled ones", "anchors": ["src/gasur/guidance.py:DensityBased.convert_waypoints"]}
{"id": "C83", "title": "Wayareas follow the principal axes", "statement": "The principal components of the other centres are axes of the wayarea's covariance.", "quantifier": "all waypoint lists", "why_tests_cant": "must hold for all inputs, not only sampled ones", "anchors": ["src/gasur/guidance.py:DensityBased.convert_waypoints"]}
{"id": "C84", "title": "Matched objects can be iterated", "statement": "After initialize every object, matched or fresh, can be iterated.", "quantifier": "all objects and measurements", "why_tests_cant": "must hold for all inputs, not only sampled ones", "anchors": ["src/gasur/guidance.py:ELQRGaussian.initialize", "src/gasur/guidance.py:ELQRGaussian.iterate"]}
{"id": "C85", "title": "A match carries over the cost terms", "statement": "A matched object takes over feedback, feedforward, cost-to-come and cost-to-go terms shifted by one time step.", "quantifier": "all objects", "why_tests_cant": "must hold for all inputs, not only sampled ones", "anchors": ["src/gasur/guidance.py:ELQRGaussian.initialize"]}
{"id": "C86", "title": "Every iteration starts from the start states", "statement": "The trajectory cost is the sum of the stage costs along the trajectory from the start states plus the final cost, and evaluating it leaves the start states unchanged.", "quantifier": "all policies, dynamics, horizons", "why_tests_cant": "must hold for all inputs, not only sampled ones", "anchors": ["src/gasur/guidance.py:ELQRGaussian.iterate"]}
{"id": "C87", "title": "Regularised state penalty is positive semidefinite", "statement": "quadratize_non_quad_state's state penalty is symmetric positive semidefinite and is unchanged when no eigenvalue is negative.", "quantifier": "all eigen decompositions", "why_tests_cant": "must hold for all inputs, not only sampled ones", "anchors": ["src/gasur/guidance.py:ELQRGaussian.quadratize_non_quad_state"]}
{"id": "C88", "title": "The GLMB cycle never raises", "statement": "With valid parameters every sequence of predict/correct/cleanup cycles completes without an exception.", "quantifier": "all histories of complete cycles, all measurement lists, all inner filters", "why_tests_cant": "must hold for all histories, not only sampled ones", "anchors": ["src/gasur/swarm_estimator/tracker.py:GeneralizedLabeledMultiBernoulli.predict", "src/gasur/swarm_estimator/tracker.py:GeneralizedLabeledMultiBernoulli.correct", "src/gasur/swarm_estimator/tracker.py:GeneralizedLabeledMultiBernoulli.cleanup"]}
{"id": "C89", "title": "The GLMB never loses all hypotheses", "statement": "While there are hypotheses predict leaves at least one, and a filter without hypotheses can recover.", "quantifier": "all states", "why_tests_cant": "must hold for all histories, not only sampled ones", "anchors": ["src/gasur/swarm_estimator/tracker.py:GeneralizedLabeledMultiBernoulli.predict", "src/gasur/swarm_estimator/tracker.py:GeneralizedLabeledMultiBernoulli._gen_surv_hyps"]}
{"id": "C90", "title": "Every birth term can be born", "statement": "A birth term of probability strictly between 0 and 1 takes part in some predicted hypothesis when enough hypotheses are requested.", "quantifier": "all birth models", "why_tests_cant": "must hold for all histories, not only sampled ones", "anchors": ["src/gasur/swarm_estimator/tracker.py:GeneralizedLabeledMultiBernoulli._gen_birth_hyps", "src/gasur/swarm_estimator/tracker.py:GeneralizedLabeledMultiBernoulli._gen_birth_tab"]}
{"id": "C91", "title": "Tracks can survive", "statement": "For every survival probability strictly between 0 and 1 existing tracks take part in some predicted hypothesis when enough hypotheses are requested.", "quantifier": "all survival probabilities, all states", "why_tests_cant": "must hold for all histories, not only sampled ones", "anchors": ["src/gasur/swarm_estimator/tracker.py:GeneralizedLabeledMultiBernoulli._gen_surv_hyps"]}
{"id": "C92", "title": "GLMB prediction probabilities", "statement": "After predict the probability of a track set is proportional to the sum, over the combinations of births, parent hypothesis and survivors considered that yield it, of birth probability times parent probability times survival and death probabilities.", "quantifier": "all states, all birth models, all survival probabilities", "why_tests_cant": "must hold for all states, not only sampled ones", "anchors": ["src/gasur/swarm_estimator/tracker.py:GeneralizedLabeledMultiBernoulli.predict", "src/gasur/swarm_estimator/tracker.py:GeneralizedLabeledMultiBernoulli._gen_birth_hyps", "src/gasur/swarm_estimator/tracker.py:GeneralizedLabeledMultiBernoulli._gen_surv_hyps", "src/gasur/swarm_estimator/tracker.py:GeneralizedLabeledMultiBernoulli._set_pred_hyps"]}
{"id": "C93", "title": "GLMB update is Bayes' rule", "statement": "After correct there is one hypothesis per parent and association considered; its probability is proportional to the parent's times missed-detection, detection, likelihood and clutter terms, and its tracks are the parent's, missed or corrected with the associated measurement.", "quantifier": "all states, all measurement lists", "why_tests_cant": "must hold for all states, not only sampled ones", "anchors": ["src/gasur/swarm_estimator/tracker.py:GeneralizedLabeledMultiBernoulli.correct", "src/gasur/swarm_estimator/tracker.py:GeneralizedLabeledMultiBernoulli._gen_cor_hyps", "src/gasur/swarm_estimator/tracker.py:GeneralizedLabeledMultiBernoulli._gen_cor_tab"]}
{"id": "C94", "title": "GLMB update keeps the most probable associations", "statement": "For each hypothesis at most its share of req_upd associations are kept, pairwise different, and no association left out is more probable than a kept one.", "quantifier": "all states, all measurement lists", "why_tests_cant": "must hold for all states, not only sampled ones", "anchors": ["src/gasur/swarm_estimator/tracker.py:GeneralizedLabeledMultiBernoulli._gen_cor_hyps"]}
{"id": "C95", "title": "GLMB predicted tracks", "statement": "After predict the table holds one new track per birth term, labelled by time and index, followed by the old tracks advanced by the inner filter, weights, labels and associations unchanged.", "quantifier": "all states", "why_tests_cant": "must hold for all states, not only sampled ones", "anchors": ["src/gasur/swarm_estimator/tracker.py:GeneralizedLabeledMultiBernoulli.predict", "src/gasur/swarm_estimator/tracker.py:GeneralizedLabeledMultiBernoulli._gen_birth_tab", "src/gasur/swarm_estimator/tracker.py:GeneralizedLabeledMultiBernoulli._gen_surv_tab"]}
{"id": "C96", "title": "GLMB extraction reports the heaviest component", "statement": "For every track of the extracted hypothesis and every time step the reported state and covariance are those of the component with the largest weight at that time (the first of them on ties).", "quantifier": "all filter states", "why_tests_cant": "must hold for all mixtures", "anchors": ["src/gasur/swarm_estimator/tracker.py:GeneralizedLabeledMultiBernoulli._extract_helper", "src/gasur/swarm_estimator/tracker.py:GeneralizedLabeledMultiBernoulli.extract_states"]}
{"id": "C97", "title": "SMC filters can be restored from their saved state", "statement": "Loading the saved state of an SMC-GLMB or SMC-JGLMB filter into a fresh instance restores the probability functions the filter needs.", "quantifier": "all SMC filter instances, all target instances", "why_tests_cant": "all instances", "anchors": ["src/gasur/swarm_estimator/tracker.py:_SMCGLMBBase", "src/gasur/swarm_estimator/tracker.py:save_filter_state", "src/gasur/swarm_estimator/tracker.py:load_filter_state"]}
{"id": "C98", "title": "JGLMB cardinality distribution", "statement": "After the joint GLMB's correct the cardinality distribution's n-th entry is the total probability of the hypotheses with n tracks.", "quantifier": "all states, measurements, random streams", "why_tests_cant": "all random streams", "anchors": ["src/gasur/swarm_estimator/tracker.py:JointGeneralizedLabeledMultiBernoulli.correct", "src/gasur/swarm_estimator/tracker.py:_calc_card"]}
{"id": "C99", "title": "JGLMB track histories", "statement": "In every history each track keeps its label and birth time, new labels carry the predict time and a birth index, and the recorded histories of a track are as long as the track is old.", "quantifier": "all operation histories, all random streams", "why_tests_cant": "all histories", "anchors": ["src/gasur/swarm_estimator/tracker.py:JointGeneralizedLabeledMultiBernoulli.predict", "src/gasur/swarm_estimator/tracker.py:JointGeneralizedLabeledMultiBernoulli.correct"]}
{"id": "C100", "title": "JGLMB cycle never raises", "statement": "With valid parameters and gating off, any number of predict, correct, cleanup cycles, and extraction after them, run without an exception.", "quantifier": "all cycle sequences, all measurements (including failures of the inner filter), all random streams", "why_tests_cant": "all sequences and random streams", "anchors": ["src/gasur/swarm_estimator/tracker.py:JointGeneralizedLabeledMultiBernoulli"]}
{"id": "C101", "title": "JGLMB gating works", "statement": "With gating_on set, correct gates the measurements and returns.", "quantifier": "all filters with a birth term, all measurements", "why_tests_cant": "all filters", "anchors": ["src/gasur/swarm_estimator/tracker.py:JointGeneralizedLabeledMultiBernoulli.correct", "src/gasur/swarm_estimator/tracker.py:_gate_meas"]}
{"id": "C102", "title": "JGLMB predict or correct may be repeated", "statement": "Calling predict twice, or correct twice, in a row is handled as by the plain GLMB filter.", "quantifier": "all histories", "why_tests_cant": "all histories", "anchors": ["src/gasur/swarm_estimator/tracker.py:JointGeneralizedLabeledMultiBernoulli.predict", "src/gasur/swarm_estimator/tracker.py:JointGeneralizedLabeledMultiBernoulli.correct"]}
{"id": "C103", "title": "JGLMB hypotheses describe their tracks between predict and correct", "statement": "After predict every index of a hypothesis still refers to the track it referred to before.", "quantifier": "all states", "why_tests_cant": "all states", "anchors": ["src/gasur/swarm_estimator/tracker.py:JointGeneralizedLabeledMultiBernoulli.predict"]}
{"id": "C104", "title": "JGLMB correct is the joint Bayes update over the samples", "statement": "After predict and correct the probability of every statement about which labels exist and what they were associated with is its share of the total weight of the sampled joint outcomes, each weighted by parent probability, birth/survival, detection and likelihood.", "quantifier": "all histories in the intended order, all measurements, all random streams, all statements", "why_tests_cant": "all random streams, all statements", "anchors": ["src/gasur/swarm_estimator/tracker.py:JointGeneralizedLabeledMultiBernoulli.correct", "src/gasur/utilities/sampling.py:gibbs"]}
{"id": "C105", "title": "JGLMB keeps the missed successor", "statement": "For every hypothesis correct keeps a successor with positive probability in which all births and all of its tracks are alive and undetected.", "quantifier": "all histories, measurements, random streams", "why_tests_cant": "all random streams", "anchors": ["src/gasur/swarm_estimator/tracker.py:JointGeneralizedLabeledMultiBernoulli.correct", "src/gasur/utilities/sampling.py:gibbs"]}
{"id": "C106", "title": "JGLMB hypothesis count", "statement": "correct produces at most, summed over the old hypotheses, one more than the share of each of req_upd hypotheses.", "quantifier": "all histories, measurements, random streams", "why_tests_cant": "all random streams", "anchors": ["src/gasur/swarm_estimator/tracker.py:JointGeneralizedLabeledMultiBernoulli.correct", "src/gasur/utilities/sampling.py:gibbs"]}
{"id": "C107", "title": "GLMB and joint GLMB: no two hypotheses with the same tracks", "statement": "After any sequence of predict, correct, cleanup and extract_states calls no two hypotheses of the filter consist of the same set of tracks, so probabilities of identical hypotheses are never split.", "quantifier": "all configurations, measurements and call sequences that return normally", "why_tests_cant": "The number of hypothesis pairs and histories is unbounded; a duplicate may appear only after a merge, a correction and a cap in some order.", "anchors": ["src/gasur/swarm_estimator/tracker.py:2187-2213 _clean_predictions", "src/gasur/swarm_estimator/tracker.py:2299-2424 _gen_cor_hyps, _clean_updates", "src/gasur/swarm_estimator/tracker.py:3519-3691 correct"]}
{"id": "C108", "title": "GLMB and joint GLMB: stored measurements follow save_measurements", "statement": "With save_measurements the filter holds exactly the measurement lists passed to correct, in order; without it, it stores none.", "quantifier": "all configurations and call sequences that return normally", "why_tests_cant": "Memory use over arbitrarily long histories; every order of calls.", "anchors": ["src/gasur/swarm_estimator/tracker.py:2462-2463 correct", "src/gasur/swarm_estimator/tracker.py:3594 correct"]}
{"id": "C109", "title": "gibbs: exact inverse-transform draws with weights exp(-cost)", "statement": "When variable v is updated with random number u, the new column is the j with sum of weights before j <= u * total < sum up to j, where the weight of a column is exp(-cost) and columns held by other variables weigh 0; so column j has probability weight j / total.", "quantifier": "all real cost matrices, current assignments and u in [0,1)", "why_tests_cant": "A claim about every random number and matrix; tests see only sampled frequencies.", "anchors": ["src/gasur/utilities/sampling.py:53-72 gibbs"]}
{"id": "C110", "title": "SMC-GLMB hypotheses are a probability distribution", "statement": "After any history of predict, correct, cleanup and extract_states calls on an SMC-GLMB filter whose particle filter raised no caught exception, the hypotheses that remain have positive probabilities with sum 1, and after correct the cardinality distribution is the one of the hypotheses.", "quantifier": "all histories, all particle filters, survival and detection functions, birth models, measurements", "why_tests_cant": "histories are unbounded; the probabilities go through logs, requests and pruning", "anchors": ["src/gasur/swarm_estimator/tracker.py:_SMCGLMBBase", "src/gasur/swarm_estimator/tracker.py:SMCGeneralizedLabeledMultiBernoulli"]}
{"id": "C111", "title": "SMC-GLMB labels and measurements are exclusive", "statement": "In every SMC-GLMB history every hypothesis refers to existing tracks; with predict times that differ after rounding it never contains one label twice; called in the intended order no two of its tracks use the same measurement of a scan.", "quantifier": "all histories and particle filters", "why_tests_cant": "a violation may need a rare sequence of births, deaths and assignments", "anchors": ["src/gasur/swarm_estimator/tracker.py:_SMCGLMBBase", "src/gasur/swarm_estimator/tracker.py:SMCGeneralizedLabeledMultiBernoulli"]}
{"id": "C112", "title": "Every SMC-GLMB track has exactly one particle cloud", "statement": "After any history every track has one particle filter state, one current state estimate and component weight 1 at every time.", "quantifier": "all histories, including failures of the particle filter", "why_tests_cant": "must hold after every sequence of operations", "anchors": ["src/gasur/swarm_estimator/tracker.py:_SMCGLMBBase", "src/gasur/swarm_estimator/tracker.py:SMCGeneralizedLabeledMultiBernoulli"]}
{"id": "C113", "title": "Particle weights stay normalised", "statement": "After any history the particle weights of every track are non-negative, sum to 1, and there is one per particle, provided births are such and the particle filter returns one non-negative weight per particle.", "quantifier": "all histories, particle filters and non-negative probability functions", "why_tests_cant": "weights are rescaled by user functions at every step; all values are possible", "anchors": ["src/gasur/swarm_estimator/tracker.py:_SMCGLMBBase", "src/gasur/swarm_estimator/tracker.py:SMCGeneralizedLabeledMultiBernoulli"]}
{"id": "C114", "title": "SMC-GLMB prediction", "statement": "predict keeps every track's identity and history, moves its cloud with the particle filter, weights each particle with the survival probability, adds one new track per birth term, and gives every set of tracks the probability of the GLMB prediction with survival probability equal to the particle average.", "quantifier": "all states, birth models, survival functions", "why_tests_cant": "the distribution over all subsets of births and survivors, any number of each", "anchors": ["src/gasur/swarm_estimator/tracker.py:_SMCGLMBBase", "src/gasur/swarm_estimator/tracker.py:SMCGeneralizedLabeledMultiBernoulli"]}
{"id": "C115", "title": "SMC-GLMB update is Bayes' rule", "statement": "After correct the relative probability of two associations of a hypothesis is that of the GLMB update: per track 1 - pD if missed, pD times likelihood over clutter intensity if detected.", "quantifier": "all states, measurements, detection functions", "why_tests_cant": "ratios of hypothesis weights for every association", "anchors": ["src/gasur/swarm_estimator/tracker.py:_SMCGLMBBase", "src/gasur/swarm_estimator/tracker.py:SMCGeneralizedLabeledMultiBernoulli"]}
{"id": "C116", "title": "An SMC-GLMB scan never raises", "statement": "predict, correct, cleanup and extract_states called in turn never raise if probabilities lie strictly between 0 and 1, clutter is positive and the particle filter works; a caught failure of its correct included.", "quantifier": "all sequences of scans, measurements, flags", "why_tests_cant": "absence of exceptions in every history", "anchors": ["src/gasur/swarm_estimator/tracker.py:_SMCGLMBBase", "src/gasur/swarm_estimator/tracker.py:SMCGeneralizedLabeledMultiBernoulli"]}
{"id": "C117", "title": "Survival weighting of predicted particles", "statement": "The weight of a predicted particle is the old weight times the survival probability of the particle it was moved from, normalised.", "quantifier": "all clouds, motions and survival functions", "why_tests_cant": "survival functions that vary over space give arbitrary differences", "anchors": ["src/gasur/swarm_estimator/tracker.py:_SMCGLMBBase", "src/gasur/swarm_estimator/tracker.py:SMCGeneralizedLabeledMultiBernoulli"]}
{"id": "C118", "title": "Recorded estimates belong to the stored cloud", "statement": "The state recorded for a track at a time is the particle filter's estimate of the cloud stored for that track at that time.", "quantifier": "all histories", "why_tests_cant": "depends on how much the probability functions vary over the cloud", "anchors": ["src/gasur/swarm_estimator/tracker.py:_SMCGLMBBase", "src/gasur/swarm_estimator/tracker.py:SMCGeneralizedLabeledMultiBernoulli"]}
{"id": "C119", "title": "GLMB is sound together with the library's graph algorithms", "statement": "After any history of calls on a GLMB filter that uses the package's own k_shortest and murty_m_best, every hypothesis refers to existing tracks, the hypotheses form a probability distribution, none contains a label or a measurement twice, no two have the same tracks, and the extracted lists are aligned.", "quantifier": "all histories, birth models, parameters, inner filters, orders of ties in argsort", "why_tests_cant": "composition of three algorithms over unbounded histories and real-valued costs", "anchors": ["src/gasur/swarm_estimator/tracker.py:GeneralizedLabeledMultiBernoulli", "src/gasur/utilities/graphs.py:k_shortest", "src/gasur/utilities/graphs.py:murty_m_best"]}
{"id": "C120", "title": "GLMB cycles never raise with the library's graph algorithms", "statement": "predict, correct, cleanup called in turn never raise for probabilities strictly between 0 and 1 and positive clutter.", "quantifier": "all histories and all probabilities", "why_tests_cant": "the failing probabilities lie in an interval of width 1e-16 around one half", "anchors": ["src/gasur/swarm_estimator/tracker.py:GeneralizedLabeledMultiBernoulli", "src/gasur/utilities/graphs.py:k_shortest", "src/gasur/utilities/graphs.py:murty_m_best"]}
{"id": "C121", "title": "The update keeps the most probable associations", "statement": "After correct, every hypothesis has been replaced by at most its share of successors: distinct associations of its tracks with the measurements such that none left out is more probable, fewer than the share only if there are no more; each weighted by Bayes' rule.", "quantifier": "all states, measurements and shares", "why_tests_cant": "the number of associations is factorial; all real costs, ties included", "anchors": ["src/gasur/swarm_estimator/tracker.py:GeneralizedLabeledMultiBernoulli.correct", "src/gasur/utilities/graphs.py:murty_m_best"]}
{"id": "C122", "title": "SMC-GLMB is sound together with the library's graph algorithms", "statement": "As C119 for the SMC-GLMB filter; a cycle never raises.", "quantifier": "all histories, particle filters and probability functions", "why_tests_cant": "as C119", "anchors": ["src/gasur/swarm_estimator/tracker.py:SMCGeneralizedLabeledMultiBernoulli", "src/gasur/utilities/graphs.py:k_shortest", "src/gasur/utilities/graphs.py:murty_m_best"]}
{"id": "C123", "title": "Predicted birth sets have their probability", "statement": "When all sets of births are requested, predict on a fresh filter gives every set of births the product of its birth and non-birth probabilities.", "quantifier": "all birth models", "why_tests_cant": "all subsets of any number of births", "anchors": ["src/gasur/swarm_estimator/tracker.py:GeneralizedLabeledMultiBernoulli.predict", "src/gasur/utilities/graphs.py:k_shortest"]}
{"id": "C124", "title": "GLMB guarantees survive re-assigning attributes between calls", "statement": "The caller may change probabilities, birth terms, thresholds, clutter, the inner filter and the rounding of times between any two calls of a GLMB filter: the hypotheses still form a probability distribution (if the inner filter does not fail), refer to existing tracks, contain no label twice and no measurement twice, histories have the right length, outputs are aligned, and cycles do not raise (if covariance recording is not switched on midway).", "quantifier": "all histories of calls, each with its own attribute values", "why_tests_cant": "attributes are public and may be re-assigned at any point of an unbounded history", "anchors": ["src/gasur/swarm_estimator/tracker.py:GeneralizedLabeledMultiBernoulli"]}
{"id": "C125", "title": "Covariance recording can be switched on at any time", "statement": "Setting save_covs to True between two calls never makes a later call (predict, correct, extract_states) raise.", "quantifier": "all histories and points at which the attribute is set", "why_tests_cant": "the failure needs a track born before and used after the switch", "anchors": ["src/gasur/swarm_estimator/tracker.py:GeneralizedLabeledMultiBernoulli._init_filt_states", "src/gasur/swarm_estimator/tracker.py:GeneralizedLabeledMultiBernoulli.predict"]}
{"id": "C126", "title": "STM-GLMB keeps the GLMB guarantees", "statement": "After any history of calls on an STM-GLMB filter the hypotheses form a probability distribution, refer to existing tracks, contain no label or measurement twice, and the extracted lists are aligned.", "quantifier": "all histories, birth mixtures, inner filters and parameters", "why_tests_cant": "unbounded histories", "anchors": ["src/gasur/swarm_estimator/tracker.py:STMGeneralizedLabeledMultiBernoulli"]}
{"id": "C127", "title": "A new-born STM track starts from its birth term", "statement": "After predict, the recorded state and covariance of a track just born are the mean and the covariance of its birth term.", "quantifier": "all states, birth terms and inner filters", "why_tests_cant": "the wrong value depends on which track the shared inner filter last processed", "anchors": ["src/gasur/swarm_estimator/tracker.py:STMGeneralizedLabeledMultiBernoulli._init_filt_states"]}
{"id": "C128", "title": "Joint GLMB guarantees survive re-assigning attributes between calls", "statement": "The caller may change attributes, birth terms and the inner filter between any two calls of a joint GLMB filter: weights stay a probability distribution (if the inner filter does not fail), every hypothesis after a correct is valid (existing tracks, no track, label or measurement twice), and cycles do not raise (if covariance recording is not switched on midway).", "quantifier": "all histories of calls, each with its own attribute values; all random draws", "why_tests_cant": "attributes are public; the sampler is random", "anchors": ["src/gasur/swarm_estimator/tracker.py:JointGeneralizedLabeledMultiBernoulli"]}
{"id": "C129", "title": "SMC joint GLMB keeps the joint filter's guarantees", "statement": "After any history of calls on an SMC joint GLMB filter (attributes, birth terms, particle filter and probability functions may change between calls) the hypothesis weights form a probability distribution if the particle filter does not fail; from a correct to the next predict every hypothesis refers to existing tracks and contains no track, label or measurement twice; predict-correct-cleanup cycles with a working particle filter never raise and leave every track's particle weights normalised.", "quantifier": "all histories of calls, all random draws, particle filters and parameters", "why_tests_cant": "unbounded histories, random sampler", "anchors": ["src/gasur/swarm_estimator/tracker.py:SMCJointGeneralizedLabeledMultiBernoulli", "src/gasur/swarm_estimator/tracker.py:_SMCGLMBBase", "src/gasur/swarm_estimator/tracker.py:JointGeneralizedLabeledMultiBernoulli.correct"]}
{"id": "C130", "title": "SMC joint GLMB weighs missed and surviving tracks by the user's probability functions", "statement": "The probabilities of the hypotheses of an SMC joint GLMB filter reflect compute_prob_survive and compute_prob_detection evaluated on the particles: for example a track in a region of low detection probability that is missed is believed in more than one in a region of high detection probability.", "quantifier": "all states, particle clouds and probability functions", "why_tests_cant": "a test with functions that agree with the scalar attributes passes", "anchors": ["src/gasur/swarm_estimator/tracker.py:SMCJointGeneralizedLabeledMultiBernoulli", "src/gasur/swarm_estimator/tracker.py:_SMCGLMBBase", "src/gasur/swarm_estimator/tracker.py:JointGeneralizedLabeledMultiBernoulli.correct"]}
{"id": "C131", "title": "Mixture density", "statement": "The pdf of a mixture is the weighted sum of its components' densities: independent of the order of the components, nonnegative for nonnegative weights, with total mass equal to the sum of the weights.", "quantifier": "all mixtures and evaluation points", "why_tests_cant": "unbounded component lists; the mass is an integral", "anchors": ["src/gasur/utilities/distributions.py:GaussianMixture.pdf", "src/gasur/utilities/distributions.py:StudentsTMixture.pdf"]}
{"id": "C132", "title": "Mixture sampling", "statement": "sample draws from component i with probability equal to its share of the weights (by inverse transform of one uniform draw), never from a component of weight 0, whenever the weights are nonnegative and add up to 1 (within numpy's tolerance 2^-26); otherwise (for example for the mixture of a PHD filter with several expected objects) it raises ValueError.", "quantifier": "all mixtures and all uniform draws", "why_tests_cant": "a statement about every draw", "anchors": ["src/gasur/utilities/distributions.py:GaussianMixture.sample", "src/gasur/utilities/distributions.py:StudentsTMixture.sample"]}
{"id": "C133", "title": "Student's t covariances", "statement": "covariances is every scaling times dof/(dof-2) (a factor greater than 1) when dof > 2 and raises RuntimeError otherwise.", "quantifier": "all degrees of freedom and scalings", "why_tests_cant": "all real numbers", "anchors": ["src/gasur/utilities/distributions.py:StudentsTMixture.covariances"]}
{"id": "C134", "title": "STM joint GLMB keeps the joint filter's guarantees", "statement": "After any history of calls on an STM joint GLMB filter the hypothesis weights form a probability distribution if the inner filter does not fail; from a correct to the next predict every hypothesis refers to existing tracks and contains no track, label or measurement twice; cycles never raise.", "quantifier": "all histories of calls, all random draws", "why_tests_cant": "unbounded histories, random sampler", "anchors": ["src/gasur/swarm_estimator/tracker.py:STMJointGeneralizedLabeledMultiBernoulli", "src/gasur/swarm_estimator/tracker.py:_STMGLMBBase"]}
{"id": "C135", "title": "Per-component degrees of freedom", "statement": "A Student's t mixture whose dof is a list with one value per component (which sample accepts) can be sampled, evaluated and converted to covariances.", "quantifier": "all mixtures and lists of degrees of freedom", "why_tests_cant": "needs the combination of a list with every method", "anchors": ["src/gasur/utilities/distributions.py:StudentsTMixture"]}
{"id": "C136", "title": "OSPA of every order is a metric through its components", "statement": "For every order p the p-norm of the reported localization and cardinality satisfies the triangle inequality between three sets of objects and lies between 0 and the cut-off.", "quantifier": "all orders, cut-offs, numbers of objects and states", "why_tests_cant": "a relation between three evaluations on arbitrary sets", "anchors": ["src/gasur/utilities/distributions.py:calculate_ospa"]}
{"id": "C137", "title": "The reported OSPA value satisfies the triangle inequality", "statement": "For every order p the reported OSPA value of X and Z is at most that of X and Y plus that of Y and Z.", "quantifier": "all orders, cut-offs and sets of objects", "why_tests_cant": "a relation between three evaluations on arbitrary sets", "anchors": ["src/gasur/utilities/distributions.py:calculate_ospa"]}
{"id": "C138", "title": "OSPA with the Hellinger core is a distance", "statement": "With the HELLINGER core the OSPA value is a metric between sets of Gaussians: bounded by 1, symmetric, 0 only for equal sets, triangle inequality.", "quantifier": "all sets of Gaussians", "why_tests_cant": "a relation between three evaluations on arbitrary sets", "anchors": ["src/gasur/utilities/distributions.py:calculate_ospa", "src/gasur/utilities/distributions.py:OSPAMethod"]}
{"id": "C139", "title": "The PHD filter survives every history", "statement": "A PHD filter whose attributes are sensible (and may be re-assigned between calls) never raises in any sequence of predict, correct, cleanup and extract calls, and keeps weights, means and covariances aligned, weights non-negative and covariances well-formed.", "quantifier": "all histories, all attribute values, all measurements", "why_tests_cant": "histories of every length with attributes changing between calls", "anchors": ["src/gasur/swarm_estimator/tracker.py:ProbabilityHypothesisDensity.predict", "src/gasur/swarm_estimator/tracker.py:ProbabilityHypothesisDensity.correct", "src/gasur/swarm_estimator/tracker.py:ProbabilityHypothesisDensity.cleanup", "src/gasur/swarm_estimator/tracker.py:ProbabilityHypothesisDensity.extract_states"]}
{"id": "C140", "title": "The PHD filter's expected number of objects is bounded by what it was given", "statement": "In every such history the expected number of objects is at most the births so far plus the measurements received, and each reported state list has at most twice that many entries.", "quantifier": "all histories", "why_tests_cant": "an inequality over whole histories", "anchors": ["src/gasur/swarm_estimator/tracker.py:ProbabilityHypothesisDensity.predict", "src/gasur/swarm_estimator/tracker.py:ProbabilityHypothesisDensity.correct", "src/gasur/swarm_estimator/tracker.py:ProbabilityHypothesisDensity.extract_states"]}
{"id": "C141", "title": "The PHD filter's mixture does not grow without bound", "statement": "In every such history, after a cleanup with capping at most max_gauss components remain, and the following predict and correct have at most (max_gauss + births)(1 + measurements).", "quantifier": "all histories", "why_tests_cant": "a bound over whole histories of every length", "anchors": ["src/gasur/swarm_estimator/tracker.py:ProbabilityHypothesisDensity.cleanup", "src/gasur/swarm_estimator/tracker.py:ProbabilityHypothesisDensity.predict", "src/gasur/swarm_estimator/tracker.py:ProbabilityHypothesisDensity.correct"]}
{"id": "C142", "title": "A PHD filter works without clutter", "statement": "With clutter_rate 0 (the class default) correct returns finite weights for every measurement set.", "quantifier": "all mixtures, measurements, likelihoods", "why_tests_cant": "needs an unlucky measurement", "anchors": ["src/gasur/swarm_estimator/tracker.py:ProbabilityHypothesisDensity.correct"]}
{"id": "C143", "title": "The CPHD filter survives every history", "statement": "A CPHD filter with sensible attributes (re-assigned freely between calls), whose corrections follow predictions, never raises or yields nan in any history of predict, correct, cleanup, extract and max_expected_card assignments; the cardinality distribution stays a distribution and the mixture well-formed.", "quantifier": "all histories, attribute values, measurements", "why_tests_cant": "histories of every length", "anchors": ["src/gasur/swarm_estimator/tracker.py:CardinalizedPHD.predict", "src/gasur/swarm_estimator/tracker.py:CardinalizedPHD.correct", "src/gasur/swarm_estimator/tracker.py:CardinalizedPHD.extract_states", "src/gasur/swarm_estimator/tracker.py:ProbabilityHypothesisDensity.cleanup"]}
{"id": "C144", "title": "The CPHD filter's mixture does not grow without bound", "statement": "In every such history at most max_gauss components remain after a cleanup with capping, the next scan has at most (1 + measurements)(max_gauss + births), and the recorded cardinality estimate is at most max_expected_card.", "quantifier": "all histories", "why_tests_cant": "a bound over histories of every length", "anchors": ["src/gasur/swarm_estimator/tracker.py:CardinalizedPHD.correct", "src/gasur/swarm_estimator/tracker.py:ProbabilityHypothesisDensity.cleanup"]}
{"id": "C145", "title": "A CPHD filter can be corrected at any time", "statement": "correct accepts measurements (or none) in every state, in particular before the first predict and after everything was pruned, as the PHD filter does.", "quantifier": "all states", "why_tests_cant": "needs an unusual order of calls", "anchors": ["src/gasur/swarm_estimator/tracker.py:CardinalizedPHD.correct"]}
{"id": "C146", "title": "iterate returns and stops when the cost has settled", "statement": "For every measurement, iterate returns; it makes at most max_iters turns, goes on while successive costs differ by at least cost_tol and stops at the first turn where they do not; every measured Gaussian keeps its covariance, weight and dynamics and has a trajectory and controls over the whole horizon. An empty measurement empties the controller.", "quantifier": "all measurements, horizons, iteration limits, tolerances, passes", "why_tests_cant": "a loop of unknown length over all inputs", "anchors": ["src/gasur/guidance.py:ELQRGaussian.iterate"]}
{"id": "C147", "title": "Gaussians may have different numbers of inputs", "statement": "iterate works when the Gaussians have different numbers of control inputs (n_inputs_lst has one entry per Gaussian).", "quantifier": "all lists of input counts", "why_tests_cant": "must hold for all combinations", "anchors": ["src/gasur/guidance.py:ELQRGaussian.iterate"]}
{"id": "C148", "title": "Every horizon works", "statement": "iterate works for every positive horizon_len.", "quantifier": "all horizons", "why_tests_cant": "boundary value", "anchors": ["src/gasur/guidance.py:ELQRGaussian.iterate"]}
{"id": "C149", "title": "iterate can be called in closed loop", "statement": "After a call to iterate, the next call with a measurement of the same Gaussians near their planned states returns.", "quantifier": "all first calls, all second measurements", "why_tests_cant": "all pairs of calls", "anchors": ["src/gasur/guidance.py:ELQRGaussian.iterate", "src/gasur/guidance.py:ELQRGaussian.initialize"]}
{"id": "C150", "title": "Every turn evaluates the plan from the measured states", "statement": "In every turn of iterate the passes and the cost start from the measured states, and the cost is that of following the computed feedback law from there.", "quantifier": "all calls, all turns", "why_tests_cant": "turns beyond the first", "anchors": ["src/gasur/guidance.py:ELQRGaussian.iterate"]}
{"id": "C151", "title": "The quadratic model matches the cost at first order", "statement": "quadratize_non_quad_state returns Q, q with Q x + q equal to the Jacobian of the cost in this Gaussian's state at x, Q positive semidefinite, and does not change any other state.", "quantifier": "all states, objects, costs", "why_tests_cant": "all inputs", "anchors": ["src/gasur/guidance.py:ELQRGaussian.quadratize_non_quad_state"]}
{"id": "C152", "title": "Documented nominal controls are used", "statement": "Nominal controls passed as u_nom_lst (the documented keyword) are used.", "quantifier": "all keyword arguments", "why_tests_cant": "silent fallback to zeros", "anchors": ["src/gasur/guidance.py:ELQRGaussian.initialize"]}
{"id": "C153", "title": "A turn of iterate is one forward and one backward recursion", "statement": "In every turn the forward pass at time k receives the object's state and control at k, its cost-to-come at k, its cost-to-go at k+1 and the states of all objects at k, and yields state and cost-to-come at k+1; the final cost is quadratized for the nearest target; the backward pass at k receives the new state and cost-to-go at k+1 and yields state, law and cost-to-go at k.", "quantifier": "all calls, turns, objects, times", "why_tests_cant": "all indices of all loops", "anchors": ["src/gasur/guidance.py:ELQRGaussian.iterate"]}
{"id": "C154", "title": "The recorded controls follow the returned law", "statement": "After iterate each object's ctrl_input[k] is feedback[k] times its state k plus feedforward[k].", "quantifier": "all calls, objects, times", "why_tests_cant": "depends on the passes", "anchors": ["src/gasur/guidance.py:ELQRGaussian.iterate"]}
{"id": "C155", "title": "assign_opt is near-optimal in double precision", "statement": "Computed in IEEE binary64, assign_opt on any matrix of non-negative finite doubles and infinities (within explicit size and overflow bounds) terminates without error and returns an assignment that uses no infinite entry and has as many pairs as possible; the returned cost is the sum of the selected entries up to 2 n units of roundoff; and no assignment of that size is cheaper by more than 34 n (n+1) (2 rows + 4) 2^-53 times the magnitude of the numbers.", "quantifier": "all cost matrices of doubles within the bounds, all roundings that occur", "why_tests_cant": "rounding errors accumulate over all steps of the algorithm and every matrix", "anchors": ["src/gasur/utilities/graphs_subroutines.py:assign_opt"]}
{"id": "C156", "title": "assign_opt is exact on integer costs in double precision", "statement": "For matrices of integer costs (and infinities) small enough that the tolerance of C155 is below one, assign_opt in IEEE binary64 returns an exactly optimal assignment and exactly its cost.", "quantifier": "all such matrices", "why_tests_cant": "all matrices, all orders of steps", "anchors": ["src/gasur/utilities/graphs_subroutines.py:assign_opt"]}
{"id": "C157", "title": "murty_m_best is near-optimal in double precision", "statement": "Computed in IEEE binary64, murty_m_best on any matrix of finite doubles (of either sign) and infinities within explicit bounds terminates without error and returns pairwise distinct feasible assignments: m of them, or all there are if fewer; each reported cost is the assignment's true cost up to 15 rows^2 2^-53 K, K the largest cost magnitude; no assignment later in the list and none left out is cheaper than a returned one by more than the stated tolerance.", "quantifier": "all cost matrices of doubles within the bounds, all m", "why_tests_cant": "rounding errors differ for every matrix and branch of the search; duplicates and losses would only show on particular ties", "anchors": ["src/gasur/utilities/graphs.py:murty_m_best", "src/gasur/utilities/graphs.py:__murty_helper"]}
{"id": "C158", "title": "murty_m_best ranks integer costs exactly in double precision", "statement": "For integer costs with tolerance below one, the assignments returned by murty_m_best in IEEE binary64 are exactly ranked by true cost and none left out is cheaper than a returned one.", "quantifier": "all such matrices, all m", "why_tests_cant": "all matrices, all ties", "anchors": ["src/gasur/utilities/graphs.py:murty_m_best"]}
{"id": "C159", "title": "gibbs assigns one-to-one in double precision", "statement": "Computed in IEEE binary64 with numpy's summation orders, gibbs on a matrix with at least twice as many columns as rows whose weights exp(-cost) are positive doubles (or, as in the JGLMB filter, possibly zero but with a private positive column per row) returns without error and every returned row assigns distinct in-range columns, provided fewer than eight columns are ever free for a row or no random number lies within M 2^-52 of 1 (M the number of columns).", "quantifier": "all such matrices, numbers of iterations and random streams", "why_tests_cant": "the histogram edges are rounded differently for every matrix and state of the chain; a failure needs a random number in the last few ulps below 1", "anchors": ["src/gasur/utilities/sampling.py:gibbs"]}
{"id": "C160", "title": "gibbs draws with the right probabilities in double precision", "statement": "Computed in IEEE binary64, a draw of gibbs picks column j only for random numbers between the normalised sum of the weights of the columns before j and that up to j, up to 5 M 2^-53 at either end; columns held by other rows are never picked.", "quantifier": "all matrices within the bounds, all current assignments, all random numbers (outside the last M 2^-52 below 1, or with fewer than eight free columns)", "why_tests_cant": "probabilities over a continuum of random numbers and all weight vectors", "anchors": ["src/gasur/utilities/sampling.py:gibbs"]}
{"id": "C161", "title": "gibbs never raises in double precision", "statement": "gibbs on any matrix of finite moderate costs with at least twice as many columns as rows returns a result, for every stream of random numbers that rng.uniform can produce.", "quantifier": "all such matrices and random streams", "why_tests_cant": "the failure needs one of the largest values of the generator together with at least eight free columns", "anchors": ["src/gasur/utilities/sampling.py:gibbs"]}
{"id": "C162", "title": "gibbs returns the states of the Gibbs chain", "statement": "The rows returned by gibbs are exactly the states after each of the num_iters iterations of the systematic-scan Gibbs chain started at columns N..2N-1: in iteration s, for v = 0..N-1, coordinate v is replaced by the column that the random number of (s, v) selects by inverse transform from the weights exp(-cost) of the columns that no other coordinate holds at that moment (column 0 when none has positive weight).", "quantifier": "all cost matrices, weight functions, iteration counts and random streams for which gibbs returns", "why_tests_cant": "the whole history of the chain for every random stream", "anchors": ["src/gasur/utilities/sampling.py:gibbs"]}
{"id": "C163", "title": "gibbs returns the states of the Gibbs chain in double precision", "statement": "As C162 in IEEE binary64, with the boundaries of the inverse transform correct up to 5 M 2^-53.", "quantifier": "all matrices, iteration counts and random streams as in C159", "why_tests_cant": "the whole history of the chain with rounding at every draw", "anchors": ["src/gasur/utilities/sampling.py:gibbs"]}
{"id": "C164", "title": "shape of the result of gibbs in any arithmetic", "statement": "Whatever the number system, weights, random numbers and rounding, when gibbs returns, its rows are pairwise distinct, in lexicographic order, at most num_iters many, include the initial columns N..2N-1, contain only columns in range, and the cost returned with a row is the sum of exactly the entries it selects.", "quantifier": "all arithmetics, matrices, weights, random streams", "why_tests_cant": "holds for every floating point behaviour including overflow and nan", "anchors": ["src/gasur/utilities/sampling.py:gibbs"]}
{"id": "C165", "title": "OSPA in double precision is accurate", "statement": "For states given as doubles and the Euclidean or Manhattan core, calculate_ospa evaluated in IEEE double precision returns, whenever the exact computation does, localization, cardinality and OSPA with a relative error of at most 2 K 2^-53, K = 2020 + 2 N + p (8 + 2 dim) + (tolerance of the assignment routine), N the number of object slots. In particular OSPA between a set and itself is exactly 0.", "quantifier": "all arrays of double states without overflow or underflow, all time steps, orders p >= 1, cut-offs, existence patterns, summation orders, power functions accurate to 2 ulp", "why_tests_cant": "rounding errors depend on every operand; a test sees one rounding pattern and cannot bound the worst case over all inputs and sizes", "anchors": ["src/gasur/utilities/distributions.py:calculate_ospa"]}
{"id": "C166", "title": "OSPA of order 1 never exceeds the cut-off, in double precision", "statement": "The OSPA value returned for p = 1 is at most c also in floating point. (Refuted: it can exceed c by rounding; it is at most c (1 + 2 K 2^-53).)", "quantifier": "all arrays of double states, cut-offs c, time steps", "why_tests_cant": "whether a sum of rounded terms crosses the bound depends on the bit pattern of 1/max(m,n) and c; random tests with round cut-offs (1, 2, 10, 100) never show it", "anchors": ["src/gasur/utilities/distributions.py:calculate_ospa"]}
{"id": "C167", "title": "PHD weights in double precision are accurate", "statement": "One predict or correct of the Gaussian mixture PHD filter evaluated in IEEE double precision succeeds or raises exactly as the exact computation does, yields the same means and covariances (given the same inner filter), and each weight differs from the exact one by at most (4 n + 48) 2^-53 relative (8 2^-53 for predict) plus 2^-480, n the number of components.", "quantifier": "all mixtures with at most 2^47 components with double weights in [0, 2^300], measurement lists, inner filters with double likelihoods in [0, 2^300], detection and survival probabilities, clutter intensities in [2^-200, 2^300], summation orders", "why_tests_cant": "rounding errors and underflow depend on every operand; no test bounds the worst case over all mixtures", "anchors": ["src/gasur/swarm_estimator/tracker.py:ProbabilityHypothesisDensity.predict", "src/gasur/swarm_estimator/tracker.py:ProbabilityHypothesisDensity.correct", "src/gasur/swarm_estimator/tracker.py:ProbabilityHypothesisDensity._correct_prob_density"]}
{"id": "C168", "title": "PHD detection weights never exceed 1 in double precision", "statement": "After correct in double precision every weight of a detected component lies in [0, 1] exactly and every missed-detection weight lies between 0 and the old weight, whatever the rounding.", "quantifier": "all mixtures, measurements, likelihoods and probabilities as in C167", "why_tests_cant": "a violation by one unit in the last place would need a particular bit pattern; random tests do not find it", "anchors": ["src/gasur/swarm_estimator/tracker.py:ProbabilityHypothesisDensity.correct", "src/gasur/swarm_estimator/tracker.py:ProbabilityHypothesisDensity._correct_prob_density"]}
{"id": "C169", "title": "PHD merging and capping in double precision", "statement": "Merging in double precision terminates; it partitions the components into groups around the heaviest remaining component; each merged weight is the group's total up to (8 n + 16) 2^-53 relative, each entry of a merged mean or covariance is the weighted average up to (8 n + 16) 2^-53 times the largest entry plus 2^-100, and the total weight is preserved up to the same relative error. Capping keeps the same components as the exact computation with weights off by at most (8 n + 16) 2^-53 relative.", "quantifier": "all mixtures with double entries, weights in [2^-900, 2^300], at most 2^47 components, all matrix inverses and reflexive distance tests, all argsort results", "why_tests_cant": "cancellation in the weighted means and the number of merge rounds depend on all components at once", "anchors": ["src/gasur/swarm_estimator/tracker.py:ProbabilityHypothesisDensity._merge", "src/gasur/swarm_estimator/tracker.py:ProbabilityHypothesisDensity._cap"]}
{"id": "C170", "title": "GLMB predicted hypothesis probabilities in double precision", "statement": "Combining n birth and m survival hypotheses, normalising and merging equal track sets in IEEE double precision yields the same hypotheses in the same order as the exact computation; each probability is off by at most (8 n m + 14) 2^-53 relative plus 2^-500, and the probabilities sum to 1 up to (8 n m + 15) 2^-53.", "quantifier": "all hypothesis lists with double probabilities in [0,1] and at most 2^47 pairs whose total is at least 2^-400, all hash functions", "why_tests_cant": "rounding of products, running sums, quotients and repeated additions compounds with the number and the order of the hypotheses", "anchors": ["src/gasur/swarm_estimator/tracker.py:GeneralizedLabeledMultiBernoulli.predict", "src/gasur/swarm_estimator/tracker.py:GeneralizedLabeledMultiBernoulli._set_pred_hyps", "src/gasur/swarm_estimator/tracker.py:GeneralizedLabeledMultiBernoulli._clean_predictions"]}
{"id": "C171", "title": "GLMB pruning and capping in double precision", "statement": "In double precision pruning keeps exactly the hypotheses above the threshold and capping keeps exactly those the exact computation keeps; afterwards every probability is in [0, 1] (never above 1), within (4 n + 6) 2^-53 relative plus 2^-500 of the exact one, they sum to 1 up to (4 n + 7) 2^-53, and each entry of the cardinality distribution is the total probability of the hypotheses with that many tracks up to 4 n 2^-53 relative.", "quantifier": "all states with at most 2^47 hypotheses with double probabilities, thresholds >= 0, limits >= 1, sorting functions", "why_tests_cant": "a probability above 1 or a lost normalisation depends on bit patterns of all hypotheses", "anchors": ["src/gasur/swarm_estimator/tracker.py:GeneralizedLabeledMultiBernoulli._prune", "src/gasur/swarm_estimator/tracker.py:GeneralizedLabeledMultiBernoulli._cap", "src/gasur/swarm_estimator/tracker.py:GeneralizedLabeledMultiBernoulli._calc_card_dist"]}
{"id": "C172", "title": "GLMB reports a most probable hypothesis in double precision", "statement": "In double precision the hypothesis extract_states reports is exactly the most probable of those with the same number of tracks, and no number of tracks has a total probability exceeding that of the reported number by more than a factor 1 + 8 n 2^-53.", "quantifier": "all states with at most 2^47 hypotheses with double probabilities, not all zero, whose cardinality distribution the filter computed", "why_tests_cant": "near ties between cardinalities are decided by rounding; tests do not cover them", "anchors": ["src/gasur/swarm_estimator/tracker.py:GeneralizedLabeledMultiBernoulli._extract_states", "src/gasur/swarm_estimator/tracker.py:GeneralizedLabeledMultiBernoulli._calc_card_dist"]}
{"id": "C173", "title": "Shortest paths in double precision", "statement": "bfm_shortest_path computed in IEEE double precision on a graph without negative cycles always ends; the distance it reports is exactly the double precision sum of the link costs along the path it returns (at most n nodes), no path from source to destination has a smaller double precision sum, and inf with an empty path is returned exactly when there is no path.", "quantifier": "all cost matrices with at least two nodes without negative cycles and without nonzero entries below machine epsilon, all sources and destinations", "why_tests_cant": "rounding destroys the algebra the algorithm relies on; whether predecessors stay acyclic depends on all link costs", "anchors": ["src/gasur/utilities/graphs.py:bfm_shortest_path", "src/gasur/utilities/graphs.py:__bfm_helper"]}
{"id": "C174", "title": "Accuracy of shortest paths in double precision", "statement": "For non-negative or forward links the reported distance differs from the exact cost of the returned path by at most 2 n 2^-53 times the sum of the magnitudes of its link costs; the exact cost of the returned path exceeds that of any path by at most 2 n 2^-53 times the magnitudes of both, and with non-negative costs by at most a factor 1 + 8 n 2^-53; sums along paths do not overflow if the magnitudes add up to at most 2^1002.", "quantifier": "all such graphs of double costs with at most 2^51 nodes, all sources and destinations", "why_tests_cant": "errors compound along paths of any length", "anchors": ["src/gasur/utilities/graphs.py:bfm_shortest_path", "src/gasur/utilities/graphs.py:__bfm_helper"]}
{"id": "C175", "title": "k_shortest in double precision", "statement": "In double precision k_shortest returns at least one and at most k index lists with as many costs; every list is a duplicate-free set of valid states with finite nonzero cost; the first cost is exactly the double precision sum of the listed costs plus eps, no subset listed in sorted order has a smaller one, it is within 2 (n+2) 2^-53 M of the exact total plus eps, and the first list's exact total exceeds that of every subset by at most 4 (n+2) 2^-53 M, M being the sum of the magnitudes plus eps. A nonzero entry below eps raises IndexError.", "quantifier": "all cost vectors of at most 2^51 doubles (inf allowed), all sorting permutations, all k >= 1", "why_tests_cant": "all 2^n subsets compete and rounding depends on the order of addition", "anchors": ["src/gasur/utilities/graphs.py:k_shortest", "src/gasur/utilities/graphs.py:__k_short_helper"]}
{"id": "C176", "title": "Assignment in double precision ends with a maximum assignment", "statement": "assign_opt computed in IEEE double precision always ends without overflow; it returns one entry per row, no column twice, no inf entry, and no inf-free assignment covers more rows (all of the smaller dimension if no entry is inf); the cost is exactly the double precision sum of the selected costs in row order and within 2 n 2^-53 (relative) of their exact sum, n being the smaller dimension.", "quantifier": "all matrices of non-negative double costs up to 2^900 or inf with at most 2048 rows and columns (32768 without inf)", "why_tests_cant": "rounded subtractions create and destroy the zeros the algorithm matches on; termination could depend on every entry", "anchors": ["src/gasur/utilities/graphs_subroutines.py:assign_opt", "src/gasur/utilities/graphs_subroutines.py:__aop_step3", "src/gasur/utilities/graphs_subroutines.py:__aop_step5", "src/gasur/utilities/graphs_subroutines.py:__aop_comp_assign"]}
{"id": "C177", "title": "Assignment in double precision is optimal", "statement": "In double precision assign_opt returns an assignment whose exact cost is minimal among inf-free assignments covering as many rows.", "quantifier": "all matrices of C176 and all competing assignments", "why_tests_cant": "there are factorially many assignments and the loss depends on how rounding errors accumulate over all reductions", "anchors": ["src/gasur/utilities/graphs_subroutines.py:assign_opt", "src/gasur/utilities/graphs_subroutines.py:__aop_step3", "src/gasur/utilities/graphs_subroutines.py:__aop_step5", "src/gasur/utilities/graphs_subroutines.py:__aop_comp_assign"]}
{"id": "C178", "title": "Assignment in double precision is exact for grid costs", "statement": "If all finite costs are multiples of a power of two with enough headroom below 2^53 multiples (including the value put in place of inf), assign_opt in double precision returns a maximum assignment of exactly minimal cost, and reports exactly that cost.", "quantifier": "all matrices whose finite costs are z 2^e with 0 <= z <= Z, where Z (1+n) < 2^53 without inf entries, and 10 Z rows cols (1+n) < 2^53 with them", "why_tests_cant": "absence of rounding must hold along every execution path", "anchors": ["src/gasur/utilities/graphs_subroutines.py:assign_opt", "src/gasur/utilities/graphs_subroutines.py:__aop_step3", "src/gasur/utilities/graphs_subroutines.py:__aop_step5", "src/gasur/utilities/graphs_subroutines.py:__aop_comp_assign"]}
{"id": "C179", "title": "assign_opt stays within Python's recursion limit", "statement": "assign_opt never raises RecursionError under Python's default limit of 1000 nested calls: it returns the same answer as without a limit.", "quantifier": "all cost matrices of any size", "why_tests_cant": "the depth of the mutual recursion depends on how many reductions the whole run needs; random matrices recurse far less than the worst case", "anchors": ["src/gasur/utilities/graphs_subroutines.py:assign_opt", "src/gasur/utilities/graphs_subroutines.py:__aop_step2b", "src/gasur/utilities/graphs_subroutines.py:__aop_step3", "src/gasur/utilities/graphs_subroutines.py:__aop_step4", "src/gasur/utilities/graphs_subroutines.py:__aop_step5"]}
{"id": "C180", "title": "CPHD predicts the expected number of births", "statement": "The births in the predicted cardinality distribution of the CPHD filter are Poisson with mean the expected number of births, i.e. the sum of all weights of all birth mixtures, the same mass that is added to the intensity.", "quantifier": "all birth models (any number of mixtures and components), filter states", "why_tests_cant": "only birth mixtures with several components show it, and the distribution stays normalised", "anchors": ["src/gasur/swarm_estimator/tracker.py:CardinalizedPHD.predict"]}
{"id": "C181", "title": "PHD records one entry per call", "statement": "Along any history of calls the PHD filter's measurement record grows by exactly one entry per correct call, the measurements that call used (all of them, or those that passed the gate), its record of states by one entry per extraction, and its record of covariances by one entry per extraction made while covariances are saved; nothing recorded is changed later, and a new filter has recorded nothing.", "quantifier": "all histories of predict/correct/extract/cleanup calls, attribute changes between calls, initial states", "why_tests_cant": "an entry lost or doubled only shows in histories that mix the ways of extracting", "anchors": ["src/gasur/swarm_estimator/tracker.py:ProbabilityHypothesisDensity.correct", "src/gasur/swarm_estimator/tracker.py:ProbabilityHypothesisDensity.extract_states", "src/gasur/swarm_estimator/tracker.py:ProbabilityHypothesisDensity.cleanup"]}
{"id": "C182", "title": "PHD's properties report the last extraction", "statement": "states, covariances and cardinality of the PHD filter describe the mixture at the last extraction: each component with weight at least the extraction threshold, as often as its weight rounds to, with the covariances in the same order as the states and cardinality equal to the number of states; before any extraction they are empty.", "quantifier": "all histories, attribute changes between calls", "why_tests_cant": "depends on what happened between the extraction and the reading", "anchors": ["src/gasur/swarm_estimator/tracker.py:ProbabilityHypothesisDensity.states", "src/gasur/swarm_estimator/tracker.py:ProbabilityHypothesisDensity.covariances", "src/gasur/swarm_estimator/tracker.py:ProbabilityHypothesisDensity.cardinality", "src/gasur/swarm_estimator/tracker.py:ProbabilityHypothesisDensity.extract_states"]}
{"id": "C183", "title": "The SMC-GLMB never loses all hypotheses", "statement": "While there are hypotheses predict of the SMC-GLMB filter leaves at least one, and a filter without hypotheses can recover.", "quantifier": "all states, particle filters, probability functions and histories of calls", "why_tests_cant": "must hold for all histories, not only sampled ones", "anchors": ["src/gasur/swarm_estimator/tracker.py:_SMCGLMBBase", "src/gasur/swarm_estimator/tracker.py:SMCGeneralizedLabeledMultiBernoulli"]}
{"id": "C184", "title": "A CPHD filter records every call", "statement": "Every correct call adds one entry, the measurements it used, to the measurement record and one, the most probable cardinality right after it, to the cardinality history; every extraction adds one list to the states and, if covariances are saved at the time, one to the covariances; entry k belongs to call k and nothing recorded changes later.", "quantifier": "all histories of calls, with attributes changed between calls", "why_tests_cant": "must hold for all histories, not only sampled ones", "anchors": ["src/gasur/swarm_estimator/tracker.py:CardinalizedPHD.correct", "src/gasur/swarm_estimator/tracker.py:CardinalizedPHD.extract_states", "src/gasur/swarm_estimator/tracker.py:ProbabilityHypothesisDensity.cleanup"]}
{"id": "C185", "title": "CPHD agents add up to the cardinality", "statement": "After extract_states the entries of agents_per_state add up to the cardinality property, and states and agents_per_state stay those of the last extraction.", "quantifier": "all mixtures, cardinality distributions and histories", "why_tests_cant": "weights near a rounding boundary and their combinations cannot be enumerated", "anchors": ["src/gasur/swarm_estimator/tracker.py:CardinalizedPHD.extract_states", "src/gasur/swarm_estimator/tracker.py:CardinalizedPHD.cardinality"]}
{"id": "C186", "title": "GLMB newest states are those of the most probable hypothesis", "statement": "After a predict, correct, cleanup cycle with extraction the last entry of labels lists exactly the labels of the tracks of a most probable hypothesis of the most probable cardinality, in its order, the last entry of states the states of their heaviest components at the newest time, and their number is the cardinality property; tracks extracted earlier do not appear there.", "quantifier": "all histories before the cycle, inner filters, measurements and cleanup flags", "why_tests_cant": "tracks extracted earlier accumulate over histories of any length", "anchors": ["src/gasur/swarm_estimator/tracker.py:GeneralizedLabeledMultiBernoulli.cleanup", "src/gasur/swarm_estimator/tracker.py:GeneralizedLabeledMultiBernoulli.extract_states", "src/gasur/swarm_estimator/tracker.py:GeneralizedLabeledMultiBernoulli.cardinality"]}
{"id": "C187", "title": "GLMB extraction after correct", "statement": "extract_states can be called after the correction function, as its documentation says.", "quantifier": "all histories ending with predict and correct", "why_tests_cant": "must hold for all histories, not only sampled ones", "anchors": ["src/gasur/swarm_estimator/tracker.py:GeneralizedLabeledMultiBernoulli.extract_states"]}
{"id": "C188", "title": "Particle and joint GLMB: newest states are those of the most probable hypothesis", "statement": "For the particle GLMB, the joint GLMB and the particle joint GLMB: after a predict, correct, cleanup cycle with extraction the last entry of labels lists exactly the labels of the tracks of a most probable hypothesis of the most probable cardinality, in its order, the last entry of states the states of their heaviest components at the newest time, and their number is the cardinality property.", "quantifier": "all histories before the cycle, inner filters, random numbers, measurements and cleanup flags", "why_tests_cant": "tracks extracted earlier accumulate over histories of any length", "anchors": ["src/gasur/swarm_estimator/tracker.py:SMCGeneralizedLabeledMultiBernoulli.correct", "src/gasur/swarm_estimator/tracker.py:JointGeneralizedLabeledMultiBernoulli.correct", "src/gasur/swarm_estimator/tracker.py:GeneralizedLabeledMultiBernoulli.cleanup", "src/gasur/swarm_estimator/tracker.py:GeneralizedLabeledMultiBernoulli.extract_states"]}
{"id": "C189", "title": "Particle and joint GLMB: extraction after correct", "statement": "extract_states of the particle GLMB, the joint GLMB and the particle joint GLMB can be called after the correction function, as its documentation says.", "quantifier": "all histories ending with predict and correct", "why_tests_cant": "must hold for all histories, not only sampled ones", "anchors": ["src/gasur/swarm_estimator/tracker.py:GeneralizedLabeledMultiBernoulli.extract_states", "src/gasur/swarm_estimator/tracker.py:SMCGeneralizedLabeledMultiBernoulli.correct", "src/gasur/swarm_estimator/tracker.py:JointGeneralizedLabeledMultiBernoulli.correct"]}
{"id": "C190", "title": "Particle and joint GLMB: extracted lists are aligned", "statement": "For the particle GLMB, the joint GLMB and the particle joint GLMB: after extract_states there is one entry per completed time step in states, labels and covariances; at every step the three have the same length and no label occurs twice. For the joint classes no extraction is made between a predict and the next correct.", "quantifier": "all histories with different (rounded) predict times, inner filters, random numbers, measurements and flags", "why_tests_cant": "labels of tracks recorded at any earlier extraction accumulate over histories of any length", "anchors": ["src/gasur/swarm_estimator/tracker.py:GeneralizedLabeledMultiBernoulli.extract_states", "src/gasur/swarm_estimator/tracker.py:SMCGeneralizedLabeledMultiBernoulli.predict", "src/gasur/swarm_estimator/tracker.py:JointGeneralizedLabeledMultiBernoulli.predict"]}
{"id": "C191", "title": "Joint GLMB filters keep the all-missed outcome of every hypothesis", "statement": "For the joint GLMB and the particle joint GLMB: after correct there is for every hypothesis one in which all births appear, all its tracks survive and none of them is detected; so, when inner filters fail or not, predict and correct never lose all hypotheses, nor does any history without pruning (or with a threshold that is not positive) and with room for one hypothesis.", "quantifier": "all states, histories, inner filters (with failures), measurements and random numbers", "why_tests_cant": "the samples are random and failures of the inner filter depend on the measurements", "anchors": ["src/gasur/swarm_estimator/tracker.py:JointGeneralizedLabeledMultiBernoulli.correct", "src/gasur/swarm_estimator/tracker.py:SMCJointGeneralizedLabeledMultiBernoulli.correct", "src/gasur/utilities/sampling.py:gibbs"]}
{"id": "C192", "title": "When cleanup leaves a hypothesis", "statement": "cleanup of every GLMB class leaves at least one hypothesis exactly when some hypothesis is above the pruning threshold (if pruning is enabled) and the maximum number of hypotheses is not 0 (if capping is enabled). A joint filter that has lost all hypotheses never gets one back, whatever is called.", "quantifier": "all states, parameters and flags; all later histories", "why_tests_cant": "a sampled test sees only some probability vectors and finitely many histories", "anchors": ["src/gasur/swarm_estimator/tracker.py:GeneralizedLabeledMultiBernoulli.cleanup", "src/gasur/swarm_estimator/tracker.py:GeneralizedLabeledMultiBernoulli._prune", "src/gasur/swarm_estimator/tracker.py:GeneralizedLabeledMultiBernoulli._cap", "src/gasur/swarm_estimator/tracker.py:JointGeneralizedLabeledMultiBernoulli.correct"]}
{"id": "C193", "title": "Joint GLMB: extract_most_prob_states", "statement": "extract_most_prob_states of the joint GLMB terminates for every threshold and returns different hypotheses of the filter in non-increasing order of probability, all at least the threshold after the first.", "quantifier": "all numbers of cycles, inner filters, random numbers, thresholds", "why_tests_cant": "termination over all thresholds and filters cannot be settled by running", "anchors": ["src/gasur/swarm_estimator/tracker.py:GeneralizedLabeledMultiBernoulli.extract_most_prob_states", "src/gasur/swarm_estimator/tracker.py:JointGeneralizedLabeledMultiBernoulli"]}
{"id": "C194", "title": "CPHD intensity and cardinality distribution agree", "statement": "After correct, the sum of the mixture weights equals the expected number of objects under the corrected cardinality distribution.", "quantifier": "all mixtures, cardinality distributions, parameters and measurement lists", "why_tests_cant": "an identity between two sums of unbounded length over all inputs", "anchors": ["src/gasur/swarm_estimator/tracker.py:CardinalizedPHD.correct", "src/gasur/swarm_estimator/tracker.py:CardinalizedPHD._correct_prob_density"]}
{"id": "C195", "title": "The density based cost does not depend on the coordinate frame", "statement": "density_based_cost returns the same value when all objects and targets (means and covariances) are expressed in a frame with another origin or with turned axes.", "quantifier": "all dimensions, objects, targets, parameters, origins and rotations", "why_tests_cant": "invariance over all inputs and frames", "anchors": ["src/gasur/guidance.py:DensityBased.density_based_cost", "src/gasur/guidance.py:DensityBased.target_center"]}
{"id": "C196", "title": "PHD: the order of measurements does not matter", "statement": "Listing the measurements of each scan in another order gives, after any history of predict, correct, prune and extract_states, the same components, the same estimates with their covariances and the same stored measurements up to order; likewise for the order of the components of the mixture.", "quantifier": "all histories, filters, scans, orders and mixtures", "why_tests_cant": "all orders of all scans of all histories", "anchors": ["src/gasur/swarm_estimator/tracker.py:ProbabilityHypothesisDensity.correct", "src/gasur/swarm_estimator/tracker.py:ProbabilityHypothesisDensity._correct_prob_density", "src/gasur/swarm_estimator/tracker.py:ProbabilityHypothesisDensity._gate_meas", "src/gasur/swarm_estimator/tracker.py:ProbabilityHypothesisDensity.extract_states"]}
{"id": "C197", "title": "PHD cleanup does not depend on the order of measurements", "statement": "Also with merging and capping, listing the measurements of a scan in another order changes nothing but the order of the components and estimates.", "quantifier": "all mixtures and orders", "why_tests_cant": "all mixtures and orders", "anchors": ["src/gasur/swarm_estimator/tracker.py:ProbabilityHypothesisDensity._merge", "src/gasur/swarm_estimator/tracker.py:ProbabilityHypothesisDensity._cap", "src/gasur/swarm_estimator/tracker.py:ProbabilityHypothesisDensity.cleanup"]}
{"id": "C198", "title": "CPHD: the order of measurements does not matter", "statement": "Listing the measurements of a scan in another order changes correct's result only in the order of the components: same weights, means and covariances, same cardinality distribution.", "quantifier": "all filters, states, scans and orders", "why_tests_cant": "all orders of all scans", "anchors": ["src/gasur/swarm_estimator/tracker.py:CardinalizedPHD.correct", "src/gasur/swarm_estimator/tracker.py:CardinalizedPHD._correct_prob_density"]}
{"id": "C199", "title": "OSPA does not depend on the coordinate frame", "statement": "Shifting, rotating or mirroring the coordinate frame of truth and estimates leaves both components of calculate_ospa and calculate_ospa2 at every time as they are; expressing states and cut-off in another unit multiplies both components by the conversion factor; a call that raises still raises the same exception.", "quantifier": "all truths, estimates, existence patterns, cut-offs, orders, windows, frames and units", "why_tests_cant": "all frames and all sets of states", "anchors": ["src/gasur/utilities/distributions.py:calculate_ospa", "src/gasur/utilities/distributions.py:calculate_ospa2"]}
{"id": "C200", "title": "OSPA grows with the cut-off and the order", "statement": "For the same truth and estimates, a larger cut-off or a larger order never gives a smaller localization or cardinality component at any time, for calculate_ospa and calculate_ospa2; and changing them never makes a succeeding call fail.", "quantifier": "all truths, estimates, existence patterns, cut-offs and orders", "why_tests_cant": "all pairs of cut-offs and orders over all inputs", "anchors": ["src/gasur/utilities/distributions.py:calculate_ospa", "src/gasur/utilities/distributions.py:calculate_ospa2"]}
{"id": "C201", "title": "Assignment does not depend on how rows and columns are numbered", "statement": "Renumbering the rows and columns of a cost matrix, or exchanging rows and columns, changes neither the size and cost of assign_opt's assignment nor the list of costs returned by murty_m_best.", "quantifier": "all matrices (with forbidden entries), all renumberings, all m", "why_tests_cant": "all renumberings of all matrices", "anchors": ["src/gasur/utilities/graphs.py:murty_m_best", "src/gasur/utilities/graphs_subroutines.py:assign_opt"]}
{"id": "C202", "title": "OSPA(2) agrees with OSPA when nothing moves", "statement": "With a window of one time step, or at any time before which truth and estimates did not change within the window, calculate_ospa2 reports the same localization and cardinality components as calculate_ospa.", "quantifier": "all truths, estimates, existence patterns on the first slots, cut-offs, orders and windows", "why_tests_cant": "all histories and windows", "anchors": ["src/gasur/utilities/distributions.py:calculate_ospa", "src/gasur/utilities/distributions.py:calculate_ospa2"]}
{"id": "C203", "title": "PHD: the coordinate frame does not matter", "statement": "A PHD filter whose inner filter, births and gate are expressed in other coordinates (shifted, rotated, other units; densities per other unit) and that is fed the rewritten measurements reports, after any history of calls, the same weights and the rewritten means, covariances, estimates and measurements, and raises exactly when the original does.", "quantifier": "all filters, changes of frame, histories of predict, correct, cleanup and extract_states", "why_tests_cant": "all histories in all frames", "anchors": ["src/gasur/swarm_estimator/tracker.py:ProbabilityHypothesisDensity.predict", "src/gasur/swarm_estimator/tracker.py:ProbabilityHypothesisDensity.correct", "src/gasur/swarm_estimator/tracker.py:ProbabilityHypothesisDensity.cleanup", "src/gasur/swarm_estimator/tracker.py:ProbabilityHypothesisDensity._merge", "src/gasur/swarm_estimator/tracker.py:ProbabilityHypothesisDensity.extract_states", "src/gasur/swarm_estimator/tracker.py:RandomFiniteSetBase._gate_meas"]}
{"id": "C204", "title": "GLMB: the order of the measurements in a scan does not matter", "statement": "Listing the measurements of a scan in another order makes the GLMB filter's correct fail with the same exception or succeed alike, leaves exactly the same cardinality distribution, and, unless the inner filter refuses a measurement, the same probabilities and numbers of objects of the hypotheses, in the same order - even when assignments tie or when the requested number of new hypotheses cuts the list.", "quantifier": "every filter state, configuration, inner filter, scan and permutation of it", "why_tests_cant": "the m cheapest assignments are searched by tree partitioning whose course depends on the column order; equality of the results for all permutations and ties needs the optimality of the search, not samples", "anchors": ["src/gasur/swarm_estimator/tracker.py:GeneralizedLabeledMultiBernoulli.correct", "src/gasur/swarm_estimator/tracker.py:GeneralizedLabeledMultiBernoulli._gen_cor_hyps", "src/gasur/utilities/graphs.py:murty_m_best"]}
{"id": "C205", "title": "SMC-GLMB: the order of the measurements in a scan does not matter", "statement": "Listing the measurements of a scan in another order makes the SMC-GLMB filter's correct raise or succeed alike, leaves exactly the same cardinality distribution, and, unless the particle filter refuses a measurement, the same probabilities and numbers of objects of the hypotheses, in the same order - even when assignments tie or the requested number of new hypotheses cuts the list.", "quantifier": "every filter state, configuration, particle filter, detection probability function, scan and permutation of it", "why_tests_cant": "needs the optimality of the assignment search for every cost matrix and every permutation of its columns, and the track update to be independent of the other measurements of the scan", "anchors": ["src/gasur/swarm_estimator/tracker.py:SMCGeneralizedLabeledMultiBernoulli.correct", "src/gasur/swarm_estimator/tracker.py:SMCGeneralizedLabeledMultiBernoulli._inner_correct", "src/gasur/swarm_estimator/tracker.py:GeneralizedLabeledMultiBernoulli._gen_cor_hyps"]}
{"id": "C206", "title": "GLMB: the coordinate frame does not matter", "statement": "A GLMB filter whose births, measurements and inner filter are expressed in other coordinates (same likelihoods) reports, after any history of calls, exactly the same labels, hypothesis weights and cardinality distribution, and the same states, covariances and histories expressed in those coordinates; where one raises, the other raises the same exception. The same holds for the answers of extract_most_prob_states.", "quantifier": "every change of coordinates (any maps of filter states, states, covariances, measurements), every inner filter, configuration and sequence of public calls", "why_tests_cant": "a statement about pairs of whole histories over all coordinate changes; tests compare a few runs in one frame", "anchors": ["src/gasur/swarm_estimator/tracker.py:GeneralizedLabeledMultiBernoulli"]}
{"id": "C207", "title": "JGLMB: the coordinate frame does not matter", "statement": "A JGLMB filter whose births, measurements and inner filter are expressed in other coordinates (same likelihoods), fed the same random numbers, reports, after any history of calls, exactly the same labels, hypothesis weights and cardinality distribution, and the same states, covariances and histories expressed in those coordinates; where one raises, the other raises the same exception.", "quantifier": "every change of coordinates, inner filter, sampler, configuration and sequence of public calls", "why_tests_cant": "a statement about pairs of whole random histories over all coordinate changes", "anchors": ["src/gasur/swarm_estimator/tracker.py:JointGeneralizedLabeledMultiBernoulli"]}
{"id": "C208", "title": "SMC-GLMB: the coordinate frame does not matter", "statement": "An SMC-GLMB filter whose births, measurements, particle filter and survival and detection probability functions are expressed in other coordinates (same likelihoods and probabilities) reports, after any history of calls, exactly the same labels, hypothesis weights and cardinality distribution, and the same particles, estimates, covariances and histories expressed in those coordinates; where one raises, the other raises the same exception.", "quantifier": "every change of coordinates, particle filter, probability functions, births, configuration and sequence of public calls", "why_tests_cant": "a statement about pairs of whole histories over all coordinate changes and probability functions", "anchors": ["src/gasur/swarm_estimator/tracker.py:SMCGeneralizedLabeledMultiBernoulli", "src/gasur/swarm_estimator/tracker.py:_SMCGLMBBase"]}
{"id": "C209", "title": "SMC joint GLMB: the coordinate frame does not matter", "statement": "An SMC joint GLMB filter whose births, measurements, particle filter and survival and detection probability functions are expressed in other coordinates (same likelihoods, probabilities and random draws) reports, after any history of calls, exactly the same labels, hypothesis weights and cardinality distribution, and the same particles, estimates, covariances and histories expressed in those coordinates; where one raises, the other raises the same exception.", "quantifier": "every change of coordinates, particle filter, probability functions, births, configuration (possibly changing between calls), Gibbs sampler and sequence of public calls", "why_tests_cant": "a statement about pairs of whole histories over all coordinate changes and probability functions", "anchors": ["src/gasur/swarm_estimator/tracker.py:SMCJointGeneralizedLabeledMultiBernoulli", "src/gasur/swarm_estimator/tracker.py:_SMCGLMBBase", "src/gasur/swarm_estimator/tracker.py:JointGeneralizedLabeledMultiBernoulli"]}
{"id": "C210", "title": "CPHD: coordinate frame and density units do not matter", "statement": "A cardinalized PHD filter whose births, measurements, inner filter and gate are expressed in other coordinates, with likelihoods and clutter density per another unit of measurement, reports after any history of calls exactly the same weights, cardinality distribution, cardinality history and number of agents, and the same means, covariances, estimates and stored measurements expressed in those coordinates; where one raises, the other raises the same exception. In particular only the ratio of the likelihoods to the clutter density matters.", "quantifier": "every change of coordinates and density unit, inner filter, births, gate, clean-up step, configuration, starting object and sequence of public calls", "why_tests_cant": "a statement about pairs of whole histories over all coordinate changes and units", "anchors": ["src/gasur/swarm_estimator/tracker.py:CardinalizedPHD.predict", "src/gasur/swarm_estimator/tracker.py:CardinalizedPHD.correct", "src/gasur/swarm_estimator/tracker.py:CardinalizedPHD._correct_prob_density", "src/gasur/swarm_estimator/tracker.py:CardinalizedPHD.extract_states"]}
{"id": "C211", "title": "CPHD: the order of the components does not matter", "statement": "Listing the components of the mixture of a cardinalized PHD filter in another order gives, after any history of predict, correct, clean-up and changes of the maximum expected cardinality, the same components in some order, the same cardinality distribution and history and the same stored measurements, or the same exception; and extract_states then chooses the same states, covariances and numbers of agents in the same order, provided no two components have the same weight.", "quantifier": "every inner filter, gate and clean-up step that does not depend on the order, births, configuration, mixture, reordering and sequence of calls", "why_tests_cant": "all orders of all mixtures along all histories", "anchors": ["src/gasur/swarm_estimator/tracker.py:CardinalizedPHD.predict", "src/gasur/swarm_estimator/tracker.py:CardinalizedPHD.correct", "src/gasur/swarm_estimator/tracker.py:CardinalizedPHD._correct_prob_density", "src/gasur/swarm_estimator/tracker.py:CardinalizedPHD.extract_states"]}
{"id": "C212", "title": "Cardinality history plot of the CPHD", "statement": "After any history of calls, plot_card_history of the cardinalized PHD filter draws one point per correction at a most probable number of objects at that time, draws the true cardinality exactly when it has as many entries as the time axis (and warns otherwise), and its k-sigma lines lie k standard deviations of the number of objects above and below the estimate; an empty history or a time vector of the wrong length is an error.", "quantifier": "all histories of predict, correct, extract, clean-up and changes of the maximum cardinality, all time vectors, true cardinalities and numbers of sigmas", "why_tests_cant": "whether the spread drawn is the spread of the number of objects depends on the whole distribution reached, not on a particular plot", "anchors": ["src/gasur/swarm_estimator/tracker.py:CardinalizedPHD.plot_card_history", "src/gasur/swarm_estimator/tracker.py:CardinalizedPHD._correct_prob_density"]}
{"id": "C213", "title": "Cardinality history plot of the labelled filters", "statement": "After any history of calls, plot_card_history of a labelled filter draws the number of tracks reported at each completed step against the step number or against a given time vector of the same length, and rejects a vector of another length.", "quantifier": "all histories ending in an extraction, all time vectors", "why_tests_cant": "the number of reported tracks at every earlier step must agree with the labels after any history", "anchors": ["src/gasur/swarm_estimator/tracker.py:GeneralizedLabeledMultiBernoulli.plot_card_history"]}
{"id": "C214", "title": "Trajectories drawn for the labels", "statement": "After any history of predict, correct, clean-up and extraction, plot_states_labels of each of the four labelled filters succeeds and draws exactly one line per track ever reported; the line of a track has one column per completed step, holding the state reported for that label at that step, a gap at the steps at which it was not reported, and the name of the track is written at its earliest report.", "quantifier": "all histories ending in an extraction, with state vectors of one size", "why_tests_cant": "tracks appear, vanish and reappear in arbitrary orders over unboundedly many steps, so indices of labels and states must agree at every step of every history", "anchors": ["src/gasur/swarm_estimator/tracker.py:GeneralizedLabeledMultiBernoulli.plot_states_labels"]}
{"id": "C215", "title": "States and error ellipses drawn by the PHD filters", "statement": "After any history of calls, plot_states of the PHD filter and of the cardinalized PHD filter succeeds and shows, for every extraction that reported something, all reported states, and with a number of sigmas given around each state the error ellipse of the covariance of the very component it was taken from.", "quantifier": "all histories of predict, correct, clean-up and extract calls, attributes free to change between calls", "why_tests_cant": "states and covariances are kept in two separate lists that must stay in step over histories of any length", "anchors": ["src/gasur/swarm_estimator/tracker.py:ProbabilityHypothesisDensity.plot_states", "src/gasur/swarm_estimator/tracker.py:ProbabilityHypothesisDensity.extract_states"]}
{"id": "C216", "title": "Number of states per timestep of the CPHD", "statement": "After any history that runs, plot_number_states_per_time of the cardinalized PHD filter draws one point per extraction made while debug plots were on, at the number of states reported at that extraction (with debug plots on throughout: for every extraction), and only warns when debug plots are off.", "quantifier": "all histories of predict, correct, clean-up, extract and changes of the maximum cardinality, attributes and debug_plots free to change between calls", "why_tests_cant": "the counter of the extraction loop must agree with the reported list whether the loop ends by exhaustion, by reaching the cardinality or by its break, at every extraction of every history", "anchors": ["src/gasur/swarm_estimator/tracker.py:CardinalizedPHD.plot_number_states_per_time", "src/gasur/swarm_estimator/tracker.py:CardinalizedPHD.extract_states"]}
{"id": "C217", "title": "Cardinality distribution plot of the CPHD", "statement": "After any history with sensible attributes, plot_card_dist of the cardinalized PHD filter succeeds and draws one bar for each number of objects from zero to the maximum expected cardinality, bar n at n with the filter's probability of n objects; no bar is negative and the bars add up to one.", "quantifier": "all histories of well-formed calls, attributes free to change between calls", "why_tests_cant": "normalisation must hold after every update of every history and after every change of the maximum cardinality", "anchors": ["src/gasur/swarm_estimator/tracker.py:CardinalizedPHD.plot_card_dist", "src/gasur/swarm_estimator/tracker.py:CardinalizedPHD.max_expected_card"]}
{"id": "C218", "title": "True trajectories drawn beside the estimates", "statement": "Given the true states of each step (any number at each step, possibly none), plot_states of the PHD filters and plot_states_labels of the labelled filters draw every true state exactly once: one line per place in the lists of a step, as many lines as the fullest step has states, each with one column per step that holds the state at that place or a gap; no admissible input raises.", "quantifier": "all lists of true states of one size, all recorded estimates", "why_tests_cant": "numbers of objects vary from step to step without bound, and empty steps may come anywhere", "anchors": ["src/gasur/swarm_estimator/tracker.py:ProbabilityHypothesisDensity.plot_states", "src/gasur/swarm_estimator/tracker.py:GeneralizedLabeledMultiBernoulli.plot_states_labels"]}
{"id": "C219", "title": "Frames of the state animation", "statement": "Whatever frames were shown before, the frame of step k of animate_state_plot of the PHD filter shows exactly the states reported at step k (with their error ellipses if asked for) and the measurements used at step k, and nothing of other steps.", "quantifier": "all histories with one correction for each extraction, all sequences of frames (also repeated)", "why_tests_cant": "the artists keep their content from frame to frame, so what a frame shows depends on all frames before it", "anchors": ["src/gasur/swarm_estimator/tracker.py:ProbabilityHypothesisDensity.animate_state_plot", "src/gasur/swarm_estimator/tracker.py:ProbabilityHypothesisDensity.__ani_state_plotting"]}
{"id": "C220", "title": "Cardinality chart of the GLMB filter", "statement": "plot_card_dist of the GLMB filter shows the distribution of the number of objects under the current hypotheses: one bar per count from 0 on, of the height of its probability, with no possible count missing, and the heights add up to 1.", "quantifier": "all configurations and all histories of calls", "why_tests_cant": "the stored distribution is recomputed by some calls and not by others, so what the chart shows depends on the order of calls", "anchors": ["src/gasur/swarm_estimator/tracker.py:GeneralizedLabeledMultiBernoulli.plot_card_dist"]}
