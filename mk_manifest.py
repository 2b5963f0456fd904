#!/usr/bin/env python3
"""Regenerates MANIFEST.json from the table below (kept next to the sources so
that the manifest is easy to keep current)."""
import json
C = {}
def c(pid, status, thms, note=""):
    C[pid] = {"property": pid, "status": status, "theorems": thms, "note": note}

c("C01", "proved", ["C01_assign_opt_optimal"], "Exact rational costs; any shape.")
c("C02", "proved", ["C02_assign_opt_inf", "C02_assign_opt_inf_1d"], "")
c("C03", "proved", ["C03_assign_opt_total"], "Python's recursion limit is not modelled.")
c("C04", "proved", ["C04_murty_valid"], "For matrices with at least one row (a matrix without rows makes numpy's min raise).")
c("C05", "proved", ["C05_murty_costs"], "")
c("C06", "proved", ["C06_murty_m_best"], "")
c("C07", "proved", ["C07_murty_degenerate"], "")
c("C08", "proved", ["C08_bfm_path_real", "C08_bfm_errors"], "Square matrices with at least 2 nodes and no nonzero entry below machine epsilon; the errors outside that range are proved in C08_bfm_errors.")
c("C09", "proved", ["C09_bfm_shortest"], "")
c("C10", "proved", ["C10_k_shortest_first"], "")
c("C11", "proved", ["C11_k_shortest_size"], "")
c("C12", "proved", ["C12_k_shortest_indices"], "")
c("C15", "partial", ["C15_k_shortest_zero_refuted", "C15_k_shortest_zero_never"], "REFUTED: a state of cost 0 has no link in the graph, so it is on no returned path (C15_k_shortest_zero_never).")
c("C16", "proved", ["C16_a_star_walkable", "C16_f_comparison_exact"], "A path returned because the 100000-iteration limit was hit is a walk from start that need not end at end (returned flag).")
c("C17", "proved", ["C17_a_star_complete"], "")
c("C19", "partial", ["C19_a_star_cost_refuted", "C19_a_star_reported"], "REFUTED: the second value is the largest distance-to-end of the cells after start (proved), not the cost.")
c("C20", "proved", ["C20_gibbs_one_to_one", "C20_gibbs_private_columns"], "np.exp is any function, positive on finite costs; np.cumsum/np.sum are exact. C20_zero_weights (Example) shows the positivity hypothesis is needed.")
c("C21", "proved", ["C21_gibbs_rows_and_costs"], "")
c("C22", "proved", ["C22_gibbs_initial"], "")
c("C71", "proved", ["C71_gibbs_inverse_transform"], "")
c("C36", "partial", ["C36_phd_merge_moment_refuted", "C35_phd_merge"], "REFUTED: the merged covariance is the weighted mean of the covariances (proved in C35_phd_merge), without the spread of the means.")
c("C40", "partial", ["C40_gate_distance_refuted", "C40_gate_distance_actual", "C40_gate_distance_scalar", "C40_innovation_covariance", "C40_innovation_covariance_real"], "REFUTED in general: the transpose is on the wrong factor, the statistic is the form of (L^T L)^-1 instead of (L L^T)^-1 (proved); right for scalar measurements (proved).")
c("C73", "partial", ["C73_phd_ctor_gate_refuted", "C73_phd_ctor_gate_drops"], "REFUTED: the base constructor overwrites the attribute with 0, so a gating filter drops every measurement (proved for all inputs).")
c("C23", "proved", ["C23_ospa_symmetric", "C23_ospa2_symmetric"], "contract of scipy linear_sum_assignment (optimal assignment, ValueError on nan) as hypothesis, shown satisfiable by brute_lsa_ok; OSPA(2) symmetry proved too")
c("C25", "partial", ["C25_ospa_le_cutoff_refuted", "C25_ospa_le_cutoff_p1", "C25_ospa_le_twice_cutoff"], "REFUTED for p=2: ospa = localization + cardinality (distributions.py:418) can exceed c (sqrt 2 * c); true for p=1, at most 2c always")
c("C26", "partial", ["C26_ospa_slots_refuted", "C26_glmb_ospa_refuted", "C26_ospa_prefix_slots_partial", "C26_ospa_order_independent", "C26_tracker_ospa_of_lists", "C26_tracker_ospa_core"], "REFUTED: the block distances[0:m,0:n] (line 407) assumes objects occupy the first slots; with the GLMB one-slot-per-label arrays a perfect estimate scores c after a death. Proved: with prefix-occupied slots (tracker wrapper on lists without None) the value is the documented OSPA of the two sets, independent of order")
c("C27", "partial", ["C27_mahalanobis_refuted", "C27_mahalanobis_identity_partial"], "REFUTED: line 375 uses the covariance where the docstring says its inverse; agrees only when they coincide")
c("C28", "proved", ["C28_ospa2_of_window", "C28_ospa2_window_only", "C28_window", "C28_ospa2_bounds"], "the value at a step is the order-p OSPA of the multiset of tracks existing in the window; default/Euclidean/Manhattan cores")
c("C29", "partial", ["C29_ospa2_total_refuted", "C29_ospa2_defined_iff", "C29_ospa2_defined_prefix_partial"], "REFUTED: the inner OSPA call uses use_empty=False, so a both-absent pair inside the block [0:m,0:n] is nan and linear_sum_assignment raises ValueError; exact characterisation proved; fine when the truth occupies the first slots")
c("C30", "proved", ["C30_ospa_cardinality"], "")
c("C72", "partial", ["C72_ospa_none_gap_refuted", "C72_ospa_setup_iff", "C26_tracker_ospa_of_lists"], "REFUTED: [None, x] is an IndexError (array sized by the count of non-None, indexed by position, tracker.py:279-291); exact condition proved; lists without None always work")
c("C74", "proved", ["C74_ospa_triangle", "C74_ospa_zero_only_if_equal"], "objects in the first slots; triangle inequality for p=1 (with p>1 localization+cardinality is not the documented metric, see C25)")
c("C41", "proved", ["C41_cphd_distribution", "C41_cphd_predict_total", "C41_cphd_correct_total"], "invariant over all call sequences (predict, correct, extract, max_expected_card setter, any mixture clean-up keeping lengths and signs); predict and correct return for 0<ps<1, positive births, clutter; get_elem_sym_fnc by its contract")
c("C43", "partial", ["C43_cphd_certain_survival_refuted", "C43_cphd_no_births_refuted", "C41_cphd_predict_total"], "REFUTED: prob_survive = 1 (class default) gives 0*log(0) = nan for every state, and so does an empty birth list; it works for 0<ps<1 with births")
c("C44", "proved", ["C44_cphd_extract"], "np.argsort by its contract, shown satisfiable")
c("C45", "partial", ["C45_cphd_correct_survival_refuted", "C45_cphd_correct_actual"], "REFUTED: tracker.py:1496, 1509, 1526 use prob_death where the CPHD update has the missed-detection probability; proved: the update is exactly the textbook one with 1-ps for that probability, so it is right iff used with ps = pd")
c("C76", "partial", ["C76_cphd_no_clutter_refuted", "C41_cphd_correct_total"], "REFUTED: log(clutter_rate) makes every correction nan for the default clutter_rate = 0; works for positive clutter")
c("C77", "proved", ["C77_cphd_predict_mixture"], "")
c("C78", "proved", ["C78_cphd_gating"], "the gate itself is C39/C40")
c("C64", "proved", ["C64_target_center"], "")
c("C65", "partial", ["C65_caller_list_changed_refuted", "C65_targets_after_update_partial", "C65_reset_keeps_caller_list"], "REFUTED for the caller's list: without reset it always grows by the old targets. The resulting targets and weights are as stated (states of dimension other than 1, see C80).")
c("C66", "proved", ["C66_nearest_target"], "")
c("C68", "partial", ["C68_documented_factor_refuted", "C68_cost_closed_form", "C68_order_irrelevant"], "REFUTED: the documented factor 20 is 2 in the code, the value always differs for positive weights and variances. Proved: the closed form with 2 and order independence, for mvn.pdf = the normal density.")
c("C69", "proved", ["C69_constructor_validation"], "nan weight is accepted")
c("C70", "partial", ["C70_reinitialise_raises_refuted", "C70_first_initialize_objects", "C70_controls_carried_over_partial", "C70_means_carried_over_partial"], "REFUTED: objects made by initialize have a 1 x 0 array of control inputs, every match of the first measurement raises ValueError (horizon >= 2). Objects with a full array hand over shifted controls.")
c("C80", "partial", ["C80_one_dimensional_refuted", "C80_other_dimensions"], "REFUTED for dimension 1, holds for the others")
c("C81", "proved", ["C81_wayarea_cov_psd"], "for orthonormal eigenvectors (la.eig does not promise them for repeated eigenvalues)")
c("C85", "partial", ["C85_cost_to_come_vec_refuted", "C85_costs_carried_over_partial"], "REFUTED for cost_to_come_vec (copied from cost_to_go_vec), holds for the other lists")
c("C86", "partial", ["C86_start_states_overwritten_refuted", "C86_trajectory_cost_partial"], "REFUTED: x_starts is aliased. Proved: the value is the sum of costs along the trajectory plus the final cost.")
c("C87", "proved", ["C87_regularised_psd"], "for orthonormal eigenvectors")
c("C46", "proved", ["C46_glmb_distribution", "C46_predict_distribution", "C46_correct_mass", "C46_after_failure_refuted"], "for every history without inner-filter failure, as long as hypotheses remain (see C89); with a failure the dropped mass is accounted for exactly (C46_correct_mass) and the sum can be below 1 (C46_after_failure_refuted)")
c("C47", "partial", ["C47_glmb_cardinality_partial", "C47_after_pruning_cleanup", "C47_after_predict_refuted"], "REFUTED after predict (the cardinality distribution is stale). Proved after correct, prune and cap.")
c("C48", "proved", ["C48_glmb_references"], "k_shortest and Murty by contract (kshort_ok, murty_ok; met by the demonstration world in GlmbDemo.v)")
c("C49", "proved", ["C49_glmb_labels", "C49_labels_persist", "C49_same_time_refuted"], "distinctness of the rounded time steps is needed: C49_same_time_refuted")
c("C50", "proved", ["C50_glmb_exclusive"], "")
c("C51", "proved", ["C51_glmb_no_duplicates", "C51_merge_preserves_mass"], "for an injective hash of the sorted track list (hash_ok)")
c("C52", "proved", ["C52_glmb_compaction"], "")
c("C53", "proved", ["C53_glmb_prune"], "")
c("C54", "proved", ["C54_glmb_cap"], "")
c("C55", "proved", ["C55_glmb_outputs_aligned", "C55_glmb_outputs_exact", "C55_glmb_extract_total", "C55_glmb_extract_fresh_raises"], "extract_states on a fresh filter raises ValueError")
c("C56", "partial", ["C56_glmb_keeps_old_tracks_refuted", "C56_glmb_keeps_exactly_partial"], "REFUTED by a reachable run: the measurement slots are one aliased list ([[]]*n), so claims at different times conflict. Proved: exactly which old tracks are kept.")
c("C57", "proved", ["C57_glmb_extracts_map", "C57_cleanup_extracts_map", "C57_stale_cardinality_refuted"], "the cardinality distribution must match the hypotheses (C47); after predict it is stale: C57_stale_cardinality_refuted")
c("C61", "proved", ["C61_glmb_history_length"], "")
c("C88", "proved", ["C88_glmb_cycle_total"], "given that log_sum_exp([]) does not raise (v_lse0), k_shortest and Murty total")
c("C93", "proved", ["C93_glmb_update_bayes"], "probabilities and tracks; no inner-filter failure, positive likelihoods, Murty costs by contract (C05)")
c("C94", "proved", ["C94_glmb_update_keeps_best"], "murty_m_best by contract (C06)")
c("C95", "proved", ["C95_glmb_predicted_tracks"], "")
c("C96", "proved", ["C96_glmb_extracts_heaviest"], "")
c("C59", "partial", ["C59_round_trip_refuted", "C59_round_trip_partial", "C59_phd_refused"], "REFUTED: _ospa2_params is saved from _ospa_params and a missing inner filter is loaded as a pair of Nones; every other attribute of every GLMB-type class round-trips (iff theorem)")
c("C60", "partial", ["C60_correct_refuted", "C60_prune_refuted", "C60_saved_state_partial", "C60_heap_refines_glmb"], "REFUTED: hypothesis objects are shared, correct without measurements and cleanup change an already saved state (it can end up describing another track, or with probabilities adding up to more than 1); safe when predict or correct with measurements comes next")
c("C62", "partial", ["C62_jglmb_distribution_refuted", "C62_jglmb_distribution_partial", "C62_jglmb_mass"], "REFUTED when the inner filter fails on a measurement: hypotheses that use it are dropped without renormalising (witness: total 1/2); true in every history without failures; in all histories what is kept and what is dropped add up to 1")
c("C63", "proved", ["C63_jglmb_valid", "C63_jglmb_one_scan"], "between correct and the next predict; labels under distinct predict times; no shared measurement in the intended order of calls, and for one scan in any order")
c("C98", "proved", ["C98_jglmb_cardinality"], "when the inner filter does not fail")
c("C99", "proved", ["C99_jglmb_history_length", "C99_jglmb_labels_persist"], "")
c("C100", "proved", ["C100_jglmb_cycle_total"], "gating off")
c("C104", "proved", ["C104_jglmb_update_bayes", "C104_weight_exact"], "no failures of the inner filter; weights with the epsilon floor of the code, exact for proper samples")
c("C105", "proved", ["C105_jglmb_missed_successor"], "")
c("C106", "proved", ["C106_jglmb_hypothesis_count"], "")
c("C107", "proved", ["C107_glmb_no_duplicates","C107_jglmb_no_duplicates"], "every reachable state of both filters; the GLMB case assumes the contracts of k_shortest, murty_m_best (rows valid and none twice, proved for rational costs in C05) and argsort; the joint case assumes only argsort")
c("C108", "partial", ["C108_glmb_measurements","C108_jglmb_measurements_refuted"], "REFUTED for the joint filter: it stores every measurement list whatever save_measurements says (tracker.py:3594); the GLMB filter honours the setting (proved)")
c("C109", "proved", ["C109_real_inverse_transform"], "the draw of the sampler used by the joint filter, with the real exponential and exact arithmetic")
c("C18", "partial", ["C18_a_star_shortest_refuted", "C18_a_star_suboptimal_partial", "C18_a_star_unit_cost_partial", "C18_a_star_shortest_partial"], "REFUTED for unit cost: the Euclidean heuristic overestimates diagonal moves; a longer path is returned. Proved: the path is at most max(cost, sqrt 2)/cost times as long as any walk (at most sqrt 2 times for cost 1), and is shortest when cost >= sqrt 2.")
c("C110", "proved", ["C110_smc_distribution", "C110_smc_cardinality"], "All histories in which the particle filter raised none of the caught exceptions.")
c("C111", "proved", ["C111_smc_references", "C111_smc_labels", "C111_smc_exclusive"], "All histories (labels: predict times different after rounding; exclusiveness: predict, correct, cleanup in turn).")
c("C112", "proved", ["C112_smc_one_cloud"], "Every history, no hypotheses.")
c("C113", "proved", ["C113_smc_weights_normalised"], "Every history; particle filters that return one non-negative weight per particle, non-negative probability functions, normalised birth clouds.")
c("C115", "partial", ["C115_smc_update_bayes_refuted", "C115_smc_update_exact_partial", "C115_detection_counted_twice"], "REFUTED: the detection probability is counted twice (average over the particles and inside the likelihood). Proved: the exact weights the filter uses, for all inputs.")
c("C116", "proved", ["C116_smc_cycle_total"], "All scans, flags, failures of the particle filter's correct; k_shortest and murty total by contract.")
c("C117", "partial", ["C117_survival_of_old_particles_refuted", "C117_survival_weights_partial"], "REFUTED: weights use the survival probability of the moved particle. Proved: correct where the function does not change under the motion.")
c("C118", "partial", ["C118_estimate_of_stored_cloud_refuted", "C118_constant_survival_partial"], "REFUTED: the estimate is recorded before the weights are changed. Proved: correct after predict with a constant survival probability.")
c("C119", "proved", ["C119_glmb_with_library", "C119_outputs_with_library"], "GLMB with the library's own k_shortest and murty_m_best (real-number port of the models of C04-C15): no contract on either; all histories.")
c("C120", "partial", ["C120_tiny_log_odds_refuted", "C120_library_cycle_total_partial"], "REFUTED: a birth probability whose log-odds are nonzero but below machine epsilon (e.g. 0.49999999999999994 in floats) makes predict raise IndexError in every state. Proved: otherwise no cycle raises, and no other exception is possible.")
c("C121", "proved", ["C121_library_update"], "All states and measurements; the library's murty_m_best, no contract.")
c("C124", "proved", ["C124_distribution", "C124_references", "C124_labels", "C124_exclusive", "C124_history_length", "C124_outputs_aligned", "C124_cycle_total"], "Histories in which every call has its own attribute values, birth terms and inner filter; all lengths.")
c("C125", "partial", ["C125_save_covs_switched_on_refuted", "C124_cycle_total"], "REFUTED: setting save_covs to True after tracks were born without it makes extract_states raise IndexError. Proved: no cycle raises if it is never switched on (switching it off is allowed).")
c("C126", "proved", ["C126_stm_distribution", "C126_stm_tracks", "C126_stm_outputs"], "STM-GLMB as the GLMB model with its own birth initialisation; all histories, attributes re-assigned between calls.")
c("C127", "partial", ["C127_stm_birth_covariance_refuted", "C127_stm_birth_states_partial"], "REFUTED for every birth: the recorded covariance is the working filter's current one, not the birth term's. Proved: the recorded state and the filter's state are the birth term's.")
c("C128", "proved", ["C128_distribution", "C128_valid", "C128_cycle_total"], "Histories in which every call of the joint filter has its own attribute values; all lengths.")
c("C129", "proved", ["C129_distribution", "C129_valid", "C129_cycle_total"], "SMC joint GLMB; histories in which every call has its own attributes, particle filter and probability functions; all random draws, all lengths.")
c("C130", "partial", ["C130_smc_jglmb_functions_refuted", "C130_smc_jglmb_functions_ignored"], "REFUTED for every state: in a scan without measurements compute_prob_survive and compute_prob_detection have no effect on the hypotheses, their probabilities or the cardinality distribution (the attributes prob_survive and prob_detection are used instead).")
c("C131", "proved", ["C131_mixture_pdf", "C131_pdf_order", "C131_pdf_nonneg", "C131_pdf_mass"], "For every component density function (Gaussian or Student's t alike).  Mass: for every linear functional under which the components integrate to 1.")
c("C132", "proved", ["C132_sample", "C132_sample_refused", "C132_intensity_not_sampled"], "numpy's Generator.choice is modelled (checks, cumulative sums, searchsorted); all mixtures and all uniform draws.")
c("C133", "proved", ["C133_covariances", "C133_pdf_dof"], "All degrees of freedom and scalings.")
c("C134", "proved", ["C134_stm_joint_distribution", "C134_stm_joint_valid", "C134_stm_joint_cycle_total"], "STM joint GLMB as the joint model with the STM birth initialisation; attributes re-assigned between calls, all random draws.")
c("C135", "partial", ["C135_dof_list_refuted", "C135_dof_list_sample"], "REFUTED: with a list of degrees of freedom, covariances always and pdf (for every mixture with a component) raise TypeError. Proved: sample uses the drawn component's own value.")
c("C136", "proved", ["C136_order_p_triangle", "C136_order_p_bounded"], "Every order p >= 1, every number of objects; objects in the leading slots of each time step (what both filters and the wrapper produce, see C26); core methods EUCLIDEAN, MANHATTAN and the default. Minkowski's inequality is proved in OspaOrder.v.")
c("C137", "partial", ["C137_reported_triangle_refuted", "C137_relaxed_triangle_partial"], "REFUTED for p = 2: the reported value is the sum of the two components, and {0}, {0,1,2}, {1,2} with cut-off 1 violate the inequality. Proved: it holds up to the factor 2^((p-1)/p) (1 for p = 1).")
c("C31", "proved", ["C31_phd_predict", "C31_phd_predict_real"], "The _real theorems are the same over the real numbers (generated by mk_real.py), where likelihoods are exponentials.")
c("C32", "proved", ["C32_phd_correct", "C32_phd_correct_total", "C32_phd_correct_real", "C32_phd_correct_total_real"], "The _real theorems are the same over the real numbers (generated by mk_real.py), where likelihoods are exponentials.")
c("C33", "proved", ["C33_phd_aligned", "C33_phd_aligned_real"], "The _real theorems are the same over the real numbers (generated by mk_real.py), where likelihoods are exponentials.")
c("C34", "proved", ["C34_phd_prune", "C34_phd_prune_real"], "The _real theorems are the same over the real numbers (generated by mk_real.py), where likelihoods are exponentials.")
c("C35", "proved", ["C35_phd_merge", "C35_phd_merge_real"], "la.inv is a parameter; it must succeed on the covariances of the mixture. The _real theorems are the same over the real numbers (generated by mk_real.py), where likelihoods are exponentials.")
c("C37", "proved", ["C37_phd_cap", "C37_phd_cap_real"], "max_gauss = 0 is outside the statement: idx[0:-0] is empty and nothing is removed. The _real theorems are the same over the real numbers (generated by mk_real.py), where likelihoods are exponentials.")
c("C38", "partial", ["C38_phd_extract", "C38_phd_extract_half_refuted", "C38_phd_extract_real"], "All clauses proved except the last, REFUTED for weight exactly 1/2 (round to even gives 0 copies); proved for weights > 1/2. The _real theorems are the same over the real numbers (generated by mk_real.py), where likelihoods are exponentials.")
c("C39", "proved", ["C39_gate_filter", "C39_gate_filter_real"], "The _real theorems are the same over the real numbers (generated by mk_real.py), where likelihoods are exponentials.")
c("C139", "proved", ["C139_phd_history_total", "C139_phd_history_total_real"], "Whole histories of predict/correct/cleanup/extract, with every attribute free to change between calls. Attributes are sensible: probabilities in [0,1], positive clutter, non-negative births and likelihoods, covariances in a class the user's functions keep and that is invertible (pos_def_class: the positive definite matrices are such a class), prune threshold > 0; merging and capping only together with pruning. Axiom-free over Q. The _real theorems are the same over the real numbers (generated by mk_real.py), where likelihoods are exponentials.")
c("C140", "proved", ["C140_phd_mass_bounded", "C140_phd_mass_bounded_real"], "Same histories. The expected number of objects never exceeds the births so far plus the measurements received; each reported list of states has at most twice that many. Axiom-free over Q. The _real theorems are the same over the real numbers (generated by mk_real.py), where likelihoods are exponentials.")
c("C141", "proved", ["C141_phd_component_bound", "C141_phd_component_bound_real"], "Same histories. Memory bound after every cleanup and during the next scan. Axiom-free over Q. The _real theorems are the same over the real numbers (generated by mk_real.py), where likelihoods are exponentials.")
c("C142", "partial", ["C142_phd_no_clutter_refuted", "C142_phd_correct_iff_partial", "C142_phd_no_clutter_partial"], "REFUTED: with clutter 0 (the class default) and a measurement whose likelihood is 0 for every component (underflow, or pd = 0) the weights are 0/0. Proved: the exact condition, and that strictly positive likelihoods with pd > 0 and positive mass suffice.")
c("C143", "proved", ["C143_cphd_history_total"], "Attributes free to change between calls; the inherited cleanup is the real PHD model. Needs 0 < ps < 1, births, clutter (necessary: C43, C76), each correction preceded by a prediction with no cleanup in between (necessary: C145).")
c("C144", "proved", ["C144_cphd_component_bound"], "Same histories as C143.")
c("C145", "partial", ["C145_cphd_correct_empty_refuted", "C145_cphd_correct_fresh_refuted", "C143_cphd_history_total"], "REFUTED: correct on an empty mixture (fresh filter, or everything pruned) always raises IndexError, for every measurement set including none. C143 is the variant that holds.")
c("C146", "proved", ["C146_iterate_returns", "C146_empty_measurement"], "iterate from the first line to the last, for every number of Gaussians, horizon >= 2 and max_iters. gncpy's passes are parameters that answer every call with as many feedback rows as controls. Needs inputs_fit and no match with an earlier object (both necessary: C147, C149).")
c("C147", "partial", ["C147_different_inputs_refuted", "C147_inputs_iff_partial"], "REFUTED: as soon as one Gaussian has neither 1 input nor as many as the first, the cost evaluation raises ValueError (array of controls sized by gaussians[0]). Proved: the exact condition.")
c("C148", "partial", ["C148_horizon_one_refuted", "C146_iterate_returns"], "REFUTED: horizon_len = 1 raises IndexError for every nonempty measurement (means[1]). C146 covers every larger horizon.")
c("C149", "partial", ["C149_second_call_refuted", "C149_as_planned_refuted", "C146_iterate_returns"], "REFUTED: after any first call, a second call with any measurement close to (in particular exactly at) a planned state raises ValueError; C146 is what holds when nothing matches.")
c("C150", "partial", ["C150_start_states_refuted", "C150_turn_costs_partial"], "REFUTED: x_starts is overwritten by the cost evaluation, the second turn starts where the first trajectory ended. Proved: the first turn starts from the measurement, each turn's cost is the closed-loop cost of its law from its own start states, the next turn starts at the end of that trajectory, and the returned objects are the last turn's.")
c("C151", "proved", ["C151_quadratization"], "get_hessian, get_jacobian and la.eig are parameters; positive semidefinite for orthonormal eigenvectors.")
c("C152", "partial", ["C152_documented_keyword_refuted", "C152_actual_keyword_partial"], "REFUTED: only ctrl_nom_lst is looked up, the documented u_nom_lst is ignored.")
c("C153", "proved", ["C153_turns_are_recursions"], "A declarative description of a turn (ElqrSpec.turn): forward recursion of the cost-to-come, quadratized final cost at the nearest target, backward recursion of the cost-to-go, with every argument of every pass. Needs the same call conditions as C146.")
c("C154", "partial", ["C154_recorded_controls_refuted", "C153_turns_are_recursions"], "REFUTED: ctrl_input[k] comes from the forward pass's law at the new state k+1, not from the returned law at state k; C153 says exactly what it is.")
c("C155", "proved", ["C155_assign_opt_ieee", "C155_assign_opt_rounded", "ieee64_rounds", "ieee64_is_binary64", "rounded_model_exact"], "assign_opt with every +, -, * rounded. Proved for any arithmetic that meets the contract FltSpec.rounds; ieee64_rounds shows that binary64 with round-to-nearest-even does, ieee64_is_binary64 that these operations are the bit-level ones (Flocq). No nan entries; sizes and costs within the stated bounds (e.g. 100 x 100 with costs up to 1e300).")
c("C156", "proved", ["C156_assign_opt_integers"], "")
c("C157", "proved", ["C157_murty_ieee", "C157_murty_rounded", "ieee64_rounds_signed", "rounded_murty_exact"], "murty_m_best with every +, -, * rounded, on top of C155; any arithmetic meeting FltMurtySpec.rounds_signed, in particular IEEE binary64. No nan entries; explicit size and overflow bounds.")
c("C158", "proved", ["C158_murty_integers"], "Exact ranking by true cost; reported costs within acc_tol.")
c("C159", "proved", ["C159_gibbs_double_one_to_one", "C159_gibbs_double_private_columns", "C159_gibbs_double_bounded_costs", "gibbs_arith_is_binary64"], "gibbs with + and / rounded to nearest even and numpy's order of additions (np.cumsum from left to right, np.sum pairwise). np.exp is any function with double values; in _bounded_costs the correctly rounded exp. No nan.")
c("C160", "proved", ["C160_gibbs_double_inverse_transform"], "The tolerance is 5 M 2^-53 for M columns.")
c("C161", "partial", ["C161_gibbs_double_total_refuted", "C161_gibbs_double_raises", "C161_bits_raises", "C159_gibbs_double_one_to_one"], "REFUTED as a general property: with 8 or more free columns np.sum (pairwise) can exceed the last element of np.cumsum (left to right), so the last histogram edge is below 1 and a random number above it indexes past the end: IndexError. Witness: costs 0 and fifteen times 37, random number 1 - 2^-53; also bit by bit with SpecFloat. The true variant is C159: no failure when fewer than 8 columns are free or no random number is within M 2^-52 of 1.")
c("C162", "proved", ["C162_gibbs_is_the_chain"], "Exact arithmetic; GibbsChainSpec.v defines the chain and inverse transform sampling on their own. Axiom-free.")
c("C163", "proved", ["C163_gibbs_double_is_the_chain"], "IEEE binary64; the hypotheses are those of C159 (instances: C159_bad_costs_half, C159_small_largest_random).")
c("C164", "proved", ["C164_gibbs_shape"], "Any number type and any operations on it, so in particular IEEE doubles with overflow and nan. Axiom-free.")
c("C75", "partial", ["C75_cphd_covariance_refuted", "C75_cphd_components_exact", "C75_cphd_components_partial"], "REFUTED: cov_temp (tracker.py:1464) is indexed by component only, all detected components get the covariance of the last measurement (C75_cphd_components_exact says exactly what is produced); true for inner filters whose covariance does not depend on the measurement")
c("C67", "proved", ["C67_initialize"], "greedy best-match assignment included; iterate is the subject of C146-C154")
c("C79", "partial", ["C79_own_list_diverges_refuted", "C65_targets_after_update_partial", "C65_reset_keeps_caller_list"], "REFUTED: for every nonempty target list the loop never ends; the two C65 theorems say what happens when another list is passed or with reset")
c("C82", "partial", ["C82_single_waypoint_singular_refuted", "C82_positive_definite_iff", "C82_spanning_centres_posdef"], "REFUTED: a single waypoint always gets the zero covariance. True: positive definite exactly when along every column of the eigenvector matrix some other centre is displaced, in particular when the displacements span the state space")
c("C83", "partial", ["C83_wayarea_orientation_refuted", "C83_axes_are_columns_partial"], "REFUTED by the waypoints (0,0), (3,4): the eigenvector matrix is transposed before its columns are used. True: the columns are the axes, with the largest displacement as eigenvalue; the property holds when the matrix is symmetric")
c("C84", "partial", ["C84_matched_not_iterable_refuted", "C84_iterable_iff_none_taken"], "REFUTED: whenever an old object was taken over, the first control update raises AttributeError; it works exactly when none was")
c("C89", "partial", ["C89_glmb_extinction_permanent", "C89_rounding_extinguishes_refuted", "C89_enough_requested_keeps_alive"], "REFUTED: an empty hypothesis list is permanent, and rounding of the per-hypothesis request (two equal hypotheses, one requested) empties it. True with the library's k_shortest when at least as many hypotheses are requested as there are")
c("C97", "partial", ["C97_smc_state_incomplete_refuted", "C59_round_trip_partial"], "REFUTED for every SMC instance: compute_prob_detection, compute_prob_survive and their arguments are not in the saved state; what the base class saves does round-trip (C59)")
c("C101", "partial", ["C101_gating_raises_refuted", "C101_gating_first_cycle_refuted", "C100_jglmb_cycle_total"], "REFUTED for every filter with a birth term: with gating switched on correct raises AttributeError; without gating every cycle returns (C100)")
c("C102", "partial", ["C102_second_predict_raises_refuted", "C102_second_correct_raises_refuted", "C100_jglmb_cycle_total"], "REFUTED for every filter with a birth term; calls in turn always return (C100)")
c("C103", "partial", ["C103_predict_shifts_tracks_refuted", "C63_jglmb_valid"], "REFUTED for every table: between predict and correct the hypotheses point at the wrong tracks; after correct they are right (C63)")
c("C165", "proved", ["C165_ospa_double_accurate", "C165_ospa_double_self_zero"], "Euclidean and Manhattan cores, orders p >= 1; contracts: pow within 2 u (pow_ok), any of numpy's summation orders (good_sum, proved for pairwise and sequential), nearly optimal assignment (lsa64_ok)")
c("C166", "partial", ["C166_ospa_double_le_cutoff_refuted", "C166_ospa_double_le_cutoff_partial"], "REFUTED in double precision: one estimate, five objects, cut-off 7, order 1 gives 7.000000000000001; the excess is at most 2 K 2^-53 relative to the cut-off")
c("C167", "proved", ["C167_phd_predict_double_accurate", "C167_phd_correct_double_accurate"], "one predict or correct step; the inner filter and the gate are external and shared by the exact and the rounded model; psum is any summation with the good_sum contract (proved for left-to-right and pairwise); overflow excluded by weights_ok, lik_ok, clutter_ok")
c("C168", "proved", ["C168_phd_detection_weight_le_one", "C168_left_to_right_dominates"], "exact bound for summation that is at least each of its terms, proved for left-to-right summation")
c("C169", "proved", ["C169_phd_merge_double", "C169_phd_cap_double"], "la.inv and the rounded distance test are external (any inverse, any reflexive test); the grouping is stated for whatever the rounded test returns; exact cap is C37")
c("C170", "proved", ["C170_glmb_predict64"], "the birth and survival hypotheses (log-domain, C155 ff. cover the exponentials elsewhere) are inputs with double probabilities; excluded: total below 2^-400, more than 2^47 pairs")
c("C171", "proved", ["C171_glmb_prune64", "C171_glmb_cap64", "np_sum_dominates"], "np.sum modelled as NumPy's pairwise summation; which hypotheses cap keeps is C54; argsort external (rsorts)")
c("C172", "proved", ["C172_glmb_most_probable64"], "the state's cardinality distribution must have been computed from its hypotheses (as after predict, prune and cap)")
c("C173", "partial", ["C173_bfm_double_refuted", "C173_bfm_double"], "REFUTED for graphs that merely have no negative cycle: link costs 1, 2^54, -2^54 make two nodes each other's predecessor and the while loop that rebuilds the path never ends; true (C173_bfm_double) when all links are non-negative or lead forward (as in k_shortest's matrices); overflow not modelled in the search itself (see C174)")
c("C174", "proved", ["C174_bfm_double_accuracy", "C174_no_overflow"], "for the graphs of C173_bfm_double; absence of overflow is shown for the accumulated cost of every path of at most n nodes")
c("C175", "proved", ["C175_k_shortest_double", "C175_k_shortest_double_accuracy", "C175_k_shortest_small_entry"], "np.argsort external (any order sorting the costs); the later answers are only shown to be valid subsets, as in exact arithmetic (C13, C14)")
c("C176", "proved", ["C176_assign_double", "assign_opt64_same"], "overflow-checking model (assign_opt64_same: same answers as the model of C155); costs up to 2^900, at most 2048 x 2048 (32768 x 32768 without inf); Python's recursion limit not modelled")
c("C177", "partial", ["C177_assign_double_refuted", "C177_assign_double_near_optimal_partial"], "REFUTED: for [[0, 2^55], [1, 2^55]] the reduced entry 2^55 - 1 rounds to 2^55 and the assignment returned costs 2^55 + 1 instead of 2^55; true (sharper than C155: relative to the optimum instead of the largest cost) up to a relative excess 32 u n (n+1) (2 rows + 4), exactly when the optimum is 0, plus an excess proportional to the largest cost when some rows must stay unassigned")
c("C178", "proved", ["C178_assign_double_exact"], "wider range than C156: costs on a grid of spacing 2^e with the stated headroom below 2^53")
c("C179", "partial", ["C179_recursion_refuted", "C179_recursion_bound", "C179_recursion_default_partial"], "REFUTED: the steps are mutually recursive tail calls and Python keeps every frame; the 31 x 31 matrix (i+1)(j+1) needs 1053 frames, more than the default limit of 1000. True: n^2 + 3n - 1 frames always suffice (n the smaller dimension; sharp for that matrix), so up to n = 30 with 989 frames available. Exact arithmetic; frames numpy opens itself are not counted")
c("C13", "partial", ["C13_k_shortest_cost_refuted", "C13_k_shortest_cost_partial"], "REFUTED: the prefix slice sub_P[0:-2] drops one node too many. True part (every vector, k, position): each reported cost is the total plus eps of a set of available states that is the returned path or has exactly one more state; no reported cost is below the first.")
c("C42", "partial", ["C42_cphd_binomial_refuted", "C42_cphd_factorial_refuted", "C42_cphd_predict_actual", "C42_cphd_predict_iff", "C42_cphd_predict_partial"], "REFUTED twice: range(0, max) drops the survival of the largest cardinality (tracker.py:1365), and +log (i-j)! (line 1371) should be -. Proved for every prior: what is computed instead (C(i,j) times ((i-j)!)^2, nothing for j = max), and that it is the binomial prediction iff the prior has no mass at 2 or more objects nor at max_expected_card")
c("C138", "partial", ["C138_hellinger_triangle_refuted", "C138_hellinger_core", "C138_hellinger_bounded", "C138_hellinger_symmetric", "C138_hellinger_self_zero", "C138_hellinger_zero_only_if_equal", "C138_hellinger_scalar_partial"], "REFUTED: the core is 1 - BC (the square of the Hellinger distance); three unit-variance Gaussians on a line violate the triangle inequality with p = 1. Everything else is proved in every dimension for positive definite covariances: defined, bounded by min(1,c), symmetric, 0 exactly between equal sets; la.det by contract (multiplicative, product of the diagonal for triangular matrices), la.inv by contract (the inverse)")
c("C24", "proved", ["C24_ospa_bounds", "C24_ospa_self_zero", "C24_ospa_total", "C138_hellinger_bounded", "C138_hellinger_self_zero"], "all cores (HELLINGER: positive definite covariances, the cut-off becomes min(1,c)); returns a value for every existence pattern")
c("C90", "partial", ["C90_half_birth_never_born_refuted", "C90_probable_births_born_partial", "C90_likeliest_birth_born_partial"], "REFUTED for every filter: a birth of probability 1/2 has cost 0, which k_shortest treats as no edge. True with the library's k_shortest: every birth of probability above 1/2; if all are below 1/2, a likeliest birth (two requested). The other births below 1/2 not proved")
c("C91", "partial", ["C91_half_survival_all_die_refuted", "C91_probable_survivors_kept_partial", "C91_some_survivor_kept_partial"], "REFUTED for every filter: at survival probability 1/2 every surviving hypothesis is empty. True with the library's k_shortest: above 1/2 every track; below 1/2 at least one track of every hypothesis with a share of two")
c("C180", "partial", ["C180_birth_count_refuted", "C180_birth_count_witness_refuted", "C180_birth_count_partial", "C42_cphd_predict_partial", "C42_cphd_predict_actual"], "REFUTED: only weights[0] of every birth mixture is counted (tracker.py:1385), while all components enter the intensity; from an empty prior the prediction is right exactly when the sum of the first weights is the sum of all weights. True for one-component birth mixtures")
c("C181", "proved", ["C181_phd_records", "C181_phd_records_new"], "")
c("C182", "partial", ["C182_covariances_stale_refuted", "C182_phd_readouts", "C182_phd_readouts_new"], "REFUTED if save_covs is switched off and on again: covariances then returns the list of an older extraction, which does not match states. True if covariances are saved at the last extraction. (The docstrings say one element per timestep; only the last list is returned)")
c("C14", "partial", ["C14_k_shortest_ranked_refuted", "C14_k_shortest_second_exact_partial", "C14_k_shortest_second_exact_partial_real", "C14_k_shortest_second_partial", "C14_k_shortest_second_partial_real"], "REFUTED in all three parts, from the third answer on. True part: for k >= 2 the second answer is exact: a cheapest set of available nonzero-cost states other than the first answer, reported with its true cost; no second answer only if no such set exists. The _real theorems are the same over the real numbers")
c("C92", "partial", ["C123_library_births_refuted", "C92_library_two_requests_partial", "C92_glmb_predict_bayes_partial"], "REFUTED end to end when more than two sets are requested (see C123). Proved with the library's own k_shortest, without contracts, when at most two sets of births and of survivors per hypothesis are requested; beyond that under the contract that k_shortest returns path totals plus a constant d. The successors of an empty hypothesis miss the factor exp(-d) (d = epsilon)")
c("C123", "partial", ["C123_library_births_refuted", "C123_best_births_considered_partial", "C123_second_births_considered_partial", "C123_best_survivors_considered_partial"], "REFUTED end to end with the library's k_shortest: two births, all four sets requested; the set of both gets probability 0 and its mass goes to the first birth alone. Proved: the most probable set of births (and of survivors) is always considered, and so is the second most probable set of births when two are requested.")
c("C122", "partial", ["C122_tiny_log_odds_refuted", "C122_smc_with_library", "C122_smc_cycle_total_partial", "C122_admissible_functions", "C122_smc_cycles_end"], "REFUTED (a cycle never raises): a birth probability with nonzero log-odds below machine epsilon makes predict raise IndexError in every state. Soundness proved for all histories without contracts on the graph algorithms. Proved: otherwise no cycle raises when the particle averages of the survival function have log-odds zero or at least epsilon, as for constants and for functions that stay on one side of 1/2; in general a cycle ends normally or with that IndexError.")
c("C183", "partial", ["C183_smc_extinction_permanent", "C183_smc_rounding_refuted", "C183_smc_enough_requested"], "REFUTED: an empty hypothesis list is permanent, and rounding of the request per hypothesis (two equal hypotheses, one requested) empties it. True with the library's k_shortest when at least as many hypotheses are requested as there are.")
c("C58", "partial", ["C58_most_prob_terminates_partial", "C58_most_prob_exact_partial", "C58_most_prob_terminates_refuted", "C58_most_prob_order_refuted", "C58_most_prob_complete_refuted"], "REFUTED: for thresholds <= 0 it never ends; the order is not non-increasing; a hypothesis above the threshold can be skipped. Proved for positive thresholds: termination, distinct hypotheses, later ones at least the threshold; and, after cleanup with positive probabilities, exactly what is returned: all hypotheses of the most probable cardinality at or above the threshold, in non-increasing order, then at most hypothesis 0.")
c("C184", "proved", ["C184_cphd_records", "C184_cphd_record_of_correct"], "for all histories with attributes free to change between calls")
c("C185", "partial", ["C185_cphd_agents_refuted", "C185_cphd_agents_partial", "C185_cphd_readouts"], "REFUTED both ways: a component of weight 2.7 reports 3 agents at cardinality 2; three components of weight 1/2 report none at cardinality >= 1. Proved: with weights below 3/2 the total is the minimum of the cardinality and the number of components above 1/2, one agent per state; states and agents stay those of the last extraction, the cardinality too until the next predict, correct or max_expected_card assignment.")
c("C114", "partial", ["C114_library_births_refuted", "C114_smc_predicted_tracks", "C114_library_two_requests_partial", "C114_smc_predict_bayes_partial", "C114_constant_probability"], "REFUTED end to end when more than two sets are requested (the probabilities; the tracks are right): with the library's k_shortest two births together get probability 0. Proved with the library's own k_shortest, no contracts, when at most two sets are requested at a time (bias epsilon, over the sets considered, see C92); otherwise under a contract on k_shortest's costs, which the code breaks from the third answer on (C13).")
c("C186", "proved", ["C186_glmb_newest_step"], "k_shortest and Murty by contract (C05, C12); with pruning, or without inner-filter failures in the last correct")
c("C187", "partial", ["C187_extract_before_cleanup_refuted", "C55_glmb_extract_total"], "REFUTED: before cleanup extract_states raises whenever the hypothesis it picks has a track (its newest entry is out of range of the lists). True after cleanup (C55_glmb_extract_total).")
c("C188", "proved", ["C188_smc_newest_step", "C188_jglmb_newest_step", "C188_smc_jglmb_newest_step"], "k_shortest and Murty by contract (SMC-GLMB), gibbs as modelled with any random numbers (joint classes); with pruning, or without inner-filter failures in the last correct")
c("C189", "partial", ["C189_smc_extract_early_refuted", "C189_jglmb_extract_early_refuted", "C189_smc_jglmb_extract_early_refuted", "C116_smc_cycle_total", "C100_jglmb_cycle_total", "C129_cycle_total"], "REFUTED for all three classes: before cleanup extract_states raises whenever the hypothesis it picks has a track. True after cleanup (the cycle_total theorems).")
c("C190", "proved", ["C190_smc_outputs_aligned", "C190_jglmb_outputs_aligned", "C190_smc_jglmb_outputs_aligned"], "k_shortest and Murty by contract (SMC-GLMB), gibbs as modelled with any random numbers (joint classes); joint classes: no extraction between a predict and the next correct (there the hypotheses' indices refer to the table before the predict)")
c("C191", "proved", ["C191_jglmb_all_missed_kept", "C191_smc_jglmb_all_missed_kept", "C191_jglmb_never_empty", "C191_smc_jglmb_never_empty"], "gibbs as modelled with any random numbers; hash without collisions")
c("C192", "proved", ["C192_cleanup_survivors", "C192_jglmb_extinction_permanent", "C192_smc_jglmb_extinction_permanent"], "argsort by contract; for GLMB and SMC-GLMB permanence is C89_glmb_extinction_permanent and C183_smc_extinction_permanent")
c("C193", "partial", ["C193_jglmb_most_prob_ends_partial", "C193_jglmb_most_prob_exact_partial", "C193_jglmb_most_prob_ends_refuted"], "REFUTED: for thresholds <= 0 it never ends (every filter after any number of cycles). Proved for positive thresholds: termination, distinct hypotheses, later ones at least the threshold; with a matching cardinality distribution exactly what is returned: all hypotheses of the most probable cardinality at or above the threshold, in non-increasing order, then at most hypothesis 0. (The particle classes override the method by one that only warns.)")
c("C194", "partial", ["C194_cphd_mass_refuted", "C194_cphd_mass_error", "C194_cphd_mass_no_measurements", "C194_cphd_mass_partial", "C194_textbook_mass_is_mean"], "REFUTED: because prob_death stands where the missed-detection probability belongs, the corrected intensity's mass is not the mean of the corrected distribution (a new filter, one predict, one correct without measurements: 1/6 against 1/3). Proved: the exact difference for every input, the factor (1-pd)/(1-ps) without measurements, equality when prob_detection = prob_survive, and that the textbook formulas do agree")
c("C195", "partial", ["C195_cost_axes_refuted", "C195_cost_origin_partial", "C195_cost_axes_partial"], "REFUTED for turned axes: the factors max(diag(P)) depend on the axes, so one object and one target at the same place already have another cost after a rotation, for every safety factor and y_ref. Proved: moving the origin never changes the cost; an orthonormal change of axes does not change it as long as the largest variances stay the same (round covariances, exchanged axes); mvn.pdf = the normal density, la.det and la.inv by their behaviour under rotation, shown satisfiable")
c("C196", "proved", ["C196_phd_measurement_order", "C196_phd_component_order", "C196_gate_order_blind"], "for every history of predict, correct, prune (cleanup without merging and capping) and extract_states; gating by a gate that does not look at the order, which the filter's own gate is shown to meet; over the real numbers")
c("C197", "partial", ["C197_phd_measurement_order_refuted", "C197_phd_merge_order_partial", "C197_phd_cap_order_partial"], "REFUTED: merging starts from the first of several heaviest components, so a scan 0, 1, 2 gives estimates 1/2, 1/2, 2 and the same scan listed as 1, 0, 2 gives 1, 1, 1. Proved: with pairwise different weights merging returns the very same mixture for every order of the components and capping the same components")
c("C198", "partial", ["C198_cphd_measurement_order_refuted", "C198_cphd_measurement_order_partial"], "REFUTED: the covariances of all detections are those of the measurement listed last (C75), so scans 5, 7 and 7, 5 give different covariances when the inner filter's covariance depends on the measurement. Proved: for inner filters whose covariance does not depend on the measurement (Kalman) the components are the same up to order and the cardinality distribution is equal; without gating")
c("C199", "proved", ["C199_ospa_frame", "C199_ospa2_frame", "C199_shift_unit", "C199_rotation", "C199_ospa_shift"], "Euclidean and Manhattan cores for any change of coordinates that multiplies their distances by s (shifts and units for both, rotations for the Euclidean one are shown to do so); shifts for every core; exceptions included; over the real numbers")
c("C200", "proved", ["C200_ospa_monotone", "C200_ospa2_monotone"], "Euclidean, Manhattan and Mahalanobis cores (the Hellinger core caps the cut-off at 1); jointly in cut-off and order; over the real numbers")
c("C201", "proved", ["C201_assign_opt_renumbered", "C201_assign_opt_transposed", "C201_murty_renumbered", "C201_murty_transposed"], "exact rational costs, forbidden entries included; murty_m_best for matrices with at least one row (and column, when transposed)")
c("C202", "proved", ["C202_ospa2_static", "C202_ospa2_window_one"], "Euclidean and Manhattan cores; objects occupy the first slots (otherwise calculate_ospa itself depends on the slots, C26); over the real numbers")
c("C203", "proved", ["C203_phd_frame", "C203_phd_units", "C203_unit_quad", "C203_density_unit", "C203_gate_shift"], "for any invertible-style change of frame: linear on states plus a shift, linear on covariances, Mahalanobis form kept; inner filter, births and gate rewritten; exceptions included; over the real numbers. The filter's own gate is shown to follow shifts")
c("C204", "proved", ["C204_measurement_order", "C204_measurement_order_library"], "for every track set, hypotheses, configuration and permutation of the scan, ties and truncation to the requested number of hypotheses included; errors alike; second theorem with the library's own murty_m_best, no contract left; C204_instance: two measurements of different likelihood")
c("C205", "proved", ["C205_measurement_order", "C205_measurement_order_library"], "for every track set, hypotheses, configuration, particle filter, detection probability function and permutation of the scan, ties and truncation included; an exception in one order means an exception in every order (not necessarily the same one); second theorem with the library's own murty_m_best, no contract left; C205_instance: two measurements of different likelihood")
c("C206", "proved", ["C206_glmb_frame", "C206_most_prob_frame"], "for arbitrary maps of saved filter states, states, covariances and measurements (a change of frame or units, but also maps that forget: weights and labels depend on the inner filter only through its likelihoods and refusals); the inner filter must commute with the maps and keep the likelihoods; C206_instance: a point on a line in other units from another origin")
c("C207", "proved", ["C207_jglmb_frame"], "arbitrary maps of saved filter states, states, covariances and measurements as in C206; same sequence of random numbers (any sampler); with or without gating; C207_instance: a birth on a line in other units from another origin")
c("C208", "proved", ["C208_smc_glmb_frame"], "arbitrary maps of particles, rests of filter states, estimates, covariances and measurements, with which the particle filter and the survival and detection probability functions commute; likelihoods kept; C208_instance: particles on a line in other units, survival depending on the position")
c("C209", "proved", ["C209_smc_jglmb_frame"], "arbitrary maps; every call of the history may have its own particle filter, attributes and births; C209_instance: the particles of C208 in other units")
c("C210", "proved", ["C210_cphd_frame", "C210_density_unit"], "arbitrary maps of states, covariances and measurements with which the inner filter, births, gate and clean-up steps commute; likelihoods and clutter density in any unit of measurement; C210_instance: a line in other units")
c("C211", "proved", ["C211_cphd_component_order", "C211_extract_order"], "gate and clean-up steps that do not look at the order (C211_instance: pruning by weight and a gate by the total weight); argsort is any sorting order; for extraction no two equal weights (with ties np.argsort decides)")
c("C212", "partial", ["C212_history", "C212_plotted_points_partial", "C212_band_width", "C212_sigma_bounds_refuted"], "REFUTED: the band drawn is np.std of the vector of probabilities (tracker.py:1555), not the standard deviation of the number of objects: it vanishes exactly when all numbers are equally probable, and is half an object wide per sigma when the filter knows there is no object (C212_sigma_bounds_refuted, a reachable state). Proved: the plotted cardinality, the true cardinality, the warning and the two exceptions")
c("C213", "partial", ["C213_default_time_refuted", "C213_glmb_card_plot_partial"], "REFUTED: without a time vector the call raises AttributeError whatever the history (tracker.py:3104 reads self.card_history, which no class has). Proved: with one time per completed step it draws the number of tracks reported at each step, otherwise ValueError")
c("C214", "proved", ["C214_labels_plot", "C214_glmb_labels_plot", "C214_smc_labels_plot", "C214_jglmb_labels_plot", "C214_smc_jglmb_labels_plot"], "estimates only (no truth, measurements or ellipses); states of one size")
c("C215", "partial", ["C215_phd_ellipses_refuted", "C215_phd_ellipses_partial", "C215_cphd_ellipses_partial", "C215_phd_states_plain"], "REFUTED if save_covs is switched off at one extraction and on again: _covs has no entry for that step, plot_states with sig_bnd raises IndexError (C215_phd_ellipses_refuted, a reachable state). True if covariances are saved at every extraction, and without ellipses always. GM-PHD and CPHD (no component twice); true states and measurement markers not modelled")
c("C216", "proved", ["C216_states_per_time"], "any argsort; debug_plots may change between calls: one point per extraction made with debug plots on")
c("C217", "proved", ["C217_card_dist_plot"], "attributes as in C143 (survival strictly between 0 and 1, births and clutter present, a prediction before each correction); plot_card_dist of the labelled filters draws the list of C47, C98 in the same way and is not stated separately")
c("C218", "partial", ["C218_truth_phd_refuted", "C218_truth_phd_partial", "C218_truth_labels"], "REFUTED for the PHD filters: when no step of truth is given (max of an empty list, ValueError) and when neither the filter nor the truth has any object (np.ones with size None, TypeError) plot_states raises; true for the labelled filters, which test for it, and for the PHD filters whenever some state is estimated or true. States of one size")
c("C219", "partial", ["C219_stale_frame_refuted", "C219_animation_partial"], "REFUTED: at a step in which nothing was reported __ani_state_plotting returns before touching the scatter (tracker.py:944-945), so the frame keeps showing the states of an earlier step, and ellipses are never removed (C219_stale_frame_refuted, two steps of one constant configuration, an empty second scan). Proved, without ellipses and with a correction per extraction: the measurements of every frame, and the states of every frame whose step reported something. Figure and random generator given; GM-PHD")
c("C220", "partial", ["C220_stale_card_plot_refuted", "C220_glmb_card_plot_partial"], "REFUTED: before the first step the call raises RuntimeWarning although the filter holds a hypothesis, and after predict the chart is that of the survivors alone: a bar of height 1 at 0 objects where one exists for certain (C220_stale_card_plot_refuted). Proved: right after a correction, or a cleanup that prunes, of any history without failing updates, with some hypothesis left. GLMB")

ids = [json.loads(l)["id"] for l in open("/verif/properties.jsonl")]
out = [C.get(i, {"property": i, "status": "partial", "theorems": [], "note": "not yet proved"}) for i in ids]
json.dump({"claims": [o for o in out if o["theorems"] or o["status"] == "not_applicable"]}, open("/verif/MANIFEST.json", "w"), indent=1)
