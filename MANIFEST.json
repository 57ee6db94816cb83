{"claims": [
 {"property": "C01", "status": "proved", "theorems": ["C01_lookup_nearest_preceding", "C01_lookup_latest", "C01_rejections"], "note": ""},
 {"property": "C02", "status": "proved", "theorems": ["C02_keys_sorted_exact", "C02_items_exact", "C02_min_max"], "note": ""},
 {"property": "C03", "status": "proved", "theorems": ["C03_message_lookup", "C03_messages_by_channel"], "note": ""},
 {"property": "C04", "status": "proved", "theorems": ["C04_peer_to_peer", "C04_federated", "C04_snapshot_schedule"], "note": ""},
 {"property": "C05", "status": "proved", "theorems": ["C05_counts_are_exact", "C05_overlapping_blocks"], "note": ""},
 {"property": "C06", "status": "proved", "theorems": ["C06_conservation", "C06_counters_account_for_deliveries"], "note": ""},
 {"property": "C07", "status": "proved", "theorems": ["C07_visible_messages_are_fresh_and_legitimate", "C07_each_delivery_has_its_own_noise", "C07_step_empties_mailboxes"], "note": ""},
 {"property": "C08", "status": "proved", "theorems": ["C08_reliable_delivery", "C08_p2p_acceptance"], "note": ""},
 {"property": "C09", "status": "proved", "theorems": ["C09_active_set_stable", "C09_active_set_follows_schemes", "C09_consulted_at_most_once"], "note": ""},
 {"property": "C10", "status": "proved", "theorems": ["C10_rejected_send_has_no_effect"], "note": ""},
 {"property": "C11", "status": "proved", "theorems": ["C11_star_endpoints", "C11_rejections", "C11_client_default_receiver"], "note": ""},
 {"property": "C12", "status": "proved", "theorems": ["C12_metropolis_doubly_stochastic", "C12_averaging_preserves_sum", "C12_metropolis_preserves_sum", "C12_self_loop_rows_refuted"], "note": "Proved for every simple undirected graph over any numFieldType. C12_self_loop_rows_refuted: with a self-loop edge (which the constructor accepts) row sums are not one."},
 {"property": "C13", "status": "proved", "theorems": ["C13_p2p_succeeds_iff", "C13_p2p_result", "C13_fed_result", "C13_failure_is_atomic_refuted"], "note": "Success characterised exactly for P2P networks; results for P2P and federated. C13_failure_is_atomic_refuted is a finding beyond the property: a failed construction leaves agents indexed and unusable."},
 {"property": "C14", "status": "proved", "theorems": ["C14_duty_cycle", "C14_periodic", "C14_active_iterations_consecutive", "C14_offset_shifts_phase", "C14_always_active", "C14_rejections"], "note": ""},
 {"property": "C15", "status": "proved", "theorems": ["C15_poisson_follows_draws", "C15_markov_starts_active", "C15_probabilities_checked", "C15_markov_degenerate", "C15_uniform_extremes"], "note": ""},
 {"property": "C16", "status": "proved", "theorems": ["C16_selection_size_and_membership", "C16_failure_only_without_data", "C16_datasize_needs_data"], "note": ""},
 {"property": "C17", "status": "proved", "theorems": ["C17_selection_is_minimal", "C17_ties_in_pool_order", "C17_counts_are_selections", "C17_counts_never_differ_by_more_than_one"], "note": ""},
 {"property": "C18", "status": "proved", "theorems": ["C18_highest_losses"], "note": ""},
 {"property": "C19", "status": "proved", "theorems": ["C19_quantization", "C19_stochastic_quantization", "C19_stochastic_quantization_unbiased", "C19_topk", "C19_randk"], "note": ""},
 {"property": "C20", "status": "partial", "theorems": ["C20_size_is_transmitted_partial", "C20_size_bounded_refuted"], "note": "Proved for every fraction and for every integer k not larger than the message. False as stated: C20_size_bounded_refuted (integer k larger than the message is accepted and reported as the size)."},
 {"property": "C21", "status": "proved", "theorems": ["C21_sizes_requested", "C21_iid", "C21_size", "C21_stratified", "C21_dirichlet", "C21_shard"], "note": ""},
 {"property": "C22", "status": "proved", "theorems": ["C22_even_counts", "C22_proportional_counts", "C22_nothing_available"], "note": ""},
 {"property": "C23", "status": "proved", "theorems": ["C23_invalid_raises", "C23_label_quantity", "C23_at_most_cpp_labels", "C23_exactly_cpp_labels", "C23_every_label_dealt"], "note": ""},
 {"property": "C24", "status": "proved", "theorems": ["C24_accepted_iff_valid", "C24_error_names_first_offender"], "note": ""},
 {"property": "C25", "status": "proved", "theorems": ["C25_batches_are_distinct_samples", "C25_no_repetition_within_epoch", "C25_epoch_covers_dataset", "C25_epoch_exact_when_divisible", "C25_no_starvation", "C25_explicit_requests", "C25_explicit_requests_keep_epochs"], "note": ""},
 {"property": "C26", "status": "proved", "theorems": ["C26_cost_algebra_is_pointwise", "C26_expression_succeeds_iff", "C26_result_metadata", "C26_builtin_sum", "C26_bad_operands"], "note": ""},
 {"property": "C27", "status": "proved", "theorems": ["C27_proximal_is_unique_minimiser", "C27_builtin_proximals", "C27_quadratic_proximal", "C27_penalty_checked", "C27_fractional_proximal_descends", "C27_linear_regression_proximal"], "note": ""},
 {"property": "C28", "status": "partial", "theorems": ["C28_linear_regression_mean", "C28_linear_regression_per_sample", "C28_logistic_regression_mean", "C28_logistic_regression_per_sample", "C28_named_requests", "C28_batch_size_checked", "C28_bad_index_raises", "C28_full_length_list_refuted", "C28_single_sample_refuted", "C28_wrapped_per_sample_gradients", "C28_per_sample_gradients_average"], "note": "Proved for 'all', 'batch', single indices and every index list that is not exactly as long as the dataset or that permutes it, for linear and logistic regression and wrapped costs. False as stated: C28_full_length_list_refuted (a list as long as the dataset is replaced by the dataset) and C28_single_sample_refuted (gradient of a one-sample linear regression is a matrix, proximal raises)."},
 {"property": "C29", "status": "partial", "theorems": ["C29_symmetric_quadratic_optimum", "C29_quadratic_gradient_vanishes_iff", "C29_nonsymmetric_quadratic_refuted", "C29_linear_regression_optimum", "C29_linear_regression_cost_is_regression", "C29_solver_choice"], "note": "Proved for symmetric A (and exactly when x makes A x + b vanish), and for sums of linear regressions through solve/lstsq. False as stated: C29_nonsymmetric_quadratic_refuted (the returned point of a non-symmetric A is not stationary)."},
 {"property": "C30", "status": "proved", "theorems": ["C30_success_iff", "C30_failure", "C30_always_ends", "C30_bad_arguments", "C30_check_interval", "C30_solvers_keep_previous_iterate", "C30_wrong_shape", "C30_gradient_descent_stops_near_stationary", "C30_accelerated_stop_far_from_optimum_refuted", "C30_integer_step_size_ignored"], "note": "The stopping guarantee is characterised exactly for any solver. Beyond it, C30_accelerated_stop_far_from_optimum_refuted shows the criterion bounds no distance to the optimum for the accelerated method."},
 {"property": "C31", "status": "proved", "theorems": ["C31_rejects_bad_start", "C31_iterations_once_in_order", "C31_steps_start_fresh"], "note": ""},
 {"property": "C32", "status": "proved", "theorems": ["C32_library_extension", "C32_resume_equals_uninterrupted", "C32_extending_equals_longer_run"], "note": ""},
 {"property": "C33", "status": "partial", "theorems": ["C33_dgd_step", "C33_atc_step", "C33_simple_gt_step", "C33_atct_step", "C33_aug_dgm_step", "C33_extra_step0", "C33_extra_stepS", "C33_nids_step0", "C33_nids_stepS", "C33_ed_step", "C33_wang_elia_step", "C33_led_step", "C33_prox_skip_step", "C33_kgt_step", "C33_admm_step", "C33_lt_admm_step", "C33_atg_step", "C33_dgd_run", "C33_atc_run", "C33_simple_gt_run", "C33_atct_run", "C33_aug_dgm_run", "C33_extra_run", "C33_nids_run", "C33_ed_run", "C33_wang_elia_run", "C33_led_run", "C33_kgt_run", "C33_prox_skip_run", "C33_admm_run", "C33_lt_admm_run", "C33_atg_run", "C33_trajectory_unique", "C33_atc_documented_refuted", "C33_dlm_as_without_sharing", "C33_dinno_as_without_sharing", "C33_dlm_run", "C33_dinno_run", "C33_dlm_shared_refuted", "C33_dinno_shared_refuted", "C33_gt_saga_step", "C33_gt_vr_step", "C33_lt_admm_vr_step", "C33_gt_sarah_step", "C33_gt_sarah_lossy_refuted", "C33_gt_saga_run", "C33_gt_vr_run", "C33_gt_sarah_run", "C33_lt_admm_vr_run"], "note": "Every class of the P2P list proved for one step on any lossy/asynchronous faithful network and for whole runs on a reliable synchronous one. C33_atc_documented_refuted: ATC mixes the agent's own un-adapted state, so it satisfies C33_atc_run and not its documented recursion. DLM and DiNNO sum received arrays in place, and all receivers of a message share one array: proved that this changes nothing for immutable arrays (TensorFlow, JAX), on stars (DLM) or pairs (DiNNO), or with noise (DLM) - C33_*_as_without_sharing, C33_dlm_run, C33_dinno_run; refuted on other graphs with NumPy/PyTorch: C33_dlm_shared_refuted, C33_dinno_shared_refuted. The variance-reduced GT_SAGA, GT_VR, LT_ADMM_VR likewise; GT_SARAH for any activity but no lost messages: C33_gt_sarah_lossy_refuted, an agent that misses a message of an inner round mixes the stale one of the round before."},
 {"property": "C34", "status": "partial", "theorems": ["C34_dgd_mean", "C34_simple_gt_mean", "C34_extra_mean", "C34_nids_mean", "C34_ed_mean", "C34_wang_elia_mean", "C34_led_mean", "C34_kgt_mean", "C34_prox_skip_mean", "C34_default_weights", "C34_atc_mean_refuted", "C34_inactive_refuted", "C34_extra_stochastic_refuted", "C34_dlm_mean"], "note": "Proved for DGD, SimpleGT, EXTRA (deterministic gradients), NIDS, ED, Wang-Elia, LED, KGT, ProxSkip, DLM (where sharing is harmless, see C33), and for ATC-Tracking and AugDGM under C35. Refuted beyond that: C34_atc_mean_refuted, C34_extra_stochastic_refuted, C34_inactive_refuted."},
 {"property": "C35", "status": "proved", "theorems": ["C35_atct_tracking", "C35_aug_dgm_tracking", "C35_gt_saga_tracking", "C35_gt_vr_tracking", "C35_gt_sarah_tracking"], "note": ""},
 {"property": "C36", "status": "partial", "theorems": ["C36_dgd_fixed", "C36_simple_gt_fixed", "C36_atct_fixed", "C36_aug_dgm_fixed", "C36_extra_fixed", "C36_nids_fixed", "C36_ed_fixed", "C36_wang_elia_fixed", "C36_led_fixed", "C36_kgt_fixed", "C36_prox_skip_fixed", "C36_admm_fixed", "C36_lt_admm_fixed", "C36_atg_fixed", "C36_standstill", "C36_dlm_fixed", "C36_dinno_fixed", "C36_dlm_shared_refuted", "C36_dinno_shared_refuted", "C36_gt_saga_fixed", "C36_gt_vr_fixed", "C36_gt_sarah_fixed", "C36_lt_admm_vr_fixed"], "note": "Every exact method of the list, and DLM and DiNNO where sharing of received arrays is harmless. With in-place arrays DLM on a triangle and DiNNO on a path of three leave a consensual optimum: C36_dlm_shared_refuted, C36_dinno_shared_refuted."},
 {"property": "C37", "status": "proved", "theorems": ["C37_fedavg_round", "C37_fedprox_round", "C37_fedopt_round", "C37_scaffold_round", "C37_feddyn_round", "C37_fednova_round", "C37_fedlt_round", "C37_fedpd_round", "C37_fedavg_run", "C37_fedprox_run", "C37_fedopt_run", "C37_scaffold_run", "C37_feddyn_run", "C37_fednova_run", "C37_fedlt_run", "C37_fedpd_run", "C37_fedavg_is_gradient_descent", "C37_fedlt_copies", "C37_fedpd_consensus"], "note": ""},
 {"property": "C38", "status": "proved", "theorems": ["C38_scaffold_mean", "C38_scaffold_drift", "C38_scaffold_first_round", "C38_scaffold_one_step", "C38_scaffold_fedavg", "C38_inferred_server", "C38_feddyn_mean", "C38_lossy_refuted"], "note": "Mean invariant proved for every reliable network and selection, first-round and full-participation one-step equality with FedAvg, plus the exact drift with lost uploads. C38_lossy_refuted shows that reliability of messages is needed."},
 {"property": "C39", "status": "partial", "theorems": ["C39_fedprox_one_step", "C39_fedprox_zero", "C39_fedopt_identity", "C39_fedopt_near", "C39_fednova_weights", "C39_fednova_equal", "C39_fednova_fedavg", "C39_fedopt_fedavg", "C39_adaptive_refuted"], "note": "FedProx(0) = FedAvg; FedOpt with constant second moment 0 and eta=eps, FedNova with equal steps and counts = FedAvg. C39_adaptive_refuted: FedAdam, FedYogi and FedAdagrad have no parameters for which they reduce to FedAvg."},
 {"property": "C40", "status": "partial", "theorems": ["C40_counts", "C40_fraction", "C40_raised_refuted"], "note": "Counters equal the number of selecting rounds for every federated algorithm; the fraction lies in [0,1] after every finished run. C40_raised_refuted: after a run that raises the reported fraction can exceed one."},
 {"property": "C41", "status": "partial", "theorems": ["C41_seed_range", "C41_trials_distinct", "C41_algorithms_distinct", "C41_pairs_distinct", "C41_bounds_tight", "C41_seeded_draws_partial", "C41_numpy_unseeded_refuted"], "note": "Seed range and distinctness proved in full (pairs: 6685 algorithms x 578554 trials, tight). Reproducibility (C41_seeded_draws_partial) holds for Python's generator and the frameworks of the costs; C41_numpy_unseeded_refuted: NumPy's generator, from which schemes and samplers draw, is not seeded per trial when no cost is NumPy-based."},
 {"property": "C42", "status": "partial", "theorems": ["C42_benchmark_resume_partial", "C42_crash_resume_partial", "C42_torn_progress_refuted", "C42_torn_marker_refuted", "C42_torn_progress_stuck"], "note": "Trial and benchmark level, for every kill point except between opening and closing a JSON file; C42_torn_*_refuted show those points break it. Benchmark level assumes algorithms act through the network interface and do not read histories."},
 {"property": "C43", "status": "partial", "theorems": ["C43_named_checkpoint_loadable_partial", "C43_keeps_newest", "C43_file_bound", "C43_extended_loadable", "C43_schedule", "C43_restart_only_when_new", "C43_changed_step_refuted", "C43_completed_above_limit_refuted"], "note": "Retention of the newest keep files and loadability proved for a fixed checkpoint_step; refuted when the step changes between resumes (C43_changed_step_refuted) and for the file bound of completed trials."},
 {"property": "C44", "status": "proved", "theorems": ["C44_initial_algorithms_round_trip", "C44_saving_preserves_algorithm", "C44_checkpoint_round_trip", "C44_hash_collision_refuted", "C44_foreign_agent_refuted", "C44_result_algorithms_refuted"], "note": "Round trip of initial algorithms needs distinct hashes and agents of the network (the refuted theorems show each is needed); load_benchmark_result does not decode them. Checkpoints: the payload is pickled whole (pickle assumed faithful)."},
 {"property": "C45", "status": "partial", "theorems": ["C45_mark_history", "C45_completed_partial", "C45_load_result_partial", "C45_added_trials_refuted"], "note": "Mark/unmark histories in full (C45_mark_history); crash/resume histories for the original trials. C45_added_trials_refuted: trials added by a resume are ignored by is_benchmark_completed and load_benchmark_result."},
 {"property": "C46", "status": "partial", "theorems": ["C46_resume_partial", "C46_complete_not_rerun", "C46_extension_lost_refuted", "C46_torn_metadata_refuted", "C46_extended_trial_partial", "C46_plain_resume_refuted"], "note": "Any sequence of killed resumes and extensions, provided that after adding iterations later resumes add some too; C46_extension_lost_refuted shows a plain resume forgets the extension. Equality is up to history entries forced at former targets."},
 {"property": "C47", "status": "partial", "theorems": ["C47_any_completion_order", "C47_new_benchmark_in_order", "C47_extension_in_order", "C47_resume_order_refuted"], "note": "Any completion order of processes; new benchmarks and resumes that add iterations return in trial order. C47_resume_order_refuted: other resumes return completed trials first."},
 {"property": "C48", "status": "proved", "theorems": ["C48_restore_reproduces_draws", "C48_restore_frame", "C48_ready_invariant"], "note": ""},
 {"property": "C49", "status": "proved", "theorems": ["C49_axis_is_union", "C49_axis_of_runs", "C49_nearest_preceding", "C49_past_the_end", "C49_mean_defined"], "note": ""},
 {"property": "C50", "status": "proved", "theorems": ["C50_fraction_selected", "C50_fraction_without_server", "C50_fraction_of_run", "C50_regret", "C50_consensus", "C50_mean_minimises", "C50_x_error", "C50_gradient_norm", "C50_drift"], "note": ""},
 {"property": "C51", "status": "partial", "theorems": ["C51_fixed_breakpoint", "C51_breakpoint_past_the_end", "C51_fit_is_least_squares", "C51_invalid_arguments", "C51_globally_best_partial", "C51_exact_recovery", "C51_documented_breakpoint_refuted", "C51_search_loses_fit_refuted"], "note": "Least squares for the chosen breakpoint in full; best over all breakpoints when there are at most num_grid_points+1 finite points. C51_search_loses_fit_refuted: otherwise the refined grid can skip the best breakpoint found (83 points, defaults). C51_documented_breakpoint_refuted: the returned breakpoint is one less than the b of the documented curve."},
 {"property": "C52", "status": "proved", "theorems": ["C52_uniform_drop_extremes", "C52_probabilities_checked", "C52_gilbert_elliott"], "note": ""},
 {"property": "C53", "status": "proved", "theorems": ["C53_label_shares"], "note": ""},
 {"property": "C54", "status": "proved", "theorems": ["C54_retries_do_not_help"], "note": ""},
 {"property": "C55", "status": "proved", "theorems": ["C55_proportions_as_close_as_possible_refuted"], "note": "A finding: the documented claim is refuted by a machine-checked witness."},
 {"property": "C56", "status": "proved", "theorems": ["C56_smoothness_constant_is_valid", "C56_convexity_constant_is_valid", "C56_builtin_constants", "C56_builtin_constants_reported", "C56_quadratic_constants", "C56_linear_regression_constants", "C56_logistic_regression_constants"], "note": ""},
 {"property": "C57", "status": "proved", "theorems": ["C57_derivatives", "C57_builtin_derivatives", "C57_empirical_derivatives", "C57_linear_regression_as_operand"], "note": ""},
 {"property": "C58", "status": "partial", "theorems": ["C58_label_encoding", "C58_prediction_minimises_loss", "C58_label_encoding_refuted"], "note": "Proved unless the label enumerated second is 0; C58_label_encoding_refuted: then all samples are encoded as one class."},
 {"property": "C59", "status": "proved", "theorems": ["C59_gradient_descent_rate", "C59_accelerated_rate", "C59_solve_rate", "C59_proximal_solver_rate", "C59_proximal_solver_refuses"], "note": ""},
 {"property": "C60", "status": "partial", "theorems": ["C60_accelerated_keeps_start_point", "C60_proximal_solver_keeps_point", "C60_gradient_descent_overwrites_start_point_refuted", "C60_accelerated_infinite_smoothness", "C60_gradient_descent_default_without_constants"], "note": "Proved for the accelerated method and proximal_solver. False for GradientDescent: C60_gradient_descent_overwrites_start_point_refuted."},
 {"property": "C61", "status": "proved", "theorems": ["C61_step_counts", "C61_run_counts"], "note": ""},
 {"property": "C62", "status": "proved", "theorems": ["C62_no_duplicate_rows", "C62_counters_reported", "C62_plots_and_tables", "C62_values_clamped"], "note": ""},
 {"property": "C63", "status": "partial", "theorems": ["C63_repeatable_partial", "C63_insensitive", "C63_first_computation", "C63_call_counts_refuted"], "note": "Metrics that do not read call counters are repeatable. C63_call_counts_refuted: evaluating regret/gradient/loss metrics goes through the agents' counting wrappers, so a second computation reports larger call counts."},
 {"property": "C64", "status": "partial", "theorems": ["C64_geometric", "C64_plateau", "C64_sign", "C64_unit_invariant", "C64_hole_refuted"], "note": "C64_hole_refuted: an entry without logarithm inside the trajectory shifts later ones and changes the rate; entries at the end are harmless."},
 {"property": "C65", "status": "proved", "theorems": ["C65_plot", "C65_grand_mean", "C65_statistics_shown", "C65_table_statistics", "C65_table_single"], "note": "For finite values (groups with infinities or NaN are a parameter); the ddof of the across-agent np.std is left open because pandas versions differ; row order ignored."},
 {"property": "C66", "status": "partial", "theorems": ["C66_only_observes", "C66_counters_and_network_untouched", "C66_same_run_up_to_forgotten_state", "C66_full_batches", "C66_minibatch_refuted", "C66_interval_zero_refuted", "C66_points", "C66_loss", "C66_gradient_norm", "C66_regret", "C66_consensus_error"], "note": "Holds for costs without private state and, up to batch_used, for full batches. C66_minibatch_refuted: with mini-batches every evaluation consumes a batch, so watching changes the run. C66_interval_zero_refuted: update_interval=0 ends the trial after one iteration."},
 {"property": "C67", "status": "proved", "theorems": ["C67_none", "C67_array", "C67_other", "C67_dictionary", "C67_shapes", "C67_idempotent"], "note": ""},
 {"property": "C68", "status": "proved", "theorems": ["C68_unbiased", "C68_full_batch", "C68_no_variance", "C68_sampler_balanced", "C68_given_history_refuted"], "note": "Unbiased over every family of batches in which all samples are equally likely; the sampler's batches of its first epoch are such families over its permutations. Beyond the property, C68_given_history_refuted: conditionally on the earlier batches of an epoch they are not (the sampler draws without replacement), so per-iteration unbiasedness given the past fails."},
 {"property": "C69", "status": "partial", "theorems": ["C69_accuracy", "C69_precision_and_recall_are_accuracy", "C69_mse", "C69_diverged", "C69_available_computes", "C69_server", "C69_sample_order", "C69_logistic", "C69_wrapped_costs", "C69_documented_precision_and_recall_refuted", "C69_own_accuracy_refuted", "C69_available_accuracy_refuted"], "note": "Accuracy, MSE, server metrics, order independence in full; precision and recall always equal accuracy (micro averaging), so C69_documented_precision_and_recall_refuted. C69_own_accuracy_refuted: one diverged agent makes the metric NaN for every agent. C69_available_accuracy_refuted: a metric can be available and raise when computed."},
 {"property": "C70", "status": "proved", "theorems": ["C70_chosen", "C70_duplicates_rejected", "C70_defaults", "C70_default_objects"], "note": "Availability checks modelled one by one."},
 {"property": "C71", "status": "proved", "theorems": ["C71_displayed", "C71_consistent", "C71_stops", "C71_request_is_a_set"], "note": ""},
 {"property": "C72", "status": "partial", "theorems": ["C72_points", "C72_curves", "C72_drawable", "C72_every_algorithm_drawn_refuted", "C72_order_kept_refuted"], "note": "Points of every curve in full. C72_every_algorithm_drawn_refuted: an algorithm without finite values of the first metric is missing from all plots. C72_order_kept_refuted: the replacement of non-positive values is always 1e-15, also above smaller positive values."},
 {"property": "C73", "status": "partial", "theorems": ["C73_total", "C73_axis", "C73_needs_costs_and_views", "C73_same_work_refuted"], "note": "Total cost and abscissas in full. C73_same_work_refuted: the abscissa is iteration times the total of the whole run, so equal work stands at different places and the last point of a run is not at its total."},
 {"property": "C74", "status": "proved", "theorems": ["C74_cell", "C74_no_cell", "C74_hint", "C74_figures", "C74_distinguishable", "C74_legend"], "note": ""},
 {"property": "C75", "status": "proved", "theorems": ["C75_synthetic", "C75_seeded_data_repeat", "C75_kaggle", "C75_kaggle_labels", "C75_kaggle_refuses", "C75_pytorch", "C75_pytorch_labels", "C75_parts_cover"], "note": ""},
 {"property": "C76", "status": "proved", "theorems": ["C76_quadratic_problem", "C76_no_agents"], "note": ""},
 {"property": "C77", "status": "proved", "theorems": ["C77_regression_problem", "C77_without_optimum", "C77_refuses"], "note": "The optimum for two or more agents (a sum of linear regression costs is solved in closed form). With one agent solve() treats the single cost by the iterative solvers, whose rates are C60; for batch_size < 10 that run is stochastic and no theorem covers it."},
 {"property": "C78", "status": "partial", "theorems": ["C78_costs_created_iff", "C78_classification_problem", "C78_always_created_refuted"], "note": "Creation succeeds exactly when every agent got both classes (C78_costs_created_iff); hence false as stated: C78_always_created_refuted. The optimum is approximate: value within the accelerated-gradient rate after the iterations made."},
 {"property": "C79", "status": "partial", "theorems": ["C79_regression_test_data", "C79_classification_test_data", "C79_held_out_refuted"], "note": "What the test data are is proved; 'held out' is false: C79_held_out_refuted (with a seed and ten agents the test set is the training set, because both handlers generate 100 samples from the same seed)."},
 {"property": "C80", "status": "proved", "theorems": ["C80_set_get", "C80_round_trip"], "note": ""},
 {"property": "C81", "status": "partial", "theorems": ["C81_function", "C81_gradient", "C81_per_sample", "C81_max_batch_size", "C81_list_of_full_length_refuted", "C81_negative_max_batch_size_refuted"], "note": "Proved for every history with positive max_batch_size. Two parts are false: a list with as many entries as a loaded dataset is replaced by the whole dataset (C81_list_of_full_length_refuted); a negative max_batch_size is accepted and every loss is 0 (C81_negative_max_batch_size_refuted)."},
 {"property": "C82", "status": "partial", "theorems": ["C82_batches", "C82_epochs", "C82_coverage_refuted"], "note": "'Every sample is eventually used' is false without a data loader (C82_coverage_refuted: the remainder of each round is dropped); the rest is proved, epochs between two picklings."},
 {"property": "C83", "status": "proved", "theorems": ["C83_predict"], "note": ""},
 {"property": "C84", "status": "partial", "theorems": ["C84_training", "C84_pieces", "C84_rejected", "C84_max_batch_size_refuted", "C84_argument_kept_refuted", "C84_single_parameter_refuted"], "note": "Proved when selections fit into max_batch_size (the default); C84_pieces describes the general case. False: independence of max_batch_size (C84_max_batch_size_refuted), the caller's vector is overwritten in place (C84_argument_kept_refuted), a one-parameter model gets no correction (C84_single_parameter_refuted)."},
 {"property": "C85", "status": "partial", "theorems": ["C85_bars", "C85_resumed_at_the_end_refuted"], "note": "Proved for trials started or resumed before their last iteration. False for a trial resumed from a checkpoint of its last iteration: it has nothing left to do and its bar does not fill (C85_resumed_at_the_end_refuted)."},
 {"property": "C86", "status": "partial", "theorems": ["C86_any_queue", "C86_lines", "C86_run", "C86_styles", "C86_saved", "C86_saved_once", "C86_paths", "C86_one_figure_per_metric_refuted", "C86_second_path_refuted"], "note": "Proved for metrics of different classes. Two metrics of one class are mixed in one line (C86_one_figure_per_metric_refuted) and only the first path is used (C86_second_path_refuted)."},
 {"property": "C87", "status": "partial", "theorems": ["C87_history_entries_never_change", "C87_initialize_copies", "C87_messages_are_copies", "C87_broadcast_shared_refuted", "C87_x_only_by_assignment_refuted", "C87_initialize_resets_x_refuted", "C87_fednova_new_gradient", "C87_fednova_l2_prox_refuted"], "note": "Proved for history entries, initialize and messages. False: receivers of one noise-free message share one array (C87_broadcast_shared_refuted); agent.x is the live array, so x also changes without an assignment (C87_x_only_by_assignment_refuted); initialize without x keeps the old x (C87_initialize_resets_x_refuted); FedNova with use_prox on a bare L2RegularizerCost, whose gradient is its argument, updates differently from its documentation (C87_fednova_l2_prox_refuted)."},
 {"property": "C88", "status": "partial", "theorems": ["C88_to_array", "C88_round_trip", "C88_to_array_like", "C88_not_installed", "C88_tensorflow_device_refuted", "C88_dtype_refuted"], "note": "Proved except: a TensorFlow tensor is not moved to the requested device (C88_tensorflow_device_refuted) and a requested dtype is ignored when the array already is of the target framework (C88_dtype_refuted)."},
 {"property": "C89", "status": "partial", "theorems": ["C89_call", "C89_missing_x", "C89_result_like_x_refuted"], "note": "Arguments, warnings and refusal proved. False: the result is never converted to the framework of x, because the return annotation is compared with the class Array but is a string under 'from __future__ import annotations' (C89_result_like_x_refuted)."},
 {"property": "C90", "status": "proved", "theorems": ["C90_dlm_linear", "C90_dlm_reaches", "C90_default_weights_mix", "C90_ed_linear", "C90_nids_linear", "C90_ed_reaches", "C90_nids_reaches", "C90_extra_linear", "C90_extra_reaches", "C90_atct_linear", "C90_atct_reaches", "C90_aug_dgm_linear", "C90_aug_dgm_reaches", "C90_wang_elia_linear", "C90_wang_elia_reaches", "C90_default_self_weight"], "note": "ED, NIDS, EXTRA, DLM, Wang-Elia, AugDGM and ATC tracking; synchronous runs, exact gradients in real arithmetic."},
 {"property": "C91", "status": "proved", "theorems": ["C91_fedavg_linear", "C91_scaffold_linear", "C91_fedavg_common_minimiser", "C91_fedprox_linear", "C91_fednova_linear", "C91_fedavg_reaches", "C91_scaffold_reaches", "C91_fednova_reaches", "C91_fednova_optimum_refuted", "C91_fedavg_steps_linear", "C91_fedavg_steps_refuted", "C91_scaffold_stays"], "note": "FedAvg, FedProx, FedNova and Scaffold with one local step (synchronous); FedAvg with any number of steps and losses for a common minimiser. C91_fednova_optimum_refuted shows that the weighting by sample counts matters: with unequal counts FedNova does not reach the minimiser of the plain sum. Several local steps: C91_fedavg_steps_linear (to the balanced point), C91_fedavg_steps_refuted (not the optimum), C91_scaffold_stays."},
 {"property": "C92", "status": "proved", "theorems": ["C92_admm", "C92_admm_reaches"], "note": "Sum of squared errors bounded for 0 < alpha <= 1; last iterate for alpha < 1."},
 {"property": "C93", "status": "proved", "theorems": ["C93_dgd_neighbourhood"], "note": "DGD, constant step size."},
 {"property": "C94", "status": "partial", "theorems": ["C94_same_framework", "C94_shapes", "C94_array_operator", "C94_reflected", "C94_mixed_partial", "C94_mixed_numpy", "C94_unary", "C94_product_partial", "C94_tensorflow_dot_refuted", "C94_mixed_refuted", "C94_returns_array_refuted"], "note": "Proved for operands of one framework. False as documented: a NumPy first operand is not checked (C94_mixed_refuted), results are native values, not Array (C94_returns_array_refuted), dot of TensorFlow tensors raises AttributeError (C94_tensorflow_dot_refuted)."},
 {"property": "C95", "status": "partial", "theorems": ["C95_mutable", "C95_immutable", "C95_same_value", "C95_frame", "C95_power", "C95_modified_object_refuted", "C95_portable_refuted", "C95_number_refuted"], "note": "Values, aliasing and frame proved. False: the returned object is not always the modified one (C95_modified_object_refuted), programs are not portable between frameworks when broadcasting enlarges the result (C95_portable_refuted), an Array around a number supports + but not += (C95_number_refuted)."},
 {"property": "C96", "status": "partial", "theorems": ["C96_same_framework", "C96_mixed_partial", "C96_mixed_refuted"], "note": "Proved for one framework. NumPy before JAX is accepted, JAX before NumPy is not (C96_mixed_refuted)."},
 {"property": "C97", "status": "proved", "theorems": ["C97_expect_const", "C97_expect_mono", "C97_expect_linear", "C97_flip_probability", "C97_flips_independent", "C97_prox_skip_mean", "C97_prox_skip_probably"], "note": "Mean and probability over independent coins, ConvSpec.expect; exact gradients in real arithmetic."},
 {"property": "C98", "status": "partial", "theorems": ["C98_accepts_partial", "C98_defaults", "C98_unknown_keyword", "C98_iterations", "C98_integer_step_refuted", "C98_nan_refuted", "C98_nan_two_sided", "C98_solver_args", "C98_local_steps", "C98_settle"], "note": "Proved for arguments of the documented types (C98_accepts_partial); refuted beyond them: nine classes test step sizes only when they are floats, so step_size=-1 or 0 (an int) is accepted (C98_integer_step_refuted), and NaN or infinity passes every one-sided check (C98_nan_refuted) while two-sided checks refuse NaN (C98_nan_two_sided)."},
 {"property": "C99", "status": "partial", "theorems": ["C99_normal", "C99_uniform", "C99_independent", "C99_pytorch_partial", "C99_pytorch_same", "C99_pytorch_federated_refuted", "C99_pytorch_same_refuted"], "note": "Proved for the two samplers and for PyTorch networks in which every node has a PyTorchCost. Refuted: on a FedNetwork the per-agent PyTorch initialisation raises TypeError because of the server's own cost (C99_pytorch_federated_refuted); with all_same only the first agent's cost is checked (C99_pytorch_same_refuted)."},
 {"property": "C100", "status": "partial", "theorems": ["C100_round_trip_partial", "C100_first_save_crash", "C100_resave_refuted", "C100_plot_only_refuted", "C100_stale_refuted"], "note": "Round trip proved when there is at least one table metric; crash safety proved for the first save. Refuted: with table_metrics=[] and a completed benchmark the reloaded result has no algorithms and display shows nothing (C100_plot_only_refuted); a second save killed while overwriting leaves the old completion marker next to a torn file (C100_resave_refuted); after an extension the old metrics still count as computed (C100_stale_refuted)."},
 {"property": "C101", "status": "partial", "theorems": ["C101_arg_flat", "C101_arg_axis", "C101_arg_refused", "C101_transpose", "C101_transpose_refused_partial", "C101_transpose_empty_refuted", "C101_norm_vector", "C101_norm_matrix", "C101_norm_matrix_refuted", "C101_norm_rank_refuted"], "note": "Proved for argmax, argmin, transpose and the norm of vectors. Refuted: norm of a matrix is the spectral norm, for the identity 1 instead of sqrt n (C101_norm_matrix_refuted; C101_norm_matrix shows it never exceeds the documented one); from three axes on only TensorFlow accepts the call (C101_norm_rank_refuted); PyTorch takes transpose(dim=()) for a reversal where NumPy refuses it (C101_transpose_empty_refuted)."},
 {"property": "C102", "status": "proved", "theorems": ["C102_federated_snapshots", "C102_fedavg", "C102_fedprox", "C102_scaffold", "C102_fedavg_consensus_refuted", "C102_metrics_of_agents", "C102_snapshots_are_iterates", "C102_ed", "C102_nids", "C102_extra", "C102_atct", "C102_aug_dgm", "C102_wang_elia", "C102_admm"], "note": "End to end: iterates (C90, C92) through snapshots (C04) to what the metrics return (C50). Synchronous runs over exact reals; n is the dimension of the variables. Federated: Scaffold all four metrics, FedAvg and FedProx three; C102_fedavg_consensus_refuted shows that FedAvg's ConsensusError does not vanish."},
 {"property": "C103", "status": "partial", "theorems": ["C103_names_read", "C103_names_distinct", "C103_name_width", "C103_files_follow", "C103_any_history", "C103_cleanup", "C103_saved_is_loaded_partial", "C103_result_stored_partial", "C103_old_format_loads", "C103_old_format_result_refuted", "C103_foreign_file_refuted", "C103_started", "C103_started_any"], "note": "Loading what was saved and reading a completed trial's result are proved except for keep_n_checkpoints = 1 with an old-format file of the same iteration, where they fail (C103_old_format_result_refuted); a foreign file that looks like a checkpoint makes every save raise (C103_foreign_file_refuted)."},
 {"property": "C104", "status": "partial", "theorems": ["C104_multiprocess", "C104_per_process", "C104_raised", "C104_single_process_partial", "C104_level_refuted", "C104_lost_after_multiprocess", "C104_table_lost_refuted", "C104_back_again", "C104_own_handlers"], "note": "Positive part: delivery in multi-process benchmarks for all schedules, and the first call's level. Refuted part: the level of later calls, and every message (tables included) after a multi-process benchmark has returned. Records of other libraries' loggers, logging.disable and failing handlers are not modelled."},
 {"property": "C105", "status": "partial", "theorems": ["C105_returned_partial", "C105_order", "C105_plotter_left_refuted", "C105_contained", "C105_raised_hangs", "C105_raised_bars_left", "C105_raise_stops_everything_refuted", "C105_refused"], "note": "The program is modelled as the sequence of its helper starts and stops with exceptions at any point (Model/Lifecycle.v); trials of several processes are written one after the other. Partial: the plotter is only stopped if there was a trial to run (C105_plotter_left_refuted), and escaping exceptions leave the bars' thread (C105_raised_hangs, C105_raise_stops_everything_refuted)."},
 {"property": "C106", "status": "partial", "theorems": ["C106_backup_before_any_change", "C106_resumed_is_backed_up", "C106_backups_kept", "C106_state_recovered", "C106_results_recovered", "C106_resume_refused", "C106_benchmark_refused", "C106_clear_then_benchmark", "C106_killed_initialize_refuted", "C106_initialized_resumable"], "note": "Built on the model of C42/C46; archives are copies of the directory as modelled there. Refuted: a benchmark killed while writing metadata, algorithms or problem leaves a directory that neither resume_benchmark nor benchmark accepts (C106_killed_initialize_refuted); from then on it can be resumed (C106_initialized_resumable)."},
 {"property": "C107", "status": "partial", "theorems": ["C107_choice", "C107_shuffle", "C107_choice_too_many", "C107_top_scores", "C107_choice_zero_refuted", "C107_choice_number_refuted", "C107_uniform_range", "C107_normal_scaled", "C107_like_dtype", "C107_like_dtype_refuted"], "note": "choice for every framework, size, replacement flag and generator state (C107_choice, C107_shuffle, C107_choice_too_many), TensorFlow's top-k (C107_top_scores), the range of uniform (C107_uniform_range), element types (C107_like_dtype); C107_choice_zero_refuted, C107_choice_number_refuted and C107_like_dtype_refuted record where frameworks differ. What the libraries' generators return is assumed to be within their documentation."},
 {"property": "C108", "status": "partial", "theorems": ["C108_squeeze_all", "C108_squeeze_some", "C108_squeeze_one", "C108_squeeze_entries", "C108_squeeze_other_refuted", "C108_squeeze_empty_tuple_refuted", "C108_diag_vector", "C108_diag_matrix", "C108_diag_refuses", "C108_diag_twice", "C108_eye_like", "C108_eye_like_shape_refuted", "C108_stack", "C108_stack_refuses", "C108_reduce_stack", "C108_set_item", "C108_set_item_refuses"], "note": "C108_squeeze_*, C108_diag_*, C108_eye_like, C108_stack*, C108_reduce_stack, C108_set_item* for every framework, shape and axis; the three _refuted theorems record where frameworks or documentation differ. What the frameworks' own functions do is written from their documentation."},
 {"property": "C109", "status": "partial", "theorems": ["C109_subplots", "C109_grid", "C109_legend", "C109_legend_refuted", "C109_files", "C109_nothing_saved", "C109_closed", "C109_closed_refuted"], "note": "C109_subplots, C109_grid, C109_legend, C109_files, C109_nothing_saved, C109_closed for all metrics, algorithms and groups; the _refuted theorems record names starting with an underscore and figures left open. matplotlib's axes are lists of what is set on them."},
 {"property": "C110", "status": "proved", "theorems": ["C110_forward", "C110_unique", "C110_parameters", "C110_no_activation_affine", "C110_unknown_activation", "C110_range", "C110_argmax", "C110_argmax_sigmoid"], "note": "C110_forward (against an inductive specification, with C110_unique), C110_parameters, C110_no_activation_affine, C110_range, C110_unknown_activation, C110_argmax, C110_argmax_sigmoid for all sizes, depths, weights and inputs over the reals, one sample (row) at a time; torch's own modules are written from their documentation."},
 {"property": "C111", "status": "proved", "theorems": ["C111_gaussian", "C111_no_spread", "C111_constructor", "C111_location_scale"], "note": "C111_gaussian and C111_no_spread after any history of any network (through C07), C111_constructor, C111_location_scale. The draws are a given stream per call of the generator; entries are reals."},
 {"property": "C112", "status": "partial", "theorems": ["C112_sequence", "C112_scalars", "C112_out_of_range", "C112_out_of_range_refuted", "C112_stack_of_items", "C112_slice", "C112_split"], "note": "C112_sequence, C112_scalars, C112_out_of_range, C112_stack_of_items, C112_slice, C112_split for all shapes and keys (an integer or a slice without step on the first axis); C112_out_of_range_refuted records JAX. The frameworks' indexing is written from their documentation."},
 {"property": "C113", "status": "proved", "theorems": ["C113_upload_positive", "C113_run", "C113_server_momentum_run", "C113_rejected", "C113_accepted", "C113_normalizes", "C113_momentum_and_penalty", "C113_plain", "C113_penalty", "C113_momentum"], "note": "Proved on the model of FedNova of C37 (Model/Fed.v), real arithmetic; C113_run removes the positivity hypothesis of C37_fednova_run. That the constructor accepts step_size * penalty >= 2 is read off Model/Validate.v."}
]}
