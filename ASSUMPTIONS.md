# Print Assumptions for every property theorem

Generated by tools/assumptions.py; every axiom below belongs to the Coq standard library.

## Closed under the global context (no axioms)

312 theorems: C108_squeeze_all, C108_squeeze_some, C108_squeeze_one, C108_squeeze_entries, C108_squeeze_other_refuted, C108_squeeze_empty_tuple_refuted, C108_diag_vector, C108_diag_matrix, C108_diag_refuses, C108_diag_twice, C108_eye_like, C108_eye_like_shape_refuted, C108_stack, C108_stack_refuses, C108_reduce_stack, C108_set_item, C108_set_item_refuses, C101_arg_flat, C101_arg_axis, C101_arg_refused, C101_transpose, C101_transpose_refused_partial, C101_transpose_empty_refuted, C106_backup_before_any_change, C106_resumed_is_backed_up, C106_backups_kept, C106_state_recovered, C106_results_recovered, C106_resume_refused, C106_benchmark_refused, C106_clear_then_benchmark, C106_killed_initialize_refuted, C106_initialized_resumable, C25_batches_are_distinct_samples, C25_no_repetition_within_epoch, C25_epoch_covers_dataset, C25_epoch_exact_when_divisible, C25_no_starvation, C25_explicit_requests, C25_explicit_requests_keep_epochs, C46_resume_partial, C46_complete_not_rerun, C42_benchmark_resume_partial, C47_any_completion_order, C47_new_benchmark_in_order, C47_extension_in_order, C45_mark_history, C45_completed_partial, C45_load_result_partial, C47_resume_order_refuted, C45_added_trials_refuted, C46_extension_lost_refuted, C46_torn_metadata_refuted, C42_crash_resume_partial, C43_named_checkpoint_loadable_partial, C43_keeps_newest, C43_file_bound, C46_extended_trial_partial, C43_extended_loadable, C43_schedule, C42_torn_progress_refuted, C42_torn_marker_refuted, C42_torn_progress_stuck, C43_restart_only_when_new, C43_changed_step_refuted, C43_completed_above_limit_refuted, C46_plain_resume_refuted, C103_names_read, C103_names_distinct, C103_name_width, C103_files_follow, C103_any_history, C103_cleanup, C103_saved_is_loaded_partial, C103_result_stored_partial, C103_old_format_loads, C103_old_format_result_refuted, C103_foreign_file_refuted, C103_started, C103_started_any, C44_initial_algorithms_round_trip, C44_saving_preserves_algorithm, C44_checkpoint_round_trip, C44_hash_collision_refuted, C44_foreign_agent_refuted, C44_result_algorithms_refuted, C20_size_is_transmitted_partial, C13_p2p_succeeds_iff, C13_p2p_result, C13_fed_result, C13_failure_is_atomic_refuted, C05_counts_are_exact, C05_overlapping_blocks, C71_displayed, C71_consistent, C71_stops, C71_request_is_a_set, C74_hint, C74_figures, C74_distinguishable, C74_legend, C28_named_requests, C28_batch_size_checked, C75_synthetic, C75_seeded_data_repeat, C75_kaggle, C75_kaggle_labels, C75_kaggle_refuses, C75_pytorch, C75_pytorch_labels, C75_parts_cover, C87_history_entries_never_change, C87_initialize_copies, C87_messages_are_copies, C87_broadcast_shared_refuted, C87_x_only_by_assignment_refuted, C87_initialize_resets_x_refuted, C01_lookup_nearest_preceding, C01_lookup_latest, C01_rejections, C02_keys_sorted_exact, C02_items_exact, C02_min_max, C112_sequence, C112_scalars, C112_out_of_range, C112_out_of_range_refuted, C112_stack_of_items, C112_slice, C112_split, C99_independent, C99_pytorch_same_refuted, C67_other, C88_to_array, C88_round_trip, C88_to_array_like, C88_not_installed, C88_tensorflow_device_refuted, C88_dtype_refuted, C89_call, C89_missing_x, C89_result_like_x_refuted, C23_invalid_raises, C23_label_quantity, C23_at_most_cpp_labels, C23_exactly_cpp_labels, C23_every_label_dealt, C105_returned_partial, C105_order, C105_plotter_left_refuted, C105_contained, C105_raised_hangs, C105_raised_bars_left, C105_raise_stops_everything_refuted, C105_refused, C110_parameters, C110_unknown_activation, C104_multiprocess, C104_per_process, C104_raised, C104_single_process_partial, C104_level_refuted, C104_lost_after_multiprocess, C104_table_lost_refuted, C104_back_again, C104_own_handlers, C03_message_lookup, C03_messages_by_channel, C49_axis_is_union, C49_axis_of_runs, C49_past_the_end, C100_round_trip_partial, C100_first_save_crash, C100_resave_refuted, C100_plot_only_refuted, C100_stale_refuted, C06_conservation, C06_counters_account_for_deliveries, C07_visible_messages_are_fresh_and_legitimate, C07_each_delivery_has_its_own_noise, C07_step_empties_mailboxes, C08_reliable_delivery, C08_p2p_acceptance, C09_active_set_stable, C09_active_set_follows_schemes, C09_consulted_at_most_once, C10_rejected_send_has_no_effect, C11_star_endpoints, C11_rejections, C11_client_default_receiver, C113_accepted, C94_same_framework, C94_shapes, C94_array_operator, C94_reflected, C94_mixed_partial, C94_mixed_numpy, C94_unary, C94_product_partial, C94_tensorflow_dot_refuted, C95_mutable, C95_immutable, C95_same_value, C95_frame, C95_power, C96_same_framework, C96_mixed_partial, C96_mixed_refuted, C94_mixed_refuted, C94_returns_array_refuted, C95_modified_object_refuted, C95_portable_refuted, C95_number_refuted, C33_trajectory_unique, C68_sampler_balanced, C22_even_counts, C22_proportional_counts, C22_nothing_available, C21_sizes_requested, C21_iid, C21_size, C21_stratified, C21_dirichlet, C54_retries_do_not_help, C53_label_shares, C21_shard, C55_proportions_as_close_as_possible_refuted, C24_accepted_iff_valid, C24_error_names_first_offender, C109_subplots, C109_grid, C109_legend, C109_legend_refuted, C109_files, C109_nothing_saved, C109_closed, C109_closed_refuted, C86_any_queue, C86_lines, C86_run, C86_styles, C86_saved, C86_saved_once, C86_paths, C86_second_path_refuted, C85_bars, C85_resumed_at_the_end_refuted, C107_choice, C107_shuffle, C107_choice_too_many, C107_top_scores, C107_choice_zero_refuted, C107_choice_number_refuted, C107_like_dtype, C107_like_dtype_refuted, C48_restore_reproduces_draws, C48_restore_frame, C48_ready_invariant, C41_seed_range, C41_trials_distinct, C41_algorithms_distinct, C41_pairs_distinct, C41_bounds_tight, C41_seeded_draws_partial, C41_numpy_unseeded_refuted, C04_snapshot_schedule, C31_rejects_bad_start, C31_iterations_once_in_order, C31_steps_start_fresh, C32_resume_equals_uninterrupted, C32_extending_equals_longer_run, C66_counters_and_network_untouched, C66_same_run_up_to_forgotten_state, C66_points, C14_duty_cycle, C14_periodic, C14_active_iterations_consecutive, C14_offset_shifts_phase, C14_always_active, C14_rejections, C15_poisson_follows_draws, C15_markov_starts_active, C15_probabilities_checked, C15_markov_degenerate, C15_uniform_extremes, C16_selection_size_and_membership, C16_failure_only_without_data, C16_datasize_needs_data, C17_selection_is_minimal, C17_ties_in_pool_order, C17_counts_are_selections, C17_counts_never_differ_by_more_than_one, C18_highest_losses, C52_uniform_drop_extremes, C52_probabilities_checked, C52_gilbert_elliott, C80_set_get, C80_round_trip, C83_predict, C98_accepts_partial, C98_defaults, C98_unknown_keyword, C98_iterations, C98_integer_step_refuted, C98_nan_refuted, C98_nan_two_sided, C98_solver_args, C98_local_steps, C98_settle, C12_metropolis_doubly_stochastic, C12_averaging_preserves_sum, C12_self_loop_rows_refuted.

## Axioms: `ClassicalDedekindReals.sig_forall_dec`

10 theorems: C19_randk, C20_size_bounded_refuted, C28_linear_regression_per_sample, C87_fednova_new_gradient, C110_unique, C111_gaussian, C33_lt_admm_step, C33_lt_admm_run, C86_one_figure_per_metric_refuted, C84_argument_kept_refuted.

## Axioms: `FunctionalExtensionality.functional_extensionality_dep`

1 theorems: C66_only_observes.

## Axioms: `ClassicalDedekindReals.sig_forall_dec`, `FunctionalExtensionality.functional_extensionality_dep`

240 theorems: C113_server_momentum_run, C62_no_duplicate_rows, C65_plot, C65_grand_mean, C04_peer_to_peer, C19_quantization, C19_topk, C39_fedprox_one_step, C97_expect_const, C97_expect_mono, C97_expect_linear, C97_flip_probability, C97_flips_independent, C90_default_weights_mix, C90_atct_linear, C90_atct_reaches, C90_aug_dgm_linear, C90_aug_dgm_reaches, C90_default_self_weight, C26_cost_algebra_is_pointwise, C26_expression_succeeds_iff, C26_result_metadata, C26_builtin_sum, C26_bad_operands, C56_convexity_constant_is_valid, C56_quadratic_constants, C27_proximal_is_unique_minimiser, C27_builtin_proximals, C27_quadratic_proximal, C72_points, C72_curves, C72_drawable, C72_every_algorithm_drawn_refuted, C72_order_kept_refuted, C73_total, C73_axis, C73_needs_costs_and_views, C73_same_work_refuted, C74_cell, C74_no_cell, C28_linear_regression_mean, C28_bad_index_raises, C28_full_length_list_refuted, C28_single_sample_refuted, C28_wrapped_per_sample_gradients, C28_per_sample_gradients_average, C56_linear_regression_constants, C27_linear_regression_proximal, C57_linear_regression_as_operand, C58_label_encoding, C58_label_encoding_refuted, C102_snapshots_are_iterates, C37_fedavg_round, C37_fedprox_round, C37_scaffold_round, C37_feddyn_round, C37_fednova_round, C37_fedpd_round, C37_fedavg_run, C37_fedprox_run, C37_scaffold_run, C37_feddyn_run, C37_fednova_run, C37_fedpd_run, C37_fedavg_is_gradient_descent, C37_fedpd_consensus, C38_scaffold_mean, C38_scaffold_drift, C38_scaffold_first_round, C38_scaffold_one_step, C38_scaffold_fedavg, C38_inferred_server, C38_feddyn_mean, C39_fedprox_zero, C39_fednova_weights, C39_fednova_equal, C39_fednova_fedavg, C38_lossy_refuted, C91_scaffold_stays, C87_fednova_l2_prox_refuted, C99_normal, C99_uniform, C99_pytorch_partial, C99_pytorch_same, C99_pytorch_federated_refuted, C67_none, C67_array, C67_dictionary, C67_shapes, C67_idempotent, C110_argmax, C62_counters_reported, C50_fraction_selected, C50_fraction_without_server, C49_mean_defined, C50_regret, C62_plots_and_tables, C62_values_clamped, C63_repeatable_partial, C63_first_computation, C63_call_counts_refuted, C111_no_spread, C111_constructor, C111_location_scale, C113_upload_positive, C113_run, C113_rejected, C113_normalizes, C113_momentum_and_penalty, C113_plain, C113_penalty, C113_momentum, C33_dgd_step, C33_atc_step, C33_simple_gt_step, C33_atct_step, C33_aug_dgm_step, C33_extra_step0, C33_extra_stepS, C33_nids_step0, C33_nids_stepS, C33_ed_step, C33_wang_elia_step, C33_led_step, C33_prox_skip_step, C33_kgt_step, C33_admm_step, C33_atg_step, C33_dgd_run, C33_atc_run, C33_simple_gt_run, C33_atct_run, C33_aug_dgm_run, C33_extra_run, C33_nids_run, C33_ed_run, C33_wang_elia_run, C33_led_run, C33_kgt_run, C33_prox_skip_run, C33_admm_run, C33_atg_run, C34_dgd_mean, C34_simple_gt_mean, C35_atct_tracking, C35_aug_dgm_tracking, C34_extra_mean, C34_nids_mean, C34_ed_mean, C34_wang_elia_mean, C34_led_mean, C34_kgt_mean, C34_prox_skip_mean, C36_dgd_fixed, C36_simple_gt_fixed, C36_atct_fixed, C36_aug_dgm_fixed, C36_extra_fixed, C36_nids_fixed, C36_ed_fixed, C36_wang_elia_fixed, C36_led_fixed, C36_kgt_fixed, C36_prox_skip_fixed, C36_admm_fixed, C36_lt_admm_fixed, C36_atg_fixed, C34_default_weights, C36_standstill, C33_atc_documented_refuted, C34_atc_mean_refuted, C34_inactive_refuted, C34_extra_stochastic_refuted, C33_dlm_as_without_sharing, C33_dinno_as_without_sharing, C33_dlm_run, C34_dlm_mean, C33_dinno_run, C36_dlm_fixed, C36_dinno_fixed, C36_dlm_shared_refuted, C33_dlm_shared_refuted, C36_dinno_shared_refuted, C33_dinno_shared_refuted, C33_gt_saga_step, C33_gt_vr_step, C33_lt_admm_vr_step, C33_gt_sarah_step, C33_gt_sarah_lossy_refuted, C33_gt_saga_run, C33_gt_vr_run, C33_gt_sarah_run, C33_lt_admm_vr_run, C35_gt_saga_tracking, C35_gt_vr_tracking, C35_gt_sarah_tracking, C36_gt_saga_fixed, C36_gt_vr_fixed, C36_gt_sarah_fixed, C36_lt_admm_vr_fixed, C68_unbiased, C68_full_batch, C68_no_variance, C68_given_history_refuted, C69_accuracy, C69_precision_and_recall_are_accuracy, C69_mse, C69_diverged, C69_available_computes, C69_server, C69_sample_order, C69_wrapped_costs, C69_available_accuracy_refuted, C107_uniform_range, C107_normal_scaled, C66_full_batches, C66_minibatch_refuted, C66_interval_zero_refuted, C66_loss, C66_regret, C29_linear_regression_cost_is_regression, C30_success_iff, C30_failure, C30_always_ends, C30_bad_arguments, C30_check_interval, C81_function, C81_gradient, C81_per_sample, C82_batches, C82_epochs, C84_training, C84_pieces, C84_rejected, C81_max_batch_size, C81_list_of_full_length_refuted, C81_negative_max_batch_size_refuted, C82_coverage_refuted, C84_max_batch_size_refuted, C84_single_parameter_refuted.

## Axioms: `ClassicalDedekindReals.sig_forall_dec`, `ClassicalDedekindReals.sig_not_dec`, `FunctionalExtensionality.functional_extensionality_dep`

123 theorems: C65_statistics_shown, C65_table_statistics, C65_table_single, C04_federated, C32_library_extension, C61_step_counts, C61_run_counts, C101_norm_vector, C101_norm_matrix, C101_norm_matrix_refuted, C101_norm_rank_refuted, C19_stochastic_quantization, C19_stochastic_quantization_unbiased, C90_dlm_linear, C90_dlm_reaches, C91_fedavg_linear, C91_scaffold_linear, C91_fedavg_common_minimiser, C91_fedprox_linear, C91_fednova_linear, C91_fedavg_reaches, C91_scaffold_reaches, C91_fednova_reaches, C91_fednova_optimum_refuted, C97_prox_skip_mean, C97_prox_skip_probably, C90_ed_linear, C90_nids_linear, C90_ed_reaches, C90_nids_reaches, C90_extra_linear, C90_extra_reaches, C90_wang_elia_linear, C90_wang_elia_reaches, C93_dgd_neighbourhood, C92_admm, C92_admm_reaches, C56_smoothness_constant_is_valid, C56_builtin_constants, C56_builtin_constants_reported, C57_derivatives, C57_builtin_derivatives, C27_penalty_checked, C27_fractional_proximal_descends, C51_fixed_breakpoint, C51_breakpoint_past_the_end, C51_fit_is_least_squares, C51_invalid_arguments, C51_globally_best_partial, C51_exact_recovery, C51_documented_breakpoint_refuted, C51_search_loses_fit_refuted, C28_logistic_regression_per_sample, C102_federated_snapshots, C102_fedavg, C102_fedprox, C102_scaffold, C102_fedavg_consensus_refuted, C102_metrics_of_agents, C102_ed, C102_nids, C102_extra, C102_atct, C102_aug_dgm, C102_wang_elia, C102_admm, C37_fedopt_round, C37_fedlt_round, C37_fedopt_run, C37_fedlt_run, C37_fedlt_copies, C39_fedopt_identity, C39_fedopt_near, C39_fedopt_fedavg, C39_adaptive_refuted, C40_counts, C40_fraction, C40_raised_refuted, C91_fedavg_steps_linear, C91_fedavg_steps_refuted, C110_forward, C110_no_activation_affine, C110_range, C50_fraction_of_run, C49_nearest_preceding, C50_consensus, C50_mean_minimises, C50_x_error, C50_gradient_norm, C50_drift, C63_insensitive, C70_chosen, C70_duplicates_rejected, C70_defaults, C70_default_objects, C76_quadratic_problem, C76_no_agents, C77_regression_problem, C77_without_optimum, C77_refuses, C79_regression_test_data, C66_gradient_norm, C66_consensus_error, C29_symmetric_quadratic_optimum, C29_quadratic_gradient_vanishes_iff, C29_nonsymmetric_quadratic_refuted, C29_linear_regression_optimum, C29_solver_choice, C30_solvers_keep_previous_iterate, C30_wrong_shape, C30_gradient_descent_stops_near_stationary, C30_accelerated_stop_far_from_optimum_refuted, C30_integer_step_size_ignored, C59_gradient_descent_rate, C59_accelerated_rate, C59_solve_rate, C59_proximal_solver_rate, C59_proximal_solver_refuses, C60_accelerated_keeps_start_point, C60_proximal_solver_keeps_point, C60_gradient_descent_overwrites_start_point_refuted, C60_accelerated_infinite_smoothness, C60_gradient_descent_default_without_constants.

## Axioms: `ClassicalDedekindReals.sig_forall_dec`, `ClassicalDedekindReals.sig_not_dec`, `Classical_Prop.classic`, `FunctionalExtensionality.functional_extensionality_dep`

18 theorems: C64_geometric, C64_plateau, C64_sign, C64_unit_invariant, C64_hole_refuted, C28_logistic_regression_mean, C57_empirical_derivatives, C56_logistic_regression_constants, C58_prediction_minimises_loss, C110_argmax_sigmoid, C69_logistic, C69_documented_precision_and_recall_refuted, C69_own_accuracy_refuted, C78_costs_created_iff, C78_classification_problem, C79_classification_test_data, C79_held_out_refuted, C78_always_created_refuted.
