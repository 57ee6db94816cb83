{
 "C12": {
  "status": "proved",
  "note": "Proved for every simple undirected graph over any numFieldType. C12_self_loop_rows_refuted: with a self-loop edge (which the constructor accepts) row sums are not one."
 },
 "C13": {
  "status": "proved",
  "note": "Success characterised exactly for P2P networks; results for P2P and federated. C13_failure_is_atomic_refuted is a finding beyond the property: a failed construction leaves agents indexed and unusable."
 },
 "C20": {
  "status": "partial",
  "note": "Proved for every fraction and for every integer k not larger than the message. False as stated: C20_size_bounded_refuted (integer k larger than the message is accepted and reported as the size)."
 },
 "C55": {
  "status": "proved",
  "note": "A finding: the documented claim is refuted by a machine-checked witness."
 },
 "C28": {
  "status": "partial",
  "note": "Proved for 'all', 'batch', single indices and every index list that is not exactly as long as the dataset or that permutes it, for linear and logistic regression and wrapped costs. False as stated: C28_full_length_list_refuted (a list as long as the dataset is replaced by the dataset) and C28_single_sample_refuted (gradient of a one-sample linear regression is a matrix, proximal raises)."
 },
 "C58": {
  "status": "partial",
  "note": "Proved unless the label enumerated second is 0; C58_label_encoding_refuted: then all samples are encoded as one class."
 },
 "C29": {
  "status": "partial",
  "note": "Proved for symmetric A (and exactly when x makes A x + b vanish), and for sums of linear regressions through solve/lstsq. False as stated: C29_nonsymmetric_quadratic_refuted (the returned point of a non-symmetric A is not stationary)."
 },
 "C30": {
  "status": "proved",
  "note": "The stopping guarantee is characterised exactly for any solver. Beyond it, C30_accelerated_stop_far_from_optimum_refuted shows the criterion bounds no distance to the optimum for the accelerated method."
 },
 "C60": {
  "status": "partial",
  "note": "Proved for the accelerated method and proximal_solver. False for GradientDescent: C60_gradient_descent_overwrites_start_point_refuted."
 },
 "C33": {
  "status": "partial",
  "note": "Every class of the P2P list proved for one step on any lossy/asynchronous faithful network and for whole runs on a reliable synchronous one. C33_atc_documented_refuted: ATC mixes the agent's own un-adapted state, so it satisfies C33_atc_run and not its documented recursion. DLM and DiNNO sum received arrays in place, and all receivers of a message share one array: proved that this changes nothing for immutable arrays (TensorFlow, JAX), on stars (DLM) or pairs (DiNNO), or with noise (DLM) - C33_*_as_without_sharing, C33_dlm_run, C33_dinno_run; refuted on other graphs with NumPy/PyTorch: C33_dlm_shared_refuted, C33_dinno_shared_refuted. The variance-reduced GT_SAGA, GT_VR, LT_ADMM_VR likewise; GT_SARAH for any activity but no lost messages: C33_gt_sarah_lossy_refuted, an agent that misses a message of an inner round mixes the stale one of the round before."
 },
 "C34": {
  "status": "partial",
  "note": "Proved for DGD, SimpleGT, EXTRA (deterministic gradients), NIDS, ED, Wang-Elia, LED, KGT, ProxSkip, DLM (where sharing is harmless, see C33), and for ATC-Tracking and AugDGM under C35. Refuted beyond that: C34_atc_mean_refuted, C34_extra_stochastic_refuted, C34_inactive_refuted."
 },
 "C38": {
  "status": "proved",
  "note": "Mean invariant proved for every reliable network and selection, first-round and full-participation one-step equality with FedAvg, plus the exact drift with lost uploads. C38_lossy_refuted shows that reliability of messages is needed."
 },
 "C39": {
  "status": "partial",
  "note": "FedProx(0) = FedAvg; FedOpt with constant second moment 0 and eta=eps, FedNova with equal steps and counts = FedAvg. C39_adaptive_refuted: FedAdam, FedYogi and FedAdagrad have no parameters for which they reduce to FedAvg."
 },
 "C40": {
  "status": "partial",
  "note": "Counters equal the number of selecting rounds for every federated algorithm; the fraction lies in [0,1] after every finished run. C40_raised_refuted: after a run that raises the reported fraction can exceed one."
 },
 "C41": {
  "note": "Seed range and distinctness proved in full (pairs: 6685 algorithms x 578554 trials, tight). Reproducibility (C41_seeded_draws_partial) holds for Python's generator and the frameworks of the costs; C41_numpy_unseeded_refuted: NumPy's generator, from which schemes and samplers draw, is not seeded per trial when no cost is NumPy-based."
 },
 "C42": {
  "note": "Trial and benchmark level, for every kill point except between opening and closing a JSON file; C42_torn_*_refuted show those points break it. Benchmark level assumes algorithms act through the network interface and do not read histories."
 },
 "C43": {
  "note": "Retention of the newest keep files and loadability proved for a fixed checkpoint_step; refuted when the step changes between resumes (C43_changed_step_refuted) and for the file bound of completed trials."
 },
 "C45": {
  "note": "Mark/unmark histories in full (C45_mark_history); crash/resume histories for the original trials. C45_added_trials_refuted: trials added by a resume are ignored by is_benchmark_completed and load_benchmark_result."
 },
 "C46": {
  "note": "Any sequence of killed resumes and extensions, provided that after adding iterations later resumes add some too; C46_extension_lost_refuted shows a plain resume forgets the extension. Equality is up to history entries forced at former targets."
 },
 "C47": {
  "note": "Any completion order of processes; new benchmarks and resumes that add iterations return in trial order. C47_resume_order_refuted: other resumes return completed trials first."
 },
 "C44": {
  "status": "proved",
  "note": "Round trip of initial algorithms needs distinct hashes and agents of the network (the refuted theorems show each is needed); load_benchmark_result does not decode them. Checkpoints: the payload is pickled whole (pickle assumed faithful)."
 },
 "C51": {
  "note": "Least squares for the chosen breakpoint in full; best over all breakpoints when there are at most num_grid_points+1 finite points. C51_search_loses_fit_refuted: otherwise the refined grid can skip the best breakpoint found (83 points, defaults). C51_documented_breakpoint_refuted: the returned breakpoint is one less than the b of the documented curve."
 },
 "C64": {
  "note": "C64_hole_refuted: an entry without logarithm inside the trajectory shifts later ones and changes the rate; entries at the end are harmless."
 },
 "C63": {
  "note": "Metrics that do not read call counters are repeatable. C63_call_counts_refuted: evaluating regret/gradient/loss metrics goes through the agents' counting wrappers, so a second computation reports larger call counts."
 },
 "C65": {
  "note": "For finite values (groups with infinities or NaN are a parameter); the ddof of the across-agent np.std is left open because pandas versions differ; row order ignored."
 },
 "C66": {
  "note": "Holds for costs without private state and, up to batch_used, for full batches. C66_minibatch_refuted: with mini-batches every evaluation consumes a batch, so watching changes the run. C66_interval_zero_refuted: update_interval=0 ends the trial after one iteration."
 },
 "C36": {
  "note": "Every exact method of the list, and DLM and DiNNO where sharing of received arrays is harmless. With in-place arrays DLM on a triangle and DiNNO on a path of three leave a consensual optimum: C36_dlm_shared_refuted, C36_dinno_shared_refuted."
 },
 "C68": {
  "status": "proved",
  "note": "Unbiased over every family of batches in which all samples are equally likely; the sampler's batches of its first epoch are such families over its permutations. Beyond the property, C68_given_history_refuted: conditionally on the earlier batches of an epoch they are not (the sampler draws without replacement), so per-iteration unbiasedness given the past fails."
 },
 "C69": {
  "note": "Accuracy, MSE, server metrics, order independence in full; precision and recall always equal accuracy (micro averaging), so C69_documented_precision_and_recall_refuted. C69_own_accuracy_refuted: one diverged agent makes the metric NaN for every agent. C69_available_accuracy_refuted: a metric can be available and raise when computed."
 },
 "C70": {
  "note": "Availability checks modelled one by one."
 },
 "C72": {
  "note": "Points of every curve in full. C72_every_algorithm_drawn_refuted: an algorithm without finite values of the first metric is missing from all plots. C72_order_kept_refuted: the replacement of non-positive values is always 1e-15, also above smaller positive values."
 },
 "C73": {
  "note": "Total cost and abscissas in full. C73_same_work_refuted: the abscissa is iteration times the total of the whole run, so equal work stands at different places and the last point of a run is not at its total."
 },
 "C77": {
  "status": "proved",
  "note": "The optimum for two or more agents (a sum of linear regression costs is solved in closed form). With one agent solve() treats the single cost by the iterative solvers, whose rates are C60; for batch_size < 10 that run is stochastic and no theorem covers it."
 },
 "C78": {
  "status": "partial",
  "note": "Creation succeeds exactly when every agent got both classes (C78_costs_created_iff); hence false as stated: C78_always_created_refuted. The optimum is approximate: value within the accelerated-gradient rate after the iterations made."
 },
 "C79": {
  "status": "partial",
  "note": "What the test data are is proved; 'held out' is false: C79_held_out_refuted (with a seed and ten agents the test set is the training set, because both handlers generate 100 samples from the same seed)."
 },
 "C81": {
  "status": "partial",
  "note": "Proved for every history with positive max_batch_size. Two parts are false: a list with as many entries as a loaded dataset is replaced by the whole dataset (C81_list_of_full_length_refuted); a negative max_batch_size is accepted and every loss is 0 (C81_negative_max_batch_size_refuted)."
 },
 "C82": {
  "status": "partial",
  "note": "'Every sample is eventually used' is false without a data loader (C82_coverage_refuted: the remainder of each round is dropped); the rest is proved, epochs between two picklings."
 },
 "C84": {
  "status": "partial",
  "note": "Proved when selections fit into max_batch_size (the default); C84_pieces describes the general case. False: independence of max_batch_size (C84_max_batch_size_refuted), the caller's vector is overwritten in place (C84_argument_kept_refuted), a one-parameter model gets no correction (C84_single_parameter_refuted)."
 },
 "C85": {
  "status": "partial",
  "note": "Proved for trials started or resumed before their last iteration. False for a trial resumed from a checkpoint of its last iteration: it has nothing left to do and its bar does not fill (C85_resumed_at_the_end_refuted)."
 },
 "C86": {
  "status": "partial",
  "note": "Proved for metrics of different classes. Two metrics of one class are mixed in one line (C86_one_figure_per_metric_refuted) and only the first path is used (C86_second_path_refuted)."
 },
 "C87": {
  "status": "partial",
  "note": "Proved for history entries, initialize and messages. False: receivers of one noise-free message share one array (C87_broadcast_shared_refuted); agent.x is the live array, so x also changes without an assignment (C87_x_only_by_assignment_refuted); initialize without x keeps the old x (C87_initialize_resets_x_refuted); FedNova with use_prox on a bare L2RegularizerCost, whose gradient is its argument, updates differently from its documentation (C87_fednova_l2_prox_refuted)."
 },
 "C88": {
  "status": "partial",
  "note": "Proved except: a TensorFlow tensor is not moved to the requested device (C88_tensorflow_device_refuted) and a requested dtype is ignored when the array already is of the target framework (C88_dtype_refuted)."
 },
 "C89": {
  "status": "partial",
  "note": "Arguments, warnings and refusal proved. False: the result is never converted to the framework of x, because the return annotation is compared with the class Array but is a string under 'from __future__ import annotations' (C89_result_like_x_refuted)."
 },
 "C90": {
  "status": "proved",
  "note": "ED, NIDS, EXTRA, DLM, Wang-Elia, AugDGM and ATC tracking; synchronous runs, exact gradients in real arithmetic."
 },
 "C91": {
  "status": "proved",
  "note": "FedAvg, FedProx, FedNova and Scaffold with one local step (synchronous); FedAvg with any number of steps and losses for a common minimiser. C91_fednova_optimum_refuted shows that the weighting by sample counts matters: with unequal counts FedNova does not reach the minimiser of the plain sum. Several local steps: C91_fedavg_steps_linear (to the balanced point), C91_fedavg_steps_refuted (not the optimum), C91_scaffold_stays."
 },
 "C92": {
  "status": "proved",
  "note": "Sum of squared errors bounded for 0 < alpha <= 1; last iterate for alpha < 1."
 },
 "C93": {
  "status": "proved",
  "note": "DGD, constant step size."
 },
 "C94": {
  "status": "partial",
  "note": "Proved for operands of one framework. False as documented: a NumPy first operand is not checked (C94_mixed_refuted), results are native values, not Array (C94_returns_array_refuted), dot of TensorFlow tensors raises AttributeError (C94_tensorflow_dot_refuted)."
 },
 "C95": {
  "status": "partial",
  "note": "Values, aliasing and frame proved. False: the returned object is not always the modified one (C95_modified_object_refuted), programs are not portable between frameworks when broadcasting enlarges the result (C95_portable_refuted), an Array around a number supports + but not += (C95_number_refuted)."
 },
 "C96": {
  "status": "partial",
  "note": "Proved for one framework. NumPy before JAX is accepted, JAX before NumPy is not (C96_mixed_refuted)."
 },
 "C97": {
  "status": "proved",
  "note": "Mean and probability over independent coins, ConvSpec.expect; exact gradients in real arithmetic."
 },
 "C98": {
  "note": "Proved for arguments of the documented types (C98_accepts_partial); refuted beyond them: nine classes test step sizes only when they are floats, so step_size=-1 or 0 (an int) is accepted (C98_integer_step_refuted), and NaN or infinity passes every one-sided check (C98_nan_refuted) while two-sided checks refuse NaN (C98_nan_two_sided)."
 },
 "C99": {
  "note": "Proved for the two samplers and for PyTorch networks in which every node has a PyTorchCost. Refuted: on a FedNetwork the per-agent PyTorch initialisation raises TypeError because of the server's own cost (C99_pytorch_federated_refuted); with all_same only the first agent's cost is checked (C99_pytorch_same_refuted)."
 },
 "C100": {
  "note": "Round trip proved when there is at least one table metric; crash safety proved for the first save. Refuted: with table_metrics=[] and a completed benchmark the reloaded result has no algorithms and display shows nothing (C100_plot_only_refuted); a second save killed while overwriting leaves the old completion marker next to a torn file (C100_resave_refuted); after an extension the old metrics still count as computed (C100_stale_refuted)."
 },
 "C101": {
  "note": "Proved for argmax, argmin, transpose and the norm of vectors. Refuted: norm of a matrix is the spectral norm, for the identity 1 instead of sqrt n (C101_norm_matrix_refuted; C101_norm_matrix shows it never exceeds the documented one); from three axes on only TensorFlow accepts the call (C101_norm_rank_refuted); PyTorch takes transpose(dim=()) for a reversal where NumPy refuses it (C101_transpose_empty_refuted)."
 },
 "C102": {
  "status": "proved",
  "note": "End to end: iterates (C90, C92) through snapshots (C04) to what the metrics return (C50). Synchronous runs over exact reals; n is the dimension of the variables. Federated: Scaffold all four metrics, FedAvg and FedProx three; C102_fedavg_consensus_refuted shows that FedAvg's ConsensusError does not vanish."
 },
 "C103": {
  "note": "Loading what was saved and reading a completed trial's result are proved except for keep_n_checkpoints = 1 with an old-format file of the same iteration, where they fail (C103_old_format_result_refuted); a foreign file that looks like a checkpoint makes every save raise (C103_foreign_file_refuted)."
 },
 "C104": {
  "note": "Positive part: delivery in multi-process benchmarks for all schedules, and the first call's level. Refuted part: the level of later calls, and every message (tables included) after a multi-process benchmark has returned. Records of other libraries' loggers, logging.disable and failing handlers are not modelled."
 },
 "C105": {
  "note": "The program is modelled as the sequence of its helper starts and stops with exceptions at any point (Model/Lifecycle.v); trials of several processes are written one after the other. Partial: the plotter is only stopped if there was a trial to run (C105_plotter_left_refuted), and escaping exceptions leave the bars' thread (C105_raised_hangs, C105_raise_stops_everything_refuted)."
 },
 "C106": {
  "note": "Built on the model of C42/C46; archives are copies of the directory as modelled there. Refuted: a benchmark killed while writing metadata, algorithms or problem leaves a directory that neither resume_benchmark nor benchmark accepts (C106_killed_initialize_refuted); from then on it can be resumed (C106_initialized_resumable)."
 },
 "C107": {
  "note": "choice for every framework, size, replacement flag and generator state (C107_choice, C107_shuffle, C107_choice_too_many), TensorFlow's top-k (C107_top_scores), the range of uniform (C107_uniform_range), element types (C107_like_dtype); C107_choice_zero_refuted, C107_choice_number_refuted and C107_like_dtype_refuted record where frameworks differ. What the libraries' generators return is assumed to be within their documentation."
 },
 "C108": {
  "note": "C108_squeeze_*, C108_diag_*, C108_eye_like, C108_stack*, C108_reduce_stack, C108_set_item* for every framework, shape and axis; the three _refuted theorems record where frameworks or documentation differ. What the frameworks' own functions do is written from their documentation."
 },
 "C109": {
  "note": "C109_subplots, C109_grid, C109_legend, C109_files, C109_nothing_saved, C109_closed for all metrics, algorithms and groups; the _refuted theorems record names starting with an underscore and figures left open. matplotlib's axes are lists of what is set on them."
 },
 "C110": {
  "note": "C110_forward (against an inductive specification, with C110_unique), C110_parameters, C110_no_activation_affine, C110_range, C110_unknown_activation, C110_argmax, C110_argmax_sigmoid for all sizes, depths, weights and inputs over the reals, one sample (row) at a time; torch's own modules are written from their documentation."
 },
 "C111": {
  "note": "C111_gaussian and C111_no_spread after any history of any network (through C07), C111_constructor, C111_location_scale. The draws are a given stream per call of the generator; entries are reals."
 },
 "C112": {
  "note": "C112_sequence, C112_scalars, C112_out_of_range, C112_stack_of_items, C112_slice, C112_split for all shapes and keys (an integer or a slice without step on the first axis); C112_out_of_range_refuted records JAX. The frameworks' indexing is written from their documentation."
 },
 "C113": {
  "note": "Proved on the model of FedNova of C37 (Model/Fed.v), real arithmetic; C113_run removes the positivity hypothesis of C37_fednova_run. That the constructor accepts step_size * penalty >= 2 is read off Model/Validate.v."
 }
}