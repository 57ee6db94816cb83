{"id": "C01", "title": "History lookup is nearest-preceding", "statement": "After any sequence of accepted history[k]=x writes, history[q] for q>=0 returns the value of the last write made at the greatest written iteration <= q; it raises exactly when no written iteration is <= q; history[-1] is the value at the greatest written iteration; q<-1 and negative writes raise and change nothing.", "quantifier": "all write sequences (any order, with overwrites) and all integer queries", "why_tests_cant": "the order of writes and the query point are unbounded; a test samples a handful of insertion orders", "anchors": ["decent_bench/agents.py:AgentHistory.set_x", "decent_bench/agents.py:AgentHistory.get_x"]}
{"id": "C02", "title": "History keys are sorted and exact", "statement": "keys()/iteration/items() list exactly the distinct iterations ever written, strictly increasing; len() is their number; `k in history` iff k was written; min()/max() are the least/greatest written iteration and raise iff nothing was written.", "quantifier": "all write sequences", "why_tests_cant": "bisect.insort correctness over all insertion orders is an inductive invariant", "anchors": ["decent_bench/agents.py:AgentHistory"]}
{"id": "C03", "title": "Received-message store behaves as a (channel,sender) map", "statement": "Under any sequence of put/clear calls, message(s,c) returns the last message put for (s,c) since it was last cleared, and raises KeyError iff there is none; messages(c) lists exactly those; clear(None,None), clear(None,c), clear(s), clear([..],c) remove exactly the entries in their scope.", "quantifier": "all operation sequences", "why_tests_cant": "interleavings of scoped clears and overwrites are unbounded; nested-dict pruning must be shown not to lose or resurrect entries", "anchors": ["decent_bench/agents.py:ReceivedMessages"]}
{"id": "C04", "title": "Snapshot schedule", "statement": "After Algorithm.run to completion with N iterations every snapshotted agent's history holds exactly the iterations {0} (when initialised) plus every k in 1..N that is a multiple of its snapshot period or equal to N, and the value stored at k is the agent's x at the end of iteration k-1 (state after k iterations); a run resumed at any point of that run adds the same entries.", "quantifier": "all iteration counts, periods, algorithms and resume points", "why_tests_cant": "ranges over every period/length/resume combination", "anchors": ["decent_bench/agents.py:Agent._snapshot", "decent_bench/algorithms/_algorithm.py:Algorithm.run"]}
{"id": "C05", "title": "Oracle-call counting and no_count nesting", "statement": "For any program of cost calls and (nested, overlapping, exception-exiting) Agent.no_count blocks, an agent's reported number of function/gradient/hessian/proximal calls equals the sum over its calls made outside every block that lists it of the batch size used (1 for non-empirical costs); after all blocks exit counting is re-enabled for every agent.", "quantifier": "all well-nested programs, all agent lists (with repetitions), all points where an exception escapes", "why_tests_cant": "nesting depth and exception points are unbounded", "anchors": ["decent_bench/agents.py:Agent.no_count", "decent_bench/agents.py:Agent._call_counting_gradient"]}
{"id": "C06", "title": "Message conservation", "statement": "At every moment after initialisation, the total of the agents' sent-message counters equals the total of their dropped counters plus the total of their received counters, whatever the drop, noise and compression schemes do.", "quantifier": "all networks, all send histories, all drop/noise/compression outcomes", "why_tests_cant": "requires an invariant over unbounded histories of probabilistic sends", "anchors": ["decent_bench/networks.py:Network.send"]}
{"id": "C07", "title": "Only fresh, legitimate messages are visible", "statement": "If agent r sees a message from s on channel c then, since the start of the current iteration, a successful send by s on c included r, r was connected to s and active; the visible value is the one of the last such send that was not dropped, i.e. the sender's compressed payload plus that delivery's noise. Nothing sent in an earlier iteration is visible.", "quantifier": "all networks, iterations, send histories and scheme outcomes", "why_tests_cant": "needs an invariant over every history of sends and steps", "anchors": ["decent_bench/networks.py:Network.send", "decent_bench/networks.py:Network._step"]}
{"id": "C08", "title": "Reliable networks deliver exactly", "statement": "With no drops, no noise and no compression, after a send each intended receiver sees exactly the array passed, every other (receiver, sender, channel) entry is unchanged, and the sender's and receivers' own states are unchanged.", "quantifier": "all networks, senders, receivers (broadcast, single, sequence), payloads", "why_tests_cant": "frame condition over all states", "anchors": ["decent_bench/networks.py:Network.send"]}
{"id": "C09", "title": "Active set is stable within an iteration", "statement": "Between two steps of the network, all queries of active agents, active connected agents and the receivers admitted by send refer to one and the same set, even if activation schemes are random or stateful; each agent's scheme is consulted at most once per iteration.", "quantifier": "all activation schemes (arbitrary stateful/random), all query/send interleavings", "why_tests_cant": "schedule-dependent caching property", "anchors": ["decent_bench/networks.py:Network.active_agents", "decent_bench/networks.py:Network.active_connected_agents"]}
{"id": "C10", "title": "A rejected send has no effect", "statement": "If send raises a ValueError then no message store and no counter of any agent changed.", "quantifier": "all states and arguments", "why_tests_cant": "all-paths atomicity property", "anchors": ["decent_bench/networks.py:Network.send", "decent_bench/networks.py:FedNetwork.send"]}
{"id": "C11", "title": "Federated star discipline", "statement": "In a FedNetwork every delivered message has the server as exactly one endpoint; a client's send without receiver goes to the server only, a server broadcast reaches active clients only, and client-to-client, server-to-server and client multicast are rejected.", "quantifier": "all federated networks and call arguments", "why_tests_cant": "must hold for every call on every reachable state", "anchors": ["decent_bench/networks.py:FedNetwork.send", "decent_bench/networks.py:FedNetwork._allowed_receivers"]}
{"id": "C12", "title": "Metropolis weights are symmetric doubly stochastic", "statement": "For a simple undirected graph the default consensus weights are symmetric, nonnegative, every row and column sums to one, weights are positive exactly on edges and on the diagonal, hence W averages preserve the mean.", "quantifier": "all finite simple graphs (any number of agents)", "why_tests_cant": "ranges over all graphs", "anchors": ["decent_bench/networks.py:P2PNetwork.weights"]}
{"id": "C13", "title": "Network construction validates and indexes agents", "statement": "Construction succeeds only if ids are distinct, no agent was already indexed, the node count matches, the graph is connected, undirected, simple and all costs share shape, framework and device; afterwards indices are exactly 0..n-1 in node order, and message schemes are defined for every agent.", "quantifier": "all agent lists and graphs", "why_tests_cant": "universally quantified over constructor inputs", "anchors": ["decent_bench/networks.py:Network.__init__", "decent_bench/networks.py:P2PNetwork.__init__", "decent_bench/networks.py:Network._initialize_message_schemes"]}
{"id": "C14", "title": "Cyclic activation duty cycle", "statement": "A CyclicActivation(a,i,offset) is active in exactly a of any a+i consecutive iterations, is periodic with period a+i, and the active iterations of each cycle are consecutive; with i=0 it is always active.", "quantifier": "all non-negative parameters and iterations", "why_tests_cant": "all windows at all offsets", "anchors": ["decent_bench/schemes.py:CyclicActivation.is_active"]}
{"id": "C15", "title": "Random activation schemes follow their draws", "statement": "PoissonActivation is active exactly after as many inactive queries as the interval drawn, for every sequence of draws; MarkovChainActivation with transition probability 0 or 1 is constrained accordingly (1->0 probability 0: always active).", "quantifier": "all draw sequences", "why_tests_cant": "unbounded stochastic schedules", "anchors": ["decent_bench/schemes.py:PoissonActivation", "decent_bench/schemes.py:MarkovChainActivation"]}
{"id": "C16", "title": "Client selection size and membership", "statement": "Every selection scheme returns distinct members of the pool, exactly min(m, pool size) of them for a count m and min(max(1, floor(f*pool)), pool) for a fraction f, none iff the pool is empty; the input is unmodified.", "quantifier": "all pools, sizes, fractions and random draws", "why_tests_cant": "all inputs and draws", "anchors": ["decent_bench/schemes.py:ClientSelectionScheme", "decent_bench/schemes.py:UniformSelection", "decent_bench/schemes.py:DataSizeSelection"]}
{"id": "C17", "title": "Fair selection is fair", "statement": "FairSelection returns a subset of minimal total past-selection count among subsets of that size, ties in pool order, and with a constant pool the selection counts of any two clients never differ by more than one, after any number of rounds.", "quantifier": "all histories of rounds and pools", "why_tests_cant": "long-run fairness over unbounded histories", "anchors": ["decent_bench/schemes.py:FairSelection"]}
{"id": "C18", "title": "High-loss selection picks highest losses", "statement": "Every client selected by HighLossSelection has loss at least that of every client not selected, whatever the tie-breaking permutation.", "quantifier": "all pools, losses, permutations", "why_tests_cant": "all inputs", "anchors": ["decent_bench/schemes.py:HighLossSelection"]}
{"id": "C19", "title": "Compression accuracy", "statement": "Quantization returns multiples of the step within half a step of every entry; StochasticQuantization returns one of the two neighbouring levels with the sign of the entry and errs by at most norm/n_levels per entry; TopK keeps entries exactly, zeroes the others, and no dropped entry exceeds a kept entry in magnitude; RandK keeps exactly its drawn entries.", "quantifier": "all messages and draws", "why_tests_cant": "all real vectors", "anchors": ["decent_bench/schemes.py:Quantization", "decent_bench/schemes.py:TopK", "decent_bench/schemes.py:RandK", "decent_bench/schemes.py:StochasticQuantization"]}
{"id": "C20", "title": "Compressed size equals what is transmitted", "statement": "compressed_msg_size equals the number of entries TopK/RandK transmit and never exceeds the message size, so a compressed message never counts as more than an uncompressed one.", "quantifier": "all k and message sizes", "why_tests_cant": "all parameters", "anchors": ["decent_bench/schemes.py:TopK.compressed_msg_size", "decent_bench/schemes.py:RandK.compressed_msg_size"]}
{"id": "C21", "title": "Partitions are disjoint and covering", "statement": "Every partitioner that returns, returns partitions that are pairwise disjoint, duplicate-free, within range, and (for all-data strategies) together contain every sample exactly once.", "quantifier": "all dataset sizes, labels, shuffles, draws", "why_tests_cant": "all inputs and random outcomes", "anchors": ["decent_bench/datasets/partitioners/_utils.py", "decent_bench/datasets/partitioners"]}
{"id": "C22", "title": "Even and proportional apportionment", "statement": "Even counts differ by at most one and sum to the total; proportional counts sum to the total, never exceed capacities, and without capacities differ from the exact quota by less than one.", "quantifier": "all totals, weights, capacities", "why_tests_cant": "arithmetic over all inputs", "anchors": ["decent_bench/datasets/partitioners/_utils.py:_proportional_counts", "decent_bench/datasets/partitioners/_utils.py:_even_counts"]}
{"id": "C23", "title": "Label-quantity partitions respect label budgets", "statement": "LabelQuantity gives each partition samples from at most the requested number of labels with the requested sizes whenever it returns.", "quantifier": "all label multisets and shuffles", "why_tests_cant": "assignment through a max-flow computation; correctness over all graphs", "anchors": ["decent_bench/datasets/partitioners/_label_quantity.py"]}
{"id": "C24", "title": "User partitions are validated", "statement": "A user-supplied index partition is accepted only if its indices are integers in range and pairwise distinct across partitions, and an accepted one is used verbatim.", "quantifier": "all inputs", "why_tests_cant": "all inputs", "anchors": ["decent_bench/datasets/_dataset_handler.py"]}
{"id": "C25", "title": "Mini-batches are epoch sampling without replacement", "statement": "Stochastic mini-batches have the configured size b and contain no duplicates; in every epoch of floor(n/b) consecutive batches no sample repeats, an epoch and the next batch together cover the dataset (an epoch alone, exactly once, if b divides n), any 2*floor(n/b) consecutive batches contain every sample, and explicit index requests are answered literally without disturbing the epochs; for every shuffle and call history.", "quantifier": "all dataset sizes, batch sizes, call counts, shuffles", "why_tests_cant": "unbounded call history with carry-over between epochs", "anchors": ["decent_bench/costs/_empirical_risk/_empirical_risk_cost.py:EmpiricalRiskCost._sample_batch_indices"]}
{"id": "C26", "title": "Cost algebra is pointwise", "statement": "For any expression built with +, -, unary -, scalar * and / from costs, function, gradient and hessian of the resulting object equal the same combination of the operands' values, however the classes flatten or merge sums, scales, zeros and quadratics.", "quantifier": "all expression trees and points", "why_tests_cant": "unbounded expression nesting with class-dependent simplification", "anchors": ["decent_bench/costs/_base/_cost.py", "decent_bench/costs/_base/_sum_cost.py", "decent_bench/costs/_base/_scaled_cost.py", "decent_bench/costs/_base/_quadratic_cost.py"]}
{"id": "C27", "title": "Proximal operators solve the prox problem", "statement": "Closed-form proximals (quadratic, scaled, l1, l2, zero, ...) return the unique minimiser of f(z)+|z-x|^2/(2*penalty) for every x and admissible penalty.", "quantifier": "all points, penalties, parameters", "why_tests_cant": "optimality against all competitors", "anchors": ["decent_bench/costs/_base/_regularizer_costs.py", "decent_bench/costs/_base/_scaled_cost.py", "decent_bench/costs/_base/_quadratic_cost.py"]}
{"id": "C28", "title": "Empirical risk is the mean over the batch", "statement": "Function/gradient/hessian of an empirical cost on given indices equal the arithmetic mean of the per-sample values over exactly those indices, and on \"all\" over every sample.", "quantifier": "all index lists and data", "why_tests_cant": "all index lists including full-length permutations/duplicates", "anchors": ["decent_bench/costs/_empirical_risk/_linear_regression_cost.py:LinearRegressionCost._get_batch_data"]}
{"id": "C29", "title": "Quadratic optimum", "statement": "The optimum returned for a quadratic problem has zero gradient for every quadratic cost, including non-symmetric A.", "quantifier": "all quadratic costs", "why_tests_cant": "all matrices", "anchors": ["decent_bench/centralized_algorithms.py:solve", "decent_bench/costs/_base/_quadratic_cost.py"]}
{"id": "C30", "title": "Centralised solver stopping guarantee", "statement": "When the iterative solver reports success, its stopping criterion holds at the returned point; it performs at most max_iter iterations and returns the last iterate.", "quantifier": "all costs, steps, tolerances", "why_tests_cant": "all trajectories", "anchors": ["decent_bench/centralized_algorithms.py"]}
{"id": "C31", "title": "Run executes each iteration exactly once in order", "statement": "Algorithm.run initialises iff starting from 0, then performs iterations start..N-1 exactly once and in order, each with a fresh message store; it rejects start<0 or >N without effect.", "quantifier": "all iteration counts, starts, algorithms", "why_tests_cant": "all counts", "anchors": ["decent_bench/algorithms/_algorithm.py:Algorithm.run"]}
{"id": "C32", "title": "Split runs equal one run", "statement": "Running to iteration k, saving, restoring and resuming at k gives the same final network state, histories, counters and messages as an uninterrupted run, for every k.", "quantifier": "all algorithms, networks, k, random streams", "why_tests_cant": "all cut points", "anchors": ["decent_bench/algorithms/_algorithm.py:Algorithm.run", "decent_bench/benchmark/_benchmark.py:_run_trial"]}
{"id": "C33", "title": "P2P algorithms implement their recursions", "statement": "On a reliable synchronous network one step of DGD, ATC, gradient tracking variants, EXTRA, NIDS, ED, AugDGM, KGT, LED, ProxSkip, ADMM ... maps the agents' states by the published matrix recursion with the network's weights.", "quantifier": "all networks, states, costs, step sizes", "why_tests_cant": "all states", "anchors": ["decent_bench/algorithms/p2p"]}
{"id": "C34", "title": "Average dynamics of consensus algorithms", "statement": "With doubly stochastic weights on a reliable network the mean of the agents' states follows the centralised recursion (DGD: mean moves by minus step times mean gradient), for every number of iterations.", "quantifier": "all networks, costs, initial states, iteration counts", "why_tests_cant": "invariant over unbounded runs", "anchors": ["decent_bench/algorithms/p2p/_dgd.py", "decent_bench/algorithms/p2p/_atc.py"]}
{"id": "C35", "title": "Gradient-tracking conservation", "statement": "For gradient-tracking methods the sum of tracking variables equals the sum of the current local gradients after every iteration.", "quantifier": "all networks, costs, runs", "why_tests_cant": "inductive invariant over unbounded runs", "anchors": ["decent_bench/algorithms/p2p/_simple_gt.py", "decent_bench/algorithms/p2p/_atc_tracking.py", "decent_bench/algorithms/p2p/_aug_dgm.py"]}
{"id": "C36", "title": "Consensual optima are fixed points", "statement": "Exact methods leave an optimal consensual state with consistent auxiliary variables unchanged; plain DGD does so only if every local gradient vanishes.", "quantifier": "all networks, costs with a common minimiser of the sum", "why_tests_cant": "all instances", "anchors": ["decent_bench/algorithms/p2p"]}
{"id": "C37", "title": "Federated aggregation is the average of what arrived", "statement": "After a FedAvg-type round the server state is the average of the updates received in this round, unchanged if none was received; clients not selected or not active are untouched.", "quantifier": "all participation patterns, drops, clients", "why_tests_cant": "all subsets", "anchors": ["decent_bench/algorithms/federated/_fed_algorithm.py:FedAlgorithm.aggregate", "decent_bench/algorithms/federated/_fed_avg.py"]}
{"id": "C38", "title": "Scaffold control-variate invariant", "statement": "In Scaffold the server control variate is the mean of client control variates after every round with reliable messages, and with zero control variates and one local step Scaffold coincides with FedAvg.", "quantifier": "all rounds, selections", "why_tests_cant": "inductive invariant over unbounded rounds", "anchors": ["decent_bench/algorithms/federated/_scaffold.py"]}
{"id": "C39", "title": "Federated family reductions", "statement": "FedProx with mu=0 is FedAvg; FedOpt-type servers with identity settings reduce to FedAvg; FedNova with equal local steps reduces to FedAvg.", "quantifier": "all states and clients", "why_tests_cant": "equivalence on all runs", "anchors": ["decent_bench/algorithms/federated"]}
{"id": "C40", "title": "Selection bookkeeping", "statement": "Each client's selected counter equals the number of rounds in which it was selected; the reported fraction of selected clients lies in [0,1].", "quantifier": "all runs", "why_tests_cant": "unbounded runs", "anchors": ["decent_bench/algorithms/federated/_fed_algorithm.py", "decent_bench/metrics/metric_library.py:FractionSelectedClients"]}
{"id": "C41", "title": "Trial seeds are reproducible and distinct", "statement": "The seed of (algorithm index, trial index) depends only on these and the base seed, lies in 32-bit range, differs between any two trials of one algorithm and between algorithms for a trial within realistic ranges.", "quantifier": "all base seeds, indices", "why_tests_cant": "modular arithmetic over all indices", "anchors": ["decent_bench/benchmark/_benchmark.py:_derive_trial_seed"]}
{"id": "C42", "title": "Crash-resume equivalence", "statement": "If the process dies at any point of the checkpointing protocol and the benchmark is resumed, completed trials are not rerun and every other trial's final network equals that of a run that never crashed.", "quantifier": "all crash points, checkpoint periods, keep limits, trial schedules", "why_tests_cant": "every prefix of every file-system operation sequence", "anchors": ["decent_bench/utils/checkpoint_manager.py", "decent_bench/benchmark/_benchmark.py:_run_trial"]}
{"id": "C43", "title": "Checkpoint retention", "statement": "After every save the newest keep_n checkpoints (by iteration) are retained, the one named by the progress file is always loadable, and older ones are removed.", "quantifier": "all save sequences and keep_n", "why_tests_cant": "all histories", "anchors": ["decent_bench/utils/checkpoint_manager.py:CheckpointManager.save_checkpoint"]}
{"id": "C44", "title": "Checkpoint round trip", "statement": "Loading a checkpoint returns the algorithm, network, iteration and RNG state that were saved, including agent-keyed mappings inside algorithm state.", "quantifier": "all states", "why_tests_cant": "all nestings of agent-keyed dictionaries", "anchors": ["decent_bench/utils/checkpoint_manager.py"]}
{"id": "C45", "title": "Completion bookkeeping", "statement": "is_benchmark_completed holds iff every (algorithm, trial) of the benchmark has been marked complete and not unmarked since; load_benchmark_result returns exactly the completed trials' final networks.", "quantifier": "all mark/unmark/extend histories", "why_tests_cant": "all histories", "anchors": ["decent_bench/utils/checkpoint_manager.py"]}
{"id": "C46", "title": "Extending a benchmark", "statement": "Resuming with increased trials or iterations runs exactly the missing trials/iterations and reuses the rest; the extension persists over later resumes.", "quantifier": "all sequences of resumes", "why_tests_cant": "histories of resumes", "anchors": ["decent_bench/benchmark/_benchmark.py:resume_benchmark"]}
{"id": "C47", "title": "Results are keyed by trial", "statement": "The list of final networks returned per algorithm is ordered by trial index independent of which trials were loaded or rerun and of completion order.", "quantifier": "all completion patterns", "why_tests_cant": "all interleavings", "anchors": ["decent_bench/benchmark/_benchmark.py:_run_trials"]}
{"id": "C48", "title": "RNG state round trip", "statement": "Restoring a captured RNG state makes every later draw of every covered generator equal to the draw that would have followed the capture.", "quantifier": "all generators, draw sequences", "why_tests_cant": "unbounded draw sequences", "anchors": ["decent_bench/utils/interoperability/_rng.py"]}
{"id": "C49", "title": "Metric iteration axis", "statement": "Metrics are computed at exactly the union of the recorded iterations, sorted without duplicates; agents without a snapshot at an iteration contribute their nearest preceding snapshot.", "quantifier": "all histories", "why_tests_cant": "all histories", "anchors": ["decent_bench/metrics/utils.py:all_sorted_iterations", "decent_bench/benchmark/_compute/_compute_metrics.py:_all_iterations"]}
{"id": "C50", "title": "Metric semantics", "statement": "Regret is non-negative when x_optimal minimises the sum of costs, consensus error is zero iff all agents agree, the mean state minimises the sum of squared consensus errors, x error is the distance of the mean state to the optimum.", "quantifier": "all states, costs", "why_tests_cant": "all inputs", "anchors": ["decent_bench/metrics/utils.py", "decent_bench/metrics/metric_library.py"]}
{"id": "C51", "title": "Elbow fit is least-squares optimal", "statement": "fit_elbow_curve returns the slope, intercept and breakpoint of the elbow curve that fits the finite data best: for the breakpoint it settles on, slope and intercept minimise the residual among all slopes and intercepts; over all breakpoints the fit is best; and the breakpoint returned is the b of the documented curve.", "quantifier": "all data vectors (including NaN and infinite entries) and valid search parameters", "why_tests_cant": "optimality against all competitors", "anchors": ["decent_bench/metrics/utils.py:fit_elbow_curve", "decent_bench/metrics/utils.py:_fit_elbow_curve_given_breakpoint"]}
{"id": "C52", "title": "Drop schemes respect their rates", "statement": "UniformDropRate with rate 0 never drops and with rate 1 always drops; a Gilbert-Elliott link with drop rate 0, or one that starts good and has good-to-bad probability 0, never drops; with drop rate 1, bad start and no recovery it drops everything; with bad-to-good probability 1 it never drops two messages in a row.", "quantifier": "all parameters in range and all sequences of random draws", "why_tests_cant": "claims quantify over every infinite draw sequence; a test samples a few seeds", "anchors": ["decent_bench/schemes.py:UniformDropRate", "decent_bench/schemes.py:GilbertElliott"]}
{"id": "C53", "title": "Label shares are proportional", "statement": "Of the samples used by split_stratified_iid or split_dirichlet_label, each label contributes its exact proportional share rounded up or down.", "quantifier": "all label lists, partition counts, size requests, shuffles", "why_tests_cant": "largest-remainder rounding over all multisets of labels", "anchors": ["decent_bench/datasets/partitioners/_stratified_iid.py:split_stratified_iid", "decent_bench/datasets/partitioners/_dirichlet_label.py:split_dirichlet_label"]}
{"id": "C54", "title": "Dirichlet retries cannot change the sizes", "statement": "split_dirichlet_label raises for a minimum partition size iff one of the requested sizes is below it; the number of retries has no influence on whether it raises.", "quantifier": "all labels, sizes, minimum sizes, retry limits, random draws", "why_tests_cant": "all random draws", "anchors": ["decent_bench/datasets/partitioners/_dirichlet_label.py:split_dirichlet_label"]}
{"id": "C55", "title": "Stratified splits can be farther from proportional than integer sizes force (finding)", "statement": "Contrary to its docstring ('as closely as integer partition sizes allow'), there are inputs for which split_stratified_iid returns partitions in which a label's count is not its exact share rounded up or down, although a partition of the same sizes with all counts rounded shares exists.", "quantifier": "all labels and sizes", "why_tests_cant": "optimality over all partitions of the dataset", "anchors": ["decent_bench/datasets/partitioners/_stratified_iid.py:split_stratified_iid"]}
{"id": "C56", "title": "Smoothness and convexity constants of composed costs are valid", "statement": "Whenever a cost built with the operators reports a finite m_smooth (m_cvx), its gradient is Lipschitz with that constant (it is convex with that modulus), provided its basic costs report valid constants; the built-in regularizers and quadratics do (m_cvx of a quadratic up to the tolerance 1e-12).", "quantifier": "all cost objects, all compositions and scalars, all pairs of points", "why_tests_cant": "a Lipschitz bound ranges over all pairs of points and all compositions; step sizes of every solver are derived from it", "anchors": ["decent_bench/costs/_base/_cost.py", "decent_bench/costs/_base/_sum_cost.py", "decent_bench/costs/_base/_scaled_cost.py", "decent_bench/costs/_base/_regularizer_costs.py", "decent_bench/costs/_base/_quadratic_cost.py"]}
{"id": "C57", "title": "Gradient and hessian are the derivatives", "statement": "For every cost built with the operators, gradient(x) is the derivative of function at x and hessian(x) the derivative of gradient at x, provided this holds for its basic costs; it does for quadratics, the l2 and fractional regularizers everywhere and for l1 off the coordinate hyperplanes.", "quantifier": "all cost objects, all points", "why_tests_cant": "finite differences at sampled points cannot establish a limit at every point", "anchors": ["decent_bench/costs/_base/_quadratic_cost.py", "decent_bench/costs/_base/_regularizer_costs.py", "decent_bench/costs/_base/_sum_cost.py"]}
{"id": "C58", "title": "Class labels are encoded one to one", "statement": "LogisticRegressionCost encodes the two label values of a dataset as the classes 0 and 1 in training, one label per class, and predict maps classes back to the same labels, whatever the two label values are.", "quantifier": "all pairs of label values and orders of the label set", "why_tests_cant": "all label values and hash orders", "anchors": ["decent_bench/costs/_empirical_risk/_logistic_regression_cost.py:LogisticRegressionCost._get_batch_data"]}
{"id": "C59", "title": "Centralised solvers converge at the textbook rate", "statement": "On a smooth convex cost with valid constants, GradientDescent and AcceleratedGradientDescent with default parameters (and through them solve and proximal_solver) return after k <= max_iter steps a point whose error is within the textbook bound: L|x0-z|^2/(2k) resp. 2L|x0-z|^2/(k+1)^2 for convex costs, and linear contraction with ((L-mu)/(L+mu))^2 resp. 1-sqrt(mu/L) per step for strongly convex ones.", "quantifier": "all smooth convex costs, start points, iteration limits and tolerances", "why_tests_cant": "a rate is a statement about all costs, points and iteration counts", "anchors": ["decent_bench/centralized_algorithms.py:GradientDescent", "decent_bench/centralized_algorithms.py:AcceleratedGradientDescent", "decent_bench/centralized_algorithms.py:proximal_solver"]}
{"id": "C60", "title": "Solvers leave the caller's start point unchanged", "statement": "Running a centralised solver from x0 does not change the array the caller passed as x0. On a cost whose m_smooth is infinite the accelerated method with its default step size (1/inf = 0) returns its start point.", "quantifier": "all costs, solvers, start points and parameters", "why_tests_cant": "aliasing over every path", "anchors": ["decent_bench/centralized_algorithms.py:Solver", "decent_bench/interoperability/_operators.py"]}
{"id": "C61", "title": "Updates of x are counted", "statement": "No step of a library algorithm changes an agent's x without increasing its x_updates counter, the counter never decreases within a run, and after a finished run it is at least the number of iterations in which the agent's x changed.", "quantifier": "all library algorithms, networks, parameters, activation and loss patterns, run lengths", "why_tests_cant": "every execution and every algorithm, including rounds where agents are inactive or messages are lost", "anchors": ["decent_bench/agents.py:Agent.x", "decent_bench/algorithms"]}
{"id": "C62", "title": "Plot data and tables report the right value in the right place", "statement": "compute_metrics returns, for every metric, every algorithm, every trial and every iteration of the axis, exactly the values the metric computes on that trial's network at that iteration, each labelled with that algorithm, trial, iteration and agent, with no row missing or duplicated; table data holds the values at the last iteration of the axis; NaN is reported as +infinity and values beyond 1e30 in magnitude as signed infinity, all others unchanged.", "quantifier": "all sets of metrics, algorithms, trials, networks and histories", "why_tests_cant": "every combination of metrics, algorithms, trials and snapshot patterns", "anchors": ["decent_bench/benchmark/_compute"]}
{"id": "C63", "title": "Computing metrics only observes", "statement": "Computing metrics on a benchmark result does not change the result: computing them again gives the same data.", "quantifier": "all results, metrics and numbers of repeated computations", "why_tests_cant": "depends on every metric and cost, and on side effects of evaluating them", "anchors": ["decent_bench/benchmark/_compute/_compute_metrics.py:compute_metrics", "decent_bench/agents.py:Agent", "decent_bench/metrics/metric_library.py"]}
{"id": "C64", "title": "linear_convergence_rate recovers the rate", "statement": "For errors c*rho^k the function returns exactly rho, whether they converge, stall or diverge, also when followed by exact zeros, infinities or NaN; strictly decreasing (increasing) errors give a rate below (above) 1; rescaling all errors by a positive constant does not change the rate; values without logarithm do not disturb it.", "quantifier": "all trajectories, lengths, constants and rates", "why_tests_cant": "ranges over all real trajectories and lengths", "anchors": ["decent_bench/metrics/utils.py:linear_convergence_rate"]}
{"id": "C65", "title": "Aggregated plots and tables", "statement": "A plot shows at every iteration of the axis the mean over trials of the mean over agents, with the smallest and largest trial mean as band; a table shows at the last iteration, for every requested statistic, the mean over trials and the population standard deviation over trials of that statistic across agents; a metric with one value per trial is shown once, without a statistic's name; statistics are resolved from their names and documented aliases, unknown names are ignored, mean and std are used when none is left.", "quantifier": "all results, metrics, numbers of agents, trials and iterations, and all requested statistics", "why_tests_cant": "ranges over all numbers of trials, agents, value sets and names", "anchors": ["decent_bench/benchmark/_compute/compute_plots.py:aggregate_plot_metrics", "decent_bench/benchmark/_compute/compute_tables.py:aggregate_table_metrics", "decent_bench/benchmark/_compute/compute_tables.py:_resolve_statistics"]}
{"id": "C66", "title": "Runtime metrics only observe the run", "statement": "Passing runtime_metrics to a benchmark does not change the run: the algorithm performs the same iterations on the same states, with the same result and the same call counters, even when a metric fails; each metric sends exactly one point at iteration 0, at every multiple of update_interval and at the last iteration, holding the documented average (loss, regret, gradient norm, consensus error) of the agents' current variables.", "quantifier": "all networks, costs, algorithms, sets of library or user-defined runtime metrics, intervals, start iterations", "why_tests_cant": "two whole executions must agree for every algorithm, cost and metric program", "anchors": ["decent_bench/metrics/_runtime_metric.py:RuntimeMetric", "decent_bench/metrics/runtime_library.py", "decent_bench/benchmark/_benchmark.py:_run_trial"]}
{"id": "C67", "title": "initial_states builds what the user asked for", "statement": "initial_states gives every node of the network exactly one state: zeros of its cost's shape for None, the given array for an Array of the right shape, its entry (matched by agent id) for a dict, and for a federated server without entry the mean of the clients' states; other agents' entries are ignored; missing agents, wrong shapes, wrong key types and other arguments are refused; states have the shapes the costs expect, and passing a result again returns it unchanged.", "quantifier": "all networks, shapes, dictionaries (any keys, any order, repeated ids) and arrays", "why_tests_cant": "ranges over all dictionaries, networks and shapes", "anchors": ["decent_bench/algorithms/utils.py:initial_states"]}
{"id": "C68", "title": "Variance-reduced estimators are exact where they should be and unbiased", "statement": "The gradient estimates of GT-SAGA, LT-ADMM-VR (SAGA), GT-VR (SVRG) and GT-SARAH equal the full local gradient when the batch is the whole dataset, make no error at the point of the stored table, snapshot or previous state, and average to the full gradient (SARAH: to the previous estimate plus the change of the full gradient) over batches in which all samples are equally likely, as the batches of EmpiricalRiskCost are; stored rows and snapshots are always gradients at points the agent visited.", "quantifier": "all datasets, sample gradients, batches, batch sizes, tables, snapshots, points; all runs", "why_tests_cant": "an expectation over all batches for all data and all reachable tables", "anchors": ["decent_bench/algorithms/p2p/_gt_saga.py", "decent_bench/algorithms/p2p/_gt_vr.py", "decent_bench/algorithms/p2p/_gt_sarah.py", "decent_bench/algorithms/p2p/_lt_admm_vr.py", "decent_bench/costs/_empirical_risk/_empirical_risk_cost.py:_sample_batch_indices"]}
{"id": "C69", "title": "Prediction metrics are what their names say", "statement": "For test data with whole-number labels, the accuracy metric reports for every agent the proportion of test samples whose prediction, made from the agent's state at that iteration, equals the target; MSE reports the mean squared difference; precision and recall are the documented ratios of true positives; the server metrics use the server's state. The values do not depend on the order of the test samples, lie in their ranges, and an available metric can always be computed. An agent whose predictions are not finite gets NaN.", "quantifier": "all test sets, predictors, networks, recorded histories and iterations", "why_tests_cant": "ranges over all data, predictors and histories, and relates metrics to each other for all of them", "anchors": ["decent_bench/metrics/utils.py:_accuracy", "decent_bench/metrics/utils.py:_precision", "decent_bench/metrics/utils.py:_recall", "decent_bench/metrics/utils.py:_mse", "decent_bench/metrics/metric_library.py:Accuracy", "decent_bench/costs/_empirical_risk/_logistic_regression_cost.py:predict"]}
{"id": "C70", "title": "compute_metrics computes exactly the available metrics", "statement": "compute_metrics goes on exactly if the metric descriptions are distinct within the table and within the plot metrics; it then computes, in the given order, exactly the metrics that are available for the problem; without arguments these are the default metrics whose documented condition the problem meets.", "quantifier": "all problems and lists of metrics", "why_tests_cant": "ranges over all metric lists and problems", "anchors": ["decent_bench/benchmark/_compute/_compute_metrics.py:compute_metrics", "decent_bench/metrics/metric_library.py:is_available"]}
{"id": "C71", "title": "display_metrics displays what was asked for", "statement": "display_metrics displays tables (plots) iff an available table (plot) metric is requested, and then exactly the aggregated rows whose metric and algorithm are requested, in the original order; None requests everything; unknown names, repetitions and order of the request have no effect; nothing is displayed iff no available algorithm or no available metric is requested.", "quantifier": "all metric results and requests", "why_tests_cant": "ranges over all results and all requests", "anchors": ["decent_bench/benchmark/_display/_display_metrics.py:display_metrics", "decent_bench/benchmark/_metric_result.py:MetricResult"]}
{"id": "C72", "title": "Plots show the data", "statement": "Every plot metric has one curve per algorithm; its points are exactly the aggregated values of that metric and algorithm before the algorithm's first infinite value, at their iterations; infinite values are never drawn; on a logarithmic y axis non-positive values are replaced by a positive value without changing the order of the values, on a logarithmic x axis all iterations are shifted by one if 0 occurs.", "quantifier": "all metric results, axes and divergence patterns", "why_tests_cant": "ranges over all frames of values, including infinite, NaN and non-positive ones", "anchors": ["decent_bench/benchmark/_display/display_plots.py:_preprocess", "decent_bench/benchmark/_display/display_plots.py:_create_and_plot_figures"]}
{"id": "C73", "title": "The computational-cost axis measures computational cost", "statement": "The total cost of an algorithm is the documented weighted sum of the mean numbers of calls over agents and trials; against computational cost a value stands at the (scaled) cost spent up to its iteration, so equal work stands at equal places; without costs or network views the axis is the iterations.", "quantifier": "all results, call counts, cost weights and scales", "why_tests_cant": "ranges over all call counts and cost weights and compares algorithms with each other", "anchors": ["decent_bench/benchmark/_display/display_plots.py:_calc_total_cost", "decent_bench/benchmark/_display/display_plots.py:_preprocess", "docs/source/api/snippets/computational_cost.rst"]}
{"id": "C74", "title": "Table cells and plot layout", "statement": "A table cell holds mean and std of the row with its metric, statistic and algorithm, scaled by scale_compute for the call counters only; cells without row are empty; the divergence hint appears iff an infinite value is shown; every plot metric is in exactly one figure of at most three; different algorithms (up to 1092) get different markers, styles or colours; the legend has a place for every label.", "quantifier": "all tables, scales, numbers of metrics, algorithms and labels", "why_tests_cant": "ranges over all tables and all sizes", "anchors": ["decent_bench/benchmark/_display/display_tables.py:display_tables", "decent_bench/benchmark/_display/display_plots.py:_organize_metrics_into_groups", "decent_bench/benchmark/_display/display_plots.py:_get_marker_style_color", "decent_bench/benchmark/_display/display_plots.py:_select_legend_mode"]}
{"id": "C75", "title": "Dataset handlers deliver their data", "statement": "get_datapoints returns one datapoint per sample in the order of the source, made of its features and its target; labels and datapoints agree; split returns for every requested index list exactly the datapoints at those indices (negative indices from the end), and refuses indices that are no integers, out of range or used twice; repeated calls on one handler see the same data, and with a seed a new handler generates the same data again.", "quantifier": "all handlers, all data sources, all histories of calls interleaved with changes of the seed, all partitions", "why_tests_cant": "ranges over all data frames, histories and index lists", "anchors": ["decent_bench/datasets/_synthetic_regression_handler.py", "decent_bench/datasets/_synthetic_classification_handler.py", "decent_bench/datasets/_kaggle_handler.py", "decent_bench/datasets/_pytorch_handler.py", "decent_bench/datasets/_dataset_handler.py"]}
{"id": "C76", "title": "Quadratic problems are well-posed and solved", "statement": "create_quadratic_problem returns n_agents quadratic costs, each strongly convex with constant 1 and smooth with constant 2 size, whatever is drawn, and the returned x_optimal is the unique minimiser of their sum.", "quantifier": "all sizes, numbers of agents and random draws in the documented ranges", "why_tests_cant": "ranges over all random matrices and vectors and over all points of the space", "anchors": ["decent_bench/benchmark/_utils.py:create_quadratic_problem"]}
{"id": "C77", "title": "Regression problems distribute the data and are solved", "statement": "create_regression_problem gives every agent ten samples, together exactly the generated data set; each cost is the mean squared loss over the agent's samples; with two or more agents x_optimal minimises the sum of the agents' costs and equivalently the mean loss over all training data; invalid numbers of agents and batch sizes raise ValueError.", "quantifier": "all seeds, data, permutations, numbers of agents and batch sizes", "why_tests_cant": "optimality ranges over all points of the space, and the data and shuffles are arbitrary", "anchors": ["decent_bench/benchmark/_utils.py:create_regression_problem"]}
{"id": "C78", "title": "Classification problems are created and solved", "statement": "create_classification_problem gives every agent ten samples, together exactly the generated data set, and costs that are the mean logistic loss over them; x_optimal is obtained from a single cost over all data, which has the same minimisers as the sum of the agents' costs, and its value is within the accelerated gradient rate of the minimum. Creation succeeds for valid arguments.", "quantifier": "all seeds, binary data, permutations, numbers of agents and batch sizes", "why_tests_cant": "ranges over all data sets, shuffles and points of the space", "anchors": ["decent_bench/benchmark/_utils.py:create_classification_problem"]}
{"id": "C79", "title": "Test data", "statement": "Every created empirical problem comes with 100 test samples that come from the same generator and are held out: they are not the samples the agents train on.", "quantifier": "all seeds, generators, numbers of agents", "why_tests_cant": "ranges over all generators, seeds and numbers of agents", "anchors": ["decent_bench/benchmark/_utils.py:create_classification_problem", "decent_bench/benchmark/_utils.py:create_regression_problem"]}
{"id": "C80", "title": "Model parameters and flat vectors", "statement": "PyTorchCost sets the model's parameters from a flat vector and reads them back without loss: after setting x the parameters are the consecutive pieces of x in the model's order, reading gives x, and flattening the model's own parameters and setting them gives the same parameters. A vector of another size raises ValueError and changes nothing.", "quantifier": "all models (numbers and sizes of parameters), vectors and states", "why_tests_cant": "ranges over all parameter shapes and vectors", "anchors": ["decent_bench/costs/_empirical_risk/_pytorch_cost.py:_set_model_parameters", "decent_bench/costs/_empirical_risk/_pytorch_cost.py:_get_model_parameters"]}
{"id": "C81", "title": "PyTorchCost evaluates the samples asked for", "statement": "After any history of calls, function, gradient and per-sample gradients of a PyTorchCost use exactly the samples that indices asks for (reported by batch_used): function is the mean of the samples' losses in evaluation mode, gradient the mean of the samples' gradients in training mode, per-sample gradients one row per sample in order. Invalid arguments raise; max_batch_size changes no answer.", "quantifier": "all datasets, models with a mean loss, histories of calls, index arguments and max_batch_size", "why_tests_cant": "the answer depends on a cache filled by earlier calls; all histories and index lists must be covered", "anchors": ["decent_bench/costs/_empirical_risk/_pytorch_cost.py:function", "decent_bench/costs/_empirical_risk/_pytorch_cost.py:gradient", "decent_bench/costs/_empirical_risk/_pytorch_cost.py:_per_sample_gradients", "decent_bench/costs/_empirical_risk/_pytorch_cost.py:_get_batch_data", "decent_bench/costs/_empirical_risk/_pytorch_cost.py:_handle_indices"]}
{"id": "C82", "title": "PyTorchCost mini-batches", "statement": "Mini-batches consist of batch_size different samples; within a round no sample is used twice and, other calls in between notwithstanding, an epoch of a data loader uses every sample once; every sample is eventually used.", "quantifier": "all datasets, batch sizes, histories of calls (including pickling), random permutations", "why_tests_cant": "ranges over all permutations and call histories", "anchors": ["decent_bench/costs/_empirical_risk/_pytorch_cost.py:_handle_indices", "decent_bench/costs/_empirical_risk/_pytorch_cost.py:_handle_dataloader"]}
{"id": "C83", "title": "PyTorchCost predictions", "statement": "predict returns one output per input, in order, computed in evaluation mode with the given parameters, whatever max_batch_size; an empty list and a wrong vector raise; predicting does not disturb the batches.", "quantifier": "all inputs, parameters, states, positive max_batch_size", "why_tests_cant": "ranges over all input lists and chunk sizes", "anchors": ["decent_bench/costs/_empirical_risk/_pytorch_cost.py:predict"]}
{"id": "C84", "title": "PyTorchCost local training", "statement": "local_training makes one optimizer step per iteration on the samples selected, with the gradient of the loss plus the scalar penalty, followed by the correction x <- x - r for a vector r; it counts one gradient call per sample used, steps the scheduler once, returns the new parameters and leaves the vector passed in alone; max_batch_size changes nothing. Without an optimizer or with an invalid regularization it raises and trains nothing.", "quantifier": "all datasets, optimizers, regularizations, iterations, histories before the call", "why_tests_cant": "ranges over all optimizers, histories and numbers of iterations", "anchors": ["decent_bench/costs/_empirical_risk/_pytorch_cost.py:local_training", "decent_bench/costs/_empirical_risk/_pytorch_cost.py:init_local_training"]}
{"id": "C85", "title": "Progress bars", "statement": "However the messages of the trials interleave, and wherever trials were resumed or found completed, the bar of an algorithm never shows more than its total, and shows its total exactly when all trials of the algorithm have ended.", "quantifier": "all algorithms, numbers of trials and iterations, progress steps, stages of the trials and interleavings of their messages", "why_tests_cant": "ranges over all interleavings, resume points and step sizes", "anchors": ["decent_bench/utils/progress_bar.py:ProgressBarController", "decent_bench/utils/progress_bar.py:ProgressBarHandle"]}
{"id": "C86", "title": "Figures of runtime metrics", "statement": "However the messages of the trials interleave, the figure of a runtime metric has one line per trial with exactly the finite points that this metric sent in that trial, in order; a trial looks the same in all figures and different from other trials; a figure is saved exactly once under the metric's path when the run ends, and not after Ctrl+C.", "quantifier": "all trials, metrics, values and interleavings of messages", "why_tests_cant": "ranges over all interleavings and all sequences of values", "anchors": ["decent_bench/metrics/_runtime_metric_plotter.py:RuntimeMetricPlotter", "decent_bench/metrics/_runtime_metric.py:RuntimeMetric"]}
{"id": "C87", "title": "Recorded states and messages are copies", "statement": "Whatever a client program does afterwards with the arrays it can get hold of, including in-place updates: a recorded history entry keeps the value x had when it was recorded; the x and the first history entry given by initialize do not change with the caller's array; a message in an inbox keeps the value that was sent. In-place updates inside FedNova's local loop do not change its documented update.", "quantifier": "all programs over the agent and network API, all references a client can hold, all costs", "why_tests_cant": "ranges over all aliasing patterns and all later operations", "anchors": ["decent_bench/agents.py:Agent.initialize", "decent_bench/agents.py:Agent._snapshot", "decent_bench/networks.py:Network.send", "decent_bench/algorithms/federated/_fed_nova.py:FedNova._compute_local_update"]}
{"id": "C88", "title": "Converting arrays between frameworks", "statement": "Converting an array to an installed framework gives an array of that framework with the same entries and dtype on the requested device (with the dtype asked for, if any); converting back restores the original; a framework that is not installed is refused.", "quantifier": "all arrays, frameworks, devices, dtypes and sets of installed frameworks", "why_tests_cant": "all combinations of source, target, device and dtype; most frameworks and devices are absent from a test machine", "anchors": ["decent_bench/utils/interoperability/_functions.py:to_array", "decent_bench/utils/interoperability/_functions.py:to_array_like", "decent_bench/utils/interoperability/_helpers.py:framework_device_of_array"]}
{"id": "C89", "title": "Cost methods accept arrays of any framework", "statement": "A cost method called with wrapped arrays of any framework runs on arrays of the cost's own framework with the same entries, leaves all other arguments alone, warns once per converted array, and returns its result in the framework of x; without x it refuses.", "quantifier": "all cost methods, frameworks, argument lists and keyword arguments", "why_tests_cant": "all argument lists and framework combinations", "anchors": ["decent_bench/utils/interoperability/_decorators.py:autodecorate_cost_method", "decent_bench/costs/_base/_cost.py:Cost"]}
{"id": "C90", "title": "Exact methods find the optimum", "statement": "On a connected undirected network with symmetric mixing weights, where every agent is always active and every message arrives, exact diffusion, NIDS, EXTRA, DLM, Wang-Elia, AugDGM and gradient tracking in its ATC form run on smooth strongly convex costs bring every agent's x to the minimiser of the sum of the costs at a linear rate, for step sizes below 2/L (ED, NIDS), below 2 w_min/L (EXTRA, w_min the smallest self-weight), within the analogous range for DLM, and below a threshold set by network and conditioning for the other three. The default weights qualify.", "quantifier": "all connected graphs, weights, dimensions, smooth strongly convex costs, initial states, step sizes in the range, numbers of iterations and snapshot periods", "why_tests_cant": "a limit statement over all graphs, costs and starting points; a test sees finitely many runs of finite length", "anchors": ["decent_bench/algorithms/p2p/_ed.py:ED", "decent_bench/algorithms/p2p/_nids.py:NIDS", "decent_bench/algorithms/p2p/_extra.py:EXTRA", "decent_bench/algorithms/p2p/_dlm.py:DLM", "decent_bench/algorithms/p2p/_wang_elia.py:WangElia", "decent_bench/algorithms/p2p/_aug_dgm.py:AugDGM", "decent_bench/algorithms/p2p/_atc_tracking.py:ATC_Tracking", "decent_bench/networks.py:P2PNetwork.weights"]}
{"id": "C91", "title": "Federated averaging finds the optimum", "statement": "With one local step and no losses the server's x under FedAvg, FedProx and Scaffold approaches the minimiser of the clients' summed costs at the rate of gradient descent, and under FedNova that of the clients' costs weighted by their numbers of samples (which is a different point when these differ). With any number of local steps, any selection and any losses, FedAvg never moves away from a common minimiser of the clients' costs, and contracts in every round in which an upload arrives. With several local steps and no losses FedAvg approaches the point at which the clients' moves balance, which in general is not the minimiser, while Scaffold started at the minimiser with matching control variables stays there whatever is selected or lost.", "quantifier": "all client sets, costs, dimensions, step sizes in the range, starting points, selections, activations and losses", "why_tests_cant": "limit statement over all costs, schedules and starting points", "anchors": ["decent_bench/algorithms/federated/_fed_avg.py:FedAvg", "decent_bench/algorithms/federated/_scaffold.py:Scaffold", "decent_bench/algorithms/federated/_fed_prox.py:FedProx", "decent_bench/algorithms/federated/_fed_nova.py:FedNova"]}
{"id": "C92", "title": "ADMM finds the optimum", "statement": "On a connected network without losses, ADMM with any rho > 0 and relaxation 0 < alpha <= 1 run on smooth strongly convex costs has summable squared errors of x, with a bound that does not depend on the number of iterations, and with alpha < 1 every agent's x converges to the minimiser of the sum.", "quantifier": "all connected graphs without isolated agents, costs, rho, alpha, starting points and numbers of iterations", "why_tests_cant": "limit statement over all graphs, costs and parameters", "anchors": ["decent_bench/algorithms/p2p/_admm.py:ADMM"]}
{"id": "C93", "title": "DGD ends near the optimum", "statement": "On a connected network without losses, DGD with a constant step size a <= w_min/L brings all agents linearly into a neighbourhood of the minimiser of the sum whose squared radius is at most B a^2, with B depending on network and costs only.", "quantifier": "all connected graphs, mixing weights, smooth strongly convex costs, starting points, step sizes in the range, numbers of iterations", "why_tests_cant": "limit statement over all graphs, costs and step sizes", "anchors": ["decent_bench/algorithms/p2p/_dgd.py:DGD"]}
{"id": "C94", "title": "Operators on arrays", "statement": "add/sub/mul/div, matmul, dot, the unary functions and the operators of Array, applied to arrays of one framework (wrapped or not, or with a Python number on either side), return a new array of that framework with the framework's result and change no existing array; operands whose shapes do not match are refused; arrays of different frameworks raise TypeError; the result of an Array operator is an Array.", "quantifier": "all frameworks, operand kinds, wrappings, array contents and heaps", "why_tests_cant": "all combinations of operand types and frameworks, most of which are not installed on a test machine", "anchors": ["decent_bench/utils/interoperability/_operators.py:add", "decent_bench/utils/interoperability/_operators.py:matmul", "decent_bench/utils/interoperability/_operators.py:dot", "decent_bench/utils/array.py:Array"]}
{"id": "C95", "title": "In-place operators", "statement": "a op= b leaves in a what a op b would have given, in the same framework, and changes no object but a; it changes the array object itself (seen by all its holders) for NumPy arrays and PyTorch tensors and makes a new one otherwise. As documented it would always return the modified object, and accept what a op b accepts in every framework.", "quantifier": "all frameworks, operand kinds, contents, heaps and aliases", "why_tests_cant": "aliasing and framework combinations", "anchors": ["decent_bench/utils/interoperability/_operators.py:iadd", "decent_bench/utils/interoperability/_operators.py:ipow", "decent_bench/utils/array.py:Array.__iadd__"]}
{"id": "C96", "title": "Element-wise maximum", "statement": "maximum of two arrays of one framework, or of an array and a number in either order, is a new array of that framework with the entry-wise maximum; arrays of different frameworks raise TypeError.", "quantifier": "all frameworks, operand kinds and contents", "why_tests_cant": "all combinations of operand types", "anchors": ["decent_bench/utils/interoperability/_operators.py:maximum"]}
{"id": "C97", "title": "ProxSkip finds the optimum although it skips communications", "statement": "On a connected network without losses, ProxSkip with step size below 2/L, 0 < aux_step_size <= comm_probability and chi >= 1 on smooth strongly convex costs: the mean over its coin flips of the agents' summed squared distance to the minimiser of the sum decreases geometrically with the number of iterations, so the probability that a run ends further away than any given tolerance vanishes.", "quantifier": "all connected graphs, mixing weights, costs, parameters in the range, starting points, numbers of iterations and all sequences of coin flips, weighted by their probability", "why_tests_cant": "a statement about the distribution over all coin sequences of every length", "anchors": ["decent_bench/algorithms/p2p/_prox_skip.py:ProxSkip"]}
{"id": "C98", "title": "Algorithm constructors accept exactly the documented parameter ranges", "statement": "Constructing any algorithm with keyword arguments of the documented types succeeds exactly when every parameter lies in its documented range (positive step sizes, penalties, iteration and step counts; probabilities, momenta and relaxations in their intervals; Fed-LT's solver and solver arguments known and in range) and raises ValueError otherwise; defaults are valid, unknown keywords are TypeErrors, the iteration count is checked first by every class; Fed-LT fills in the missing solver arguments; per-client step counts must be positive integers and cover every client of the network.", "quantifier": "all 31 algorithm classes, all sets of keyword arguments, all numbers including infinities and NaN", "why_tests_cant": "thirty-one classes times infinitely many parameter values; the interesting ones are boundaries, integers in place of floats and NaN", "anchors": ["decent_bench/algorithms/_algorithm.py:Algorithm.__init_subclass__", "decent_bench/algorithms/p2p/*.py:__post_init__", "decent_bench/algorithms/federated/*.py:__post_init__", "decent_bench/algorithms/federated/_fed_algorithm.py:_validate_num_local_steps,_settle_num_local_steps", "decent_bench/algorithms/federated/_fed_lt.py:_validate_solver_args"]}
{"id": "C99", "title": "Generated initial states cover the network with independent samples of the right shape", "statement": "normal_initialization and uniform_initialization give every node of the network, server included, an array of its cost's shape made of variates no other entry uses (uniform ones in [low, high), high <= low refused), and the mapping is exactly what an algorithm given it as x0 starts from; pytorch_initialization gives every node its own model's parameters, or with all_same every node the first agent's, and raises TypeError if an agent's cost is no PyTorchCost.", "quantifier": "all networks, shapes, parameters, generator states and sequences of variates", "why_tests_cant": "quantifies over all networks, shapes and random streams; independence is a statement about which variates are used", "anchors": ["decent_bench/algorithms/utils.py:normal_initialization,uniform_initialization,pytorch_initialization"]}
{"id": "C100", "title": "Metrics saved in a checkpoint directory come back as they were computed", "statement": "After compute_metrics with a checkpoint manager, load_metrics_result returns the computed tables, plots and network views (views recomputed from the benchmark when it is complete) and display_metrics from the directory shows what it shows for the result in memory; a process killed at any point of the save leaves the benchmark's files untouched and never a directory whose metrics count as computed but cannot be loaded; extending the benchmark does not leave stale metrics counted as computed.", "quantifier": "all directories, results, algorithms, crash points and later benchmark activity", "why_tests_cant": "quantifies over every crash point of the save and every later history of the directory", "anchors": ["decent_bench/utils/checkpoint_manager.py:save_metrics_result,load_metrics_result,are_metrics_computed", "decent_bench/benchmark/_display/_display_metrics.py:display_metrics", "decent_bench/benchmark/_metric_result.py:MetricResult.algorithms"]}
{"id": "C101", "title": "Array functions return the same arrays in every framework, as documented", "statement": "argmax and argmin return the first position of the largest (smallest) entry, of the flattened array or along an axis counted from either end, with the axis dropped or kept with length 1, and transpose permutes or reverses the axes, in NumPy, PyTorch, TensorFlow and JAX alike; norm without dim is the Euclidean norm of the flattened array.", "quantifier": "all frameworks, shapes, entries, axes, keepdims and axis orders", "why_tests_cant": "quantifies over all shapes and entries, including ties and negative axes", "anchors": ["decent_bench/utils/interoperability/_functions.py:argmax,argmin,transpose,norm"]}
{"id": "C102", "title": "Reported metrics of a convergent algorithm vanish", "statement": "For smooth strongly convex costs on a connected peer-to-peer network with symmetric doubly stochastic weights and no disturbance, the Regret, XError, GradientNorm and ConsensusError values that the benchmark reports for a run of ED, NIDS, EXTRA, ATC-Tracking, AugDGM, Wang-Elia or ADMM (with admissible step sizes) are non-negative and tend to zero: for every tolerance there is an iteration from which every reported value of every sufficiently long run is within it, whatever the snapshot periods and whatever state the network was in. At any snapshot the squared x error plus the mean squared consensus error is the mean squared distance of the agents to the optimum, and regret and gradient norm lie between constant multiples of the squared x error and of the x error. In a federated network the same holds for all four metrics under Scaffold with one local step, and for Regret, XError and GradientNorm under FedAvg and FedProx, whose clients do not come to agree.", "quantifier": "all peer-to-peer networks, weights, smooth strongly convex costs, starting points, admissible step sizes, tolerances, numbers of iterations, snapshot periods and initial networks", "why_tests_cant": "A test runs a finite number of iterations on one problem and compares with a threshold; the claim is a limit over all problems and joins three layers (algorithm, history, metric).", "anchors": ["decent_bench/metrics/metric_library.py: Regret, XError, GradientNorm, ConsensusError", "decent_bench/metrics/utils.py: x_mean", "decent_bench/agents.py: Agent._snapshot", "decent_bench/algorithms/p2p: ED, NIDS, EXTRA, ATC_Tracking, AugDGM, WangElia, ADMM"]}
{"id": "C103", "title": "Files of a trial directory", "statement": "A file name is read as the checkpoint of iteration k exactly if it consists of 'checkpoint_', decimal digits denoting k and '.pkl' or '.pkl.zst'; the names the manager gives to checkpoints are read back as their iteration, for every iteration also beyond seven digits, no two checkpoints share a name and no other file of the trial is taken for one. Under any sequence of save, mark-complete and unmark calls, each cut off anywhere, the files are those of the trial directory of C42/C43, and load_checkpoint, load_trial_result and is_trial_complete answer accordingly, in whatever order the operating system lists directories. Cleaning up keeps exactly the newest keep_n_checkpoints checkpoints of either format and never touches other files; a directory in the old format can be resumed; a saved checkpoint is what is loaded next and a completed trial's result can be read; a benchmark counts as started iff some trial has a checkpoint.", "quantifier": "all iteration numbers, file names, directory contents, listing orders, histories of calls and crash points, and all keep_n_checkpoints", "why_tests_cant": "Names, listing orders, crash points and mixtures of old and new files are unbounded; the failing combinations (an old-format file of the final iteration with keep_n_checkpoints = 1, a foreign checkpoint_*.pkl) are never in a test directory.", "anchors": ["decent_bench/utils/checkpoint_manager.py: save_checkpoint, load_checkpoint, mark_trial_complete, unmark_trial_complete, is_trial_complete, load_trial_result, is_benchmark_started, _resolve_checkpoint_path, _checkpoint_iteration, _cleanup_old_checkpoints, _CHECKPOINT_NAME_RE"]}
{"id": "C104", "title": "Log messages reach the user", "statement": "During a benchmark with several processes every message of at least the requested log_level is displayed exactly once, in the order logged, whichever process logs it and however the listener is scheduled; in one process the first call's level counts for all calls. What does not hold: a later call's log_level is ignored (so log_level=DEBUG of the user guide's example shows nothing after a problem has been created), and after a benchmark with several processes nothing logged by later calls is seen anywhere, including the tables of display_metrics.", "quantifier": "all sequences of library calls, all messages and levels, all interleavings of worker processes and listener, returning or raising", "why_tests_cant": "the order of messages depends on the schedule of processes, and what a call displays depends on every earlier call in the interpreter", "anchors": ["decent_bench/utils/logger.py:start_logger", "decent_bench/utils/logger.py:start_log_listener", "decent_bench/utils/logger.py:start_queue_logger", "decent_bench/benchmark/_benchmark.py:_init_logging_and_multiprocessing", "decent_bench/benchmark/_benchmark.py:benchmark"]}
{"id": "C105", "title": "Nothing is left running, and failures are contained", "statement": "When benchmark or resume_benchmark returns, the progress bars, the log listener, the worker processes and (if a trial had to be run) the runtime plotter have been stopped, the workers after all results are there and the log listener last, whatever went wrong inside the trials. An exception in a run of an algorithm (a runtime metric's initialisation, an iteration, the completion marking, the cleanup) never aborts the benchmark: every trial gets exactly one result, that of the failing trial being incomplete, and other trials are as without it. A benchmark that is refused starts at most the daemonic logging. What does not hold: resuming a finished benchmark with runtime metrics leaves the plotter's process; an exception or Ctrl+C that escapes after the bars have been started leaves their non-daemonic thread waiting, so Python does not exit.", "quantifier": "all points at which exceptions are raised, numbers of algorithms, trials, iterations and runtime metrics, one or several processes, with or without checkpoints, all sets of completed trials", "why_tests_cant": "failures at every point of every trial, with every combination of processes, checkpoints and completed trials, cannot be enumerated", "anchors": ["decent_bench/benchmark/_benchmark.py:{benchmark,resume_benchmark,_benchmark,_run_trials,_run_trial,_get_runtime_metrics,_init_logging_and_multiprocessing}", "decent_bench/utils/progress_bar.py:ProgressBarController", "decent_bench/metrics/_runtime_metric_plotter.py:RuntimeMetricPlotter.shutdown"]}
{"id": "C106", "title": "Backups make resuming undoable", "statement": "resume_benchmark with create_backup=True puts a complete archive of the checkpoint directory next to it before it changes anything: wherever the process is killed, either the directory is as it was or the archive holds what it was. No later call (benchmark, resume, backup, clear, checkpointing, each killed anywhere) changes a complete archive. So whatever happened since, unpacking the archive and resuming returns for every trial what it would have returned without any interruption. A refused resume or benchmark changes nothing; a new benchmark is refused on any directory with an entry; after clear it is accepted. A directory left by a killed benchmark can be resumed (fails while it is being initialised).", "quantifier": "all checkpoint directories, algorithms, increases, times, kill points, interleavings of trials and later sequences of calls and unpackings", "why_tests_cant": "A test kills a process at a few chosen points; the claim is about every kill point and every later history of calls.", "anchors": ["decent_bench/utils/checkpoint_manager.py: CheckpointManager.create_backup, clear, is_empty, initialize", "decent_bench/benchmark/_benchmark.py: resume_benchmark, benchmark"]}
{"id": "C107", "title": "Random samples and random arrays", "statement": "iop.choice(array, size, replace) returns size of the array's rows (entries along the first axis), at different positions when drawn without replacement, in every framework and whatever the generator's state; size = the number of rows without replacement gives a shuffle; asking for more rows than there are without replacement is refused by every framework. In TensorFlow the rows are those with the largest scores. The entries of uniform arrays lie in [low, high). uniform_like and normal_like keep the array's element type in PyTorch and JAX. Refuted: drawing zero rows works everywhere (PyTorch refuses); a number is refused everywhere (NumPy samples from the numbers below it); uniform_like and normal_like keep the element type in NumPy, uniform_like in TensorFlow.", "quantifier": "every framework, array, size, replacement flag, generator state, and every behaviour of the libraries' generators within their documentation", "why_tests_cant": "a test sees the samples of one seed; that no generator state repeats a position or leaves the range needs an argument over all states, and PyTorch and JAX runs of the tests compare only a few sizes", "anchors": ["decent_bench/utils/interoperability/_rng.py: choice, uniform, uniform_like, normal, normal_like"]}
{"id": "C108", "title": "squeeze, diag, eye_like, stack, set_item", "statement": "For every framework: iop.squeeze(x) drops exactly the axes of size 1 and iop.squeeze(x, dim) the given axes of size 1, and whatever squeeze returns has the entries of x in row-major order; iop.diag turns a vector into the diagonal matrix with it and a matrix into its diagonal (diag of diag of a vector is the vector) and refuses other ranks; iop.eye_like of a matrix is the identity of its shape; iop.stack puts arrays of one shape along the new axis, refuses no arrays or different shapes, and reducing the stack (sum, mean, min, max) along that axis works entry by entry; iop.set_item changes one entry in NumPy and PyTorch, refuses outside indices, and always refuses in TensorFlow and JAX. Refuted: squeezing an axis of another size is refused everywhere (PyTorch returns the array); an empty tuple squeezes nothing (TensorFlow squeezes everything); eye_like has the shape of arrays that are not matrices.", "quantifier": "every framework, shape, entries, axis (from either end) and index", "why_tests_cant": "tests compare a few small arrays per framework; shapes, ranks and axes are unbounded", "anchors": ["decent_bench/utils/interoperability/_functions.py: squeeze, diag, eye_like, stack, sum, mean, min, max, set_item"]}
{"id": "C109", "title": "Figures, subplots, legends and files of the plots", "statement": "display_plots draws every plottable metric once per algorithm and abscissa on its own subplot: the metric's row, computational cost left and iterations right when both are asked for; the subplot in that place carries the metric's log scales, the metric's name on the first column only and the abscissa's label on the last row only. The legend of a figure lists the algorithms in order, once each. With a directory, figures are saved in order as plot (one figure) or plot_fig1, plot_fig2, ..., a legend that needs its own figure is saved beside its figure, and no two files have the same name; without one nothing is saved. With fewer than six algorithms and show_plots=False no figure stays open. Refuted: algorithms whose name starts with an underscore are missing from legends; when no algorithm can be named nothing is saved; legends drawn as figures of their own (nine algorithms or more) and figures with nothing to show are never closed.", "quantifier": "every list of metrics, of algorithms (names), grouping into figures, choice of abscissas, directory and show_plots", "why_tests_cant": "tests plot one or two metrics of two algorithms; the grid arithmetic and the file names must hold for every number of metrics, figures and algorithms", "anchors": ["decent_bench/benchmark/_display/display_plots.py: display_plots, _create_and_plot_figures, _create_metric_subplots, _save_and_show_figures, _add_legend_and_save, _get_separate_legend_path"]}
{"id": "C110", "title": "SimpleLinearModel, argmax and argmin activations", "statement": "Whatever its weights, SimpleLinearModel(input_size, hidden_sizes, output_size, activation, output_activation) turns an input of input_size numbers into output_size numbers: affine maps between consecutive sizes with the hidden activation after each but the last and the output activation at the end; any other input is refused; it has (inputs + 1) * outputs weights per layer. Without activations it is an affine map. With a sigmoid, tanh or relu at the output every output lies in (0, 1), (-1, 1) or is nonnegative. An activation name other than the three documented ones is silently no activation. ArgmaxActivation (ArgminActivation) gives the place of a largest (smallest) entry of every nonempty row, and a sigmoid at the output does not change it.", "quantifier": "every input size, list of hidden sizes, output size, activation names, weights and inputs", "why_tests_cant": "tests build a few small networks; sizes, depths and weights are unbounded", "anchors": ["decent_bench/utils/pytorch_utils.py: SimpleLinearModel, ArgmaxActivation, ArgminActivation"]}
{"id": "C111", "title": "Noise on messages", "statement": "On a network whose sender has GaussianNoise(mean, std), an accepted send hands every confirmed receiver the compressed message plus mean + std * draw in every entry, where all receivers and entries have standard normal draws of their own, and nobody else receives anything; with NoNoise, or std = 0, all confirmed receivers hold the same compressed message shifted by the mean. A negative std is refused. The same draws shifted and scaled give every mean and deviation.", "quantifier": "every network, history, sender, receivers, drops, compression, message, message size, mean, std and stream of draws", "why_tests_cant": "tests look at one noisy message; which receiver's entry gets which draw must hold for every number of receivers, drops and shape", "anchors": ["decent_bench/schemes.py: NoNoise, GaussianNoise", "decent_bench/networks.py: Network.send"]}
{"id": "C112", "title": "Length, iteration, indices and slices of arrays", "statement": "For an Array x with at least one axis: len(x) is its first dimension and the number of items iterating gives, x[k] is the k-th of them and x[k - len(x)] the same one, with the shape of the other axes; x[a:b] has the entries from a up to b, negative bounds count from the end and too large ones are cut, and x[:k], x[k:] together give the items of x; stacking the items along axis 0 gives x back. Numbers (a NumPy float64 is one) and arrays without axes have no length, items or iterator: TypeError or an error of the framework. An index outside the axis is refused by NumPy, PyTorch and TensorFlow; refuted for JAX, which reads the nearest entry.", "quantifier": "every framework, shape, entries, index and slice bounds", "why_tests_cant": "tests index a few small arrays; shapes, indices and bounds are unbounded", "anchors": ["decent_bench/utils/array.py: Array.__getitem__, __len__, __iter__", "decent_bench/utils/interoperability/_functions.py: get_item"]}
{"id": "C113", "title": "FedNova's normalisation coefficients: positivity and meaning", "statement": "If FedNova's step_size times its penalty is below 2 (or use_prox is off), the normalisation coefficient every client uploads is positive, for every number of local steps, every valid momentum and all gradients, so a run, with or without server momentum, never raises \"FedNova coefficients must be positive\" and follows FedNova's equations. The bound is sharp: without momentum, at step_size * penalty >= 2 - which the constructor accepts - every round in which the uploads of a client with an even number of local steps reach the server raises. The coefficient is the number of local steps without momentum and penalty, and has the closed forms of the FedNova paper with one of them; under a constant gradient a client moves by step_size * coefficient * gradient as long as momentum and penalty are not used together (with both, from the third step on, it need not).", "quantifier": "all step sizes, momenta, penalties, local step counts, gradients, client selections, topologies and drop patterns (faithful messages), any number of rounds", "why_tests_cant": "ranges over all real parameters, step counts, gradient oracles, selections and drop schedules", "anchors": ["decent_bench/algorithms/federated/_fed_nova.py:FedNova._compute_local_update", "decent_bench/algorithms/federated/_fed_nova.py:FedNova.aggregate", "decent_bench/algorithms/federated/_fed_nova.py:FedNova.__post_init__"]}
