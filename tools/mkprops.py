#!/usr/bin/env python3
"""Regenerates /verif/properties.jsonl (single source: the PROPS list)."""
import json, os
P = []
def p(title, statement, quantifier, why, *anchors):
    P.append(dict(id="C%02d" % (len(P)+1), title=title, statement=statement,
                  quantifier=quantifier, why_tests_cant=why, anchors=list(anchors)))

# ---- agents
p("History lookup is nearest-preceding",
  "After any sequence of accepted history[k]=x writes, history[q] for q>=0 returns the value of the last write made at the greatest written iteration <= q; it raises exactly when no written iteration is <= q; history[-1] is the value at the greatest written iteration; q<-1 and negative writes raise and change nothing.",
  "all write sequences (any order, with overwrites) and all integer queries",
  "the order of writes and the query point are unbounded; a test samples a handful of insertion orders",
  "decent_bench/agents.py:AgentHistory.set_x", "decent_bench/agents.py:AgentHistory.get_x")
p("History keys are sorted and exact",
  "keys()/iteration/items() list exactly the distinct iterations ever written, strictly increasing; len() is their number; `k in history` iff k was written; min()/max() are the least/greatest written iteration and raise iff nothing was written.",
  "all write sequences", "bisect.insort correctness over all insertion orders is an inductive invariant",
  "decent_bench/agents.py:AgentHistory")
p("Received-message store behaves as a (channel,sender) map",
  "Under any sequence of put/clear calls, message(s,c) returns the last message put for (s,c) since it was last cleared, and raises KeyError iff there is none; messages(c) lists exactly those; clear(None,None), clear(None,c), clear(s), clear([..],c) remove exactly the entries in their scope.",
  "all operation sequences", "interleavings of scoped clears and overwrites are unbounded; nested-dict pruning must be shown not to lose or resurrect entries",
  "decent_bench/agents.py:ReceivedMessages")
p("Snapshot schedule",
  "After Algorithm.run to completion with N iterations every snapshotted agent's history holds exactly the iterations {0} (when initialised) plus every k in 1..N that is a multiple of its snapshot period or equal to N, and the value stored at k is the agent's x at the end of iteration k-1 (state after k iterations); a run resumed at any point of that run adds the same entries.",
  "all iteration counts, periods, algorithms and resume points", "ranges over every period/length/resume combination",
  "decent_bench/agents.py:Agent._snapshot", "decent_bench/algorithms/_algorithm.py:Algorithm.run")
p("Oracle-call counting and no_count nesting",
  "For any program of cost calls and (nested, overlapping, exception-exiting) Agent.no_count blocks, an agent's reported number of function/gradient/hessian/proximal calls equals the sum over its calls made outside every block that lists it of the batch size used (1 for non-empirical costs); after all blocks exit counting is re-enabled for every agent.",
  "all well-nested programs, all agent lists (with repetitions), all points where an exception escapes",
  "nesting depth and exception points are unbounded",
  "decent_bench/agents.py:Agent.no_count", "decent_bench/agents.py:Agent._call_counting_gradient")
# ---- network
p("Message conservation",
  "At every moment after initialisation, the total of the agents' sent-message counters equals the total of their dropped counters plus the total of their received counters, whatever the drop, noise and compression schemes do.",
  "all networks, all send histories, all drop/noise/compression outcomes",
  "requires an invariant over unbounded histories of probabilistic sends",
  "decent_bench/networks.py:Network.send")
p("Only fresh, legitimate messages are visible",
  "If agent r sees a message from s on channel c then, since the start of the current iteration, a successful send by s on c included r, r was connected to s and active; the visible value is the one of the last such send that was not dropped, i.e. the sender's compressed payload plus that delivery's noise. Nothing sent in an earlier iteration is visible.",
  "all networks, iterations, send histories and scheme outcomes",
  "needs an invariant over every history of sends and steps",
  "decent_bench/networks.py:Network.send", "decent_bench/networks.py:Network._step")
p("Reliable networks deliver exactly",
  "With no drops, no noise and no compression, after a send each intended receiver sees exactly the array passed, every other (receiver, sender, channel) entry is unchanged, and the sender's and receivers' own states are unchanged.",
  "all networks, senders, receivers (broadcast, single, sequence), payloads",
  "frame condition over all states", "decent_bench/networks.py:Network.send")
p("Active set is stable within an iteration",
  "Between two steps of the network, all queries of active agents, active connected agents and the receivers admitted by send refer to one and the same set, even if activation schemes are random or stateful; each agent's scheme is consulted at most once per iteration.",
  "all activation schemes (arbitrary stateful/random), all query/send interleavings",
  "schedule-dependent caching property", "decent_bench/networks.py:Network.active_agents",
  "decent_bench/networks.py:Network.active_connected_agents")
p("A rejected send has no effect",
  "If send raises a ValueError then no message store and no counter of any agent changed.",
  "all states and arguments", "all-paths atomicity property", "decent_bench/networks.py:Network.send", "decent_bench/networks.py:FedNetwork.send")
p("Federated star discipline",
  "In a FedNetwork every delivered message has the server as exactly one endpoint; a client's send without receiver goes to the server only, a server broadcast reaches active clients only, and client-to-client, server-to-server and client multicast are rejected.",
  "all federated networks and call arguments", "must hold for every call on every reachable state",
  "decent_bench/networks.py:FedNetwork.send", "decent_bench/networks.py:FedNetwork._allowed_receivers")
p("Metropolis weights are symmetric doubly stochastic",
  "For a simple undirected graph the default consensus weights are symmetric, nonnegative, every row and column sums to one, weights are positive exactly on edges and on the diagonal, hence W averages preserve the mean.",
  "all finite simple graphs (any number of agents)", "ranges over all graphs",
  "decent_bench/networks.py:P2PNetwork.weights")
p("Network construction validates and indexes agents",
  "Construction succeeds only if ids are distinct, no agent was already indexed, the node count matches, the graph is connected, undirected, simple and all costs share shape, framework and device; afterwards indices are exactly 0..n-1 in node order, and message schemes are defined for every agent.",
  "all agent lists and graphs", "universally quantified over constructor inputs",
  "decent_bench/networks.py:Network.__init__", "decent_bench/networks.py:P2PNetwork.__init__", "decent_bench/networks.py:Network._initialize_message_schemes")
# ---- schemes
p("Cyclic activation duty cycle",
  "A CyclicActivation(a,i,offset) is active in exactly a of any a+i consecutive iterations, is periodic with period a+i, and the active iterations of each cycle are consecutive; with i=0 it is always active.",
  "all non-negative parameters and iterations", "all windows at all offsets", "decent_bench/schemes.py:CyclicActivation.is_active")
p("Random activation schemes follow their draws",
  "PoissonActivation is active exactly after as many inactive queries as the interval drawn, for every sequence of draws; MarkovChainActivation with transition probability 0 or 1 is constrained accordingly (1->0 probability 0: always active).",
  "all draw sequences", "unbounded stochastic schedules", "decent_bench/schemes.py:PoissonActivation", "decent_bench/schemes.py:MarkovChainActivation")
p("Client selection size and membership",
  "Every selection scheme returns distinct members of the pool, exactly min(m, pool size) of them for a count m and min(max(1, floor(f*pool)), pool) for a fraction f, none iff the pool is empty; the input is unmodified.",
  "all pools, sizes, fractions and random draws", "all inputs and draws", "decent_bench/schemes.py:ClientSelectionScheme", "decent_bench/schemes.py:UniformSelection", "decent_bench/schemes.py:DataSizeSelection")
p("Fair selection is fair",
  "FairSelection returns a subset of minimal total past-selection count among subsets of that size, ties in pool order, and with a constant pool the selection counts of any two clients never differ by more than one, after any number of rounds.",
  "all histories of rounds and pools", "long-run fairness over unbounded histories", "decent_bench/schemes.py:FairSelection")
p("High-loss selection picks highest losses",
  "Every client selected by HighLossSelection has loss at least that of every client not selected, whatever the tie-breaking permutation.",
  "all pools, losses, permutations", "all inputs", "decent_bench/schemes.py:HighLossSelection")
p("Compression accuracy",
  "Quantization returns multiples of the step within half a step of every entry; StochasticQuantization returns one of the two neighbouring levels with the sign of the entry and errs by at most norm/n_levels per entry; TopK keeps entries exactly, zeroes the others, and no dropped entry exceeds a kept entry in magnitude; RandK keeps exactly its drawn entries.",
  "all messages and draws", "all real vectors", "decent_bench/schemes.py:Quantization", "decent_bench/schemes.py:TopK", "decent_bench/schemes.py:RandK", "decent_bench/schemes.py:StochasticQuantization")
p("Compressed size equals what is transmitted",
  "compressed_msg_size equals the number of entries TopK/RandK transmit and never exceeds the message size, so a compressed message never counts as more than an uncompressed one.",
  "all k and message sizes", "all parameters", "decent_bench/schemes.py:TopK.compressed_msg_size", "decent_bench/schemes.py:RandK.compressed_msg_size")
# ---- data
p("Partitions are disjoint and covering",
  "Every partitioner that returns, returns partitions that are pairwise disjoint, duplicate-free, within range, and (for all-data strategies) together contain every sample exactly once.",
  "all dataset sizes, labels, shuffles, draws", "all inputs and random outcomes", "decent_bench/datasets/partitioners/_utils.py", "decent_bench/datasets/partitioners")
p("Even and proportional apportionment",
  "Even counts differ by at most one and sum to the total; proportional counts sum to the total, never exceed capacities, and without capacities differ from the exact quota by less than one.",
  "all totals, weights, capacities", "arithmetic over all inputs", "decent_bench/datasets/partitioners/_utils.py:_proportional_counts", "decent_bench/datasets/partitioners/_utils.py:_even_counts")
p("Label-quantity partitions respect label budgets",
  "LabelQuantity gives each partition samples from at most the requested number of labels with the requested sizes whenever it returns.",
  "all label multisets and shuffles", "assignment through a max-flow computation; correctness over all graphs", "decent_bench/datasets/partitioners/_label_quantity.py")
p("User partitions are validated",
  "A user-supplied index partition is accepted only if its indices are integers in range and pairwise distinct across partitions, and an accepted one is used verbatim.",
  "all inputs", "all inputs", "decent_bench/datasets/_dataset_handler.py")
p("Mini-batches cover each epoch exactly once",
  "Stochastic mini-batches have the configured size, contain no duplicates and, cut at epoch boundaries, consecutive batches enumerate every local sample exactly once per epoch, for every shuffle.",
  "all dataset sizes, batch sizes, call counts, shuffles", "unbounded call history with carry-over between epochs", "decent_bench/costs/_empirical_risk/_empirical_risk_cost.py:EmpiricalRiskCost._sample_batch_indices")
# ---- costs
p("Cost algebra is pointwise",
  "For any expression built with +, -, unary -, scalar * and / from costs, function, gradient and hessian of the resulting object equal the same combination of the operands' values, however the classes flatten or merge sums, scales, zeros and quadratics.",
  "all expression trees and points", "unbounded expression nesting with class-dependent simplification", "decent_bench/costs/_base/_cost.py", "decent_bench/costs/_base/_sum_cost.py", "decent_bench/costs/_base/_scaled_cost.py", "decent_bench/costs/_base/_quadratic_cost.py")
p("Proximal operators solve the prox problem",
  "Closed-form proximals (quadratic, scaled, l1, l2, zero, ...) return the unique minimiser of f(z)+|z-x|^2/(2*penalty) for every x and admissible penalty.",
  "all points, penalties, parameters", "optimality against all competitors", "decent_bench/costs/_base/_regularizer_costs.py", "decent_bench/costs/_base/_scaled_cost.py", "decent_bench/costs/_base/_quadratic_cost.py")
p("Empirical risk is the mean over the batch",
  "Function/gradient/hessian of an empirical cost on given indices equal the arithmetic mean of the per-sample values over exactly those indices, and on \"all\" over every sample.",
  "all index lists and data", "all index lists including full-length permutations/duplicates", "decent_bench/costs/_empirical_risk/_linear_regression_cost.py:LinearRegressionCost._get_batch_data")
p("Quadratic optimum",
  "The optimum returned for a quadratic problem has zero gradient for every quadratic cost, including non-symmetric A.",
  "all quadratic costs", "all matrices", "decent_bench/centralized_algorithms.py:solve", "decent_bench/costs/_base/_quadratic_cost.py")
p("Centralised solver stopping guarantee",
  "When the iterative solver reports success, its stopping criterion holds at the returned point; it performs at most max_iter iterations and returns the last iterate.",
  "all costs, steps, tolerances", "all trajectories", "decent_bench/centralized_algorithms.py")
# ---- algorithms
p("Run executes each iteration exactly once in order",
  "Algorithm.run initialises iff starting from 0, then performs iterations start..N-1 exactly once and in order, each with a fresh message store; it rejects start<0 or >N without effect.",
  "all iteration counts, starts, algorithms", "all counts", "decent_bench/algorithms/_algorithm.py:Algorithm.run")
p("Split runs equal one run",
  "Running to iteration k, saving, restoring and resuming at k gives the same final network state, histories, counters and messages as an uninterrupted run, for every k.",
  "all algorithms, networks, k, random streams", "all cut points", "decent_bench/algorithms/_algorithm.py:Algorithm.run", "decent_bench/benchmark/_benchmark.py:_run_trial")
p("P2P algorithms implement their recursions",
  "On a reliable synchronous network one step of DGD, ATC, gradient tracking variants, EXTRA, NIDS, ED, AugDGM, KGT, LED, ProxSkip, ADMM ... maps the agents' states by the published matrix recursion with the network's weights.",
  "all networks, states, costs, step sizes", "all states", "decent_bench/algorithms/p2p")
p("Average dynamics of consensus algorithms",
  "With doubly stochastic weights on a reliable network the mean of the agents' states follows the centralised recursion (DGD: mean moves by minus step times mean gradient), for every number of iterations.",
  "all networks, costs, initial states, iteration counts", "invariant over unbounded runs", "decent_bench/algorithms/p2p/_dgd.py", "decent_bench/algorithms/p2p/_atc.py")
p("Gradient-tracking conservation",
  "For gradient-tracking methods the sum of tracking variables equals the sum of the current local gradients after every iteration.",
  "all networks, costs, runs", "inductive invariant over unbounded runs", "decent_bench/algorithms/p2p/_simple_gt.py", "decent_bench/algorithms/p2p/_atc_tracking.py", "decent_bench/algorithms/p2p/_aug_dgm.py")
p("Consensual optima are fixed points",
  "Exact methods leave an optimal consensual state with consistent auxiliary variables unchanged; plain DGD does so only if every local gradient vanishes.",
  "all networks, costs with a common minimiser of the sum", "all instances", "decent_bench/algorithms/p2p")
p("Federated aggregation is the average of what arrived",
  "After a FedAvg-type round the server state is the average of the updates received in this round, unchanged if none was received; clients not selected or not active are untouched.",
  "all participation patterns, drops, clients", "all subsets", "decent_bench/algorithms/federated/_fed_algorithm.py:FedAlgorithm.aggregate", "decent_bench/algorithms/federated/_fed_avg.py")
p("Scaffold control-variate invariant",
  "In Scaffold the server control variate is the mean of client control variates after every round with reliable messages, and with zero control variates and one local step Scaffold coincides with FedAvg.",
  "all rounds, selections", "inductive invariant over unbounded rounds", "decent_bench/algorithms/federated/_scaffold.py")
p("Federated family reductions",
  "FedProx with mu=0 is FedAvg; FedOpt-type servers with identity settings reduce to FedAvg; FedNova with equal local steps reduces to FedAvg.",
  "all states and clients", "equivalence on all runs", "decent_bench/algorithms/federated")
p("Selection bookkeeping",
  "Each client's selected counter equals the number of rounds in which it was selected; the reported fraction of selected clients lies in [0,1].",
  "all runs", "unbounded runs", "decent_bench/algorithms/federated/_fed_algorithm.py", "decent_bench/metrics/metric_library.py:FractionSelectedClients")
# ---- benchmark
p("Trial seeds are reproducible and distinct",
  "The seed of (algorithm index, trial index) depends only on these and the base seed, lies in 32-bit range, differs between any two trials of one algorithm and between algorithms for a trial within realistic ranges.",
  "all base seeds, indices", "modular arithmetic over all indices", "decent_bench/benchmark/_benchmark.py:_derive_trial_seed")
p("Crash-resume equivalence",
  "If the process dies at any point of the checkpointing protocol and the benchmark is resumed, completed trials are not rerun and every other trial's final network equals that of a run that never crashed.",
  "all crash points, checkpoint periods, keep limits, trial schedules", "every prefix of every file-system operation sequence", "decent_bench/utils/checkpoint_manager.py", "decent_bench/benchmark/_benchmark.py:_run_trial")
p("Checkpoint retention",
  "After every save the newest keep_n checkpoints (by iteration) are retained, the one named by the progress file is always loadable, and older ones are removed.",
  "all save sequences and keep_n", "all histories", "decent_bench/utils/checkpoint_manager.py:CheckpointManager.save_checkpoint")
p("Checkpoint round trip",
  "Loading a checkpoint returns the algorithm, network, iteration and RNG state that were saved, including agent-keyed mappings inside algorithm state.",
  "all states", "all nestings of agent-keyed dictionaries", "decent_bench/utils/checkpoint_manager.py")
p("Completion bookkeeping",
  "is_benchmark_completed holds iff every (algorithm, trial) of the benchmark has been marked complete and not unmarked since; load_benchmark_result returns exactly the completed trials' final networks.",
  "all mark/unmark/extend histories", "all histories", "decent_bench/utils/checkpoint_manager.py")
p("Extending a benchmark",
  "Resuming with increased trials or iterations runs exactly the missing trials/iterations and reuses the rest; the extension persists over later resumes.",
  "all sequences of resumes", "histories of resumes", "decent_bench/benchmark/_benchmark.py:resume_benchmark")
p("Results are keyed by trial",
  "The list of final networks returned per algorithm is ordered by trial index independent of which trials were loaded or rerun and of completion order.",
  "all completion patterns", "all interleavings", "decent_bench/benchmark/_benchmark.py:_run_trials")
p("RNG state round trip",
  "Restoring a captured RNG state makes every later draw of every covered generator equal to the draw that would have followed the capture.",
  "all generators, draw sequences", "unbounded draw sequences", "decent_bench/utils/interoperability/_rng.py")
# ---- metrics
p("Metric iteration axis",
  "Metrics are computed at exactly the union of the recorded iterations, sorted without duplicates; agents without a snapshot at an iteration contribute their nearest preceding snapshot.",
  "all histories", "all histories", "decent_bench/metrics/utils.py:all_sorted_iterations", "decent_bench/benchmark/_compute/_compute_metrics.py:_all_iterations")
p("Metric semantics",
  "Regret is non-negative when x_optimal minimises the sum of costs, consensus error is zero iff all agents agree, the mean state minimises the sum of squared consensus errors, x error is the distance of the mean state to the optimum.",
  "all states, costs", "all inputs", "decent_bench/metrics/utils.py", "decent_bench/metrics/metric_library.py")
p("Elbow fit is least-squares optimal",
  "For a fixed breakpoint the fitted slope and intercept minimise the residual among all slopes and intercepts, for every trajectory.",
  "all data vectors and breakpoints", "optimality against all competitors", "decent_bench/metrics/utils.py:_fit_elbow_curve_given_breakpoint")
if __name__ == "__main__":
    out = os.path.join(os.path.dirname(__file__), "..", "properties.jsonl")
    with open(out, "w") as f:
        for r in P: f.write(json.dumps(r) + "\n")
    print(len(P))
