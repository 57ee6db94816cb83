# Formal model of decent-bench in Rocq (Coq 8.16.1)

The source in /repo is modelled function by function as *executable* Gallina
(shallow embedding).  Exceptions are values (`option`/`result`), loops are
folds or structural recursion, Python mutable objects are records that are
passed through, and every random or user-supplied ingredient (drop decisions,
noise, compression, activation schemes, shuffles, gradients, step functions,
kill points, completion orders of processes) is a universally quantified
function, stream or prefix, so a theorem covers every outcome of every draw.

## Layout
* `rocq/theories/Model/`  definitions only; each cites the /repo lines it models
  and states its simplifications.
* `rocq/theories/Spec/`   small specifications used in theorem statements; they
  do not use the model's helpers.
* `rocq/theories/Proofs/` lemmas.
* `rocq/theories/Props/`  the property theorems, each with a non-vacuity
  `Example` beside it and `Print Assumptions`.
* `MANIFEST.json` maps properties to theorem names (written by
  `tools/mkmanifest.py` from the Props files and `tools/notes.json`),
  `ASSUMPTIONS.md` lists what `Print Assumptions` says for each theorem
  (`tools/assumptions.py`), `seeded/LOG.jsonl` records the mutation tests
  (`tools/mutate.py`), `tools/cites.py` checks that citations exist.

A theorem whose name ends in `_refuted` proves, with a concrete witness, that the
documented or stated claim is *false* of the modelled code; it stands beside the
strongest positive theorem found.  `_partial` marks a theorem that proves less
than its property.

## Per property: what is modelled, how it is proved
| id | model | proof |
|----|-------|-------|
| C01,C02 | `History`: dict + sorted key list + CPython bisect loops | invariant (sorted, no duplicates, keys agree with dict), refinement to a write log |
| C03 | `Messages`: nested insertion-ordered dicts | refinement to a partial map (channel, sender) |
| C04,C31,C32 | `Runner`: `Algorithm.run` over an arbitrary initialize/step; C32 for library algorithms in `AlgProps` | induction on iterations; snapshot schedule as a filter of the index list |
| C05 | `Counting`: programs of calls and `no_count` blocks, with exceptions | induction on programs |
| C06-C11 | `Network`: agents, counters, message stores, caches, `send`, `step`; schemes are oracles | invariants over arbitrary operation traces |
| C12 | `Weights`: the Metropolis loop on any finite graph, any ordered field | mathcomp big-operator algebra; self loops as refutation |
| C13 | `Construct`: constructor checks on an object store | exact characterisation of success |
| C14-C18,C52 | `Schemes`: activation, selection, drop | modular arithmetic, stable sorting, counting |
| C19,C20 | `Compression`: quantisation and top-k/rand-k on reals (Flocq rounding) | order reasoning; refutation for integer k > n |
| C21,C22,C24,C53-C55 | `Partition` | permutation reasoning, largest-remainder arithmetic |
| C23 | `LabelFlow`, `LabelQuantity`: the max-flow code and its use | flow invariants, augmenting paths, termination of the fuelled loops |
| C25 | `Batch`: the sampler | stream/epoch invariant |
| C26,C27,C56,C57 | `Costs`: the cost classes, operators, prox, constants | expression semantics; convex analysis; Coquelicot derivatives |
| C28,C58 | `EmpiricalRisk`: linear and logistic regression | sums over batches; refutations |
| C29,C30,C59,C60 | `Solvers`: centralised algorithms | fixed point/stopping characterisation; rates by Lyapunov functions |
| C33-C36 | `P2P` (values), `P2PVR` (variance-reduced) and `P2PShared` (DLM/DiNNO, with the shared message buffers) | every step executed on the Network model refines its recursion; then invariants of the recursion |
| C37-C40 | `Fed` | same |
| C41,C48 | `Rng`: generators, seeds, state capture | round trip, arithmetic of seeds |
| C42,C43,C46 | `Checkpoint`: a trial as a sequence of effects on a directory | invariants over every prefix (kill point) and every sequence of attempts |
| C42,C45-C47 | `Benchmark`: interleaved trials | same, over interleavings |
| C44 | `Compact`: encoding of initial algorithms | round trip |
| C49,C50,C62,C63 | `Metrics` | sorting/intersection of iteration axes, per-metric formulas, frames as lists of rows |
| C51,C64 | `Elbow` | normal equations, finite search |
| C61 | `Network`+`P2P`+`Fed` via `AlgProps` | counting setter calls along runs |
| C65 | `Aggregate` | grouping lemmas, statistics specs |
| C66 | `Runtime` | simulation between a run with and without runtime metrics |
| C67 | `InitStates` | case analysis |
| C68 | `P2PVR`, `Batch` | double counting over balanced families; closure of the set of permutations under relabelling |
| C69, C70 | `Predict` | induction over agents and samples (sklearn's scores as counting functions); documented precision/recall, per-agent NaN and availability refuted by counterexample |
| C71 | `Display` | list filters against an inductive specification of selection |
| C72, C73 | `Display` | characterisation of the prepared frame row by row; missing curves, order on log axes and equal-work abscissas refuted by counterexample |
| C74 | `Display` | case analysis, arithmetic |
| C75 | `Handlers` | induction over histories of calls and over index lists; data sources are parameters |
| C76 | `Problems` | bounds on the quadratic form of the drawn matrices; exact second-order expansion; C29 |
| C77 | `Problems` | C21, C75 and C29 composed; the pooled mean as the mean of equal-sized means |
| C78 | `Problems` | the same with the accelerated-gradient rate of C60; unconditional creation refuted by counterexample |
| C79 | `Problems` | induction-free composition with C75; "held out" refuted: with a seed and ten agents the test data are the training data |
| C80 | `TorchCost` | parameters as lists of element lists, flat vectors split by sizes; induction over the sizes |
| C81 | `TorchCost` | mutable state (parameters, mode, cached batch, remaining indices, loader iterator) with an invariant kept by every call of a history; loss and autograd are parameters assumed to be means over the batch; two parts refuted |
| C82 | `TorchCost` | numbering of the batches of a history by (round, position), for both ways of batching; coverage without a loader refuted |
| C83 | `TorchCost` | chunks concatenate to the input |
| C84 | `TorchCost` | induction over iterations and pieces against an independent relation `trained`; three parts refuted |
| C85 | `Progress` | what each stage of a trial has sent, summed over any merge of the senders' messages (`QueueSpec.merge`); resumption at the last iteration refuted |
| C86 | `Plotter` (`Runtime` for the points) | the state of the plotter process after any queue; every update in a merge follows an announcement; metrics of one class refuted |
| C87 | `Heap` (array objects with identity, client programs), `NovaObjects` | a location reachable only from permitted places keeps its content (`confined`), preserved by every operation; sharing, live `x` and FedNova on a bare L2 cost refuted |
| C88 | `Interop` | case analysis over source and target; TensorFlow devices and ignored dtypes refuted |
| C89 | `Interop` | the wrapper as a function of the decorated method, any argument lists; conversion of the result refuted |
| C90 | `P2P` | C33's recursion, then a Lyapunov function: error plus dual error in the norm of the pseudo-inverse of I - W; the spectral gap from a Poincare inequality along walks (`ConvStack`), the dual optimum from a Neumann series (`ConvSolve`); DLM is EXTRA with Laplacian weights (`ConvDLM`); tracking methods by a weighted sum of the errors of mean, spread and tracker (`ConvGT`, `ConvWE`) |
| C91 | `Fed` | C38 (rounds are gradient steps on the mean cost, for FedNova on the cost weighted by sample counts; FedProx with one step is FedAvg), then contraction of a gradient step (of K of them towards the balanced point); Scaffold's invariant at the optimum |
| C92 | `P2P` | averaged operator: monotone inclusion of the prox, telescoped |
| C93 | `P2P` | a step contracts any two families of states; a point within O(a) of the minimiser moves by O(a^2) |
| C94-C96 | `Operators`: a heap of array objects, the dispatch of the operators on operand types | case analysis over operand types; heap frame conditions; documented errors and results refuted by counterexample |
| C97 | `P2P` (coins an oracle, averaged over all sequences in `ConvSpec.expect`) | one-step expected decrease of error plus dual error over the two outcomes of a coin, induction on the number of flips, Markov's inequality |
| C98 | `Validate` (fields, defaults and `__post_init__` of all 31 classes; Python numbers with NaN and infinities) | each check reduced to a domain test, case analysis over the classes; changing one parameter of an accepted call |
| C99 | `InitGen` (generator = stream of variates and a position) | induction on the nodes; round trip through `initial_states` by C67_idempotent |
| C100 | `MetricsStore` (metrics file, marker and the benchmark's directory of `Benchmark`; effects one by one) | case analysis on the crash point; views recomputed from the loaded networks compared with the saved ones |
| C101 | `ArrayFns` (array = shape + entry per index; each framework's own functions as documented by it, the code's TensorFlow and PyTorch detours on top) | row-major numbering is a bijection; `best` is the first largest; Cauchy-Schwarz for the spectral bound |
| C102 | run of the modelled algorithm, its final network, and the metric functions applied to the view of that network | snapshots are the iterates of the trajectory theorem (C04_peer_to_peer); mean of smooth strongly convex costs is one; Cauchy-Schwarz and co-coercivity bound regret and gradient norm; geometric (or 1/sqrt k) decay from C90/C92; federated from C91, for Scaffold with the decay of the differences of control variates |
| C103 | the trial directory as a list of named files; names as ASCII strings, the regular expression, the two globs, stable descending sort, unlink, the legacy fallback | decimal printing and reading are inverse (induction on digits); forward simulation to Model/Checkpoint.v effect by effect; sorted permutations of distinct keys are equal; rank of a dropped element in a sorted list |
| C104 | root logger of every process (handlers, level), queues and listener threads as a state machine (Model/Logging.v); calls of the library as events, with every interleaving of workers and listener inside a benchmark | invariants over histories of calls: displayed = wanted messages in the order logged; lost-forever invariant after a returned multi-process benchmark; counterexamples for later levels and tables |
| C105 | Model/Lifecycle: benchmark, resume_benchmark, _run_trials, _run_trial as sequences of helper starts/stops with an exception environment | returned_partial, order, contained, raised_hangs, refused; refuted: plotter left by a finished resume, an escaping exception leaves a non-daemon thread |
| C106 | `Backup`: operations on the directory and the archives, `create_backup`, `clear`, the parts of `benchmark` and `resume_benchmark` before the trials | order of operations in a resume, archives untouched by operations of other kinds, induction over the life of the place; results from C42_benchmark_resume_partial |
| C107 | random samples (choice) per framework, the generators' draws as parameters with their documented promise; entries of uniform/normal arrays over reals; element types of the _like functions | top_k by insertion: sorted, permutation, hence different positions; rows at valid positions are listed; ranges by real arithmetic; three refutations by computation |
| C108 | arrays as shape and entry function; squeeze/diag/eye_like/stack/reductions/set_item per framework | kept axes as a filtered sequence, row-major places by Horner induction, axis lemma of C101; cases per framework |
| C109 | subplots as records of labels and scales, drawing as a list of (place, metric, abscissas, algorithm), files and open windows | induction on metrics and algorithms, row-major arithmetic, NoDup of numbered names |
| C110 | layers as built by __init__, forward as composition over real vectors with arbitrary weights | induction on hidden sizes against an inductive network_output; monotonicity of the sigmoid for argmax |
| C111 | noise schemes as functions of a stream of standard normal draws, plugged into the network model | C07's delivery theorem specialised; injectivity of row-major places |
| C112 | arrays as shape and entry function, integer and slice keys per framework | arithmetic of bounds; C108_stack for the items |
| C113 | FedNova's coefficient recursion as in Model/Fed.v (`fednova_client`, `fednova_agg`) | induction on the local steps: with 1 - a*mu negative the coefficient stays between 0 and the momentum scalar; closed forms by induction; `nova_raises` for the rejection |

## Trusted base
* Coq's kernel (and coqchk, which the gate also runs). No plug-ins, no
  `native_compute` in proofs, no own axioms, no functors or module types.
* Axioms, all of the standard library (per theorem: `ASSUMPTIONS.md`):
  `ClassicalDedekindReals.sig_forall_dec`, `ClassicalDedekindReals.sig_not_dec`
  and `FunctionalExtensionality.functional_extensionality_dep` (the standard
  library's real numbers), `Classical_Prop.classic` (through Flocq's rounding
  and Coquelicot's analysis).  Theorems about dictionaries, messages, networks,
  runners, partitions, checkpoints and random states are closed (no axioms).
* That the Gallina definitions say what the Python does.  They were written by
  reading /repo; nothing was executed.  What is simplified is listed next.

### Simplifications that hold everywhere
* Floats are exact: reals, or rationals for counters and scheme parameters.  No
  rounding, overflow or NaN (metrics, `Elbow` and `Aggregate` keep non-finite
  values apart).  Consequently nothing is claimed about floating-point accuracy.
* Arrays are values except where stated (`Solvers` for C60, `P2PShared`, `Heap`).
  `send` copies the payload once, and all receivers of one send share that copy
  (networks.py:320-328); only DLM and DiNNO write into a received array, hence
  `P2PShared`.
* One framework: conversions between numpy/torch/tensorflow/jax by
  `utils/interoperability` are the identity, except in `Interop`.
* Random generators and user callbacks are oracles indexed by a draw number
  which every consultation increases.
* Pickling, zstd and JSON are faithful; a JSON file that is opened but not yet
  closed cannot be parsed; effects on one directory reach the disk in program
  order.  A benchmark's processes interleave arbitrarily.
* Logging, progress bars, time measurement and plotting are left out, except in
  `Logging`, `Progress`, `Runtime`, `Plotter` and `Display`.

### Modelled source
`agents.py`, `networks.py`, `schemes.py`, `algorithms/_algorithm.py`,
`algorithms/utils.py`, `algorithms/p2p/*` and `algorithms/federated/*` (except as
below), `centralized_algorithms.py`, `costs/_base/*`,
`costs/_empirical_risk/*` (for PyTorch: everything but
the network evaluation itself, see below), `datasets/partitioners/*`,
`datasets/_dataset_handler.py`, `utils/checkpoint_manager.py`,
`utils/interoperability/_rng.py`, `_decorators.py` and conversions, `benchmark/_benchmark.py`,
`benchmark/_compute/*`, `metrics/*` except as below,
`utils/progress_bar.py` (what the bars show).

### Not modelled
* C42/C46 with a `PyTorchCost` that uses a data loader: its `__setstate__` restarts
  the epoch iterator on resume (C82 models that), so the whole state is not in
  the checkpoint, as C42/C46 assume.
* `utils/interoperability` apart from `_rng.py`, `_decorators.py`, `_helpers.py`,
  `_operators.py` (`Operators`: dispatch only, the arithmetic is a parameter), the
  conversions of `_functions.py` and its functions in `ArrayFns` and `ArrayFns2`; in the algorithms'
  models the operators are `Vec`'s; `pytorch_utils.py`; the rendering of log lines and progress bars.
* Dataset downloading and the generators themselves (`sklearn.datasets`): a data
  source is an arbitrary function of seed and size; the handlers around it are
  modelled in `Handlers`.
* The `PyTorchCost` branches of `benchmark/_utils.py`. Of `PyTorchCost` itself: the
  evaluation of network, loss and autograd (parameters of the model), devices,
  compilation, data types, user-supplied `dataloader_kwargs` (the data loader is one
  that shuffles and keeps the last batch).
* Displaying: drawing with matplotlib, text and LaTeX rendering, files (the data
  drawn and tabulated is modelled in `Display`); number formats.
* Fixed-width casts of pandas columns.
* `lru_cache`s: keys are compared by identity (views are `eq=False` and
  immutable), so they return what recomputation returns.
* The ddof of the across-agent standard deviation is a parameter (pandas'
  treatment of `np.std` differs by version).
* Contents and failures of zip files (an archive is a copy of the directory).
