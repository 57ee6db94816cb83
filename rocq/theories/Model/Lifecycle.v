(** The helpers (threads, processes, displays) a benchmark starts and stops, and what
    an exception at any point does to them:
    /repo/decent_bench/benchmark/_benchmark.py (benchmark, resume_benchmark,
    _benchmark, _init_logging_and_multiprocessing, _run_trials, _run_trial,
    _get_runtime_metrics), /repo/decent_bench/utils/progress_bar.py:193-260 and
    /repo/decent_bench/metrics/_runtime_metric_plotter.py:55-58, 213-239.

    What the calls compute is left out (Model/Benchmark.v, Model/Checkpoint.v): a call
    that can raise is a point, and an environment tells at which points what is
    raised.  Trials running in several processes are written one after the other:
    they do not touch the helpers, and each of them sends its own progress units. *)
From Coq Require Import List Arith Bool.
Import ListNotations.

(** what is started: the manager's process (_benchmark.py:404-406; nobody stops it, its
    destructor does), the thread of the log listener (416, a daemon in Python's
    [QueueListener]), the thread of the progress bars with the live display
    (progress_bar.py:229-233, not a daemon), the plotter's process
    (_runtime_metric_plotter.py:57, a daemon), the pool of worker processes
    (_benchmark.py:511-518) *)
Inductive helper := Manager | LogListener | Bars | Plotter | Pool.
(** an exception the code can catch ([Exception]) or Ctrl+C ([KeyboardInterrupt]) *)
Inductive fault := Error | Interrupt.
(** calls that can raise; [a]: algorithm, [i]: trial *)
Inductive point :=
| PNames | PSpawn | PManager | PListener | PNotEmpty | PInitialize     (* benchmark *)
| PDirectory | PLoadAll | PBackup | PIncrease                          (* resume_benchmark *)
| PBars | PQueue | PPlotter | PPool
| PScan (a : nat)                                                      (* get_completed_trials *)
| PLoad (a i : nat)                                                    (* load_trial_result *)
| PSeed (a i : nat) | PCheckpoint (a i : nat) | PStartBar (a i : nat)  (* _run_trial before its try *)
| PMetric (a i m : nat)                                                (* initialize_plot *)
| PIteration (a i k : nat)                                             (* alg.run: an iteration and its callback *)
| PMark (a i : nat) | PCleanup (a i : nat).                            (* mark_trial_complete, _cleanup *)
(** what happens: helpers start and stop; all progress units of a trial have been
    sent; the result of a trial is there, after how many iterations *)
Inductive event := Start (h : helper) | Stop (h : helper) | Units (a i : nat) | Result (a i : nat) (complete : bool).

(** what a piece of the program does and whether it raises *)
Definition run := (list event * option fault)%type.
Definition ret (l : list event) : run := (l, None).
Definition seq_ (x y : run) : run := match snd x with None => (fst x ++ fst y, snd y) | Some _ => x end.
Infix ";;" := seq_ (at level 60, right associativity).
Definition each {A} (f : A -> run) (l : list A) : run := fold_right (fun x r => f x ;; r) (ret []) l.
(** [try: x except Exception: ...] *)
Definition catch (x : run) : run := match snd x with Some Error => (fst x, None) | _ => x end.

Section Program.
  (** what is raised where; the number of algorithms and of trials; iterations still to
      be done in a trial; the runtime metrics *)
  Variables (raises : point -> option fault) (n_algs n_trials : nat) (iterations : nat -> nat -> nat) (n_metrics : nat).
  (** [max_processes != 1], a checkpoint manager, and which trials its directory says
      are complete *)
  Variables (multi checkpoints : bool) (complete : nat -> nat -> bool).

  Definition act (p : point) : run := ([], raises p).
  Definition start (p : point) (h : helper) : run := act p ;; ret [Start h].
  Definition stop_if (b : bool) (h : helper) : run := ret (if b then [Stop h] else []).

  (** [_init_logging_and_multiprocessing], _benchmark.py:392-421 *)
  Definition init_logging : run :=
    if multi then act PSpawn ;; start PManager Manager ;; start PListener LogListener else ret [].

  (** [alg.run] of [_run_trial], _benchmark.py:604-616: iterations, then marking and
      cleaning up *)
  Definition body (a i : nat) : run :=
    each (fun k => act (PIteration a i k)) (seq 0 (iterations a i)) ;; ret [Units a i] ;;
    (if checkpoints then act (PMark a i) else ret []) ;; act (PCleanup a i).
  (** [_run_trial], _benchmark.py:532-620 ([_get_runtime_metrics] 623-650: an exception
      of [initialize_plot] is caught).  A run of no iterations has nothing to send. *)
  Definition run_trial (a i : nat) : run :=
    act (PSeed a i) ;; act (PCheckpoint a i) ;; act (PStartBar a i) ;;
    each (fun m => catch (act (PMetric a i m))) (seq 0 n_metrics) ;;
    catch (body a i) ;; ret [Result a i (match snd (body a i) with None => true | _ => false end)].

  Definition pairs (a : nat) : list (nat * nat) := map (fun i => (a, i)) (seq 0 n_trials).
  Definition done_of (a : nat) : list (nat * nat) := if checkpoints then filter (fun p => complete (fst p) (snd p)) (pairs a) else [].
  Definition todo_of (a : nat) : list (nat * nat) := if checkpoints then filter (fun p => negb (complete (fst p) (snd p))) (pairs a) else pairs a.
  Definition todo : list (nat * nat) := flat_map todo_of (seq 0 n_algs).
  (** _benchmark.py:457-474: complete trials are loaded, and their progress marked *)
  Definition load_trial (p : nat * nat) : run := act (PLoad (fst p) (snd p)) ;; ret [Units (fst p) (snd p); Result (fst p) (snd p) true].
  Definition load_done : run := if checkpoints then each (fun a => act (PScan a) ;; each load_trial (done_of a)) (seq 0 n_algs) else ret [].
  (** _benchmark.py:504-519: in one process trial by trial; in several, leaving the
      [with] block waits for the workers and stops them, whatever is raised; all trials
      are run, and the first exception is raised again by [f.result()] *)
  Definition run_all : run :=
    if multi
    then start PPool Pool ;;
         (let rs := map (fun p => run_trial (fst p) (snd p)) todo in
          (flat_map fst rs ++ [Stop Pool], fold_right (fun r o => match snd r with Some f => Some f | None => o end) None rs))
    else each (fun p => run_trial (fst p) (snd p)) todo.
  (** [len(to_run) == 0], _benchmark.py:457-484: with a checkpoint manager only
      algorithms with incomplete trials are in [to_run] *)
  Definition nothing_left : bool := if checkpoints then match todo with [] => true | _ => false end else n_algs =? 0.
  (** [_run_trials], _benchmark.py:430-530 ([runtime_metrics] is [None] if empty, 373) *)
  Definition run_trials : run :=
    (if 0 <? n_metrics then act PQueue ;; start PPlotter Plotter else ret []) ;;
    load_done ;;
    if nothing_left then ret [Stop Bars]
    else run_all ;; ret [Stop Bars] ;; stop_if (0 <? n_metrics) Plotter.
  (** [_benchmark], _benchmark.py:324-390 *)
  Definition benchmark_core : run := start PBars Bars ;; run_trials.
  (** [benchmark], _benchmark.py:193-321 *)
  Definition benchmark : run :=
    act PNames ;; init_logging ;; (if checkpoints then act PNotEmpty ;; act PInitialize else ret []) ;;
    benchmark_core ;; stop_if multi LogListener.
  (** [resume_benchmark], _benchmark.py:53-190 *)
  Definition resume_benchmark : run :=
    act PDirectory ;; act PLoadAll ;; init_logging ;; act PBackup ;; act PIncrease ;;
    benchmark_core ;; stop_if multi LogListener.
End Program.
