(** Model of a benchmark on a checkpoint directory:
    /repo/decent_bench/benchmark/_benchmark.py:53-305, 430-530 and the parts of
    /repo/decent_bench/utils/checkpoint_manager.py about the whole directory.

    Simplifications: the files and effects are those of Model/Checkpoint.v;
    several trials may run at once (processes), so only the order of the effects
    of each trial is fixed; the problem is the network in the state the trial
    starts from, per (algorithm, trial), which covers the trial's seed;
    algorithms are pickled faithfully (Model/Compact.v is about how); backups,
    logging, progress bars, plots and the check that loaded algorithm names match
    are left out; arguments are non-negative. *)
From Coq Require Import List Bool Arith ZArith.
From Verif.Model Require Import PyDict History Messages Network Runner Checkpoint.
Import ListNotations.
Open Scope nat_scope.

Section Bench.
  Variables (V St : Type).
  Notation world := (world V St).
  Notation alg := (alg V St).
  (** [BenchmarkProblem]: the network (topology, snapshot periods) and the world a
      trial begins in *)
  Record problem := mkProblem { p_topo : topo; p_period : agent_id -> nat; p_start : nat -> nat -> world }.
  (** metadata.json, checkpoint_manager.py:197-214; the last two are
      benchmark_metadata's [increased_trials] and [increased_iterations], 0 when
      absent (_benchmark.py:163, 172-174) *)
  Record meta := mkMeta { m_trials : nat; m_algs : nat; m_inc_t : nat; m_inc_i : nat }.
  (** the checkpoint directory, checkpoint_manager.py:45-66 *)
  Record bdir := mkB { b_meta : option (file meta); b_algs : option (file (list alg)); b_prob : option (file problem); b_dir : nat -> nat -> dir world }.
  Definition empty_b : bdir := mkB None None None (fun _ _ => empty_dir).

  (** effects on it *)
  Inductive beffect :=
  | TruncMeta | WriteMeta (m : meta) | TruncAlgs | WriteAlgs (l : list alg) | TruncProb | WriteProb (p : problem)
  | InTrial (a i : nat) (x : effect world).
  Definition bapply (s : bdir) (x : beffect) : bdir :=
    match x with
    | TruncMeta => mkB (Some Torn) (b_algs s) (b_prob s) (b_dir s)
    | WriteMeta m => mkB (Some (Full m)) (b_algs s) (b_prob s) (b_dir s)
    | TruncAlgs => mkB (b_meta s) (Some Torn) (b_prob s) (b_dir s)
    | WriteAlgs l => mkB (b_meta s) (Some (Full l)) (b_prob s) (b_dir s)
    | TruncProb => mkB (b_meta s) (b_algs s) (Some Torn) (b_dir s)
    | WriteProb p => mkB (b_meta s) (b_algs s) (Some (Full p)) (b_dir s)
    | InTrial a i y => mkB (b_meta s) (b_algs s) (b_prob s)
        (fun b j => if (b =? a) && (j =? i) then apply (b_dir s a i) y else b_dir s b j)
    end.
  Definition bapply_all (l : list beffect) (s : bdir) : bdir := fold_left bapply l s.

  (** [CheckpointManager.initialize], checkpoint_manager.py:181-224, 785-812 *)
  Definition initialize (algs : list alg) (p : problem) (n : nat) : list beffect :=
    [TruncMeta; WriteMeta (mkMeta n (length algs) 0 0); TruncAlgs; WriteAlgs algs; TruncProb; WriteProb p].

  (** what is going to be run, and the effects before it *)
  Record plan := mkPlan { pl_prep : list beffect; pl_algs : list alg; pl_prob : problem; pl_trials : nat }.
  (** [benchmark] with an empty checkpoint directory, _benchmark.py:270-305 *)
  Definition fresh (algs : list alg) (p : problem) (n : nat) : plan := mkPlan (initialize algs p n) algs p n.
  (** [for trial in range(n_trials): unmark_trial_complete(alg_idx, trial)],
      _benchmark.py:176-179 *)
  Definition unmarks (n_algs n : nat) (s : bdir) : list beffect :=
    flat_map (fun a => flat_map (fun i => if is_complete (b_dir s a i) then [InTrial a i UnlinkComp] else []) (seq 0 n)) (seq 0 n_algs).
  (** [append_metadata], checkpoint_manager.py:245-264 *)
  Definition put_meta (m : meta) : list beffect := [TruncMeta; WriteMeta m].
  (** [resume_benchmark], _benchmark.py:122-190; [None]: it raises *)
  Definition resume (inc_i inc_t : nat) (s : bdir) : option plan :=
    match b_meta s, b_prob s, b_algs s with
    | Some (Full m), Some (Full p), Some (Full algs) =>
        let total_t := inc_t + m_inc_t m in
        let n := m_trials m + total_t in
        let m1 := mkMeta (m_trials m) (m_algs m) total_t (m_inc_i m) in
        let prep_t := if inc_t =? 0 then [] else put_meta m1 in
        let total_i := inc_i + m_inc_i m in
        let m2 := mkMeta (m_trials m) (m_algs m) (if inc_t =? 0 then m_inc_t m else total_t) total_i in
        let prep_i := if inc_i =? 0 then [] else unmarks (length algs) n s ++ put_meta m2 in
        let algs' := if inc_i =? 0 then algs else map (fun A => with_iters (al_iters A + total_i) A) algs in
        Some (mkPlan (prep_t ++ prep_i) algs' p n)
    | _, _, _ => None
    end.

  (** [_run_trials], _benchmark.py:430-530. [step], [keep]: of the manager. *)
  Variables (step : option nat) (keep : nat).
  (** one trial, of algorithm [a] *)
  Definition bvisit (p : problem) (A : alg) (a i : nat) (s : bdir) : attempt_res V St :=
    visit (p_topo p) (p_period p) A (p_start p a i) step keep (b_dir s a i).
  (** lines 458-462, [get_completed_trials], checkpoint_manager.py:586-598 *)
  Definition completed (n a : nat) (s : bdir) : list nat := filter (fun i => is_complete (b_dir s a i)) (seq 0 n).
  Definition to_run (n a : nat) (s : bdir) : list nat := filter (fun i => negb (existsb (Nat.eqb i) (completed n a s))) (seq 0 n).
  (** effects of the trials *)
  Definition trial_effects (pl : plan) (s : bdir) (a i : nat) : list (effect world) :=
    match nth_error (pl_algs pl) a with
    | Some A => if existsb (Nat.eqb i) (to_run (pl_trials pl) a s) then at_effects (bvisit (pl_prob pl) A a i s) else []
    | None => []
    end.
  (** without multiprocessing, line 506: algorithm by algorithm, trial by trial *)
  Definition one_by_one (pl : plan) (s : bdir) : list beffect :=
    flat_map (fun a => flat_map (fun i => map (InTrial a i) (trial_effects pl s a i)) (seq 0 (pl_trials pl))) (seq 0 (length (pl_algs pl))).
  Fixpoint all_some {X Y} (f : X -> option Y) (l : list X) : option (list Y) :=
    match l with
    | [] => Some []
    | x :: l' => match f x, all_some f l' with Some y, Some ys => Some (y :: ys) | _, _ => None end
    end.
  (** lines 465-469 *)
  Definition load_completed (pl : plan) (s : bdir) (a : nat) : option (list (net V)) :=
    all_some (fun i => option_map snd (load_result (b_dir s a i))) (completed (pl_trials pl) a s).
  (** [_run_trial] returning [(trial, network)] *)
  Definition run_one (pl : plan) (A : alg) (s : bdir) (a i : nat) : option (nat * net V) :=
    match at_answer (bvisit (pl_prob pl) A a i s) with Returned _ w => Some (i, snd w) | Failed => None end.
  (** [sorted(.., key=itemgetter(0))], line 522 *)
  Fixpoint insert_trial (x : nat * net V) (l : list (nat * net V)) : list (nat * net V) :=
    match l with [] => [x] | y :: l' => if fst x <=? fst y then x :: l else y :: insert_trial x l' end.
  Definition sort_trials (l : list (nat * net V)) : list (nat * net V) := fold_right insert_trial [] l.
  (** the list returned for algorithm [a] when its trials end in the order
      [arrivals]; [None]: an exception reaches the caller *)
  Definition alg_results (pl : plan) (s : bdir) (a : nat) (A : alg) (arrivals : list nat) : option (list (net V)) :=
    match load_completed pl s a, all_some (run_one pl A s a) arrivals with
    | Some l, Some r => Some (l ++ map snd (sort_trials r))
    | _, _ => None
    end.

  (** what [_run_trials] returns, in the order of the algorithms; [arrivals a]: the
      order in which the trials run for algorithm [a] end *)
  Definition results (pl : plan) (s : bdir) (arrivals : nat -> list nat) : option (list (list (net V))) :=
    all_some (fun q => alg_results pl s (fst q) (snd q) (arrivals (fst q))) (combine (seq 0 (length (pl_algs pl))) (pl_algs pl)).

  (** [is_benchmark_completed], checkpoint_manager.py:521-541; [None]: it raises *)
  Definition is_benchmark_completed (s : bdir) : option bool :=
    match b_meta s with
    | None => Some false
    | Some Torn => None
    | Some (Full m) => Some (forallb (fun a => forallb (fun i => is_complete (b_dir s a i)) (seq 0 (m_trials m))) (seq 0 (m_algs m)))
    end.
  (** [load_benchmark_result], checkpoint_manager.py:619-668: the list of networks
      of each algorithm, if it is in the result *)
  Definition load_benchmark_result (s : bdir) : option (list (option (list (net V)))) :=
    match b_prob s, b_algs s, b_meta s with
    | Some (Full _), Some (Full algs), Some (Full m) =>
        all_some (fun a =>
          if length (completed (m_trials m) a s) =? m_trials m then
            match all_some (fun i => option_map snd (load_result (b_dir s a i))) (completed (m_trials m) a s) with
            | Some [] => Some None
            | Some l => Some (Some l)
            | None => None
            end
          else Some None) (seq 0 (length algs))
    | _, _, _ => None
    end.
End Bench.
Arguments mkProblem {V St}. Arguments p_topo {V St}. Arguments p_period {V St}. Arguments p_start {V St}.
Arguments mkB {V St}. Arguments b_meta {V St}. Arguments b_algs {V St}. Arguments b_prob {V St}. Arguments b_dir {V St}. Arguments empty_b {V St}.
Arguments TruncMeta {V St}. Arguments WriteMeta {V St}. Arguments TruncAlgs {V St}. Arguments WriteAlgs {V St}. Arguments TruncProb {V St}. Arguments WriteProb {V St}. Arguments InTrial {V St}.
Arguments bapply {V St}. Arguments bapply_all {V St}. Arguments initialize {V St}. Arguments mkPlan {V St}. Arguments pl_prep {V St}. Arguments pl_algs {V St}. Arguments pl_prob {V St}. Arguments pl_trials {V St}.
Arguments fresh {V St}. Arguments unmarks {V St}. Arguments put_meta {V St}. Arguments resume {V St}. Arguments bvisit {V St}. Arguments completed {V St}. Arguments to_run {V St}. Arguments trial_effects {V St}. Arguments one_by_one {V St}.
Arguments load_completed {V St}. Arguments run_one {V St}. Arguments insert_trial {V}. Arguments sort_trials {V}. Arguments alg_results {V St}. Arguments results {V St}. Arguments is_benchmark_completed {V St}. Arguments load_benchmark_result {V St}.
