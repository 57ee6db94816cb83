(** Runtime metrics: [RuntimeMetric]
    (/repo/decent_bench/metrics/_runtime_metric.py:122-154), the library of
    runtime metrics (runtime_library.py:14-130) and the progress callback of a
    trial that updates them (benchmark/_benchmark.py:585-604).

    A cost keeps a private state of type [Q] per agent (the batch sampler of
    empirical costs, nothing for others).  [compute] is any program that calls
    the functions and gradients of the agents it is given, raises, or returns a
    value.  The metric objects are copied per trial (_benchmark.py:639), so they
    are part of the run.  The queue to the plotter accepts every point, and the
    checkpoint written by the same callback is in Model/Checkpoint.v.

    Function calls use the default [indices="batch"]. *)
From Coq Require Import Reals List Bool Arith ZArith.
From Verif.Model Require Import PyDict History Messages Network Counting Vec Metrics Runner.
Import ListNotations.
Local Open Scope R_scope.

(** What a [compute] method does. Agents are named by their position in the
    sequence passed. *)
Inductive oprog (A : Type) :=
| Ret (a : A)
| Raise
| CallF (i : nat) (x : vec) (k : R -> oprog A)
| CallG (i : nat) (x : vec) (k : vec -> oprog A).
Arguments Ret {A}. Arguments Raise {A}. Arguments CallF {A}. Arguments CallG {A}.

Fixpoint obind {A B} (p : oprog A) (f : A -> oprog B) : oprog B :=
  match p with
  | Ret a => f a
  | Raise => Raise
  | CallF i x k => CallF i x (fun v => obind (k v) f)
  | CallG i x k => CallG i x (fun v => obind (k v) f)
  end.

(** A cost as the agents call it: value ([None]: it raises) and new private
    state; [rc_len] is what a counted call adds (agents.py:206-224). *)
Record rcost (Q : Type) := mkRCost {
  rc_fun : vec -> Q -> option R * Q;
  rc_grad : vec -> Q -> option vec * Q;
  rc_len : Q -> nat
}.
Arguments mkRCost {Q}. Arguments rc_fun {Q}. Arguments rc_grad {Q}. Arguments rc_len {Q}.

(** the part of the agents that calls can change *)
Record oracles (Q : Type) := mkO { o_state : agent_id -> Q; o_count : cstate }.
Arguments mkO {Q}. Arguments o_state {Q}. Arguments o_count {Q}.

Section Exec.
  Context {Q : Type}.
  Variable cost : agent_id -> rcost Q.
  Definition set_state (o : oracles Q) (a : agent_id) (q : Q) : oracles Q :=
    mkO (fun b => if Nat.eqb b a then q else o_state o b) (o_count o).

  (** a counting wrapper of agents.py:206-224 around a call that returned [r] *)
  Definition counted_call {A} (a : agent_id) (k : okind) (r : option A * Q) (o : oracles Q) : option A * oracles Q :=
    let o1 := set_state o a (snd r) in
    match fst r with
    | None => (None, o1)
    | Some v => (Some v, mkO (o_state o1) (fst (do_call a k (rc_len (cost a) (snd r)) true (o_count o1))))
    end.

  Fixpoint oexec {A} (agents : list agent_id) (p : oprog A) (o : oracles Q) : option A * oracles Q :=
    match p with
    | Ret a => (Some a, o)
    | Raise => (None, o)
    | CallF i x k =>
        match nth_error agents i with
        | None => (None, o)
        | Some a =>
            match counted_call a KFunction (rc_fun (cost a) x (o_state o a)) o with
            | (Some v, o') => oexec agents (k v) o'
            | (None, o') => (None, o')
            end
        end
    | CallG i x k =>
        match nth_error agents i with
        | None => (None, o)
        | Some a =>
            match counted_call a KGradient (rc_grad (cost a) x (o_state o a)) o with
            | (Some v, o') => oexec agents (k v) o'
            | (None, o') => (None, o')
            end
        end
    end.
End Exec.

(** A metric object: its interval, its cached value
    (runtime_library.py:66-69) and its [compute], given the optimum of the
    problem, the current [x] of the agents and the iteration. *)
Record rmetric := mkRM {
  rm_interval : Z;
  rm_cache : option R;
  rm_compute : option R -> option vec -> list (option vec) -> nat -> oprog (fval * option R)
}.

(** [sum(agent.cost.function(agent.x) for agent in agents)] and alike: agents
    from position [i] on; an [x] that is not set raises (agents.py) *)
Fixpoint osum (call : nat -> vec -> (R -> oprog R) -> oprog R) (i : nat) (xs : list (option vec)) (acc : R) : oprog R :=
  match xs with
  | [] => Ret acc
  | None :: _ => Raise
  | Some x :: xs' => call i x (fun v => osum call (S i) xs' (acc + v))
  end.
Definition callF : nat -> vec -> (R -> oprog R) -> oprog R := CallF.
(** [sum(...) / len(agents)]: no agents, ZeroDivisionError *)
Definition divlen (xs : list (option vec)) (s : R) : oprog R :=
  if Nat.eqb (length xs) 0 then Raise else Ret (s / INR (length xs)).

(** runtime_library.py:35-37 *)
Definition loss_prog (xs : list (option vec)) : oprog R := obind (osum callF 0 xs 0) (divlen xs).
Definition RuntimeLoss (interval : Z) : rmetric :=
  mkRM interval None (fun c _ xs _ => obind (loss_prog xs) (fun v => Ret (Fin v, c))).

(** runtime_library.py:60-71 *)
Definition RuntimeRegret (interval : Z) : rmetric :=
  mkRM interval None (fun c xopt xs _ =>
    match xopt with
    | None => Ret (NaN, c)
    | Some xo => obind (loss_prog xs) (fun agent_cost =>
        match c with
        | Some o => Ret (Fin (agent_cost - o), c)
        | None => obind (loss_prog (map (fun _ => Some xo) xs)) (fun o => Ret (Fin (agent_cost - o), Some o))
        end)
    end).

(** runtime_library.py:96-98; [d] is the dimension of the vectors *)
Definition RuntimeGradientNorm (d : nat) (interval : Z) : rmetric :=
  mkRM interval None (fun c _ xs _ =>
    obind (obind (osum (fun i x k => CallG i x (fun g => k (l2norm d g))) 0 xs 0) (divlen xs)) (fun v => Ret (Fin v, c))).

(** [agent.x] for all agents *)
Fixpoint all_x (xs : list (option vec)) : option (list vec) :=
  match xs with
  | [] => Some []
  | None :: _ => None
  | Some x :: xs' => match all_x xs' with Some l => Some (x :: l) | None => None end
  end.
(** runtime_library.py:124-130: [iop.mean(iop.stack(...), dim=0)] *)
Definition RuntimeConsensusError (d : nat) (interval : Z) : rmetric :=
  mkRM interval None (fun c _ xs _ =>
    match all_x xs with
    | None | Some [] => Raise
    | Some l =>
        let avg := vscal (/ INR (length l)) (vsum l) in
        Ret (Fin (rsum (map (fun x => l2norm d (vsub x avg)) l) / INR (length l)), c)
    end).

Section Callback.
  Context {Q P : Type}.
  Variables (t : topo) (cost : agent_id -> rcost Q) (xopt : option vec).
  (** the state of an algorithm's run: its own, the oracles, the network *)
  Definition ostate : Type := P * oracles Q.
  Notation world := (world vec ostate).

  (** a point sent to the plotter: which metric, iteration, value *)
  Definition point : Type := nat * nat * fval.

  (** [should_update], _runtime_metric.py:154; [None]: modulo by zero *)
  Definition should_update (m : rmetric) (k : nat) : option bool :=
    if Z.eqb (rm_interval m) 0 then None
    else Some (Z.eqb (Z.of_nat k mod rm_interval m) 0 || Nat.eqb k 0)%bool.

  (** [update_plot], _runtime_metric.py:122-142, inside the [try] of
      _benchmark.py:599-604: a point, or a warning and none *)
  Definition update_plot (m : rmetric) (k : nat) (w : world) : option fval * rmetric * world :=
    let ags := agents t in
    let o := snd (fst w) in
    let xs := map (fun a => a_x (n_agents (snd w) a)) ags in
    let '(r, o') := oexec cost ags (rm_compute m (rm_cache m) xopt xs k) (mkO (o_state o) (enter ags (o_count o))) in
    let w' := ((fst (fst w), mkO (o_state o') (leave ags (o_count o'))), snd w) in
    match r with
    | Some (v, c) => (Some v, mkRM (rm_interval m) c (rm_compute m), w')
    | None => (None, m, w')
    end.

  (** [for metric in trial_runtime_metrics], _benchmark.py:597-604, for metrics
      from position [i] on; the last component tells whether an exception
      leaves the callback *)
  Fixpoint update_all (iters i : nat) (ms : list rmetric) (k : nat) (w : world) : list point * list rmetric * world * bool :=
    match ms with
    | [] => ([], [], w, false)
    | m :: ms' =>
        match should_update m k with
        | None => ([], m :: ms', w, true)
        | Some b =>
            if (b || Nat.eqb (k + 1) iters)%bool
            then
              let '(v, m', w1) := update_plot m k w in
              let '(ps, ms1, w2, raised) := update_all iters (S i) ms' k w1 in
              (match v with Some v => (i, k, v) :: ps | None => ps end, m' :: ms1, w2, raised)
            else
              let '(ps, ms1, w2, raised) := update_all iters (S i) ms' k w in (ps, m :: ms1, w2, raised)
        end
    end.

  Variable period : agent_id -> nat.
  Variable A : alg vec ostate.

  (** the loop of [Algorithm.run] (algorithms/_algorithm.py:119-125) with that
      callback *)
  Fixpoint loop_obs (n k : nat) (ms : list rmetric) (w : world) : run_res vec ostate * list point :=
    match n with
    | 0 => (mkRes Finished [] w, [])
    | Datatypes.S n' =>
      let w1 := (fst w, step t k (snd w)) in
      let '(w2, raised) := al_step A k w1 in
      if raised then (mkRes (Raised k) [CStep k w1] w2, [])
      else
        let w3 := (fst w2, snapshot_all t period A (k + 1) (snd w2)) in
        let '(ps, ms', w4, craised) := update_all (al_iters A) 0 ms k w3 in
        if craised then (mkRes (Raised k) [CStep k w1; CCallback k w3] w4, ps)
        else
          let '(r, ps') := loop_obs n' (k + 1) ms' w4 in
          (mkRes (r_out r) (CStep k w1 :: CCallback k w3 :: r_calls r) (r_world r), ps ++ ps')
    end.

  (** [alg.run(network, start_iteration, progress_callback)],
      _benchmark.py:608 *)
  Definition run_obs (ms : list rmetric) (start : Z) (w : world) : run_res vec ostate * list point :=
    if ((start <? 0) || (Z.of_nat (al_iters A) <? start))%Z then (mkRes Rejected [] w, [])
    else
      let k0 := Z.to_nat start in
      if (start =? 0)%Z then
        let w0 := al_init A w in
        let '(r, ps) := loop_obs (al_iters A - k0) k0 ms w0 in
        (mkRes (r_out r) (CInit w :: r_calls r) (r_world r), ps)
      else loop_obs (al_iters A - k0) k0 ms w.
End Callback.
