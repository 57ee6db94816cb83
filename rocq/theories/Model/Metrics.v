(** Model of the post-hoc metrics: /repo/decent_bench/metrics/_metrics_view.py,
    metrics/utils.py, metrics/metric_library.py and
    /repo/decent_bench/benchmark/_compute/*.py.

    Simplifications: arrays are real vectors of a fixed dimension [n] and
    norms are exact; the [lru_cache] of [x_mean] (utils.py:61) is not
    modelled (views are immutable, so it returns what recomputing returns);
    prediction metrics (accuracy, precision, recall, mse) are in
    [Model/Predict.v]; column casts of
    trial/agent/iteration to fixed-width integers are not modelled.
    The evaluation of a cost raises the oracle counters of the agent that owns
    it (agents.py:206-244), also while metrics are computed; that is modelled
    with [Model/Counting.v]. *)
From Coq Require Import List Bool Arith ZArith QArith Qcanon Reals.
From Verif.Model Require Import PyDict History Messages Network Counting Schemes Vec.
Import ListNotations.
Local Open Scope R_scope.

Definition rbind {A B} (m : res A) (f : A -> res B) : res B :=
  match m with Ok a => f a | ValueError => ValueError | KeyError => KeyError end.
Fixpoint mapR {A B} (f : A -> res B) (l : list A) : res (list B) :=
  match l with
  | [] => Ok []
  | x :: l' => rbind (f x) (fun y => rbind (mapR f l') (fun ys => Ok (y :: ys)))
  end.

(** Floats as far as they are distinguished by the metrics code. *)
Inductive fval := Fin (r : R) | PInf | NInf | NaN.

(** A cost as a metric sees it: its value and gradient on all its data
    ([indices="all"] for empirical costs, utils.py:93 and 110), and what one
    such call adds to a counter ([len(batch_used)], or 1; agents.py:211-214). *)
Record mcost := mkCost { c_fun : vec -> R; c_grad : vec -> vec; c_weight : nat }.

(** [AgentMetricsView], _metrics_view.py:15-48. [v_id] stands for the object
    identity of the view (views are compared by identity, [eq=False]). *)
Record aview := mkView {
  v_id : agent_id;
  v_cost : mcost;
  v_hist : history vec;
  v_nx : nat;
  v_calls : okind -> nat;
  v_sent : Qc; v_recv : Qc; v_drop : Qc;
  v_nsel : nat
}.

(** [NetworkMetricsView], _metrics_view.py:58-74 *)
Record nview := mkNView { nv_nodes : list aview; nv_server : option agent_id }.

(** A finished trial: the final network and the counters of its costs. *)
Record trial := mkTrial { tr_net : net vec; tr_count : cstate }.

Section Views.
  Variables (t : topo) (cost : agent_id -> mcost).

  (** [AgentMetricsView.from_agent], _metrics_view.py:32-48 *)
  Definition from_agent (tr : trial) (a : agent_id) : aview :=
    let ag := n_agents (tr_net tr) a in
    mkView a (cost a) (a_hist ag) (a_nx ag) (c_count (tr_count tr) a) (a_sent ag) (a_recv ag) (a_drop ag) (a_nsel ag).

  (** [NetworkMetricsView.from_network], _metrics_view.py:76-96 *)
  Definition from_network (tr : trial) : nview := mkNView (map (from_agent tr) (t_nodes t)) (t_server t).
End Views.

(** [NetworkMetricsView.agents] / [clients], _metrics_view.py:98-108 *)
Definition nv_agents (nv : nview) : list aview :=
  match nv_server nv with
  | Some s => filter (fun a => negb (Nat.eqb (v_id a) s)) (nv_nodes nv)
  | None => nv_nodes nv
  end.

(** [NetworkMetricsView.server], _metrics_view.py:110-114 *)
Definition nv_server_view (nv : nview) : res aview :=
  match nv_server nv with
  | Some s => match find (fun a => Nat.eqb (v_id a) s) (nv_nodes nv) with Some a => Ok a | None => KeyError end
  | None => ValueError
  end.

(** [sorted(set(..))] on ints *)
Definition sorted_set (l : list Z) : list Z := sorted Z.leb (nodup Z.eq_dec l).

(** [all_sorted_iterations], utils.py:325-337 *)
Definition all_sorted_iterations (l : list aview) : list Z :=
  sorted_set (flat_map (fun a => h_keylist (v_hist a)) l).

(** [NetworkMetricsView.iterations], _metrics_view.py:132-135: all nodes,
    also the server *)
Definition nv_iterations (nv : nview) : list Z := all_sorted_iterations (nv_nodes nv).

(** [_all_iterations], _compute_metrics.py:188-195 *)
Definition all_iterations {Alg} (views : list (Alg * list nview)) : list Z :=
  sorted_set (flat_map (fun p => flat_map nv_iterations (snd p)) views).

Section Library.
  Variable n : nat.        (* dimension of the arrays *)

  (** [iop.norm] with its default order 2 *)
  Definition l2norm (x : vec) : R := sqrt (nrm2 n x).

  (** [functools.reduce(operator.add, l)] of a non-empty list *)
  Definition reduce_add (l : list vec) : vec :=
    match l with [] => vzero | x :: l' => fold_left vadd l' x end.

  (** [x_mean], utils.py:61-77 *)
  Definition x_mean (l : list aview) (it : Z) : res vec :=
    rbind (mapR (fun a => h_get (v_hist a) it) l) (fun xs =>
      match xs with
      | [] => ValueError
      | _ => Ok (vscal (/ INR (length xs)) (reduce_add xs))
      end).

  (** [_regret], utils.py:80-96 *)
  Definition regret (l : list aview) (x_opt : vec) (it : Z) : res R :=
    rbind (x_mean l it) (fun mean_x =>
      let optimal_cost := fold_left (fun acc a => acc + c_fun (v_cost a) x_opt) l 0 in
      let actual_cost := fold_left (fun acc a => acc + c_fun (v_cost a) mean_x) l 0 in
      Ok ((actual_cost - optimal_cost) / INR (length l))).

  (** [_gradient_norm], utils.py:99-113 *)
  Definition gradient_norm (l : list aview) (it : Z) : res R :=
    rbind (x_mean l it) (fun mean_x =>
      let gradients := map (fun a => c_grad (v_cost a) mean_x) l in
      Ok (l2norm (vscal (/ INR (length gradients)) (reduce_add gradients)))).

  (** [_x_error], utils.py:116-128 *)
  Definition x_error (l : list aview) (x_opt : vec) (it : Z) : res R :=
    rbind (x_mean l it) (fun mean_x => Ok (l2norm (vsub mean_x x_opt))).

  (** [ConsensusError.compute], metric_library.py:151-159 *)
  Definition consensus_error (l : list aview) (it : Z) : res (list R) :=
    rbind (x_mean l it) (fun m =>
      mapR (fun a => rbind (h_get (v_hist a) it) (fun x => Ok (l2norm (vsub m x)))) l).

  (** [_drifts], utils.py:55-58 *)
  Definition drifts (l : list aview) (server : aview) (it : Z) : res (list R) :=
    rbind (h_get (v_hist server) it) (fun sx =>
      mapR (fun a => rbind (h_get (v_hist a) it) (fun x => Ok (l2norm (vsub x sx)))) l).

  (** [_losses], utils.py:143-150 *)
  Definition losses (l : list aview) (it : Z) : res (list R) :=
    mapR (fun a => rbind (h_get (v_hist a) it) (fun x => Ok (c_fun (v_cost a) x))) l.

  (** [_observed_rounds], utils.py:131-140 *)
  Definition observed_rounds (l : list aview) : res Z :=
    match l with
    | [] => Ok 0%Z
    | _ => rbind (mapR (fun a => h_max (v_hist a)) l) (fun ms => Ok (fold_left Z.max (tl ms) (hd 0%Z ms)))
    end.

  (** [FractionSelectedClients.compute], metric_library.py:691-701 *)
  Definition fraction_selected (l : list aview) : res fval :=
    rbind (observed_rounds l) (fun rounds =>
      if Z.eqb rounds 0 || (length l =? 0)%nat then Ok NaN
      else Ok (Fin (INR (fold_left (fun s a => s + v_nsel a)%nat l 0%nat) / (IZR rounds * INR (length l))))).

  (** A metric object: its identity, [compute], and the cost evaluations it
      makes (owner of the cost, kind, what a counted call adds). *)
  Record metric := mkMetric {
    m_id : nat;
    m_compute : nview -> Z -> res (list fval);
    m_evals : nview -> Z -> list (agent_id * okind * nat)
  }.

  (** [Regret], metric_library.py:18-53: two function calls per agent
      (utils.py:92-95) *)
  Definition Regret (id : nat) (x_opt : vec) : metric :=
    mkMetric id (fun nv it => rbind (regret (nv_agents nv) x_opt it) (fun r => Ok [Fin r]))
      (fun nv _ => flat_map (fun a => let c := (v_id a, KFunction, c_weight (v_cost a)) in [c; c]) (nv_agents nv)).
  (** [GradientNorm], metric_library.py:56-80 *)
  Definition GradientNorm (id : nat) : metric :=
    mkMetric id (fun nv it => rbind (gradient_norm (nv_agents nv) it) (fun r => Ok [Fin r]))
      (fun nv _ => map (fun a => (v_id a, KGradient, c_weight (v_cost a))) (nv_agents nv)).
  (** [XError], metric_library.py:83-123 *)
  Definition XError (id : nat) (x_opt : vec) : metric :=
    mkMetric id (fun nv it => rbind (x_error (nv_agents nv) x_opt it) (fun r => Ok [Fin r])) (fun _ _ => []).
  (** [ConsensusError], metric_library.py:126-159 *)
  Definition ConsensusError (id : nat) : metric :=
    mkMetric id (fun nv it => rbind (consensus_error (nv_agents nv) it) (fun r => Ok (map Fin r))) (fun _ _ => []).
  (** [Loss], metric_library.py:593-616 *)
  Definition Loss (id : nat) : metric :=
    mkMetric id (fun nv it => rbind (losses (nv_agents nv) it) (fun r => Ok (map Fin r)))
      (fun nv _ => map (fun a => (v_id a, KFunction, c_weight (v_cost a))) (nv_agents nv)).
  (** [XUpdates], metric_library.py:162-184 *)
  Definition XUpdates (id : nat) : metric :=
    mkMetric id (fun nv _ => Ok (map (fun a => Fin (INR (v_nx a))) (nv_agents nv))) (fun _ _ => []).
  (** [FunctionCalls], [GradientCalls], [HessianCalls], [ProximalCalls],
      metric_library.py:187-296 *)
  Definition Calls (id : nat) (k : okind) : metric :=
    mkMetric id (fun nv _ => Ok (map (fun a => Fin (INR (v_calls a k))) (nv_agents nv))) (fun _ _ => []).
  Definition Q2R' (q : Qc) : R := IZR (Qnum (this q)) / IZR (Zpos (Qden (this q))).
  (** [SentMessages], [ReceivedMessages], [SentMessagesDropped],
      metric_library.py:299-371: all graph nodes, also the server *)
  Definition SentMessages (id : nat) : metric :=
    mkMetric id (fun nv _ => Ok (map (fun a => Fin (Q2R' (v_sent a))) (nv_nodes nv))) (fun _ _ => []).
  Definition ReceivedMessages (id : nat) : metric :=
    mkMetric id (fun nv _ => Ok (map (fun a => Fin (Q2R' (v_recv a))) (nv_nodes nv))) (fun _ _ => []).
  Definition SentMessagesDropped (id : nat) : metric :=
    mkMetric id (fun nv _ => Ok (map (fun a => Fin (Q2R' (v_drop a))) (nv_nodes nv))) (fun _ _ => []).
  (** [ClientDriftFromServer], metric_library.py:632-668 *)
  Definition ClientDrift (id : nat) : metric :=
    mkMetric id (fun nv it => rbind (nv_server_view nv) (fun s =>
        rbind (drifts (nv_agents nv) s it) (fun r => Ok (map Fin r)))) (fun _ _ => []).
  (** [FractionSelectedClients], metric_library.py:671-701 *)
  Definition FractionSelected (id : nat) : metric :=
    mkMetric id (fun nv _ => match nv_server nv with
        | None => ValueError
        | Some _ => rbind (fraction_selected (nv_agents nv)) (fun v => Ok [v]) end) (fun _ _ => []).
End Library.

(** ** The pipeline *)

(** [MAX_ABS_METRIC_VALUE], compute_metrics_at_iter.py:14 *)
Definition max_abs : R := 10 ^ 30.

Section Pipeline.
  Context {Alg : Type}.
  (** [astype("float32")], compute_metrics_at_iter.py:50: any rounding *)
  Variable to32 : fval -> fval.

  (** compute_metrics_at_iter.py:52-57: NaN and too large become inf, too small
      -inf *)
  Definition clamp (v : fval) : fval :=
    let v1 := match v with
              | NaN => PInf
              | Fin r => if Rlt_dec max_abs r then PInf else v
              | _ => v end in
    match v1 with
    | NaN => NInf
    | Fin r => if Rlt_dec r (- max_abs) then NInf else v1
    | _ => v1
    end.

  (** a row of the frame: (algorithm, trial, agent, iteration, value),
      compute_metrics_at_iter.py:17; the column holds algorithm.name, which is unique
      (_benchmark.py:38-50) *)
  Record row := mkRow { w_alg : Alg; w_trial : nat; w_agent : nat; w_iter : Z; w_value : fval }.

  Definition enumerate {A} (l : list A) : list (nat * A) := combine (seq 0 (length l)) l.

  (** [compute_metrics_at_iter], compute_metrics_at_iter.py:17-61 *)
  Definition metrics_at_iter (views : list (Alg * list nview)) (m : metric) (it : Z) : res (list row) :=
    rbind (mapR (fun p : Alg * list nview =>
        rbind (mapR (fun q : nat * nview =>
            rbind (m_compute m (snd q) it) (fun data =>
              Ok (map (fun d : nat * fval => mkRow (fst p) (fst q) (fst d) it (clamp (to32 (snd d)))) (enumerate data))))
          (enumerate (snd p))) (fun rs => Ok (concat rs))) views)
      (fun rs => Ok (concat rs)).

  (** one entry of [frames_by_metric], compute_plots.py:37-42 *)
  Definition plot_frame (views : list (Alg * list nview)) (its : list Z) (m : metric) : res (list row) :=
    rbind (mapR (metrics_at_iter views m) its) (fun fs => Ok (concat fs)).

  (** [compute_plot_metrics], compute_plots.py:16-46 *)
  Definition plot_metrics (views : list (Alg * list nview)) (ms : list metric) (its : list Z)
    : res (list (nat * list row)) :=
    match its with
    | [] => Ok []
    | _ => fold_left (fun acc m => rbind acc (fun d =>
             rbind (plot_frame views its m) (fun f => Ok (dset Nat.eqb d (m_id m) f)))) ms (Ok [])
    end.

  (** a row of a table frame: the iteration column is dropped *)
  Definition table_row : Type := (Alg * nat * nat * fval)%type.
  Definition drop_iter (w : row) : table_row := (w_alg w, w_trial w, w_agent w, w_value w).

  (** one entry of [frames_by_metric], compute_tables.py:87-94 *)
  Definition table_frame (views : list (Alg * list nview)) (final : Z) (plots : list (nat * list row)) (m : metric)
    : res (list table_row) :=
    rbind (match dget Nat.eqb plots (m_id m) with
           | Some f => Ok (filter (fun w => Z.eqb (w_iter w) final) f)
           | None => metrics_at_iter views m final
           end) (fun f => Ok (map drop_iter f)).

  (** [compute_table_metrics], compute_tables.py:59-99 *)
  Definition table_metrics (views : list (Alg * list nview)) (ms : list metric) (its : list Z)
      (plots : list (nat * list row)) : res (list (nat * list table_row)) :=
    match its with
    | [] => Ok []
    | i0 :: its' =>
      let final := fold_left Z.max its' i0 in
      fold_left (fun acc m => rbind acc (fun d =>
        rbind (table_frame views final plots m) (fun f => Ok (dset Nat.eqb d (m_id m) f)))) ms (Ok [])
    end.

  (** [compute_metrics], _compute_metrics.py:29-150, without loading, saving and
      aggregation: the views are taken of all networks first (110-112), then
      plot metrics, then table metrics are evaluated. *)
  Definition compute_metrics (t : topo) (cost : agent_id -> mcost) (plots tables : list metric)
      (states : list (Alg * list trial)) : res (list (nat * list row) * list (nat * list table_row)) :=
    let views := map (fun p => (fst p, map (from_network t cost) (snd p))) states in
    let its := all_iterations views in
    rbind (plot_metrics views plots its) (fun pr =>
      rbind (table_metrics views tables its pr) (fun tr => Ok (pr, tr))).

  (** the cost evaluations [compute_metrics] makes in one trial *)
  Definition evals_of (t : topo) (cost : agent_id -> mcost) (plots tables : list metric) (its : list Z) (tr : trial)
    : list (agent_id * okind * nat) :=
    let nv := from_network t cost tr in
    match its with
    | [] => []
    | i0 :: its' =>
      flat_map (fun m => flat_map (m_evals m nv) its) plots ++
      flat_map (fun m => if existsb (fun p => Nat.eqb (m_id p) (m_id m)) plots then []
                         else m_evals m nv (fold_left Z.max its' i0)) tables
    end.

  (** the trial as [compute_metrics] leaves it: every evaluation went through
      the counting wrapper of its agent (agents.py:76-79, 206-244) *)
  Definition after_metrics (t : topo) (cost : agent_id -> mcost) (plots tables : list metric)
      (states : list (Alg * list trial)) : list (Alg * list trial) :=
    let its := all_iterations (map (fun p => (fst p, map (from_network t cost) (snd p))) states) in
    map (fun p => (fst p, map (fun tr => mkTrial (tr_net tr)
      (fold_left (fun s c => fst (do_call (fst (fst c)) (snd (fst c)) (snd c) true s))
         (evals_of t cost plots tables its tr) (tr_count tr))) (snd p))) states.
End Pipeline.
Arguments row : clear implicits. Arguments table_row : clear implicits.
