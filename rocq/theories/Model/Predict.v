(** Model of the prediction metrics and of the choice of metrics:
    /repo/decent_bench/metrics/utils.py:153-320 ([_accuracy], [_mse],
    [_precision], [_recall] and their server versions),
    metrics/metric_library.py (the [is_available] methods) and
    benchmark/_compute/_compute_metrics.py:96-106, 153-185.

    Simplifications: targets are scalars, so [test_y] is 1-D; floats are reals,
    infinities or NaN; the [lru_cache] of [_predict_agent] (utils.py:311) is
    not modelled (views and problems are compared by identity and not changed).
    The scikit-learn functions are modelled from their documentation:
    [accuracy_score], [precision_score] and [recall_score] with
    [average="micro"], [mean_squared_error]. *)
From Coq Require Import List Bool Arith ZArith Reals String.
From Verif.Model Require Import Vec Costs EmpiricalRisk PyDict History Messages Network Counting Metrics.
Import ListNotations.
Local Open Scope R_scope.
(** ** scikit-learn *)
Definition is_int (r : R) : bool := if Req_EM_T r (IZR (Int_part r)) then true else false.
Definition req (x y : R) : bool := if Req_EM_T x y then true else false.
(** number of positions where [p] holds *)
Definition count (p : R * R -> bool) (l : list (R * R)) : nat := List.length (filter p l).

(** [check_consistent_length] and [_check_targets]: lengths agree; targets or
    predictions that are not whole numbers are "continuous", which
    classification metrics reject *)
Definition sk_labels (y p : list R) : res (list (R * R)) :=
  if Nat.eqb (List.length y) (List.length p) && forallb is_int y && forallb is_int p
  then Ok (combine y p) else ValueError.
Definition sk_values (y p : list R) : res (list (R * R)) :=
  if Nat.eqb (List.length y) (List.length p) then Ok (combine y p) else ValueError.

(** [accuracy_score]: the mean of [y_true == y_pred] *)
Definition accuracy_score (y p : list R) : res R :=
  rbind (sk_labels y p) (fun l => Ok (INR (count (fun q => req (fst q) (snd q)) l) / INR (List.length l))).

(** [unique_labels(y_true, y_pred)] *)
Definition labels (l : list (R * R)) : list R := nodup Req_EM_T (map fst l ++ map snd l).
(** true positives, predicted and true samples of one label *)
Definition tp_of (l : list (R * R)) (c : R) : nat := count (fun q => req (fst q) c && req (snd q) c) l.
Definition pred_of (l : list (R * R)) (c : R) : nat := count (fun q => req (snd q) c) l.
Definition true_of (l : list (R * R)) (c : R) : nat := count (fun q => req (fst q) c) l.
Definition nsum (f : R -> nat) (l : list R) : nat := fold_left (fun s c => s + f c)%nat l 0%nat.
(** [precision_score(..., average="micro")]: sums over the labels, 0 if nothing
    was predicted *)
Definition precision_score (y p : list R) : res R :=
  rbind (sk_labels y p) (fun l =>
    let d := nsum (pred_of l) (labels l) in
    Ok (if Nat.eqb d 0 then 0 else INR (nsum (tp_of l) (labels l)) / INR d)).
(** [recall_score(..., average="micro")] *)
Definition recall_score (y p : list R) : res R :=
  rbind (sk_labels y p) (fun l =>
    let d := nsum (true_of l) (labels l) in
    Ok (if Nat.eqb d 0 then 0 else INR (nsum (tp_of l) (labels l)) / INR d)).
(** [mean_squared_error] *)
Definition mean_squared_error (y p : list R) : res R :=
  rbind (sk_values y p) (fun l => Ok (rsum (map (fun q => (fst q - snd q) * (fst q - snd q)) l) / INR (List.length l))).

(** ** The metrics *)
Section Predict.
  Context {F : Type}.                 (* a feature array *)

  (** [problem.test_data]: samples, and whether the targets have an integer
      dtype ([test_y.dtype.kind in {"i", "u"}]) *)
  Record tdata := mkTest { td_rows : list (F * R); td_int : bool }.
  (** [Cost.predict] of an [EmpiricalRiskCost]; [None] for other costs *)
  Definition predictor := option (vec -> list F -> list fval).

  Variable pred : agent_id -> predictor.

  (** [_split_dataset], utils.py:293-308: unpacking [zip] of no rows raises *)
  Definition split_dataset (d : tdata) : res (list F * list R) :=
    match td_rows d with [] => ValueError | l => Ok (map fst l, map snd l) end.

  (** [_predict_cost_at_x], utils.py:209-212; a cost without [predict] raises
      AttributeError, here [KeyError] *)
  Definition predict_at (c : predictor) (x : vec) (d : tdata) : res (list fval) :=
    rbind (split_dataset d) (fun s => match c with Some f => Ok (f x (fst s)) | None => KeyError end).
  (** [_predict_agent], utils.py:311-315 *)
  Definition predict_agent (a : aview) (it : Z) (d : tdata) : res (list fval) :=
    rbind (split_dataset d) (fun s => rbind (h_get (v_hist a) it) (fun x =>
      match pred (v_id a) with Some f => Ok (f x (fst s)) | None => KeyError end)).

  (** [np.any(~np.isfinite(preds))]: the finite values, if all are *)
  Fixpoint all_finite (l : list fval) : option (list R) :=
    match l with
    | [] => Some []
    | Fin r :: l' => match all_finite l' with Some rs => Some (r :: rs) | None => None end
    | _ => None
    end.

  (** the loop common to [_accuracy], [_mse], [_precision] and [_recall],
      utils.py:169-181, 198-208, 249-260, 279-290: the first agent with a
      prediction that is not finite ends it, with NaN for all agents *)
  Fixpoint score_loop (score : list R -> list R -> res R) (y : list R) (all : list aview) (d : tdata) (it : Z)
      (l : list aview) (ret : list fval) : res (list fval) :=
    match l with
    | [] => Ok ret
    | a :: l' => rbind (predict_agent a it d) (fun p =>
        match all_finite p with
        | None => Ok (map (fun _ => NaN) all)
        | Some p => rbind (score y p) (fun v => score_loop score y all d it l' (ret ++ [Fin v]))
        end)
    end.
  Definition per_agent score (l : list aview) (d : tdata) (it : Z) : res (list fval) :=
    rbind (split_dataset d) (fun s => score_loop score (snd s) l d it l []).

  (** [_accuracy_at_x], [_mse_at_x], utils.py:215-238 *)
  Definition at_x score (c : predictor) (x : vec) (d : tdata) : res fval :=
    rbind (split_dataset d) (fun s => rbind (predict_at c x d) (fun p =>
      match all_finite p with None => Ok NaN | Some p => rbind (score (snd s) p) (fun v => Ok (Fin v)) end)).

  (** [_server_metric_cost], metric_library.py:625-629 *)
  Definition server_metric_cost (nv : nview) : res predictor :=
    match nv_agents nv with [] => ValueError | a :: _ => Ok (pred (v_id a)) end.
  Definition server_score score (nv : nview) (d : tdata) (it : Z) : res (list fval) :=
    rbind (server_metric_cost nv) (fun c => rbind (nv_server_view nv) (fun s =>
      rbind (h_get (v_hist s) it) (fun x => rbind (at_x score c x d) (fun v => Ok [v])))).

  (** ** Metric objects *)
  (** [BenchmarkProblem], _benchmark_problem.py:9: what [is_available] reads of it *)
  Record problem := mkProblem { pb_agents : list agent_id; pb_fed : bool; pb_xopt : option vec; pb_test : option tdata }.

  (** [Metric], _metric.py:15-90, with its [description] and [is_available] *)
  Record described := mkDesc { d_name : string; d_available : problem -> res bool; d_metric : metric }.

  Definition empirical (p : problem) : bool :=
    forallb (fun a => match pred a with Some _ => true | None => false end) (pb_agents p).

  (** [is_available] of [Accuracy] (metric_library.py:405-417), [Precision]
      (509-521) and [Recall] (566-578) *)
  Definition labels_available (p : problem) : res bool :=
    match pb_test p with
    | None => Ok false
    | Some d => if empirical p then rbind (split_dataset d) (fun _ => Ok (td_int d)) else Ok false
    end.
  (** [MSE.is_available], metric_library.py:459-467 *)
  Definition mse_available (p : problem) : res bool :=
    match pb_test p with None => Ok false | Some _ => Ok (empirical p) end.
  (** [Regret.is_available], metric_library.py:39-45, [XError.is_available], 109-115 *)
  Definition xopt_available (p : problem) : res bool := Ok (match pb_xopt p with Some _ => true | None => false end).
  (** [_requires_fednetwork], metric_library.py:619-622 *)
  Definition fed_available (p : problem) : res bool := Ok (pb_fed p).
  (** [ServerMSE.is_available], 722-733, and [ServerAccuracy.is_available], 762-776 *)
  Definition server_mse_available (p : problem) : res bool := if pb_fed p then mse_available p else Ok false.
  Definition server_accuracy_available (p : problem) : res bool := if pb_fed p then labels_available p else Ok false.
  (** the default, _metric.py:52-74 *)
  Definition always (_ : problem) : res bool := Ok true.

  Definition on_test (p : problem) (f : tdata -> res (list fval)) : res (list fval) :=
    match pb_test p with Some d => f d | None => ValueError end.
  (** [Accuracy] (metric_library.py:374-427), [MSE] (430-476), [Precision]
      (479-531), [Recall] (534-590), [ServerMSE] (704-740), [ServerAccuracy]
      (743-784).  [predict] is not counted (agents.py:76-79). *)
  Definition scored (id : nat) (p : problem) (score : list R -> list R -> res R) : metric :=
    mkMetric id (fun nv it => on_test p (fun d => per_agent score (nv_agents nv) d it)) (fun _ _ => []).
  Definition server_scored (id : nat) (p : problem) (score : list R -> list R -> res R) : metric :=
    mkMetric id (fun nv it => on_test p (fun d => server_score score nv d it)) (fun _ _ => []).
  Definition Accuracy id p : described := mkDesc "accuracy" labels_available (scored id p accuracy_score).
  Definition MSE id p : described := mkDesc "mse" mse_available (scored id p mean_squared_error).
  Definition Precision id p : described := mkDesc "precision" labels_available (scored id p precision_score).
  Definition Recall id p : described := mkDesc "recall" labels_available (scored id p recall_score).
  Definition ServerMSE id p : described := mkDesc "server mse" server_mse_available (server_scored id p mean_squared_error).
  Definition ServerAccuracy id p : described := mkDesc "server accuracy" server_accuracy_available (server_scored id p accuracy_score).

  (** [_DEFAULT_TABLE_METRICS], metric_library.py:787-800, 822-824, 832-836,
      882-885, 902-904, 920-922, 936-943; the objects are numbered from [0].
      [x_optimal] is read by [compute] only if it is there. *)
  Definition xopt_of (p : problem) : vec := match pb_xopt p with Some x => x | None => vzero end.
  Definition default_table (n : nat) (p : problem) : list described :=
    [mkDesc "regret" xopt_available (Regret 0 (xopt_of p));
     mkDesc "gradient norm" always (GradientNorm n 1);
     mkDesc "x error" xopt_available (XError n 2 (xopt_of p));
     mkDesc "consensus error" always (ConsensusError n 3);
     mkDesc "loss" always (Loss 4);
     mkDesc "nr x updates" always (XUpdates 5);
     mkDesc "nr function calls" always (Calls 6 KFunction);
     mkDesc "nr gradient calls" always (Calls 7 KGradient);
     mkDesc "nr Hessian calls" always (Calls 8 KHessian);
     mkDesc "nr proximal calls" always (Calls 9 KProximal);
     mkDesc "nr sent messages" always (SentMessages 10);
     mkDesc "nr received messages" always (ReceivedMessages 11);
     mkDesc "nr sent messages dropped" always (SentMessagesDropped 12);
     MSE 13 p; Accuracy 14 p; Precision 15 p; Recall 16 p;
     mkDesc "client drift from server" fed_available (ClientDrift n 17);
     mkDesc "fraction selected clients" fed_available (FractionSelected 18);
     ServerMSE 19 p; ServerAccuracy 20 p].
  (** [_DEFAULT_PLOT_METRICS], metric_library.py:846-851, 862, 870, 894-896,
      911-913, 929-931, 945-951: [MSE], [Accuracy], [Precision] and [Recall] are
      the same objects as in the table *)
  Definition default_plot (n : nat) (p : problem) : list described :=
    [mkDesc "regret" xopt_available (Regret 21 (xopt_of p));
     mkDesc "gradient norm" always (GradientNorm n 22);
     mkDesc "consensus error" always (ConsensusError n 23);
     mkDesc "loss" always (Loss 24);
     MSE 13 p; Accuracy 14 p; Precision 15 p; Recall 16 p;
     mkDesc "client drift from server" fed_available (ClientDrift n 25);
     ServerMSE 26 p; ServerAccuracy 27 p].

  (** ** Choosing the metrics *)
  (** [_find_duplicates], utils/_metric_helpers.py:1-11, without the sorting *)
  Fixpoint find_duplicates (seen dups : list string) (items : list string) : list string :=
    match items with
    | [] => dups
    | s :: l => if existsb (String.eqb s) seen
                then find_duplicates seen (if existsb (String.eqb s) dups then dups else dups ++ [s]) l
                else find_duplicates (seen ++ [s]) dups l
    end.
  (** [_validate_unique_descriptions], _compute_metrics.py:165-169 *)
  Definition validate_unique (ms : list described) : res unit :=
    match find_duplicates [] [] (map d_name ms) with [] => Ok tt | _ => ValueError end.
  (** [_remove_unavailable], _compute_metrics.py:172-185 *)
  Fixpoint remove_unavailable (p : problem) (ms : list described) : res (list described) :=
    match ms with
    | [] => Ok []
    | m :: ms' => rbind (d_available m p) (fun b => rbind (remove_unavailable p ms') (fun l => Ok (if b then m :: l else l)))
    end.
  (** the metrics [compute_metrics] goes on with, _compute_metrics.py:96-106,
      153-162 *)
  Definition choose_metrics (n : nat) (p : problem) (tables plots : option (list described))
    : res (list described * list described) :=
    let tables := match tables with None => default_table n p | Some l => l end in
    let plots := match plots with None => default_plot n p | Some l => l end in
    rbind (validate_unique tables) (fun _ => rbind (validate_unique plots) (fun _ =>
      rbind (remove_unavailable p tables) (fun ts => rbind (remove_unavailable p plots) (fun ps => Ok (ts, ps))))).
End Predict.
Arguments tdata : clear implicits. Arguments problem : clear implicits. Arguments described : clear implicits.
Arguments predictor : clear implicits.

(** [predict] of wrapped empirical costs: _empirical_scaled_cost.py:84-85 and
    _empirical_regularized_cost.py:81-83 *)
Fixpoint emp_predict {K St F} (leaf_predict : leaf K St -> vec -> list F -> list fval) (e : emp K St)
  : vec -> list F -> list fval :=
  match e with
  | ELeaf l => leaf_predict l
  | EScaled e _ => emp_predict leaf_predict e
  | EReg e _ => emp_predict leaf_predict e
  end.

(** [LinearRegressionCost.predict], _linear_regression_cost.py:155-171: [A.dot(x)] *)
Definition linear_predict (d : nat) (x : vec) (rows : list vec) : list fval := map (fun a => Fin (dot d a x)) rows.
(** [LogisticRegressionCost.predict], _logistic_regression_cost.py:154-172, row
    by row with [lg_predict] of Model/EmpiricalRisk.v *)
Definition logistic_predict (d : nat) (l0 l1 : R) (x : vec) (rows : list vec) : list fval :=
  map (fun a => Fin (lg_predict d l0 l1 x a)) rows.
