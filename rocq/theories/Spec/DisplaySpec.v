(** Specification of what is displayed. *)
From Coq Require Import List ZArith Reals String.
From Verif.Model Require Import Counting Vec Metrics Display.
From Verif.Spec Require Import PredictSpec.
Import ListNotations.
Local Open Scope R_scope.

(** the user asked for [s]: [None] asks for everything *)
Definition requested (o : option (list string)) (s : string) : Prop :=
  match o with None => True | Some l => In s l end.
(** what a [MetricResult] has to offer *)
Definition has_algorithm (r : mresult) (a : string) : Prop := In a (r_algorithms r).
Definition has_table_metric (r : mresult) (m : string) : Prop := In m (r_table_metrics r).
Definition has_plot_metric (r : mresult) (m : string) : Prop := In m (r_plot_metrics r).
(** its aggregated rows mention no other metrics or algorithms, and its views are not empty *)
Definition consistent (r : mresult) : Prop :=
  (forall rows w, r_table r = Some rows -> In w rows -> has_table_metric r (t_metric w) /\ has_algorithm r (t_alg w)) /\
  (forall rows w, r_plot r = Some rows -> In w rows -> has_plot_metric r (p_metric w) /\ has_algorithm r (p_alg w)).

(** ** Plots *)
Definition infinite (v : fval) : Prop := v = PInf \/ v = NInf.
Definition diverged (w : prow) : Prop := infinite (p_mean w) \/ infinite (p_min w) \/ infinite (p_max w).
(** [w] is a row for [metric] and [alg] before that algorithm's first infinite value *)
Definition shown (rows : list prow) (metric alg : string) (w : prow) : Prop :=
  p_metric w = metric /\ p_alg w = alg /\
  forall w', In w' rows -> p_metric w' = metric -> p_alg w' = alg -> diverged w' -> (p_iter w < p_iter w')%Z.
Definition nonpositive (v : fval) : Prop := v = NInf \/ exists r, v = Fin r /\ r <= 0.
(** the ordinate drawn for [v]: on a logarithmic axis 1e-15 for what is not positive *)
Definition drawn_as (ylog : bool) (v v' : fval) : Prop :=
  if ylog then (nonpositive v /\ v' = Fin (/ 10 ^ 15)) \/ (~ nonpositive v /\ v' = v) else v' = v.
Definition drawn_row (ylog : bool) (w : prow) (p : point) : Prop :=
  drawn_as ylog (p_mean w) (pt_mean p) /\ drawn_as ylog (p_min w) (pt_min p) /\ drawn_as ylog (p_max w) (pt_max p).
(** on a logarithmic iteration axis everything moves by one if 0 is to be shown *)
Definition shifted (rows : list prow) (m : pmetric) (sh : Z) : Prop :=
  (sh = 1%Z /\ pm_xlog m = true /\ exists a w, In w rows /\ shown rows (pm_name m) a w /\ p_iter w = 0%Z) \/
  (sh = 0%Z /\ ~ (pm_xlog m = true /\ exists a w, In w rows /\ shown rows (pm_name m) a w /\ p_iter w = 0%Z)).

(** ** Computational cost *)
Definition mean_is (l : list R) (m : R) : Prop := l <> [] /\ INR (List.length l) * m = fold_right Rplus 0 l.
(** the documented total (docs/source/api/snippets/computational_cost.rst) with the mean numbers of calls over all agents and trials *)
Definition documented_total (views : list nview) (c : ccost) (total : R) : Prop :=
  exists nf ng nh np nc,
    let all f := map f (List.concat (map nv_agents views)) in
    mean_is (all (fun a => INR (v_calls a KFunction))) nf /\ mean_is (all (fun a => INR (v_calls a KGradient))) ng /\
    mean_is (all (fun a => INR (v_calls a KHessian))) nh /\ mean_is (all (fun a => INR (v_calls a KProximal))) np /\
    mean_is (all (fun a => Q2R' (v_sent a))) nc /\
    total = cc_function c * nf + cc_gradient c * ng + cc_hessian c * nh + cc_proximal c * np + cc_comm c * nc.

(** ** Tables *)
(** [v'] is [c] times [v], with the infinities and NaN of floating-point numbers *)
Definition times (c : R) (v v' : fval) : Prop :=
  match v with
  | Fin x => v' = Fin (c * x)
  | NaN => v' = NaN
  | PInf => (0 < c /\ v' = PInf) \/ (c < 0 /\ v' = NInf) \/ (c = 0 /\ v' = NaN)
  | NInf => (0 < c /\ v' = NInf) \/ (c < 0 /\ v' = PInf) \/ (c = 0 /\ v' = NaN)
  end.
Definition same_cell (w w' : trow) : Prop := t_metric w = t_metric w' /\ t_stat w = t_stat w' /\ t_alg w = t_alg w'.
