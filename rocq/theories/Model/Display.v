(** Model of displaying: what [display_metrics] selects, the data of the plots
    and the cells of the table.  /repo/decent_bench/benchmark/_metric_result.py and
    benchmark/_display/{_display_metrics,display_plots,display_tables}.py.

    Simplifications: algorithms and metrics are identified by [name] and
    [description] (both unique: _benchmark.py:38-50,
    _compute_metrics.py:101-102); results of [sorted] on names, used only for
    membership, are not sorted; numbers are reals instead of float32; drawing,
    text layout and files are left out. *)
From Coq Require Import List Bool Arith ZArith Reals String.
From Verif.Model Require Import PyDict History Messages Network Counting Vec Metrics.
Import ListNotations.
Local Open Scope R_scope.

(** a metric as far as displaying reads it: [description], [x_log], [y_log]
    (_metric.py:36-49), and whether it is one of [SCALE_METRICS]
    (display_tables.py:14) *)
Record pmetric := mkPM { pm_name : string; pm_xlog : bool; pm_ylog : bool; pm_counts : bool }.
(** a row of [table_results]: (metric, algorithm, statistic, mean, std) *)
Record trow := mkT { t_metric : string; t_alg : string; t_stat : string; t_mean : fval; t_std : fval }.
(** a row of [plot_results]: (metric, algorithm, iteration, mean, min, max) *)
Record prow := mkP { p_metric : string; p_alg : string; p_iter : Z; p_mean : fval; p_min : fval; p_max : fval }.

(** [MetricResult], _metric_result.py:14-48; a raw frame is kept as the list of
    its "algorithm" column *)
Record mresult := mkRes {
  r_views : option (list (string * list nview));
  r_raw_table : option (list (pmetric * list string));
  r_raw_plot : option (list (pmetric * list string));
  r_table : option (list trow);
  r_plot : option (list prow)
}.

Definition smem (s : string) (l : list string) : bool := existsb (String.eqb s) l.

(** [_which_attribute], _metric_result.py:87-94: the first that is not [None],
    empty or not *)
Definition which_all (r : mresult) : option (list (pmetric * list string)) :=
  match r_raw_table r with Some f => Some f | None => r_raw_plot r end.
(** [algorithms], _metric_result.py:57-65 *)
Definition r_algorithms (r : mresult) : list string :=
  match r_views r with
  | Some v => map fst v
  | None => match which_all r with Some ((_, algs) :: _) => algs | _ => [] end
  end.
(** [table_metrics], [plot_metrics], _metric_result.py:67-81 *)
Definition names_of (o : option (list (pmetric * list string))) : list string :=
  match o with Some l => map (fun p => pm_name (fst p)) l | None => [] end.
Definition r_table_metrics (r : mresult) : list string := names_of (r_raw_table r).
Definition r_plot_metrics (r : mresult) : list string := names_of (r_raw_plot r).

(** [_filter_algorithms], [_filter_metrics], _display_metrics.py:189-223: the
    requested names that are available, all of them for [None] *)
Definition filter_names (available : list string) (requested : option (list string)) : list string :=
  match requested with None => available | Some l => filter (fun s => smem s available) l end.

(** [_drop_metrics], [_drop_algorithms], _display_metrics.py:230-243 *)
Definition drop_metrics (sel : list string) (o : option (list (pmetric * list string))) : option (list (pmetric * list string)) :=
  match o with None | Some [] => None | Some l => Some (filter (fun p => smem (pm_name (fst p)) sel) l) end.
Definition drop_algorithms (sel : list string) (o : option (list (pmetric * list string))) : option (list (pmetric * list string)) :=
  match o with None | Some [] => None | Some l => Some (map (fun p => (fst p, filter (fun a => smem a sel) (snd p))) l) end.
(** [_drop_df_rows], _display_metrics.py:246-249 *)
Definition drop_rows {Row} (sel : list string) (col : Row -> string) (o : option (list Row)) : option (list Row) :=
  match o with None => None | Some l => Some (filter (fun w => smem (col w) sel) l) end.

Definition is_nil {A} (l : list A) : bool := match l with [] => true | _ => false end.

(** [display_metrics], _display_metrics.py:127-186: [None] if it stops with a
    warning; else the new result and whether tables and plots are displayed *)
Definition display_metrics (r : mresult) (tables plots algs : option (list string)) : option (mresult * bool * bool) :=
  let sa := filter_names (r_algorithms r) algs in
  let st := filter_names (r_table_metrics r) tables in
  let sp := filter_names (r_plot_metrics r) plots in
  if is_nil sa then None
  else if is_nil st && is_nil sp then None
  else
    let rt := if is_nil st then None else drop_metrics st (r_raw_table r) in
    let tt := if is_nil st then None else drop_rows st t_metric (r_table r) in
    let rp := if is_nil sp then None else drop_metrics sp (r_raw_plot r) in
    let tp := if is_nil sp then None else drop_rows sp p_metric (r_plot r) in
    let views := match r_views r with None | Some [] => None | Some v => Some (filter (fun p => smem (fst p) sa) v) end in
    Some (mkRes views (drop_algorithms sa rt) (drop_algorithms sa rp) (drop_rows sa t_alg tt) (drop_rows sa p_alg tp),
          negb (is_nil st), negb (is_nil sp)).

(** ** Plots *)
(** [MIN_Y_VALUE], display_plots.py:20 *)
Definition min_y : R := / 10 ^ 15.

Definition is_inf (v : fval) : bool := match v with PInf | NInf => true | _ => false end.
(** comparison of a float with 0; with NaN false *)
Definition le0 (v : fval) : bool := match v with Fin r => if Rle_dec r 0 then true else false | NInf => true | _ => false end.
Definition gt0 (v : fval) : bool := match v with Fin r => if Rlt_dec 0 r then true else false | PInf => true | _ => false end.

(** a row of a frame in [frames]: [metric] dropped *)
Record frow := mkF { f_alg : string; f_iter : Z; f_mean : fval; f_min : fval; f_max : fval }.
Definition to_frow (w : prow) : frow := mkF (p_alg w) (p_iter w) (p_mean w) (p_min w) (p_max w).
Definition ys (w : frow) : list fval := [f_mean w; f_min w; f_max w].
Definition has_inf (w : frow) : bool := existsb is_inf (ys w).

(** the least iteration of the rows with inf of [alg] ([groupby(...).min()]),
    display_plots.py:109; [None] is NaN in the "cutoff" column *)
Definition cutoff (f : list frow) (alg : string) : option Z :=
  match filter (fun w => has_inf w && String.eqb (f_alg w) alg) f with
  | [] => None
  | w :: l => Some (fold_left Z.min (map f_iter l) (f_iter w))
  end.
(** step 2, display_plots.py:103-115 *)
Definition truncate (f : list frow) : list frow :=
  if existsb has_inf f
  then filter (fun w => match cutoff f (f_alg w) with None => true | Some c => Z.ltb (f_iter w) c end) f
  else f.

(** [subset[subset > 0].min().min()]: the least positive value, [None] for NaN;
    only called on frames without inf *)
Definition least_positive (f : list frow) : option R :=
  fold_left (fun acc v => match v with
    | Fin r => if gt0 v then match acc with None => Some r | Some m => Some (Rmin m r) end else acc
    | _ => acc end) (flat_map ys f) None.
(** [positive_values.min() if not positive_values else MIN_Y_VALUE],
    display_plots.py:122-123: [not] of a float is true for zero only *)
Definition replacement (f : list frow) : R :=
  match least_positive f with
  | Some m => if Req_EM_T m 0 then m else min_y
  | None => min_y
  end.
Definition mask (c : R) (v : fval) : fval := if le0 v then Fin c else v.
(** step 3, display_plots.py:117-123 *)
Definition lift_nonpositive (f : list frow) : list frow :=
  if existsb (fun w => existsb le0 (ys w)) f
  then let c := replacement f in map (fun w => mkF (f_alg w) (f_iter w) (mask c (f_mean w)) (mask c (f_min w)) (mask c (f_max w))) f
  else f.
(** step 4, display_plots.py:134-140 *)
Definition shift_iterations (f : list frow) : list frow :=
  if existsb (fun w => Z.eqb (f_iter w) 0) f
  then map (fun w => mkF (f_alg w) (f_iter w + 1) (f_mean w) (f_min w) (f_max w)) f
  else f.
(** steps 1-4 for one metric, display_plots.py:96-140 *)
Definition prepare (m : pmetric) (rows : list prow) : list frow :=
  let f := map to_frow (filter (fun w => String.eqb (p_metric w) (pm_name m)) rows) in
  let f := truncate f in
  let f := if pm_ylog m then lift_nonpositive f else f in
  if pm_xlog m then shift_iterations f else f.

(** [ComputationalCost], metrics/_computational_cost.py:4-12 *)
Record ccost := mkCC { cc_function : R; cc_gradient : R; cc_hessian : R; cc_proximal : R; cc_comm : R }.
(** [np.mean] of a list *)
Definition np_mean (l : list R) : R := rsum l / INR (List.length l).
(** [_calc_total_cost], display_plots.py:177-191; with no agents it is NaN *)
Definition total_cost_of (views : list nview) (c : ccost) : fval :=
  let l := flat_map nv_agents views in
  match l with
  | [] => NaN
  | _ => Fin (cc_function c * np_mean (map (fun a => INR (v_calls a KFunction)) l)
              + cc_gradient c * np_mean (map (fun a => INR (v_calls a KGradient)) l)
              + cc_hessian c * np_mean (map (fun a => INR (v_calls a KHessian)) l)
              + cc_proximal c * np_mean (map (fun a => INR (v_calls a KProximal)) l)
              + cc_comm c * np_mean (map (fun a => Q2R' (v_sent a)) l))
  end.
Definition fscale (c : R) (v : fval) : fval :=
  match v with
  | Fin r => Fin (c * r)
  | PInf => if Rlt_dec 0 c then PInf else if Rlt_dec c 0 then NInf else NaN
  | NInf => if Rlt_dec 0 c then NInf else if Rlt_dec c 0 then PInf else NaN
  | NaN => NaN
  end.
(** a point of a curve: abscissas "iteration" and "compute" (where kept), and
    mean, min, max *)
Record point := mkPt { pt_iter : option Z; pt_compute : option fval; pt_mean : fval; pt_min : fval; pt_max : fval }.
(** step 5, display_plots.py:149-174: the abscissas of a row.  [scaling]
    (display_plots.py:163-166) is a dict over the algorithms of the views; an algorithm
    not in it gets NaN *)
Definition compute_of (views : list (string * list nview)) (c : ccost) (scale : R) (w : frow) : fval :=
  match dget String.eqb views (f_alg w) with
  | Some vs => fscale (IZR (f_iter w)) (fscale scale (total_cost_of vs c))
  | None => NaN
  end.
Definition to_point (views : option (list (string * list nview))) (cost : option ccost) (scale : R) (compare : bool) (w : frow) : point :=
  match cost, views with
  | Some c, Some v => mkPt (if compare then Some (f_iter w) else None) (Some (compute_of v c scale w)) (f_mean w) (f_min w) (f_max w)
  | _, _ => mkPt (Some (f_iter w)) None (f_mean w) (f_min w) (f_max w)
  end.

(** [_preprocess], display_plots.py:84-174: a frame for every metric *)
Definition preprocess (r : mresult) : list (pmetric * list frow) :=
  match r_raw_plot r, r_plot r with
  | Some raw, Some rows => map (fun p => (fst p, prepare (fst p) rows)) raw
  | _, _ => []
  end.

(** [unique()]: first occurrences *)
Fixpoint uniq (seen l : list string) : list string :=
  match l with [] => [] | s :: l' => if smem s seen then uniq seen l' else s :: uniq (s :: seen) l' end.
(** the curves of [_create_and_plot_figures], display_plots.py:194-248: the
    algorithms are those of the first metric's frame (line 211); for every metric
    and algorithm one curve (in both columns if there are two) *)
Definition curves (r : mresult) (cost : option ccost) (scale : R) (compare : bool) : list (string * string * list point) :=
  let frames := preprocess r in
  match frames with
  | [] => []
  | (_, first) :: _ =>
    let algs := uniq [] (map f_alg first) in
    flat_map (fun p => map (fun a => (pm_name (fst p), a,
        map (to_point (r_views r) cost scale compare) (filter (fun w => String.eqb (f_alg w) a) (snd p)))) algs) frames
  end.

(** [_organize_metrics_into_groups], display_plots.py:276-283: the metrics of
    each figure ([MAX_NUM_SUBPLOTS] is 3, line 49) *)
Fixpoint chunks {A} (fuel k : nat) (l : list A) : list (list A) :=
  match fuel, l with
  | O, _ | _, [] => []
  | S fuel, _ => firstn k l :: chunks fuel k (skipn k l)
  end.
Definition organize {A} (individual : bool) (l : list A) : list (list A) :=
  if individual then map (fun m => [m]) l else chunks (List.length l) 3 l.

(** [_get_marker_style_color], display_plots.py:455-474: indices into [MARKERS]
    (12), [STYLES] (7) and [COLORS] (13), lines 25-41 *)
Definition marker_style_color (index : nat) : nat * nat * nat :=
  let n := (12 * 7)%nat in
  let idx := (index mod n)%nat in
  ((idx mod 12)%nat, ((idx / 12) mod 7)%nat, (index mod 13)%nat).

(** [_select_legend_mode], display_plots.py:381-398: separate figure or not,
    columns, rows ([math.ceil] of a quotient) *)
Definition ceil_div (a b : nat) : nat := ((a + (b - 1)) / b)%nat.
Definition legend_mode (labels : list string) : bool * nat * nat :=
  let n := List.length labels in
  let longest := fold_left Nat.max (map String.length labels) 0%nat in
  let cols := Nat.min (Nat.max n 1) 3 in
  let rows := ceil_div n cols in
  ((9 <=? n)%nat || (4 <=? rows)%nat || ((24 <? longest)%nat && (6 <=? n)%nat), cols, rows).

(** ** Tables *)
(** scaling of mean and std, display_tables.py:36-43, 85-88 *)
Definition scaled_row (raw : list pmetric) (scale : R) (w : trow) : trow :=
  match find (fun m => String.eqb (pm_name m) (t_metric w)) raw with
  | Some m => if pm_counts m then mkT (t_metric w) (t_alg w) (t_stat w) (fscale scale (t_mean w)) (fscale scale (t_std w)) else w
  | None => w
  end.
(** the cell of the pivoted table, display_tables.py:45-57: the first row with
    this metric, statistic and algorithm *)
Definition table_cell (raw : list pmetric) (scale : R) (rows : list trow) (metric stat alg : string) : option (fval * fval) :=
  match find (fun w => String.eqb (t_metric w) metric && String.eqb (t_stat w) stat && String.eqb (t_alg w) alg) (map (scaled_row raw scale) rows) with
  | Some w => Some (t_mean w, t_std w)
  | None => None
  end.
(** the line "Infinite/NaN values likely indicate algorithm divergence",
    display_tables.py:31 and 71-72 *)
Definition warns_infinite (rows : list trow) : bool := existsb (fun w => is_inf (t_mean w) || is_inf (t_std w)) rows.
