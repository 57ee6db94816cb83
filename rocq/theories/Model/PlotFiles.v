(** Model of the figures of
    /repo/decent_bench/benchmark/_display/display_plots.py: [_create_metric_subplots]
    286-335, the drawing loop of [_create_and_plot_figures] 194-248, the legend and
    the files ([_save_and_show_figures] 251-273, [_add_legend_and_save] 338-378,
    [_get_separate_legend_path] 429-430).  The curves' data are in [Display].

    Simplifications: matplotlib's axes are lists of what the code sets on them;
    artists are the labels they carry; sizes, fonts and the deleted surplus axes are
    left out (there are none: [n_plots] fills the grid); file names are values, equal
    exactly when the formatted names are; all directories can be written. *)
From Coq Require Import String List Bool Arith Ascii.
From Verif.Model Require Import Display.
Import ListNotations.

Inductive xaxis := Cost | Iterations.
Record subplot := mkSub { sp_xlabel : option xaxis; sp_ylabel : option string; sp_xlog : bool; sp_ylog : bool }.
Definition no_metric : pmetric := mkPM "" false false false.

(** display_plots.py:292: columns of the grid *)
Definition n_cols (use_cost use_iteration : bool) : nat := if use_cost && use_iteration then 2 else 1.
(** [_create_metric_subplots], display_plots.py:286-335: the subplots in row-major
    order; [math.ceil] of a quotient as in [Display.ceil_div] *)
Definition create_metric_subplots (metrics : list pmetric) (use_cost use_iteration : bool) : list subplot :=
  let cols := n_cols use_cost use_iteration in
  let n_plots := List.length metrics * cols in
  let n_rows := ceil_div n_plots cols in
  map (fun i =>
    let metric := nth (i / cols) metrics no_metric in
    mkSub
      (if Nat.eqb (i / cols) (n_rows - 1)
       then Some (if Nat.eqb cols 2 then (if Nat.eqb (i mod 2) 1 then Iterations else Cost) else (if use_cost then Cost else Iterations))
       else None)
      (if Nat.eqb (i mod cols) 0 then Some (pm_name metric) else None)
      (pm_xlog metric) (pm_ylog metric)) (seq 0 n_plots).

(** the drawing loop for one figure, display_plots.py:220-242: what is drawn on which
    subplot, in order: position, metric, abscissas, algorithm *)
Definition drawn (metrics : list pmetric) (algs : list string) (use_cost use_iteration : bool) : list (nat * pmetric * xaxis * string) :=
  flat_map (fun p => let '(mi, m) := p in
    flat_map (fun a =>
      if use_cost && use_iteration then [(mi * 2, m, Cost, a); (mi * 2 + 1, m, Iterations, a)]
      else [(mi, m, if use_cost then Cost else Iterations, a)]) algs) (combine (seq 0 (List.length metrics)) metrics).
Definition on_subplot (i : nat) (l : list (nat * pmetric * xaxis * string)) : list (pmetric * xaxis * string) :=
  flat_map (fun q => let '(j, m, x, a) := q in if Nat.eqb j i then [(m, x, a)] else []) l.

(** [get_legend_handles_labels] of matplotlib: labels that are not empty and do not
    begin with an underscore *)
Definition in_legend (a : string) : bool :=
  match a with EmptyString => false | String c _ => negb (Ascii.eqb c "_") end.
(** the labels of the first subplot that has some, display_plots.py:343-348 *)
Fixpoint legend_labels (subplots : list (list string)) : list string :=
  match subplots with [] => [] | s :: rest => match filter in_legend s with [] => legend_labels rest | l => l end end.
(** a figure: its metrics and, for every subplot, the labels of its curves *)
Definition labels_of (metrics : list pmetric) (algs : list string) (use_cost use_iteration : bool) : list (list string) :=
  map (fun i => map snd (on_subplot i (drawn metrics algs use_cost use_iteration))) (seq 0 (List.length metrics * n_cols use_cost use_iteration)).

(** files: [plot.fmt], [plot_fig{i}.fmt], and the same with [_legend] *)
Inductive file := Plot (number : option nat) | Legend (number : option nat).
(** figures as windows: of a group of metrics, or a legend's *)
Inductive window := Figure_of (metrics : list pmetric) | Legend_of (metrics : list pmetric).
Record shown := mkShown { s_files : list (file * window); s_open : list window; s_warned : bool }.
(** [display_plots] from the frames on, display_plots.py:75-81, 244-273, 338-378.
    [algs]: the algorithms of the first frame, line 207. [s_open]: the figures that
    exist afterwards; [plt.show] is taken to close all *)
Definition figures (groups : list (list pmetric)) (algs : list string) (use_cost use_iteration : bool) (save show : bool) : shown :=
  let full := filter (fun g => existsb (fun s => negb (Nat.eqb (List.length (filter in_legend s)) 0)) (labels_of g algs use_cost use_iteration)) groups in
  let empty := filter (fun g => negb (existsb (fun s => negb (Nat.eqb (List.length (filter in_legend s)) 0)) (labels_of g algs use_cost use_iteration))) groups in
  match full with
  | [] => mkShown [] (map Figure_of groups) true
  | _ =>
    let separate := fun g => fst (fst (legend_mode (legend_labels (labels_of g algs use_cost use_iteration)))) in
    let number := fun i => if Nat.ltb 1 (List.length full) then Some (S i) else None in
    mkShown
      (if save then flat_map (fun p => let '(i, g) := p in (Plot (number i), Figure_of g) :: (if separate g then [(Legend (number i), Legend_of g)] else [])) (combine (seq 0 (List.length full)) full) else [])
      (if show then [] else map Figure_of empty ++ map Legend_of (filter separate full)) false
  end.
