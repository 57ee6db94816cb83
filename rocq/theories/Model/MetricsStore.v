(** Saving and loading computed metrics: checkpoint_manager.py:543-552,
    670-739 and 813-823 (/repo/decent_bench/utils/checkpoint_manager.py), and the use
    display_metrics makes of them (benchmark/_display/_display_metrics.py:107-122).

    The benchmark's part of the directory is Model/Benchmark.v's, the result is
    Model/Display.v's. Simplifications: an algorithm's name is the entry of [names]
    at its index; [view] is [NetworkMetricsView.from_network] (Model/Metrics.v);
    a truncated file fails to load. *)
From Coq Require Import List Bool Arith String.
From Verif.Model Require Import PyDict History Messages Network Runner Checkpoint Benchmark Metrics Display.
Import ListNotations.

Section Store.
  Context {V St : Type}.
  Variables (names : list string) (view : net V -> nview).

  (** the directory: the benchmark's files, metric_computation.pkl.zst, the
      marker metric_computation_complete.json and the legacy metric_computation.pkl *)
  Record store := mkStore { s_bench : bdir V St; s_metrics : option (file mresult); s_marker : option (file unit); s_legacy : option (file mresult) }.
  Definition store_of (b : bdir V St) : store := mkStore b None None None.

  Inductive seffect := TruncMetrics | WriteMetrics (r : mresult) | TruncMarker | WriteMarker | InBench (x : beffect V St).
  Definition sapply (s : store) (x : seffect) : store :=
    match x with
    | TruncMetrics => mkStore (s_bench s) (Some Torn) (s_marker s) (s_legacy s)
    | WriteMetrics r => mkStore (s_bench s) (Some (Full r)) (s_marker s) (s_legacy s)
    | TruncMarker => mkStore (s_bench s) (s_metrics s) (Some Torn) (s_legacy s)
    | WriteMarker => mkStore (s_bench s) (s_metrics s) (Some (Full tt)) (s_legacy s)
    | InBench y => mkStore (bapply (s_bench s) y) (s_metrics s) (s_marker s) (s_legacy s)
    end.
  Definition sapply_all (l : list seffect) (s : store) : store := fold_left sapply l s.

  (** [replace(metrics_result, network_views=None)] *)
  Definition without_views (r : mresult) : mresult := mkRes None (r_raw_table r) (r_raw_plot r) (r_table r) (r_plot r).
  Definition with_views (r : mresult) (v : option (list (string * list nview))) : mresult := mkRes v (r_raw_table r) (r_raw_plot r) (r_table r) (r_plot r).

  (** [save_metrics_result], lines 678-693; [None]: raises before writing anything *)
  Definition save_metrics_result (r : mresult) (s : store) : option (list seffect) :=
    match is_benchmark_completed (s_bench s) with
    | None => None
    | Some done => Some [TruncMetrics; WriteMetrics (if done then without_views r else r); TruncMarker; WriteMarker]
    end.

  (** [are_metrics_computed], lines 551-552 *)
  Definition are_metrics_computed (s : store) : bool := match s_marker s with Some _ => true | None => false end.

  (** views of the loaded networks, in the order of the algorithms; those that
      are not in [states] are left out *)
  Definition views_of (rs : list (option (list (net V)))) : list (string * list nview) :=
    flat_map (fun p => match snd p with Some l => [(fst p, map view l)] | None => [] end) (combine names rs).

  Inductive mload := MOk (r : mresult) | MNotFound | MCorrupt.
  (** [load_metrics_result], lines 712-739 with [_resolve_data_file], 813-823: any
      exception while reconstructing the views leaves them out *)
  Definition load_metrics_result (skip : bool) (s : store) : mload :=
    match (match s_metrics s with Some f => Some f | None => s_legacy s end) with
    | None => MNotFound
    | Some Torn => MCorrupt
    | Some (Full r) =>
        match r_views r with
        | Some _ => MOk r
        | None =>
            if skip then MOk r
            else match load_benchmark_result (s_bench s) with
                 | None => MOk (with_views r None)
                 | Some rs => MOk (with_views r (Some (filter (fun p => smem (fst p) (r_algorithms r)) (views_of rs))))
                 end
        end
    end.

  (** [display_metrics] without a result, _display_metrics.py:107-122: what is
      displayed ([None]: it stops with a warning or an exception reaches the caller) *)
  Definition display_stored (s : store) (tables plots algs : option (list string)) : option (mresult * bool * bool) :=
    match load_metrics_result false s with MOk r => display_metrics r tables plots algs | _ => None end.

End Store.
Arguments store : clear implicits. Arguments seffect : clear implicits.
