(** Saved metrics, as documented. *)
From Coq Require Import List Bool Arith String.
From Verif.Model Require Import PyDict History Messages Network Runner Checkpoint Benchmark Metrics Display MetricsStore.
From Verif.Spec Require Import DisplaySpec.
Import ListNotations.

(** the state the directory is in when the process dies after [k] of the steps of a save *)
Definition killed_saving {V St} (r : mresult) (k : nat) (s s' : store V St) : Prop :=
  exists l, save_metrics_result r s = Some l /\ s' = sapply_all (firstn k l) s.
Definition saved {V St} (r : mresult) (s s' : store V St) : Prop :=
  exists l, save_metrics_result r s = Some l /\ s' = sapply_all l s.
(** The views of the networks [rs] of the algorithms [names], in their order: each
    algorithm that has networks, with their views. *)
Inductive views_are {V} (view : net V -> nview) : list string -> list (option (list (net V))) -> list (string * list nview) -> Prop :=
| va_end : views_are view [] [] []
| va_none n names rs v : views_are view names rs v -> views_are view (n :: names) (None :: rs) v
| va_some n names l rs v : views_are view names rs v -> views_are view (n :: names) (Some l :: rs) ((n, map view l) :: v).
(** a result computed from the benchmark in the directory: its views are those of
    the networks the directory holds *)
Definition computed_from {V St} (names : list string) (view : net V -> nview) (s : store V St) (r : mresult) : Prop :=
  exists rs v, load_benchmark_result (s_bench s) = Some rs /\ r_views r = Some v /\ views_are view names rs v.
(** the frames know every algorithm that has views *)
Definition frames_cover (r : mresult) : Prop :=
  forall m algs rest v, which_all r = Some ((m, algs) :: rest) -> r_views r = Some v -> forall a l, In (a, l) v -> In a algs.
Definition some_table_metric (r : mresult) : Prop := exists m algs rest, which_all r = Some ((m, algs) :: rest).
(** benchmark activity after the metrics were saved *)
Definition then_benchmark {V St} (l : list (beffect V St)) (s s' : store V St) : Prop := s' = sapply_all (map InBench l) s.
