(** C100: computed metrics in the checkpoint directory. *)
From Coq Require Import List Bool Arith ZArith String Lia.
From Verif.Model Require Import PyDict History Messages Network Runner Checkpoint Benchmark Metrics Display MetricsStore.
From Verif.Spec Require Import RunnerSpec CheckpointSpec BenchmarkSpec DisplaySpec MetricsStoreSpec.
From Verif.Proofs Require Import DisplayProofs.
From Verif.Props Require Import RunnerProps CheckpointProps BenchmarkProps.
Import ListNotations.
Open Scope nat_scope.

Lemma smem_in s l : smem s l = true <-> In s l.
Proof.
  unfold smem. rewrite existsb_exists. split.
  - intros (x & I & E). apply String.eqb_eq in E. now subst.
  - intro I. exists s. split; [exact I|apply String.eqb_refl].
Qed.
Lemma filter_all {A} (f : A -> bool) l : (forall x, In x l -> f x = true) -> filter f l = l.
Proof.
  induction l as [|x l IH]; intro H; [reflexivity|]. cbn. rewrite (H x) by now left. f_equal. apply IH. intros y I. apply H. now right.
Qed.

Lemma views_of_are {V} (view : net V -> nview) names rs v : views_are view names rs v -> views_of names view rs = v.
Proof. induction 1; cbn; auto. unfold views_of in IHviews_are. now rewrite IHviews_are. Qed.

(** Saving and loading: a result computed from the benchmark in the directory
    comes back whole, tables, plots and views, whether or not the benchmark is complete
    (the views are then not stored but recomputed); provided there is a table
    metric, see the refutation below. *)
Theorem C100_round_trip_partial : forall (V St : Type) names view r (s s' : store V St),
  computed_from names view s r -> some_table_metric r -> frames_cover r -> saved r s s' ->
  are_metrics_computed s' = true /\ load_metrics_result names view false s' = MOk r /\ s_bench s' = s_bench s /\
  forall tables plots algs, display_stored names view s' tables plots algs = display_metrics r tables plots algs.
Proof.
  intros V St names view r s s' (rs & v & L & Vw & VA) (m & algs & rest & W) C (l & E & ->). unfold save_metrics_result in E.
  destruct (is_benchmark_completed (s_bench s)) as [d|]; [|discriminate]. injection E as <-.
  assert (X : load_metrics_result names view false (sapply_all [TruncMetrics; WriteMetrics (if d then without_views r else r); TruncMarker; WriteMarker] s) = MOk r).
  { unfold sapply_all. cbn [fold_left sapply s_bench s_metrics s_marker s_legacy]. unfold load_metrics_result. cbn [s_metrics s_bench].
    destruct d; cbn [without_views r_views].
    - rewrite L. unfold with_views, without_views. cbn [r_raw_table r_raw_plot r_table r_plot]. f_equal.
      assert (F : filter (fun p : string * list nview => smem (fst p) (r_algorithms (mkRes None (r_raw_table r) (r_raw_plot r) (r_table r) (r_plot r)))) (views_of names view rs) = views_of names view rs).
      { apply filter_all. intros [a vs] I. apply smem_in. unfold r_algorithms. cbn [r_views which_all r_raw_table r_raw_plot]. unfold which_all in *. cbn [r_raw_table r_raw_plot].
        rewrite W. rewrite (views_of_are _ _ _ _ VA) in I. eapply C; eauto. }
      rewrite F, (views_of_are _ _ _ _ VA), <- Vw. destruct r; reflexivity.
    - rewrite Vw. reflexivity. }
  split; [reflexivity|]. split; [exact X|]. split; [reflexivity|]. intros. unfold display_stored. now rewrite X.
Qed.

(** Killed at any point of a first save: the benchmark's own files are untouched,
    and if the metrics count as computed they load and are the ones being saved. *)
Theorem C100_first_save_crash : forall (V St : Type) names view r k (s s' : store V St),
  are_metrics_computed s = false -> killed_saving r k s s' ->
  s_bench s' = s_bench s /\ (are_metrics_computed s' = true ->
    exists r', load_metrics_result names view true s' = MOk r' /\ without_views r' = without_views r).
Proof.
  intros V St names view r k s s' N (l & E & ->). unfold save_metrics_result in E.
  destruct (is_benchmark_completed (s_bench s)) as [d|]; [|discriminate]. injection E as <-.
  unfold are_metrics_computed in *. destruct (s_marker s) eqn:M; [discriminate|].
  assert (K : k = 0 \/ k = 1 \/ k = 2 \/ k = 3 \/ exists q, k = S (S (S (S q)))).
  { destruct k as [|[|[|[|q]]]]; eauto 6. }
  destruct K as [-> | [-> | [-> | K]]].
  1-3: unfold sapply_all; cbn [firstn fold_left sapply s_marker s_bench]; rewrite ?M; split; [reflexivity|discriminate].
  assert (X : exists m, sapply_all (firstn k [TruncMetrics; WriteMetrics (if d then without_views r else r); TruncMarker; WriteMarker]) s
     = mkStore (s_bench s) (Some (Full (if d then without_views r else r))) (Some m) (s_legacy s)).
  { destruct K as [-> | (q & ->)]; [eexists; reflexivity|]. cbn [firstn]. rewrite firstn_nil. eexists; reflexivity. }
  destruct X as (m & ->). split; [reflexivity|intros _]. unfold load_metrics_result. cbn [s_metrics].
  exists (if d then without_views r else r). split; [|now destruct d].
  destruct (r_views (if d then without_views r else r)); reflexivity.
Qed.

(** Refuted for a second save: the marker of the first one is still there while
    the file is being overwritten, so a kill leaves metrics that count as computed
    and cannot be loaded. *)
Theorem C100_resave_refuted : forall (V St : Type) names view r r2 (s s1 : store V St), saved r s s1 ->
  exists s2, killed_saving r2 1 s1 s2 /\ are_metrics_computed s2 = true /\ load_metrics_result names view false s2 = MCorrupt.
Proof.
  intros V St names view r r2 s s1 (l & E & ->). unfold save_metrics_result in E.
  destruct (is_benchmark_completed (s_bench s)) as [d|] eqn:B; [|discriminate]. injection E as <-.
  eexists. split; [eexists; split; [unfold save_metrics_result; cbn [sapply_all fold_left sapply s_bench]; rewrite B; reflexivity|reflexivity]|].
  split; reflexivity.
Qed.

(** Refuted for plot metrics alone: with an empty list of table metrics and a
    completed benchmark, the reloaded result has lost its algorithms and
    [display_metrics] shows nothing although it shows the result in memory. *)
Theorem C100_plot_only_refuted : forall (V St : Type) names view r (s s' : store V St) rs v,
  r_raw_table r = Some [] -> load_benchmark_result (s_bench s) = Some rs -> r_views r = Some v ->
  is_benchmark_completed (s_bench s) = Some true -> saved r s s' ->
  (exists r', load_metrics_result names view false s' = MOk r' /\ r_algorithms r' = []) /\
  forall tables plots algs, display_stored names view s' tables plots algs = None.
Proof.
  intros V St names view r s s' rs v T L Vw B (l & E & ->). unfold save_metrics_result in E. rewrite B in E. injection E as <-.
  assert (X : exists r', load_metrics_result names view false (sapply_all [TruncMetrics; WriteMetrics (without_views r); TruncMarker; WriteMarker] s) = MOk r' /\ r_algorithms r' = []).
  { unfold sapply_all. cbn [fold_left sapply]. unfold load_metrics_result. cbn [s_metrics s_bench without_views r_views]. rewrite L.
    eexists. split; [reflexivity|]. unfold with_views, r_algorithms. cbn [r_views which_all r_raw_table].
    unfold which_all, without_views. cbn [r_raw_table]. rewrite T. cbn. induction (views_of names view rs) as [|p q IH]; [reflexivity|exact IH]. }
  split; [exact X|]. intros tables plots algs. destruct X as (r' & X & A). unfold display_stored. rewrite X. unfold display_metrics. rewrite A.
  destruct algs as [l|]; cbn [filter_names].
  - replace (filter (fun s0 => smem s0 []) l) with (@nil string); [reflexivity|]. induction l as [|x l IH]; [reflexivity|exact IH].
  - reflexivity.
Qed.

(** Refuted after an extension: whatever the benchmark does afterwards, the metrics
    still count as computed and the tables and plots displayed are the old ones,
    next to the views of the new networks. *)
Theorem C100_stale_refuted : forall (V St : Type) names view r l (s s1 s2 : store V St),
  is_benchmark_completed (s_bench s) = Some true -> saved r s s1 -> then_benchmark l s1 s2 ->
  are_metrics_computed s2 = true /\
  exists r', load_metrics_result names view false s2 = MOk r' /\ without_views r' = without_views r /\
    forall rs v v', load_benchmark_result (bapply_all l (s_bench s)) = Some rs -> r_views r' = Some v -> views_are view names rs v' ->
      v = filter (fun p => smem (fst p) (r_algorithms (without_views r))) v'.
Proof.
  intros V St names view r l s s1 s2 B (e & E & ->) ->. unfold save_metrics_result in E. rewrite B in E. injection E as <-.
  assert (X : forall l (t : store V St), s_bench (sapply_all (map InBench l) t) = bapply_all l (s_bench t) /\ s_metrics (sapply_all (map InBench l) t) = s_metrics t /\ s_marker (sapply_all (map InBench l) t) = s_marker t).
  { clear. induction l as [|x l IH]; intro t; [auto|]. cbn [map sapply_all fold_left]. destruct (IH (sapply t (InBench x))) as (E1 & E2 & E3).
    unfold sapply_all in *. rewrite E1, E2, E3. auto. }
  set (t := sapply_all [TruncMetrics; WriteMetrics (without_views r); TruncMarker; WriteMarker] s).
  destruct (X l t) as (E1 & E2 & E3). unfold are_metrics_computed. rewrite E3. split; [reflexivity|].
  unfold load_metrics_result. rewrite E1, E2. cbn [t s_metrics s_bench sapply_all fold_left sapply without_views r_views].
  destruct (load_benchmark_result (bapply_all l (s_bench s))) as [rs|].
  - eexists. split; [reflexivity|]. split; [reflexivity|]. intros rs' v v' [= <-]. cbn [with_views r_views]. intros [= <-] VA. now rewrite (views_of_are _ _ _ _ VA).
  - eexists. split; [reflexivity|]. split; [reflexivity|]. discriminate.
Qed.

(** ---- concrete cases: the benchmark of BenchmarkProps, one algorithm, two trials,
    completed; a view shows how many random numbers its network has drawn ---- *)
Definition ms_view (n : net nat) : nview := mkNView [] (Some (n_draws n)).
Definition ms_metric : pmetric := mkPM "regret" false true false.
Definition ms_result (table : bool) : mresult :=
  mkRes (Some (views_of ["A"%string] ms_view (match load_benchmark_result b3 with Some rs => rs | None => [] end)))
    (Some (if table then [(ms_metric, ["A"%string; "A"%string])] else [])) (Some [(ms_metric, ["A"%string])]) None None.
Lemma b3_result : exists l1 l2, load_benchmark_result b3 = Some [Some [l1; l2]].
Proof. assert (E : option_map (map (option_map (@List.length (net nat)))) (load_benchmark_result b3) = Some [Some 2]) by (vm_compute; reflexivity).
  destruct (load_benchmark_result b3) as [rs|]; [|discriminate]. cbn in E. injection E as E. destruct rs as [|[[|x [|y [|]]]|] [|]]; try discriminate. eauto. Qed.
Example C100_round_trip_case : exists l, save_metrics_result (ms_result true) (store_of b3) = Some l /\ is_benchmark_completed b3 = Some true /\
  computed_from ["A"%string] ms_view (store_of b3) (ms_result true) /\ some_table_metric (ms_result true) /\ frames_cover (ms_result true).
Proof.
  assert (B : is_benchmark_completed b3 = Some true) by (vm_compute; reflexivity).
  eexists. split; [unfold save_metrics_result; cbn [s_bench store_of]; rewrite B; reflexivity|]. split; [exact B|].
  destruct b3_result as (x & y & E). split; [|split].
  - eexists [Some [x; y]], _. split; [exact E|]. unfold ms_result. rewrite E. split; [reflexivity|]. repeat constructor.
  - unfold some_table_metric, which_all, ms_result. cbn. eauto.
  - intros m algs rest v. unfold which_all, ms_result. cbn [r_raw_table r_views]. rewrite E. cbn. intros [= <- <- <-] [= <-] a l [[= <- <-]|[]]. now left.
Qed.
Example C100_plot_only_case : exists rs, r_raw_table (ms_result false) = Some [] /\ load_benchmark_result (s_bench (store_of b3)) = Some rs /\
  (exists v, r_views (ms_result false) = Some v) /\ display_metrics (ms_result false) None None None <> None.
Proof.
  destruct b3_result as (x & y & E). exists [Some [x; y]]. split; [reflexivity|]. split; [exact E|]. split; [eexists; reflexivity|].
  unfold ms_result. rewrite E. cbn. intro H. discriminate H.
Qed.
(** extended by two iterations and finished: same tables, other networks *)
Definition b3x := b_cut (the_plan (resume 2 0 b3)) 1000 b3.
Example C100_stale_case : option_map (map (option_map (map n_draws))) (load_benchmark_result b3) <> option_map (map (option_map (map n_draws))) (load_benchmark_result b3x) /\
  is_benchmark_completed b3 = Some true /\ exists l, b3x = bapply_all l b3.
Proof.
  split; [vm_compute; discriminate|]. split; [vm_compute; reflexivity|]. unfold b3x, b_cut. eexists. reflexivity.
Qed.

Print Assumptions C100_round_trip_partial.
Print Assumptions C100_first_save_crash.
Print Assumptions C100_resave_refuted.
Print Assumptions C100_plot_only_refuted.
Print Assumptions C100_stale_refuted.
