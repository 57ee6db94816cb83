(** C105: what a benchmark leaves behind, and what an exception breaks. *)
From Coq Require Import List Arith Bool Lia Permutation.
From Verif.Model Require Import Lifecycle.
From Verif.Spec Require Import LifecycleSpec.
From Verif.Proofs Require Import LifecycleProofs.
Import ListNotations.

(** a benchmark, new or resumed *)
Definition bench (resumed : bool) raises n_algs n_trials iterations n_metrics multi checkpoints complete : run :=
  if resumed then resume_benchmark raises n_algs n_trials iterations n_metrics multi checkpoints complete
  else benchmark raises n_algs n_trials iterations n_metrics multi checkpoints complete.

Section B.
  Variables (raises : point -> option fault) (n_algs n_trials : nat) (iterations : nat -> nat -> nat) (n_metrics : nat) (multi checkpoints : bool) (complete : nat -> nat -> bool).
  Notation core := (benchmark_core raises n_algs n_trials iterations n_metrics multi checkpoints complete).
  Notation load_done := (load_done raises n_algs n_trials checkpoints complete).
  Notation run_all := (run_all raises n_algs n_trials iterations n_metrics multi checkpoints complete).
  Notation nothing_left := (nothing_left n_algs n_trials checkpoints complete).
  Notation todo := (todo n_algs n_trials checkpoints complete).

  Lemma log_in : forall e, In e (fst (init_logging raises multi)) -> multi = true /\ (e = Start Manager \/ e = Start LogListener).
  Proof.
    intros e H. unfold init_logging in H. destruct multi; [|destruct H]. split; [reflexivity|]. apply seq_in in H. destruct H as [[]|[_ H]]. apply seq_in in H.
    destruct H as [H|[_ H]]; apply seq_in in H; destruct H as [[]|[_ [<- |[]]]]; auto.
  Qed.
  Lemma log_ok : snd (init_logging raises multi) = None -> fst (init_logging raises multi) = if multi then [Start Manager; Start LogListener] else [].
  Proof.
    unfold init_logging, start. destruct multi; [|reflexivity]. intros H. apply seq_none in H. destruct H as (_ & H & E). rewrite E. apply seq_none in H. destruct H as (H1 & H2 & E1). rewrite E1.
    apply seq_none in H1. destruct H1 as (_ & _ & E2). apply seq_none in H2. destruct H2 as (_ & _ & E3). rewrite E2, E3. reflexivity.
  Qed.
  (** a benchmark is its core, between the logging's start and end *)
  Lemma bench_ok : forall resumed, let r := bench resumed raises n_algs n_trials iterations n_metrics multi checkpoints complete in
    snd r = None -> snd core = None /\ fst r = (if multi then [Start Manager; Start LogListener] else []) ++ fst core ++ (if multi then [Stop LogListener] else []).
  Proof.
    intros [|]; cbv zeta; unfold bench, resume_benchmark, benchmark; intros H.
    - apply seq_none in H. destruct H as (_ & H & E). rewrite E. apply seq_none in H. destruct H as (_ & H & E1). rewrite E1. apply seq_none in H. destruct H as (L & H & E2). rewrite E2, (log_ok L).
      apply seq_none in H. destruct H as (_ & H & E3). rewrite E3. apply seq_none in H. destruct H as (_ & H & E4). rewrite E4. apply seq_none in H. destruct H as (H & _ & E5). rewrite E5. split; [assumption|]. cbn [fst act app]. now destruct multi.
    - apply seq_none in H. destruct H as (_ & H & E). rewrite E. apply seq_none in H. destruct H as (L & H & E2). rewrite E2, (log_ok L).
      apply seq_none in H. destruct H as (H0 & H & E3). rewrite E3. assert (K : fst ((if checkpoints then act raises PNotEmpty ;; act raises PInitialize else ret []) : run) = []).
      { destruct checkpoints; [|reflexivity]. apply seq_none in H0. destruct H0 as (_ & _ & ->). reflexivity. }
      rewrite K. apply seq_none in H. destruct H as (H & _ & E5). rewrite E5. split; [assumption|]. cbn [fst act app]. now destruct multi.
  Qed.
  Lemma nothing_todo : nothing_left = true -> todo = [].
  Proof.
    unfold Lifecycle.nothing_left. intros H. destruct checkpoints; [destruct (Lifecycle.todo n_algs n_trials true complete); [reflexivity|discriminate]|].
    apply Nat.eqb_eq in H. subst. reflexivity.
  Qed.
  Lemma some_left : some_to_run n_algs n_trials checkpoints complete -> nothing_left = false.
  Proof.
    intros (a & i & Ha & Hi & C). destruct nothing_left eqn:N; [|reflexivity]. apply nothing_todo in N. exfalso.
    assert (I : In (a, i) todo) by (apply todo_in; auto). rewrite N in I. destruct I.
  Qed.
  Lemma no_stop_in_loads : forall h, ~ In (Stop h) (fst load_done) /\ ~ In (Start h) (fst load_done).
  Proof. intros h. split; intros H; apply load_done_in in H; destruct H as (a & i & H & _); destruct H. Qed.
  Lemma run_all_helpers : forall h, In (Start h) (fst run_all) -> multi = true /\ h = Pool.
  Proof. intros h H. apply run_all_in in H. destruct H as [[M [H|H]]|(a & i & [] & _)]; [injection H as <-; auto|discriminate]. Qed.
End B.

(** ** When the benchmark returns *)
(** Bars, log listener and worker processes are stopped; so is the plotter, if there
    was a trial to run.  Whatever has gone wrong inside the trials. *)
Theorem C105_returned_partial : forall resumed raises n_algs n_trials iterations n_metrics multi checkpoints complete,
  let r := bench resumed raises n_algs n_trials iterations n_metrics multi checkpoints complete in
  returned r -> ~ left_running Bars r /\ ~ left_running LogListener r /\ ~ left_running Pool r /\
    (some_to_run n_algs n_trials checkpoints complete -> ~ left_running Plotter r).
Proof.
  intros resumed raises n_algs n_trials iterations n_metrics multi checkpoints complete r H. destruct (bench_ok _ _ _ _ _ _ _ _ _ H) as [C E]. fold r in E.
  destruct (core_returned _ _ _ _ _ _ _ _ C) as (E1 & _ & RA). 
  assert (B : In (Stop Bars) (fst r)).
  { rewrite E, E1. apply in_app_iff. right. apply in_app_iff. left. right. apply in_app_iff. right. apply in_app_iff. right. destruct (nothing_left _ _ _ _); [now left|]. apply in_app_iff. right. now left. }
  split; [intros [_ N]; contradiction|]. split; [|split].
  - intros [S N]. apply N. rewrite E in S |- *. apply in_app_iff. right. apply in_app_iff. right. destruct multi; [now left|]. exfalso. cbn [app] in S. rewrite app_nil_r, E1 in S.
    destruct S as [S|S]; [discriminate|]. apply in_app_iff in S. destruct S as [S|S]; [destruct (0 <? n_metrics); [destruct S as [S|[]]; discriminate|destruct S]|].
    apply in_app_iff in S. destruct S as [S|S]; [now apply no_stop_in_loads in S|]. destruct (nothing_left _ _ _ _); [destruct S as [S|[]]; discriminate|]. apply in_app_iff in S. destruct S as [S|S]; [apply run_all_helpers in S; now destruct S|].
    destruct S as [S|S]; [discriminate|]. destruct (0 <? n_metrics); [destruct S as [S|[]]; discriminate|destruct S].
  - intros [S N]. apply N. rewrite E in S |- *. apply in_app_iff in S. destruct S as [S|S]; [destruct multi; [destruct S as [S|[S|[]]]; discriminate|destruct S]|]. apply in_app_iff in S. destruct S as [S|S]; [|destruct multi; [destruct S as [S|[]]; discriminate|destruct S]].
    apply in_app_iff. right. apply in_app_iff. left. rewrite E1 in S |- *.
    destruct S as [S|S]; [discriminate|]. right. apply in_app_iff in S. apply in_app_iff. destruct S as [S|S]; [destruct (0 <? n_metrics); [destruct S as [S|[]]; discriminate|destruct S]|]. right.
    apply in_app_iff in S. apply in_app_iff. destruct S as [S|S]; [now apply no_stop_in_loads in S|]. right. destruct (nothing_left _ _ _ _) eqn:NL; [destruct S as [S|[]]; discriminate|]. apply in_app_iff in S. apply in_app_iff. destruct S as [S|S].
    + left. pose proof S as S'. apply run_all_helpers in S'. destruct S' as [M _]. destruct (run_all_pool raises n_algs n_trials iterations n_metrics multi checkpoints complete M (RA eq_refl)) as (l & -> & _). right. apply in_app_iff. right. now left.
    + exfalso. destruct S as [S|S]; [discriminate|]. destruct (0 <? n_metrics); [destruct S as [S|[]]; discriminate|destruct S].
  - intros T [S N]. apply N. assert (M : 0 <? n_metrics = true).
    { destruct (0 <? n_metrics) eqn:M; [reflexivity|]. exfalso. rewrite E in S. apply in_app_iff in S. destruct S as [S|S]; [destruct multi; [destruct S as [S|[S|[]]]; discriminate|destruct S]|]. apply in_app_iff in S. destruct S as [S|S]; [|destruct multi; [destruct S as [S|[]]; discriminate|destruct S]].
      rewrite E1 in S. destruct S as [S|S]; [discriminate|]. cbn [app] in S. apply in_app_iff in S. destruct S as [S|S]; [now apply no_stop_in_loads in S|]. destruct (nothing_left _ _ _ _); [destruct S as [S|[]]; discriminate|]. apply in_app_iff in S. destruct S as [S|S]; [apply run_all_helpers in S; now destruct S|]. destruct S as [S|[]]; discriminate. }
    rewrite E, E1, M, (some_left _ _ _ _ T). apply in_app_iff. right. apply in_app_iff. left. right. apply in_app_iff. right. apply in_app_iff. right. apply in_app_iff. right. right. now left.
Qed.
Print Assumptions C105_returned_partial.
(** With several processes, all results are there before the workers are stopped, then
    bars and plotter are stopped, and the log listener last. *)
Theorem C105_order : forall resumed raises n_algs n_trials iterations n_metrics checkpoints complete,
  let r := bench resumed raises n_algs n_trials iterations n_metrics true checkpoints complete in
  returned r -> some_to_run n_algs n_trials checkpoints complete ->
  exists before mid after, fst r = before ++ Start Pool :: mid ++ Stop Pool :: after ++ [Stop LogListener] /\
    In (Start LogListener) before /\ In (Start Bars) before /\ (forall h, ~ In (Stop h) before /\ ~ In (Stop h) mid) /\
    (forall e, In e after -> exists h, e = Stop h).
Proof.
  intros resumed raises n_algs n_trials iterations n_metrics checkpoints complete r H T. destruct (bench_ok _ _ _ _ _ _ _ _ _ H) as [C E]. fold r in E.
  destruct (core_returned _ _ _ _ _ _ _ _ C) as (E1 & _ & RA). rewrite (some_left _ _ _ _ T) in E1, RA.
  destruct (run_all_pool raises n_algs n_trials iterations n_metrics true checkpoints complete eq_refl (RA eq_refl)) as (l & EP & L). rewrite EP in E1. rewrite E, E1.
  exists ([Start Manager; Start LogListener; Start Bars] ++ (if 0 <? n_metrics then [Start Plotter] else []) ++ fst (load_done raises n_algs n_trials checkpoints complete)), l, (Stop Bars :: if 0 <? n_metrics then [Stop Plotter] else []).
  split; [|split; [|split; [|split]]].
  - cbn [app]. do 3 f_equal. rewrite <- !app_assoc. do 2 f_equal. cbn [app]. f_equal. rewrite <- !app_assoc. reflexivity.
  - cbn; auto.
  - cbn; auto.
  - intros h. split; intros I.
    + apply in_app_iff in I. destruct I as [[I|[I|[I|[]]]]|I]; try discriminate. apply in_app_iff in I. destruct I as [I|I]; [destruct (0 <? n_metrics); [destruct I as [I|[]]; discriminate|destruct I]|now apply no_stop_in_loads in I].
    + apply L in I. destruct I as (a & i & []).
  - intros e [<- |I]; [eauto|]. destruct (0 <? n_metrics); [destruct I as [<- |[]]; eauto|destruct I].
Qed.
Print Assumptions C105_order.
Definition fine : point -> option fault := fun _ => None.
Example returned_meets : let r := bench false fine 2 2 (fun _ _ => 3) 1 true false (fun _ _ => false) in
  returned r /\ some_to_run 2 2 false (fun _ _ => false) /\ left_running Manager r.
Proof. split; [reflexivity|]. split; [exists 0, 0; repeat split; auto; discriminate|]. split; [left; reflexivity|]. cbn. intuition discriminate. Qed.
(** Resuming a finished benchmark with runtime metrics returns with the plotter's
    process still running: the early return passes [shutdown]. *)
Theorem C105_plotter_left_refuted : ~ (forall resumed raises n_algs n_trials iterations n_metrics multi checkpoints complete,
  let r := bench resumed raises n_algs n_trials iterations n_metrics multi checkpoints complete in returned r -> ~ left_running Plotter r).
Proof.
  intros H. specialize (H true fine 1 1 (fun _ _ => 3) 1 false true (fun _ _ => true) eq_refl). apply H. split; [right; left; reflexivity|]. cbn. intuition discriminate.
Qed.
Print Assumptions C105_plotter_left_refuted.

(** ** Exceptions inside trials are contained *)
Section Contained.
  Variables (raises : point -> option fault) (n_algs n_trials : nat) (iterations : nat -> nat -> nat) (n_metrics : nat) (multi checkpoints : bool) (complete : nat -> nat -> bool).
  Hypothesis Inside : forall p, raises p <> None -> in_a_run p /\ raises p = Some Error.
  Notation run_trial := (run_trial raises iterations n_metrics checkpoints).
  Lemma outside : forall p, ~ in_a_run p -> raises p = None.
  Proof. intros p N. destruct (raises p) eqn:E; [|reflexivity]. exfalso. apply N. apply Inside. congruence. Qed.
  Lemma inside : forall p, raises p = None \/ raises p = Some Error.
  Proof. intros p. destruct (raises p) as [f|] eqn:E; [|auto]. right. rewrite <- E. apply (Inside p). congruence. Qed.
  Lemma catch_act : forall p, snd (catch (act raises p)) = None.
  Proof. intros p. unfold catch, act. cbn. destruct (inside p) as [-> | ->]; reflexivity. Qed.
  Lemma body_fault : forall a i, snd (body raises iterations checkpoints a i) = None \/ snd (body raises iterations checkpoints a i) = Some Error.
  Proof.
    intros a i. assert (S : forall x y, snd x = None \/ snd x = Some Error -> snd y = None \/ snd y = Some Error -> snd (x ;; y) = None \/ snd (x ;; y) = Some Error).
    { intros [ex [f|]] [ey fy]; cbn; tauto. }
    unfold body. apply S; [|apply S; [cbn; auto|apply S; [destruct checkpoints; [apply inside|cbn; auto]|apply inside]]].
    generalize (seq 0 (iterations a i)). intros l. induction l as [|k l IH]; [cbn; auto|]. cbn [each fold_right]. apply S; [apply inside|exact IH].
  Qed.
  Lemma results_app : forall x y, results (x ++ y, None) = results (x, None) ++ results (y, None).
  Proof. intros. unfold results. cbn. now rewrite flat_map_app. Qed.
  Lemma trial_contained : forall a i, snd (run_trial a i) = None /\
    results (run_trial a i) = [(a, i, match snd (body raises iterations checkpoints a i) with None => true | _ => false end)].
  Proof.
    intros a i. assert (A : forall p, ~ in_a_run p -> snd (act raises p) = None) by (intros p N; now apply outside).
    assert (M : snd (each (fun m => catch (act raises (PMetric a i m))) (seq 0 n_metrics)) = None) by (apply each_none; intros; apply catch_act).
    assert (ME : fst (each (fun m => catch (act raises (PMetric a i m))) (seq 0 n_metrics)) = []).
    { rewrite each_events by assumption. clear M. induction (seq 0 n_metrics) as [|m l IH]; [reflexivity|]. cbn [flat_map]. rewrite catch_fst, IH. reflexivity. }
    assert (C : snd (catch (body raises iterations checkpoints a i)) = None). { unfold catch. destruct (body_fault a i) as [B|B]; rewrite B; [exact B|reflexivity]. }
    unfold Lifecycle.run_trial.
    assert (Q : forall x y, snd x = None -> x ;; y = (fst x ++ fst y, snd y)) by (intros [ex [f|]] [ey fy]; cbn; intros E; [discriminate|reflexivity]).
    rewrite (Q (act raises (PSeed a i))) by (now apply A). rewrite (Q (act raises (PCheckpoint a i))) by (now apply A). rewrite (Q (act raises (PStartBar a i))) by (now apply A).
    rewrite (Q (each _ _) _ M), ME, (Q (catch _) _ C), catch_fst. cbn [fst snd act ret app]. split; [reflexivity|].
    unfold results. cbn [fst]. rewrite flat_map_app.
    assert (N : flat_map (fun e => match e with Result a0 i0 b => [(a0, i0, b)] | _ => [] end) (fst (body raises iterations checkpoints a i)) = []).
    { assert (G : forall e, In e (fst (body raises iterations checkpoints a i)) -> e = Units a i) by (intros e; apply body_in). induction (fst (body raises iterations checkpoints a i)) as [|e l IH]; [reflexivity|].
      cbn. rewrite (G e (or_introl eq_refl)). apply IH. intros x Hx. apply G. now right. }
    rewrite N. reflexivity.
  Qed.
  Definition outcome (p : nat * nat) : nat * nat * bool := (p, match snd (body raises iterations checkpoints (fst p) (snd p)) with None => true | _ => false end).
  Notation todo := (todo n_algs n_trials checkpoints complete).
  Notation done := (if checkpoints then flat_map (done_of n_trials checkpoints complete) (seq 0 n_algs) else []).
  Lemma results_fst : forall l f, results (l, f) = results (l, None).
  Proof. reflexivity. Qed.
  Lemma run_all_contained : snd (run_all raises n_algs n_trials iterations n_metrics multi checkpoints complete) = None /\
    results (run_all raises n_algs n_trials iterations n_metrics multi checkpoints complete) = map outcome todo.
  Proof.
    assert (R : forall l, results (flat_map (fun p => fst (run_trial (fst p) (snd p))) l, None) = map outcome l).
    { induction l as [|p l IH]; [reflexivity|]. cbn [flat_map map]. rewrite results_app, IH. change (results (fst (run_trial (fst p) (snd p)), None)) with (results (run_trial (fst p) (snd p))).
      rewrite (proj2 (trial_contained (fst p) (snd p))). unfold outcome. destruct p; reflexivity. }
    unfold Lifecycle.run_all. destruct multi.
    - assert (S0 : snd (start raises PPool Pool) = None /\ fst (start raises PPool Pool) = [Start Pool]).
      { unfold start. destruct (seq_ok (act raises PPool) (ret [Start Pool]) (outside PPool (fun x => x))) as [-> ->]. auto. }
      destruct S0 as [S0 F0]. match goal with |- context [_ ;; ?y] => destruct (seq_ok (start raises PPool Pool) y S0) as [S1 F1] end. split.
      + rewrite S1. cbn [snd]. clear S1 F1. induction todo as [|p l IH]; [reflexivity|]. cbn [map fold_right]. rewrite (proj1 (trial_contained (fst p) (snd p))). exact IH.
      + unfold results at 1. rewrite F1, F0. cbn [fst app flat_map]. rewrite flat_map_app. cbn [flat_map app]. rewrite app_nil_r. rewrite <- R. unfold results. cbn [fst]. clear S1 F1. f_equal. induction todo as [|p l IH]; [reflexivity|]. cbn. now rewrite IH.
    - assert (N : snd (each (fun p => run_trial (fst p) (snd p)) todo) = None) by (apply each_none; intros p _; apply trial_contained).
      split; [exact N|]. rewrite <- R. unfold results. cbn [fst]. now rewrite each_events.
  Qed.
  Lemma load_contained : snd (load_done raises n_algs n_trials checkpoints complete) = None /\
    results (load_done raises n_algs n_trials checkpoints complete) = map (fun p => (p, true)) done.
  Proof.
    unfold load_done. destruct checkpoints eqn:C; [|split; reflexivity].
    assert (L : forall p, snd (load_trial raises p) = None /\ fst (load_trial raises p) = [Units (fst p) (snd p); Result (fst p) (snd p) true]).
    { intros p. unfold load_trial. destruct (seq_ok (act raises (PLoad (fst p) (snd p))) (ret [Units (fst p) (snd p); Result (fst p) (snd p) true]) (outside (PLoad _ _) (fun x => x))) as [-> ->]. auto. }
    assert (Lr : forall l, snd (each (load_trial raises) l) = None /\ results (each (load_trial raises) l) = map (fun p => (p, true)) l).
    { intros l. assert (N : snd (each (load_trial raises) l) = None) by (apply each_none; intros p _; apply L). split; [exact N|]. unfold results. rewrite each_events by assumption. clear N.
      induction l as [|p l IH]; [reflexivity|]. cbn [flat_map]. rewrite flat_map_app, IH, (proj2 (L p)). destruct p; reflexivity. }
    assert (S : forall a, snd (act raises (PScan a) ;; each (load_trial raises) (done_of n_trials true complete a)) = None /\ results (act raises (PScan a) ;; each (load_trial raises) (done_of n_trials true complete a)) = map (fun p => (p, true)) (done_of n_trials true complete a)).
    { intros a. destruct (seq_ok (act raises (PScan a)) (each (load_trial raises) (done_of n_trials true complete a)) (outside (PScan a) (fun x => x))) as [S1 F1]. destruct (Lr (done_of n_trials true complete a)) as [X Y]. split; [now rewrite S1|]. unfold results at 1. rewrite F1. cbn [fst act app]. exact Y. }
    set (g := fun a => act raises (PScan a) ;; each (load_trial raises) (done_of n_trials true complete a)) in *.
    assert (N : snd (each g (seq 0 n_algs)) = None) by (apply each_none; intros a _; apply S). split; [exact N|]. unfold results. rewrite each_events by assumption. clear N.
    induction (seq 0 n_algs) as [|a l IH]; [reflexivity|]. cbn [flat_map]. rewrite flat_map_app, map_app, IH. f_equal. apply S.
  Qed.
  Lemma core_contained : snd (benchmark_core raises n_algs n_trials iterations n_metrics multi checkpoints complete) = None /\
    results (benchmark_core raises n_algs n_trials iterations n_metrics multi checkpoints complete) = map (fun p => (p, true)) done ++ map outcome todo.
  Proof.
    assert (St : forall p h, ~ in_a_run p -> snd (start raises p h) = None /\ fst (start raises p h) = [Start h]).
    { intros p h N. unfold start. destruct (seq_ok (act raises p) (ret [Start h]) (outside p N)) as [-> ->]. auto. }
    unfold benchmark_core. destruct (St PBars Bars (fun x => x)) as [S0 F0]. destruct (seq_ok _ (run_trials raises n_algs n_trials iterations n_metrics multi checkpoints complete) S0) as [S1 F1]. rewrite S1. unfold results at 1. rewrite F1, F0. cbn [flat_map app].
    unfold run_trials. set (plot := if 0 <? n_metrics then act raises PQueue ;; start raises PPlotter Plotter else ret []).
    assert (P : snd plot = None /\ flat_map (fun e => match e with Result a i b => [(a, i, b)] | _ => [] end) (fst plot) = []).
    { unfold plot. destruct (0 <? n_metrics); [|split; reflexivity]. destruct (St PPlotter Plotter (fun x => x)) as [A B]. destruct (seq_ok (act raises PQueue) (start raises PPlotter Plotter) (outside PQueue (fun x => x))) as [-> ->]. rewrite B. auto. }
    destruct P as [P0 P1]. match goal with |- context [plot ;; ?y] => destruct (seq_ok plot y P0) as [-> ->] end. rewrite flat_map_app, P1. cbn [app].
    destruct load_contained as [L0 L1]. match goal with |- context [load_done _ _ _ _ _ ;; ?y] => destruct (seq_ok (load_done raises n_algs n_trials checkpoints complete) y L0) as [-> ->] end. rewrite flat_map_app. unfold results in L1. rewrite L1.
    destruct (nothing_left n_algs n_trials checkpoints complete) eqn:NL.
    - rewrite (nothing_todo _ _ _ _ NL). split; reflexivity.
    - destruct run_all_contained as [R0 R1]. unfold results in R1. match goal with |- context [run_all _ _ _ _ _ _ _ _ ;; ?y] => destruct (seq_ok (run_all raises n_algs n_trials iterations n_metrics multi checkpoints complete) y R0) as [-> ->] end. rewrite flat_map_app, R1.
      split; [reflexivity|]. f_equal. rewrite <- (app_nil_r (map outcome todo)) at 2. f_equal. unfold stop_if. destruct (0 <? n_metrics); reflexivity.
  Qed.
  Lemma all_trials : Permutation (done ++ todo) (list_prod (seq 0 n_algs) (seq 0 n_trials)).
  Proof.
    assert (LP : forall l, list_prod l (seq 0 n_trials) = flat_map (pairs n_trials) l) by (induction l as [|a l IH]; [reflexivity|cbn; now rewrite IH]). rewrite LP.
    unfold Lifecycle.todo, todo_of, done_of. destruct checkpoints; [|apply Permutation_refl].
    assert (F : forall (f : nat * nat -> bool) l, Permutation (filter f l ++ filter (fun p => negb (f p)) l) l).
    { intros f l. induction l as [|x l IH]; [constructor|]. cbn. destruct (f x); cbn; [now constructor|]. apply Permutation_sym, Permutation_cons_app, Permutation_sym, IH. }
    induction (seq 0 n_algs) as [|a l IH]; [constructor|]. cbn [flat_map].
    rewrite <- app_assoc. etransitivity; [apply Permutation_app_head; rewrite app_assoc; apply Permutation_app_tail, Permutation_app_comm|]. rewrite <- app_assoc, app_assoc. apply Permutation_app; [apply F|exact IH].
  Qed.
End Contained.
(** If exceptions are raised inside runs of algorithms only (runtime metrics,
    iterations, writing the final checkpoint, cleaning up), anywhere and any number of
    them, the benchmark returns, with one result for every trial of every algorithm;
    trials in which nothing is raised are complete, whatever happens to the others,
    and a run that an exception has cut short is among the results all the same. *)
Theorem C105_contained : forall resumed raises n_algs n_trials iterations n_metrics multi checkpoints complete,
  (forall p, raises p <> None -> in_a_run p /\ raises p = Some Error) ->
  let r := bench resumed raises n_algs n_trials iterations n_metrics multi checkpoints complete in
  returned r /\ Permutation (map fst (results r)) (list_prod (seq 0 n_algs) (seq 0 n_trials)) /\
  (forall a i b, In (a, i, b) (results r) -> (forall p, of_trial a i p -> raises p = None) -> b = true) /\
  (forall a i b k, In (a, i, b) (results r) -> (checkpoints = true -> complete a i = false) -> k < iterations a i -> raises (PIteration a i k) <> None -> b = false).
Proof.
  intros resumed raises n_algs n_trials iterations n_metrics multi checkpoints complete H r. destruct (core_contained raises n_algs n_trials iterations n_metrics multi checkpoints complete H) as [C R].
  assert (O : forall p, ~ in_a_run p -> snd (act raises p) = None) by (intros p N; now apply (outside raises H)).
  assert (L : snd (init_logging raises multi) = None).
  { unfold init_logging, start. destruct multi; [|reflexivity]. 
    destruct (seq_ok (act raises PSpawn) ((act raises PManager ;; ret [Start Manager]) ;; act raises PListener ;; ret [Start LogListener]) (O PSpawn (fun x => x))) as [-> _].
    destruct (seq_ok (act raises PManager) (ret [Start Manager]) (O PManager (fun x => x))) as [X _]. destruct (seq_ok (act raises PManager ;; ret [Start Manager]) (act raises PListener ;; ret [Start LogListener]) X) as [-> _].
    destruct (seq_ok (act raises PListener) (ret [Start LogListener]) (O PListener (fun x => x))) as [-> _]. reflexivity. }
  assert (Ret : returned r).
  { unfold returned, r, bench. destruct resumed; unfold resume_benchmark, benchmark; repeat first [apply (fun x y Hx Hy => eq_trans (proj1 (seq_ok x y Hx)) Hy); [first [apply O; exact (fun x => x)|exact L|exact C|destruct checkpoints; [|reflexivity]]|]|apply O; exact (fun x => x)]; destruct multi; reflexivity. }
  split; [exact Ret|]. destruct (bench_ok _ _ _ _ _ _ _ _ resumed Ret) as [_ E].
  assert (RE : results r = map (fun p => (p, true)) (if checkpoints then flat_map (done_of n_trials checkpoints complete) (seq 0 n_algs) else []) ++ map (outcome raises iterations checkpoints) (todo n_algs n_trials checkpoints complete)).
  { rewrite <- R. unfold results, r. rewrite E. destruct multi; [|cbn [app]; now rewrite app_nil_r]. rewrite !flat_map_app. cbn [flat_map app]. now rewrite app_nil_r. }
  rewrite RE. split; [|split].
  - rewrite map_app, !map_map. cbn [fst]. unfold outcome. cbn [fst]. rewrite !map_id. apply all_trials.
  - intros a i b I N. apply in_app_iff in I. destruct I as [I|I]; apply in_map_iff in I; destruct I as (p & Ep & Hp); [now injection Ep|]. unfold outcome in Ep. injection Ep as Ep Eb. subst p b. cbn [fst snd].
    assert (Q : snd (body raises iterations checkpoints a i) = None); [|now rewrite Q].
    unfold body. rewrite (proj1 (seq_ok _ _ (proj2 (each_none _ (fun k => act raises (PIteration a i k)) (seq 0 (iterations a i))) (fun k _ => N (PIteration a i k) (conj eq_refl eq_refl))))).
    rewrite (proj1 (seq_ok (ret [Units a i]) _ eq_refl)). destruct checkpoints; [rewrite (proj1 (seq_ok (act raises (PMark a i)) _ (N (PMark a i) (conj eq_refl eq_refl))))|rewrite (proj1 (seq_ok (ret []) _ eq_refl))]; apply (N (PCleanup a i) (conj eq_refl eq_refl)).
  - intros a i b k I Inc Hk F. apply in_app_iff in I. destruct I as [I|I]; apply in_map_iff in I; destruct I as (p & Ep & Hp).
    + injection Ep as -> _. exfalso. destruct checkpoints; [|destruct Hp]. apply in_flat_map in Hp. destruct Hp as (c & _ & Hp). apply done_in in Hp. cbn in Hp. destruct Hp as (_ & _ & _ & K). rewrite Inc in K; auto. discriminate.
    + unfold outcome in Ep. injection Ep as Ep Eb. subst p b. cbn [fst snd]. destruct (snd (body raises iterations checkpoints a i)) eqn:Q; [reflexivity|]. exfalso. unfold body in Q. apply seq_none in Q. destruct Q as [Q _].
      apply F. apply (proj1 (each_none _ (fun k => act raises (PIteration a i k)) (seq 0 (iterations a i))) Q k). apply in_seq. lia.
Qed.
Print Assumptions C105_contained.
Definition one_bad : point -> option fault := fun p => match p with PIteration 0 1 2 => Some Error | PMetric 1 0 0 => Some Error | _ => None end.
Example contained_meets : (forall p, one_bad p <> None -> in_a_run p /\ one_bad p = Some Error) /\
  results (bench false one_bad 2 2 (fun _ _ => 4) 1 false true (fun _ _ => false)) = [(0, 0, true); (0, 1, false); (1, 0, true); (1, 1, true)].
Proof.
  split; [|reflexivity]. intros p. destruct p as [| | | | | | | | | | | | | | | | | | |a i m|a i k| |]; cbn; try (intros N; now contradiction N).
  - destruct a as [|[|a]], i as [|i], m as [|m]; cbn; intros N; (now contradiction N) || (split; [exact I|reflexivity]).
  - destruct a as [|a], i as [|[|i]], k as [|[|[|k]]]; cbn; intros N; (now contradiction N) || (split; [exact I|reflexivity]).
Qed.

(** ** When the benchmark raises *)
(** The bars' thread is never stopped by a benchmark that raises; run in one process,
    whatever raises after the bars have been started (Ctrl+C in an iteration, a result
    file that cannot be loaded, a checkpoint that cannot be read), their thread waits
    for ever, and Python does not exit.  (Only Ctrl+C after the last iteration of a
    trial may come when all units have been sent.) *)
Theorem C105_raised_hangs : forall resumed raises n_algs n_trials iterations n_metrics checkpoints complete,
  let r := bench resumed raises n_algs n_trials iterations n_metrics false checkpoints complete in
  0 < n_algs -> 0 < n_trials -> (forall a i, raises (PMark a i) <> Some Interrupt /\ raises (PCleanup a i) <> Some Interrupt) ->
  raised r -> In (Start Bars) (fst r) -> hangs n_algs n_trials r.
Proof.
  intros resumed raises n_algs n_trials iterations n_metrics checkpoints complete r Ha Hi Late H I.
  set (core := benchmark_core raises n_algs n_trials iterations n_metrics false checkpoints complete).
  assert (G : snd core <> None /\ fst r = fst core).
  { unfold raised, r, bench in *. destruct resumed; unfold resume_benchmark, benchmark in *; fold core in H, I |- *.
    - apply seq_some in H. destruct H as [[H E]|(_ & H & E)]; rewrite E in I |- *; [destruct I|].
      apply seq_some in H. destruct H as [[H E1]|(_ & H & E1)]; rewrite E1 in I |- *; [destruct I|].
      apply seq_some in H. destruct H as [[H E2]|(_ & H & E2)]; [now contradiction H|]. rewrite E2 in I |- *.
      apply seq_some in H. destruct H as [[H E3]|(_ & H & E3)]; rewrite E3 in I |- *; [destruct I|].
      apply seq_some in H. destruct H as [[H E4]|(_ & H & E4)]; rewrite E4 in I |- *; [destruct I|].
      apply seq_some in H. destruct H as [[H E5]|(_ & H & _)]; [|now contradiction H]. rewrite E5. auto.
    - apply seq_some in H. destruct H as [[H E]|(_ & H & E)]; rewrite E in I |- *; [destruct I|].
      apply seq_some in H. destruct H as [[H E2]|(_ & H & E2)]; [now contradiction H|]. rewrite E2 in I |- *.
      assert (K : fst ((if checkpoints then act raises PNotEmpty ;; act raises PInitialize else ret []) : run) = []).
      { destruct checkpoints; [|reflexivity]. unfold seq_, act. cbn. destruct (raises PNotEmpty); reflexivity. }
      apply seq_some in H. destruct H as [[H E3]|(_ & H & E3)]; rewrite E3 in I |- *; [change (fst (init_logging raises false)) with (@nil event) in I; cbn [app] in I; rewrite K in I; destruct I|]. rewrite K in I |- *.
      apply seq_some in H. destruct H as [[H E5]|(_ & H & _)]; [|now contradiction H]. rewrite E5. auto. }
  destruct G as [G E]. unfold hangs, left_running. rewrite E in I |- *. split; [split; [exact I|]|].
  - intros S. apply G. unfold core in *. eapply stop_bars_returns; eassumption.
  - apply (core_hangs raises n_algs n_trials iterations n_metrics false checkpoints complete eq_refl Late Ha Hi G I).
Qed.
Print Assumptions C105_raised_hangs.
(** the same in several processes, for the bars: never stopped *)
Theorem C105_raised_bars_left : forall resumed raises n_algs n_trials iterations n_metrics multi checkpoints complete,
  let r := bench resumed raises n_algs n_trials iterations n_metrics multi checkpoints complete in raised r -> ~ In (Stop Bars) (fst r) /\ ~ In (Stop LogListener) (fst r).
Proof.
  intros resumed raises n_algs n_trials iterations n_metrics multi checkpoints complete r H.
  set (core := benchmark_core raises n_algs n_trials iterations n_metrics multi checkpoints complete).
  assert (CL : ~ In (Stop LogListener) (fst core)).
  { intros S. unfold core, benchmark_core in S. apply seq_in in S. destruct S as [S|[_ S]]; [apply seq_in in S; destruct S as [[]|[_ [S|[]]]]; discriminate|].
    unfold run_trials in S. apply seq_in in S. destruct S as [S|[_ S]]; [destruct (0 <? n_metrics); [|destruct S]; apply seq_in in S; destruct S as [[]|[_ S]]; apply seq_in in S; destruct S as [[]|[_ [S|[]]]]; discriminate|].
    apply seq_in in S. destruct S as [S|[_ S]]; [now apply no_stop_in_loads in S|]. destruct (nothing_left _ _ _ _); [destruct S as [S|[]]; discriminate|].
    apply seq_in in S. destruct S as [S|[_ S]]; [apply run_all_in in S; destruct S as [[_ [S|S]]|(a & i & [] & _)]; discriminate|].
    apply seq_in in S. destruct S as [[S|[]]|[_ S]]; [discriminate|]. unfold stop_if in S. destruct (0 <? n_metrics); [destruct S as [S|[]]; discriminate|destruct S]. }
  assert (CR : snd core = None -> snd r = None \/ fst r = [] \/ True) by auto.
  assert (K : forall e, In e (fst r) -> (exists h, e = Start h) \/ (In e (fst core) /\ (snd core = None -> snd r = None)) \/ (snd r = None)).
  { intros e. unfold r, bench. assert (LI : forall e, In e (fst (init_logging raises multi)) -> exists h, e = Start h) by (intros e0 I; apply log_in in I; destruct I as [_ [-> | ->]]; eauto).
    assert (T : forall x, (forall e, In e (fst x) -> exists h, e = Start h) -> forall y, (In e (fst y) -> (exists h, e = Start h) \/ (In e (fst core) /\ (snd core = None -> snd y = None)) \/ snd y = None) ->
      In e (fst (x ;; y)) -> (exists h, e = Start h) \/ (In e (fst core) /\ (snd core = None -> snd (x ;; y) = None)) \/ snd (x ;; y) = None).
    { intros x Hx y Hy I. apply seq_in in I. destruct I as [I|[S I]]; [left; auto|]. rewrite (proj1 (seq_ok x y S)). auto. }
    assert (F : In e (fst (core ;; stop_if multi LogListener)) -> (exists h, e = Start h) \/ (In e (fst core) /\ (snd core = None -> snd (core ;; stop_if multi LogListener) = None)) \/ snd (core ;; stop_if multi LogListener) = None).
    { intros I. apply seq_in in I. destruct I as [I|[S I]]; [right; left; split; [exact I|]; intros S; now rewrite (proj1 (seq_ok core (stop_if multi LogListener) S))|]. right; right. now rewrite (proj1 (seq_ok core (stop_if multi LogListener) S)). }
    destruct resumed; unfold resume_benchmark, benchmark; fold core; repeat (apply T; [first [exact LI|intros e0 []|destruct checkpoints; [unfold seq_, act; cbn; destruct (raises PNotEmpty)|]; intros e0 []]|]); exact F. }
  split; intros S; apply K in S; destruct S as [[h S]|[[S1 S2]|S]]; try discriminate; try contradiction.
  apply H. apply S2. unfold core in *. eapply stop_bars_returns; eassumption.
Qed.
Print Assumptions C105_raised_bars_left.
Theorem C105_raise_stops_everything_refuted : ~ (forall resumed raises n_algs n_trials iterations n_metrics multi checkpoints complete,
  let r := bench resumed raises n_algs n_trials iterations n_metrics multi checkpoints complete in raised r -> ~ hangs n_algs n_trials r).
Proof.
  intros H. pose (ctrl_c := fun p => match p with PIteration 0 1 2 => Some Interrupt | _ => None end).
  specialize (H false ctrl_c 1 2 (fun _ _ => 5) 0 false false (fun _ _ => false)). apply H; [discriminate|].
  apply (C105_raised_hangs false ctrl_c 1 2 (fun _ _ => 5) 0 false (fun _ _ => false)); [lia|lia|split; discriminate|discriminate|left; reflexivity].
Qed.
Print Assumptions C105_raise_stops_everything_refuted.
Example raised_meets : let broken := fun p => match p with PLoad 0 0 => Some Error | _ => None end in
  let r := bench true broken 1 2 (fun _ _ => 5) 0 false true (fun _ i => i =? 0) in raised r /\ fst r = [Start Bars].
Proof. split; [discriminate|reflexivity]. Qed.

(** ** Refusing to start *)
(** A benchmark that is refused (same names twice, a directory that is not empty; or a
    directory that cannot be resumed) has started nothing that keeps Python from
    exiting; in one process nothing at all. *)
Theorem C105_refused : forall raises n_algs n_trials iterations n_metrics multi checkpoints complete,
  (raises PNames <> None -> fst (benchmark raises n_algs n_trials iterations n_metrics multi checkpoints complete) = []) /\
  (checkpoints = true -> raises PNotEmpty <> None -> let r := benchmark raises n_algs n_trials iterations n_metrics multi checkpoints complete in
     raised r /\ (forall e, In e (fst r) -> multi = true /\ (e = Start Manager \/ e = Start LogListener))) /\
  (raises PDirectory <> None \/ raises PLoadAll <> None -> fst (resume_benchmark raises n_algs n_trials iterations n_metrics multi checkpoints complete) = []).
Proof.
  intros. split; [|split].
  - intros H. unfold benchmark, seq_ at 1, act at 1. cbn. destruct (raises PNames); [reflexivity|contradiction].
  - intros -> H r. unfold r, raised, benchmark. assert (A : forall y, (act raises PNotEmpty ;; act raises PInitialize) ;; y = act raises PNotEmpty).
    { intros y. unfold seq_, act. cbn. destruct (raises PNotEmpty) eqn:E; [cbn; reflexivity|contradiction]. }
    rewrite A. split.
    + destruct (raises PNames) eqn:N; [unfold seq_ at 1, act at 1; cbn; rewrite N; cbn; congruence|]. rewrite (proj1 (seq_ok (act raises PNames) _ N)).
      destruct (snd (init_logging raises multi)) eqn:Q; [unfold seq_; rewrite Q; congruence|]. rewrite (proj1 (seq_ok _ _ Q)). exact H.
    + intros e I. apply seq_in in I. destruct I as [[]|[_ I]]. apply seq_in in I. destruct I as [I|[_ []]]. now apply log_in in I.
  - intros H. unfold resume_benchmark, seq_ at 1, act at 1. cbn. destruct (raises PDirectory) eqn:E; [reflexivity|]. destruct H as [H|H]; [contradiction|]. unfold seq_ at 1, act at 1. cbn. destruct (raises PLoadAll) eqn:E2; [reflexivity|contradiction].
Qed.
Print Assumptions C105_refused.
Example refused_meets : let twice := fun p => match p with PNotEmpty => Some Error | _ => None end in
  fst (benchmark twice 1 1 (fun _ _ => 1) 0 true true (fun _ _ => false)) = [Start Manager; Start LogListener].
Proof. reflexivity. Qed.
