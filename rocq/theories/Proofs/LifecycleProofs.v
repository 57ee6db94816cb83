(** Proofs for C105. *)
From Coq Require Import List Arith Bool Lia Permutation.
From Verif.Model Require Import Lifecycle.
From Verif.Spec Require Import LifecycleSpec.
Import ListNotations.

Lemma seq_none : forall x y, snd (x ;; y) = None -> snd x = None /\ snd y = None /\ fst (x ;; y) = fst x ++ fst y.
Proof. intros [ex [f|]] [ey fy]; cbn; intros H; [discriminate|auto]. Qed.
Lemma seq_ok : forall x y, snd x = None -> snd (x ;; y) = snd y /\ fst (x ;; y) = fst x ++ fst y.
Proof. intros [ex [f|]] [ey fy]; cbn; intros H; [discriminate|auto]. Qed.
Lemma seq_some : forall x y, snd (x ;; y) <> None -> (snd x <> None /\ x ;; y = x) \/ (snd x = None /\ snd y <> None /\ fst (x ;; y) = fst x ++ fst y).
Proof. intros [ex [f|]] [ey fy]; cbn; intros H; [left; split; [discriminate|reflexivity]|right; auto]. Qed.
Lemma seq_in : forall e x y, In e (fst (x ;; y)) -> In e (fst x) \/ (snd x = None /\ In e (fst y)).
Proof. intros e [ex [f|]] [ey fy]; cbn; intros H; [auto|]. apply in_app_iff in H. tauto. Qed.
Lemma each_none : forall A (f : A -> run) l, snd (each f l) = None <-> forall x, In x l -> snd (f x) = None.
Proof.
  intros A f l. induction l as [|x l IH]; cbn [each fold_right]; [split; [intros _ x []|reflexivity]|]. fold (each f l). split.
  - intros H. apply seq_none in H. destruct H as (H1 & H2 & _). intros y [<- |Hy]; [assumption|]. now apply IH.
  - intros H. destruct (seq_ok (f x) (each f l)) as [E _]; [apply H; now left|]. rewrite E. apply IH. intros y Hy. apply H. now right.
Qed.
Lemma each_events : forall A (f : A -> run) l, snd (each f l) = None -> fst (each f l) = flat_map (fun x => fst (f x)) l.
Proof.
  intros A f l. induction l as [|x l IH]; cbn [each fold_right]; [reflexivity|]. fold (each f l). intros H. apply seq_none in H. destruct H as (_ & H2 & E). rewrite E. cbn. now rewrite IH.
Qed.
Lemma each_in : forall A (f : A -> run) l e, In e (fst (each f l)) -> exists x, In x l /\ In e (fst (f x)).
Proof.
  intros A f l e. induction l as [|x l IH]; cbn [each fold_right]; [intros []|]. fold (each f l). intros H. apply seq_in in H. destruct H as [H|[_ H]]; [exists x; cbn; auto|].
  destruct (IH H) as [y [Hy E]]. exists y. cbn; auto.
Qed.
Lemma each_some : forall A (f : A -> run) l, snd (each f l) <> None ->
  exists l1 x l2, l = l1 ++ x :: l2 /\ snd (f x) <> None /\ fst (each f l) = flat_map (fun y => fst (f y)) l1 ++ fst (f x).
Proof.
  intros A f l. induction l as [|x l IH]; cbn [each fold_right]; [intros H; now contradiction H|]. fold (each f l). intros H. apply seq_some in H. destruct H as [[H E]|(H1 & H2 & E)].
  - rewrite E. exists [], x, l. cbn. auto.
  - destruct (IH H2) as (l1 & y & l2 & -> & Hy & E'). exists (x :: l1), y, l2. rewrite E, E'. cbn. rewrite <- app_assoc. auto.
Qed.

Section P.
  Variables (raises : point -> option fault) (n_algs n_trials : nat) (iterations : nat -> nat -> nat) (n_metrics : nat) (multi checkpoints : bool) (complete : nat -> nat -> bool).
  Notation act := (act raises).
  Notation body := (body raises iterations checkpoints).
  Notation run_trial := (run_trial raises iterations n_metrics checkpoints).
  Notation todo := (todo n_algs n_trials checkpoints complete).
  Notation todo_of := (todo_of n_trials checkpoints complete).
  Notation done_of := (done_of n_trials checkpoints complete).
  Notation load_trial := (load_trial raises).
  Notation load_done := (load_done raises n_algs n_trials checkpoints complete).
  Notation run_all := (run_all raises n_algs n_trials iterations n_metrics multi checkpoints complete).
  Notation run_trials := (run_trials raises n_algs n_trials iterations n_metrics multi checkpoints complete).
  Notation core := (benchmark_core raises n_algs n_trials iterations n_metrics multi checkpoints complete).
  Notation nothing_left := (nothing_left n_algs n_trials checkpoints complete).

  (** events of a trial are about that trial *)
  Definition about (a i : nat) (e : event) : Prop := match e with Units b j => b = a /\ j = i | Result b j _ => b = a /\ j = i | _ => False end.
  Lemma act_in : forall p e, ~ In e (fst (act p)).
  Proof. intros p e []. Qed.
  Lemma body_in : forall a i e, In e (fst (body a i)) -> e = Units a i.
  Proof.
    intros a i e H. unfold Lifecycle.body in H. apply seq_in in H. destruct H as [H|[_ H]]; [apply each_in in H; destruct H as (k & _ & []) |].
    apply seq_in in H. destruct H as [H|[_ H]]; [destruct H as [<- |[]]; reflexivity|]. apply seq_in in H. destruct H as [H|[_ H]]; [destruct checkpoints; destruct H|destruct H].
  Qed.
  Lemma catch_fst : forall x, fst (catch x) = fst x.
  Proof. intros [ex [[|]|]]; reflexivity. Qed.
  Lemma trial_in : forall a i e, In e (fst (run_trial a i)) -> about a i e.
  Proof.
    intros a i e H. unfold Lifecycle.run_trial in H. repeat (apply seq_in in H; destruct H as [H|[_ H]]; [try destruct H as []|]).
    - apply each_in in H. destruct H as (m & _ & H). rewrite catch_fst in H. destruct H.
    - rewrite catch_fst in H. apply body_in in H. subst. cbn; auto.
    - destruct H as [<- |[]]. cbn; auto.
  Qed.
  Lemma load_in : forall p e, In e (fst (load_trial p)) -> about (fst p) (snd p) e.
  Proof. intros p e H. apply seq_in in H. destruct H as [[]|[_ H]]. destruct H as [<- |[<- |[]]]; cbn; auto. Qed.
  Lemma done_in : forall a p, In p (done_of a) -> fst p = a /\ snd p < n_trials /\ checkpoints = true /\ complete (fst p) (snd p) = true.
  Proof.
    intros a p H. unfold Lifecycle.done_of in H. destruct checkpoints; [|destruct H]. apply filter_In in H. destruct H as [H C]. unfold pairs in H. apply in_map_iff in H. destruct H as (i & <- & Hi). apply in_seq in Hi. cbn in *. repeat split; auto; lia.
  Qed.
  Lemma todo_of_in : forall a p, In p (todo_of a) <-> fst p = a /\ snd p < n_trials /\ (checkpoints = true -> complete (fst p) (snd p) = false).
  Proof.
    intros a [b i]. unfold Lifecycle.todo_of, pairs. cbn [fst snd]. destruct checkpoints.
    - rewrite filter_In, in_map_iff. cbn. split.
      + intros [(j & E & Hj) C]. injection E as <- <-. apply in_seq in Hj. split; [auto|]. split; [lia|]. intros _. now apply negb_true_iff in C.
      + intros (-> & H & C). split; [exists i; split; [reflexivity|apply in_seq; lia]|]. rewrite C; auto.
    - rewrite in_map_iff. split.
      + intros (j & E & Hj). injection E as <- <-. apply in_seq in Hj. split; [auto|]. split; [lia|]. discriminate.
      + intros (-> & H & _). exists i. split; [reflexivity|apply in_seq; lia].
  Qed.
  Lemma todo_in : forall p, In p todo <-> fst p < n_algs /\ snd p < n_trials /\ (checkpoints = true -> complete (fst p) (snd p) = false).
  Proof.
    intros p. unfold Lifecycle.todo. rewrite in_flat_map. split.
    - intros (a & Ha & H). apply todo_of_in in H. destruct H as (<- & H). apply in_seq in Ha. split; [lia|auto].
    - intros (H1 & H). exists (fst p). split; [apply in_seq; lia|]. apply todo_of_in. auto.
  Qed.
  Lemma NoDup_filter' : forall A (f : A -> bool) l, NoDup l -> NoDup (filter f l).
  Proof. intros. now apply NoDup_filter. Qed.
  Lemma NoDup_pairs : forall a, NoDup (pairs n_trials a).
  Proof. intros a. unfold pairs. apply FinFun.Injective_map_NoDup; [intros i j E; now injection E|apply seq_NoDup]. Qed.
  Lemma NoDup_todo : NoDup todo.
  Proof.
    unfold Lifecycle.todo. assert (G : forall l, NoDup l -> NoDup (flat_map todo_of l)).
    { induction l as [|a l IH]; intros N; [constructor|]. inversion N as [|? ? N1 N2]; subst. cbn. 
      assert (D : NoDup (todo_of a)) by (unfold Lifecycle.todo_of; destruct checkpoints; [apply NoDup_filter|]; apply NoDup_pairs).
      assert (X : forall p, In p (todo_of a) -> ~ In p (flat_map todo_of l)).
      { intros p H1 H2. apply in_flat_map in H2. destruct H2 as (b & Hb & H2). apply todo_of_in in H1, H2. destruct H1 as [H1 _], H2 as [H2 _]. apply N1. congruence. }
      revert D X. generalize (todo_of a). intros t. induction t as [|p t IHt]; intros D X; [now apply IH|]. inversion D; subst. cbn. constructor.
      - intros H. apply in_app_iff in H. destruct H as [H|H]; [contradiction|]. apply (X p); [now left|assumption].
      - apply IHt; [assumption|]. intros q Hq. apply X. now right. }
    apply G, seq_NoDup.
  Qed.

  Lemma load_done_in : forall e, In e (fst load_done) -> exists a i, about a i e /\ a < n_algs /\ i < n_trials /\ checkpoints = true /\ complete a i = true.
  Proof.
    intros e H. unfold Lifecycle.load_done in H. destruct checkpoints eqn:C; [|destruct H]. apply each_in in H. destruct H as (a & Ha & H). apply seq_in in H. destruct H as [[]|[_ H]].
    apply each_in in H. destruct H as (p & Hp & H). apply load_in in H. rewrite <- C in Hp. apply done_in in Hp. destruct Hp as (E & L & _ & K). apply in_seq in Ha. exists (fst p), (snd p). repeat split; auto. lia.
  Qed.
  Lemma run_all_in : forall e, In e (fst run_all) -> (multi = true /\ (e = Start Pool \/ e = Stop Pool)) \/ exists a i, about a i e /\ In (a, i) todo.
  Proof.
    intros e H. unfold Lifecycle.run_all in H. destruct multi.
    - apply seq_in in H. destruct H as [H|[_ H]].
      + apply seq_in in H. destruct H as [[]|[_ H]]. destruct H as [<- |[]]. auto.
      + cbn [fst] in H. apply in_app_iff in H. destruct H as [H|[<- |[]]]; [|auto]. right. apply in_flat_map in H. destruct H as (r & Hr & H). apply in_map_iff in Hr. destruct Hr as (p & <- & Hp). apply trial_in in H. exists (fst p), (snd p). split; [assumption|]. now destruct p.
    - right. apply each_in in H. destruct H as (p & Hp & H). apply trial_in in H. exists (fst p), (snd p). split; [assumption|]. now destruct p.
  Qed.
  Lemma about_not_helper : forall a i h, ~ about a i (Start h) /\ ~ about a i (Stop h).
  Proof. intros; split; intros []. Qed.

  (** when the bars are stopped, the run returns *)
  Lemma stop_bars_returns : In (Stop Bars) (fst core) -> snd core = None.
  Proof.
    intros H. unfold Lifecycle.benchmark_core in *. apply seq_in in H. destruct H as [H|[S H]].
    { apply seq_in in H. destruct H as [[]|[_ [H|[]]]]. discriminate. }
    rewrite (proj1 (seq_ok _ _ S)). unfold Lifecycle.run_trials in *. apply seq_in in H. destruct H as [H|[S1 H]].
    { destruct (0 <? n_metrics); [|destruct H]. apply seq_in in H. destruct H as [[]|[_ H]]. apply seq_in in H. destruct H as [[]|[_ [H|[]]]]. discriminate. }
    rewrite (proj1 (seq_ok _ _ S1)). apply seq_in in H. destruct H as [H|[S2 H]].
    { apply load_done_in in H. destruct H as (a & i & H & _). now apply about_not_helper in H. }
    rewrite (proj1 (seq_ok _ _ S2)). destruct nothing_left; [reflexivity|]. apply seq_in in H. destruct H as [H|[S3 H]].
    { apply run_all_in in H. destruct H as [[_ [H|H]]|(a & i & H & _)]; try discriminate. now apply about_not_helper in H. }
    rewrite (proj1 (seq_ok _ _ S3)). reflexivity.
  Qed.

  (** what a returned run has done *)
  Lemma core_returned : snd core = None -> fst core =
    Start Bars :: (if 0 <? n_metrics then [Start Plotter] else []) ++ fst load_done ++
    (if nothing_left then [Stop Bars] else fst run_all ++ [Stop Bars] ++ (if 0 <? n_metrics then [Stop Plotter] else [])) /\
    snd load_done = None /\ (nothing_left = false -> snd run_all = None).
  Proof.
    intros H. unfold Lifecycle.benchmark_core in *. apply seq_none in H. destruct H as (H1 & H2 & E). rewrite E. unfold start in *. apply seq_none in H1. destruct H1 as (_ & _ & E1). rewrite E1. cbn [fst ret Lifecycle.act app].
    unfold Lifecycle.run_trials, start in *. apply seq_none in H2. destruct H2 as (H2 & H3 & E2). rewrite E2. apply seq_none in H3. destruct H3 as (H3 & H4 & E3). rewrite E3.
    match goal with |- Start Bars :: fst ?x ++ _ = _ /\ _ => assert (P : fst x = if 0 <? n_metrics then [Start Plotter] else []) end.
    { destruct (0 <? n_metrics); [|reflexivity]. apply seq_none in H2. destruct H2 as (_ & H2 & E4). apply seq_none in H2. destruct H2 as (_ & _ & E5). rewrite E4, E5. reflexivity. }
    rewrite P. destruct nothing_left; [repeat split; auto; discriminate|]. apply seq_none in H4. destruct H4 as (H4 & H5 & E6). rewrite E6. repeat split; auto.
  Qed.
  Lemma run_all_pool : multi = true -> snd run_all = None -> exists l, fst run_all = Start Pool :: l ++ [Stop Pool] /\ forall e, In e l -> exists a i, about a i e.
  Proof.
    intros M H. unfold Lifecycle.run_all in *. rewrite M in *. apply seq_none in H. destruct H as (H1 & H2 & E). rewrite E. unfold start in *. apply seq_none in H1. destruct H1 as (_ & _ & E1). rewrite E1. cbn [fst ret Lifecycle.act app].
    eexists. split; [reflexivity|]. intros e H. apply in_flat_map in H. destruct H as (r & Hr & H). apply in_map_iff in Hr. destruct Hr as (p & <- & Hp). apply trial_in in H. eauto.
  Qed.

  (** a trial that raises has not sent its units, unless interrupted afterwards *)
  Lemma trial_raises : (forall a i, raises (PMark a i) <> Some Interrupt /\ raises (PCleanup a i) <> Some Interrupt) ->
    forall a i, snd (run_trial a i) <> None -> ~ In (Units a i) (fst (run_trial a i)).
  Proof.
    intros Late a i H. unfold Lifecycle.run_trial in *.
    apply seq_some in H. destruct H as [[H E]|(H1 & H & E)]; [rewrite E; intros []|]. rewrite E. cbn [fst Lifecycle.act app].
    apply seq_some in H. destruct H as [[H E']|(_ & H & E')]; [rewrite E'; intros []|]. rewrite E'. cbn [fst Lifecycle.act app].
    apply seq_some in H. destruct H as [[H E2]|(_ & H & E2)]; [rewrite E2; intros []|]. rewrite E2. cbn [fst Lifecycle.act app].
    assert (NM : forall l, ~ In (Units a i) (fst (each (fun m => catch (act (PMetric a i m))) l))).
    { intros l I. apply each_in in I. destruct I as (m & _ & I). rewrite catch_fst in I. destruct I. }
    apply seq_some in H. destruct H as [[H E3]|(_ & H & E3)]; [rewrite E3; apply NM|]. rewrite E3. intros I. apply in_app_iff in I. destruct I as [I|I]; [now apply NM in I|].
    apply seq_some in H. destruct H as [[H E4]|(_ & H & _)]; [|now contradiction H]. rewrite E4, catch_fst in I.
    assert (HI : snd (body a i) = Some Interrupt) by (unfold catch in H; destruct (snd (body a i)) as [[|]|] eqn:Q; [now contradiction H|reflexivity|rewrite Q in H; now contradiction H]).
    clear H. unfold Lifecycle.body in HI, I.
    apply seq_in in I. destruct I as [I|[S I]]; [apply each_in in I; destruct I as (k & _ & [])|].
    assert (B : forall x y, snd x = None -> snd (x ;; y) = snd y) by (intros x y Hx; apply (seq_ok x y Hx)).
    rewrite (B _ _ S) in HI. rewrite (B (ret [Units a i])) in HI by reflexivity.
    destruct (Late a i) as [L1 L2]. destruct checkpoints.
    - destruct (raises (PMark a i)) as [f|] eqn:M.
      + unfold seq_, Lifecycle.act in HI. cbn [snd] in HI. rewrite M in HI. cbn [snd] in HI. now rewrite HI in L1.
      + rewrite (B (act (PMark a i))) in HI by exact M. now apply L2.
    - rewrite (B (ret [])) in HI by reflexivity. now apply L2.
  Qed.

  (** in one process, a run that raises after the bars have been started leaves their
      thread waiting *)
  Lemma core_hangs : multi = false -> (forall a i, raises (PMark a i) <> Some Interrupt /\ raises (PCleanup a i) <> Some Interrupt) ->
    0 < n_algs -> 0 < n_trials -> snd core <> None -> In (Start Bars) (fst core) ->
    exists a i, a < n_algs /\ i < n_trials /\ ~ In (Units a i) (fst core).
  Proof.
    intros M Late Ha Hi H I. unfold Lifecycle.benchmark_core in *. apply seq_some in H. destruct H as [[H E]|(H1 & H & E)].
    { rewrite E in I. unfold start in *. apply seq_some in H. destruct H as [[_ E']|(_ & H & _)]; [rewrite E' in I; destruct I|now contradiction H]. }
    rewrite E. clear I E. assert (E1 : fst (start raises PBars Bars) = [Start Bars]). { unfold start in *. apply seq_none in H1. destruct H1 as (_ & _ & E1). rewrite E1. reflexivity. }
    rewrite E1. unfold Lifecycle.run_trials in *. set (plot := if 0 <? n_metrics then act PQueue ;; start raises PPlotter Plotter else ret []) in *.
    assert (NP : forall a i, ~ In (Units a i) (fst plot)).
    { intros a i I. unfold plot in I. destruct (0 <? n_metrics); [|destruct I]. apply seq_in in I. destruct I as [[]|[_ I]]. apply seq_in in I. destruct I as [[]|[_ [I|[]]]]. discriminate. }
    apply seq_some in H. destruct H as [[H E2]|(_ & H & E2)]; rewrite E2.
    { exists 0, 0. repeat split; auto. intros [I|I]; [discriminate|now apply NP in I]. }
    apply seq_some in H. destruct H as [[H E3]|(_ & H & E3)]; rewrite E3.
    - (* loading *) unfold Lifecycle.load_done in *. destruct checkpoints eqn:C; [|now contradiction H].
      apply each_some in H. destruct H as (l1 & a & l2 & El & H & E4). rewrite E4.
      assert (Al : a < n_algs) by (assert (I : In a (seq 0 n_algs)) by (rewrite El; apply in_app_iff; right; now left); apply in_seq in I; lia).
      assert (Na : ~ In a l1). { intros I. pose proof (seq_NoDup n_algs 0) as N. rewrite El in N. apply NoDup_remove_2 in N. apply N. apply in_app_iff. now left. }
      assert (Before : forall i, ~ In (Units a i) (flat_map (fun y => fst (act (PScan y) ;; each load_trial (Lifecycle.done_of n_trials true complete y))) l1)).
      { intros i I. apply in_flat_map in I. destruct I as (b & Hb & I). apply seq_in in I. destruct I as [[]|[_ I]]. apply each_in in I. destruct I as (p & Hp & I). apply load_in in I. cbn in I. destruct I as [I _].
        rewrite <- C in Hp. apply done_in in Hp. destruct Hp as [Hp _]. apply Na. congruence. }
      apply seq_some in H. destruct H as [[H E5]|(_ & H & E5)]; rewrite E5.
      + exists a, 0. repeat split; auto. intros I. destruct I as [I|I]; [discriminate|]. cbn [app] in I. apply in_app_iff in I. destruct I as [I|I]; [now apply NP in I|]. apply in_app_iff in I. destruct I as [I|[]]. now apply Before in I.
      + apply each_some in H. destruct H as (d1 & [b i] & d2 & Ed & H & E6). rewrite E6.
        assert (Hd : In (b, i) (Lifecycle.done_of n_trials true complete a)) by (rewrite Ed; apply in_app_iff; right; now left).
        pose proof Hd as Hd'. rewrite <- C in Hd'. apply done_in in Hd'. cbn [fst snd] in Hd'. destruct Hd' as (-> & Hi' & _).
        exists a, i. repeat split; auto. intros I. destruct I as [I|I]; [discriminate|]. cbn [app] in I. apply in_app_iff in I. destruct I as [I|I]; [now apply NP in I|]. apply in_app_iff in I. destruct I as [I|I]; [now apply Before in I|].
        cbn [fst Lifecycle.act app] in I. apply in_app_iff in I. destruct I as [I|I].
        * apply in_flat_map in I. destruct I as (p & Hp & I). apply load_in in I. cbn in I. destruct I as [I1 I2].
          assert (N : NoDup (Lifecycle.done_of n_trials true complete a)) by (apply NoDup_filter, NoDup_pairs). rewrite Ed in N. apply NoDup_remove_2 in N. apply N. apply in_app_iff. left. destruct p as [c j]. cbn in I1, I2. subst. exact Hp.
        * unfold Lifecycle.load_trial in H, I. apply seq_some in H. destruct H as [[H E7]|(_ & H & _)]; [rewrite E7 in I; destruct I|now contradiction H].
    - (* running *) destruct nothing_left; [now contradiction H|]. apply seq_some in H. destruct H as [[H E4]|(_ & H & _)]; [|now contradiction H]. rewrite E4.
      unfold Lifecycle.run_all in *. rewrite M in *. apply each_some in H. destruct H as (l1 & [a i] & l2 & El & H & E5). rewrite E5. cbn [fst snd] in H |- *.
      assert (T : In (a, i) todo) by (rewrite El; apply in_app_iff; right; now left). pose proof T as T'. apply todo_in in T'. cbn [fst snd] in T'. destruct T' as (T1 & T2 & T3).
      exists a, i. repeat split; auto. intros I. destruct I as [I|I]; [discriminate|]. cbn [app] in I. apply in_app_iff in I. destruct I as [I|I]; [now apply NP in I|]. apply in_app_iff in I. destruct I as [I|I].
      + apply load_done_in in I. destruct I as (b & j & I & _ & _ & C & K). cbn in I. destruct I as [<- <-]. rewrite (T3 C) in K. discriminate.
      + apply in_app_iff in I. destruct I as [I|I]; [|now apply (trial_raises Late a i H) in I].
        apply in_flat_map in I. destruct I as ([b j] & Hp & I). apply trial_in in I. cbn in I. destruct I as [<- <-]. pose proof NoDup_todo as N. rewrite El in N. apply NoDup_remove_2 in N. apply N. apply in_app_iff. now left.
  Qed.
End P.
