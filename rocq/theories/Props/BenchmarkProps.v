(** C42, C45, C46, C47 for whole benchmarks. *)
From Coq Require Import List Bool Arith ZArith Lia Permutation.
From Verif.Model Require Import PyDict History Messages Network Runner Checkpoint Benchmark.
From Verif.Spec Require Import RunnerSpec CheckpointSpec BenchmarkSpec.
From Verif.Proofs Require Import PyDictProofs CheckpointProofs BenchmarkProofs BenchmarkResults.
From Verif.Props Require Import RunnerProps CheckpointProps.
Import ListNotations.
Open Scope nat_scope.

Section T.
  Context {V St : Type}.
  Variables (step : option nat) (algs : list (alg V St)) (p : problem V St) (n : nat).
  (** a problem and algorithms the theorems are about *)
  Definition supported : Prop := (forall A, In A algs -> 1 <= al_iters A) /\ (forall A, In A algs -> well_behaved p A) /\ NoDup (t_nodes (p_topo p)).
End T.

Lemma ready_of {V St} step (algs : list (alg V St)) p n reqs s pl i t : supported algs p -> history step algs p n reqs s -> resume i t s = Some pl -> exists m, Ready step algs p n m s.
Proof.
  intros (POS & _) H R. destruct (history_Ready step algs p n POS reqs s H) as [B|RD]; [|exact RD]. exfalso. unfold resume in *.
  destruct (b_meta s) as [[|?]|], (b_prob s) as [[|?]|], (b_algs s) as [[|?]|]; discriminate.
Qed.

(** C46 (and C42): whatever crashes, resumes and extensions a benchmark went
    through, resuming it once more, with any increases,
    - has as many trials per algorithm as asked for in total,
    - returns one network per trial: that of the uninterrupted run with the total
      number of iterations; trials complete on disk come first,
    - leaves every trial complete iff its uninterrupted run finishes, with that
      run's result on disk, and records the total increases. *)
Theorem C46_resume_partial : forall (V St : Type) step (algs : list (alg V St)) p n reqs s inc_i inc_t pl keep,
  supported algs p -> history step algs p n reqs s -> (extended s = true -> inc_i <> 0) -> 1 <= keep -> resume inc_i inc_t s = Some pl ->
  exists m, b_meta s = Some (Full m) /\ let n' := n + m_inc_t m + inc_t in let extra := m_inc_i m + inc_i in
    (forall arrivals, (forall a, Permutation (arrivals a) (to_run (pl_trials pl) a (prepared pl s))) ->
      exists rs, results step keep pl (prepared pl s) arrivals = Some rs /\ length rs = length algs /\
        forall a A, nth_error algs a = Some A -> exists r, nth_error rs a = Some r /\
          Forall2 (trial_result p A (al_iters A + extra) a)
            (let done_ i := is_complete (b_dir (prepared pl s) a i) in filter done_ (seq 0 n') ++ filter (fun i => negb (done_ i)) (seq 0 n')) r) /\
    (forall s', finished_plan step keep pl s s' ->
      b_meta s' = Some (Full (mkMeta n (length algs) (m_inc_t m + inc_t) extra)) /\
      forall a A i, nth_error algs a = Some A -> i < n' ->
        let r := straight_run p A (al_iters A + extra) a i in
        is_complete (b_dir s' a i) = finished (r_out r) /\
        (r_out r = Finished -> exists w, load_result (b_dir s' a i) = Some w /\ trial_result p A (al_iters A + extra) a i (snd w))).
Proof.
  intros V St step algs p n reqs s inc_i inc_t pl keep SU H DI KP RS. destruct (ready_of step algs p n reqs s pl _ _ SU H RS) as (m & RD). destruct SU as (POS & WB & ND).
  destruct (prep_phase step algs p n m s inc_i inc_t pl RD DI RS) as (PA & PP & PT & RD' & UN & SAME & _). pose proof RD as (M & _ & _ & MT & MA & _).
  exists m. split; [exact M|]. cbn zeta. set (m' := meta_after inc_i inc_t m) in *.
  assert (ET : forall A : alg V St, target A m' = al_iters A + (m_inc_i m + inc_i)) by (intro A; unfold target, m', meta_after; cbn; lia).
  assert (EN : pl_trials pl = n + m_inc_t m + inc_t) by (rewrite PT; unfold m', meta_after; cbn; lia).
  split.
  - intros arr AR. destruct (results_ok step algs p n WB ND m' (prepared pl s) keep pl arr RD' KP PA PP AR) as (rs & E & L & F).
    exists rs. split; [exact E|]. split; [exact L|]. intros a A EA. destruct (F a A EA) as (r & ER & F2). exists r. split; [exact ER|]. rewrite <- ET, <- EN, <- to_run_eq. exact F2.
  - intros s' (l & IL & ->). rewrite bapply_app. fold (prepared pl s). split.
    + destruct (trials_top l (proj1 IL) (prepared pl s)) as (-> & _ & _). destruct RD' as (-> & _). unfold m', meta_after. rewrite MT, MA. do 3 f_equal; lia.
    + intros a A i EA Li. rewrite <- ET. apply (finished_ok step algs p n WB ND m' (prepared pl s) keep pl l RD' KP PA PP IL); auto. lia.
Qed.

(** C46: a resume that adds no iterations leaves the directory of every complete
    trial alone, and only trials of the benchmark are run. *)
Theorem C46_complete_not_rerun : forall (V St : Type) step (algs : list (alg V St)) p n reqs s inc_t pl keep k s' a i,
  supported algs p -> history step algs p n reqs s -> extended s = false -> resume 0 inc_t s = Some pl -> carried_out step keep pl s k s' ->
  is_complete (b_dir s a i) = true \/ pl_trials pl <= i \/ length algs <= a -> b_dir s' a i = b_dir s a i.
Proof.
  intros V St step algs p n reqs s inc_t pl keep k s' a i SU H EX RS (l & (TO & IL) & ->) C. destruct (ready_of step algs p n reqs s pl _ _ SU H RS) as (m & RD).
  destruct (prep_phase step algs p n m s 0 inc_t pl RD ltac:(congruence) RS) as (PA & _ & _ & _ & _ & SAME & _).
  assert (Z : trial_effects step keep pl (prepared pl s) a i = []).
  { unfold trial_effects. destruct (nth_error (pl_algs pl) a) eqn:E; [|reflexivity]. destruct (existsb _ _) eqn:X; [|reflexivity]. exfalso.
    apply mem_nat, to_run_In in X. destruct X as (L & N). rewrite SAME in N by auto. destruct C as [C|[C|C]]; [congruence|lia|].
    assert (a < length (pl_algs pl)) as Q by (apply nth_error_Some; congruence). rewrite PA, map_length in Q. lia. }
  rewrite b_dir_all. destruct (of_trial_firstn a i (pl_prep pl ++ l) k) as (j & ->). rewrite of_trial_app, IL, Z, app_nil_r.
  pose proof (SAME eq_refl a i) as SM. unfold prepared in SM. rewrite b_dir_all in SM.
  assert (Y : of_trial a i (pl_prep pl) = []).
  { unfold resume in RS. destruct (b_meta s) as [[|m0]|]; try discriminate. destruct (b_prob s) as [[|p0]|]; try discriminate. destruct (b_algs s) as [[|al0]|]; try discriminate.
    injection RS as <-. cbn [pl_prep Nat.eqb]. destruct (inc_t =? 0); reflexivity. }
  rewrite Y. now destruct j.
Qed.

(** C42 for benchmarks: if iterations were never added, the resumed benchmark
    returns and stores the results of the benchmark that never crashed. *)
Theorem C42_benchmark_resume_partial : forall (V St : Type) step (algs : list (alg V St)) p n reqs s inc_t pl keep arrivals,
  supported algs p -> history step algs p n reqs s -> extended s = false -> 1 <= keep -> resume 0 inc_t s = Some pl ->
  (forall a, Permutation (arrivals a) (to_run (pl_trials pl) a (prepared pl s))) ->
  exists rs, results step keep pl (prepared pl s) arrivals = Some rs /\
    forall a A, nth_error algs a = Some A -> exists r order, nth_error rs a = Some r /\ Permutation order (seq 0 (pl_trials pl)) /\
      Forall2 (fun i x => exists w, same_but [] w (r_world (run (p_topo p) (p_period p) A 0 (p_start p a i))) /\ network_of p w x) order r.
Proof.
  intros V St step algs p n reqs s inc_t pl keep arrivals SU H EX KP RS AR. destruct (ready_of step algs p n reqs s pl _ _ SU H RS) as (m & RD). destruct SU as (POS & WB & ND).
  destruct (prep_phase step algs p n m s 0 inc_t pl RD ltac:(congruence) RS) as (PA & PP & PT & RD' & UN & SAME & _). set (m' := meta_after 0 inc_t m) in *.
  assert (Z : m_inc_i m = 0). { unfold extended in EX. destruct RD as (M & _). rewrite M in EX. destruct (Nat.eqb_spec (m_inc_i m) 0); [auto|discriminate]. }
  destruct (results_ok step algs p n WB ND m' (prepared pl s) keep pl arrivals RD' KP PA PP AR) as (rs & E & L & F).
  exists rs. split; [exact E|]. intros a A EA. destruct (F a A EA) as (r & ER & F2). exists r, (completed (pl_trials pl) a (prepared pl s) ++ to_run (pl_trials pl) a (prepared pl s)). split; [exact ER|]. split.
  - rewrite to_run_eq. unfold completed. clear. induction (seq 0 (pl_trials pl)) as [|x l IH]; cbn; auto. destruct (is_complete _); cbn; [auto|]. apply Permutation_sym, Permutation_cons_app, Permutation_sym, IH.
  - eapply F2_ext_in; [exact F2|]. intros i x _ (w & former & FF & SB & NW). exists w. split; [|exact NW].
    assert (target A m' = al_iters A) as TE by (unfold target, m', meta_after; cbn; lia). rewrite TE in *.
    destruct former as [|k f]; [|inversion FF; subst; lia]. unfold straight_run in SB. rewrite with_iters_id in SB. exact SB.
Qed.

(** C47: what is returned does not depend on the order in which the processes end
    (any plan, any directory); *)
Theorem C47_any_completion_order : forall (V St : Type) step keep (pl : plan V St) s arrivals arrivals',
  (forall a, Permutation (arrivals a) (to_run (pl_trials pl) a s)) -> (forall a, Permutation (arrivals' a) (to_run (pl_trials pl) a s)) ->
  results step keep pl s arrivals = results step keep pl s arrivals'.
Proof. intros. now apply results_order. Qed.
(** ... a new benchmark returns the networks in the order of the trials, *)
Theorem C47_new_benchmark_in_order : forall (V St : Type) step (algs : list (alg V St)) p n keep arrivals,
  supported algs p -> 1 <= keep -> let pl := fresh algs p n in let s := prepared pl empty_b in
  (forall a, Permutation (arrivals a) (to_run n a s)) ->
  exists rs, results step keep pl s arrivals = Some rs /\ length rs = length algs /\
    forall a A, nth_error algs a = Some A -> exists r, nth_error rs a = Some r /\ Forall2 (trial_result p A (al_iters A) a) (seq 0 n) r.
Proof.
  intros V St step algs p n keep arrivals (POS & WB & ND) KP pl s AR.
  assert (RD : Ready step algs p n (mkMeta n (length algs) 0 0) s).
  { split; [reflexivity|]. split; [reflexivity|]. split; [reflexivity|]. split; [reflexivity|]. split; [reflexivity|]. split; [|split]; [|reflexivity|reflexivity].
    intros a A E i. exists []. split; [|constructor]. apply reach_new. unfold target. cbn. apply nth_error_In in E. apply POS in E. lia. }
  destruct (results_ok step algs p n WB ND _ s keep pl arrivals RD KP) as (rs & E & L & F); auto.
  { cbn. rewrite <- (map_id algs) at 1. apply map_ext. intro A. unfold target. cbn. rewrite Nat.add_0_r. symmetry. apply with_iters_id. }
  exists rs. split; [exact E|]. split; [exact L|]. intros a A EA. destruct (F a A EA) as (r & ER & F2). exists r. split; [exact ER|]. unfold target in F2. cbn [m_inc_i] in F2. rewrite Nat.add_0_r in F2.
  rewrite to_run_eq in F2. unfold completed in F2. cbn [pl_trials pl fresh] in F2.
  assert (C : forall i, is_complete (b_dir s a i) = false) by reflexivity.
  rewrite (filter_ext _ (fun _ => false) C), (filter_ext _ (fun _ => true) (fun i => f_equal negb (C i))) in F2.
  assert (X1 : forall l : list nat, filter (fun _ => false) l = []) by (induction l; auto). assert (X2 : forall l : list nat, filter (fun _ => true) l = l) by (induction l; cbn; congruence).
  rewrite X1, X2 in F2. exact F2.
Qed.
(** ... and so does a resume that adds iterations. *)
Theorem C47_extension_in_order : forall (V St : Type) step (algs : list (alg V St)) p n reqs s inc_i inc_t pl keep arrivals,
  supported algs p -> history step algs p n reqs s -> inc_i <> 0 -> 1 <= keep -> resume inc_i inc_t s = Some pl ->
  (forall a, Permutation (arrivals a) (to_run (pl_trials pl) a (prepared pl s))) ->
  exists rs N, results step keep pl (prepared pl s) arrivals = Some rs /\
    forall a A, nth_error algs a = Some A -> exists r, nth_error rs a = Some r /\ Forall2 (trial_result p A (al_iters A + N) a) (seq 0 (pl_trials pl)) r.
Proof.
  intros V St step algs p n reqs s inc_i inc_t pl keep arrivals SU H NZ KP RS AR. destruct (ready_of step algs p n reqs s pl _ _ SU H RS) as (m & RD). destruct SU as (POS & WB & ND).
  destruct (prep_phase step algs p n m s inc_i inc_t pl RD ltac:(auto) RS) as (PA & PP & PT & RD' & UN & SAME & _). set (m' := meta_after inc_i inc_t m) in *.
  destruct (results_ok step algs p n WB ND m' (prepared pl s) keep pl arrivals RD' KP PA PP AR) as (rs & E & L & F).
  exists rs, (m_inc_i m'). split; [exact E|]. intros a A EA. destruct (F a A EA) as (r & ER & F2). exists r. split; [exact ER|].
  rewrite to_run_eq in F2. unfold completed in F2. pose proof (UN NZ a) as C.
  rewrite (filter_ext _ (fun _ => false) C), (filter_ext _ (fun _ => true) (fun i => f_equal negb (C i))) in F2.
  assert (X1 : forall l : list nat, filter (fun _ => false) l = []) by (induction l; auto). assert (X2 : forall l : list nat, filter (fun _ => true) l = l) by (induction l; cbn; congruence).
  rewrite X1, X2 in F2. exact F2.
Qed.

(** C45: a trial counts as complete iff it was marked and not unmarked since, for
    every history of saving, marking and unmarking; *)
Lemma apply_comp {D} (l : list (effect D)) : (forall x, In x l -> match x with TruncComp | WriteComp _ | UnlinkComp => False | _ => True end) -> forall d, d_comp (apply_all l d) = d_comp d.
Proof.
  induction l as [|x l IH]; intros H d; [reflexivity|]. change (apply_all (x :: l) d) with (apply_all l (apply d x)). rewrite IH by (intros; apply H; now right).
  specialize (H x (or_introl eq_refl)). destruct x; cbn in *; auto; destruct H.
Qed.
Lemma save_ok {D} keep k (w : D) d : d_prog d <> Some Torn -> exists l, save keep k w d = Some l /\ d_comp (apply_all l d) = d_comp d /\ d_prog (apply_all l d) <> Some Torn.
Proof.
  intro NT. assert (P : forall l (d : dir D), (forall x, In x l -> match x with UnlinkCk _ => True | _ => False end) -> d_prog (apply_all l d) = d_prog d).
  { induction l as [|x l IH]; intros d0 H; [reflexivity|]. change (apply_all (x :: l) d0) with (apply_all l (apply d0 x)). rewrite IH by (intros; apply H; now right). specialize (H x (or_introl eq_refl)). destruct x; try destruct H. reflexivity. }
  unfold save, already_saved.
  assert (Q : exists l, Some ([TruncCk k; WriteCk k w; TruncProg; WriteProg k] ++ cleanup keep (apply_all [TruncCk k; WriteCk k w; TruncProg; WriteProg k] d)) = Some l /\ d_comp (apply_all l d) = d_comp d /\ d_prog (apply_all l d) <> Some Torn).
  { eexists. split; [reflexivity|]. rewrite apply_app. set (d1 := apply_all [TruncCk k; WriteCk k w; TruncProg; WriteProg k] d). unfold cleanup. split.
    - rewrite apply_comp; [reflexivity|]. intros x I. apply in_map_iff in I. destruct I as (j & <- & _). exact I.
    - rewrite P; [discriminate|]. intros x I. apply in_map_iff in I. destruct I as (j & <- & _). exact I. }
  destruct (dmem Nat.eqb (d_ck d) k); [|exact Q]. destruct (d_prog d) as [[|q]|] eqn:DP; [congruence| |exact Q]. destruct (q =? k); [|exact Q]. exists []. cbn. rewrite DP. repeat split; auto.
Qed.
Section M.
  Context {V St : Type}.
  Lemma mop_ok (x : mop (V := V) (St := St)) d : d_prog d <> Some Torn -> exists l, mop_effects x d = Some l /\ d_prog (apply_all l d) <> Some Torn /\
    is_complete (apply_all l d) = match x with MSave _ _ _ => is_complete d | MMark _ _ _ => true | MUnmark => false end.
  Proof.
    intro NT. destruct x as [keep k w|keep k w|]; cbn [mop_effects].
    - destruct (save_ok keep k w d NT) as (l & -> & C & P). exists l. split; [auto|]. split; [auto|]. unfold is_complete. now rewrite C.
    - destruct (save_ok keep k w d NT) as (l & E & C & P). unfold mark_complete. rewrite E. eexists. split; [reflexivity|]. rewrite apply_app. split; [exact P|reflexivity].
    - eexists. split; [reflexivity|]. destruct (is_complete d) eqn:C; cbn; auto.
  Qed.
  Lemma mrun_ok (ops : list (nat * nat * mop (V := V) (St := St))) : forall s, (forall a i, d_prog (b_dir s a i) <> Some Torn) ->
    exists s', mrun ops s = Some s' /\ b_meta s' = b_meta s /\ forall a i, is_complete (b_dir s' a i) = true <-> marked a i ops \/ (is_complete (b_dir s a i) = true /\ ~ In (a, i, MUnmark) ops).
  Proof.
    induction ops as [|((a0, i0), x) ops IH]; intros s NT; cbn [mrun].
    - exists s. split; [auto|]. split; [auto|]. intros a i. split; [intro H; right; split; [auto|intros []]|]. intros [(l & ? & ? & ? & ? & E & _)|(H & _)]; [destruct l; discriminate|auto].
    - destruct (mop_ok x (b_dir s a0 i0) (NT a0 i0)) as (l & -> & NT0 & C0).
      set (s1 := bapply_all (map (InTrial a0 i0) l) s).
      assert (D : forall a i, b_dir s1 a i = if (a0 =? a) && (i0 =? i) then apply_all l (b_dir s a0 i0) else b_dir s a i).
      { intros a i. unfold s1. rewrite b_dir_all, of_map_trial. destruct (Nat.eqb_spec a0 a); destruct (Nat.eqb_spec i0 i); cbn [andb]; subst; reflexivity. }
      assert (M1 : b_meta s1 = b_meta s). { apply (trials_top (map (InTrial a0 i0) l)). intros y I. apply in_map_iff in I. destruct I as (z & <- & _). eauto. }
      destruct (IH s1) as (s' & E & M & H). { intros a i. rewrite D. destruct (_ && _); auto. }
      exists s'. split; [exact E|]. split; [congruence|]. intros a i. rewrite H, D. clear H IH E.
      destruct (Nat.eqb_spec a0 a) as [->|NA]; [destruct (Nat.eqb_spec i0 i) as [->|NI]|]; cbn [andb].
      + rewrite C0. split.
        * intros [(l1 & kp & k & w & r & -> & NI)|(C & NI)]; [left; exists ((a, i, x) :: l1), kp, k, w, r; auto|].
          destruct x as [kp k w|kp k w|]; [right; split; [auto|intros [Q|Q]; [discriminate|auto]]|left; exists [], kp, k, w, ops; auto|discriminate].
        * intros [(l1 & kp & k & w & r & EQ & NI)|(C & NI)].
          -- destruct l1 as [|y l1]; cbn in EQ; injection EQ; [intros -> ->; right; split; auto|intros -> _; left; exists l1, kp, k, w, r; auto].
          -- right. split; [|intro; apply NI; now right]. destruct x; auto. exfalso. apply NI. now left.
      + split; (intros [(l1 & kp & k & w & r & EQ & NU)|(C & NU)]; [left|right; split; [auto|]]).
        * exists ((a, i0, x) :: l1), kp, k, w, r. rewrite EQ. auto.
        * intros [Q|Q]; [injection Q; intros; subst; contradiction|auto].
        * destruct l1 as [|y l1]; cbn in EQ; injection EQ; [intros; subst; contradiction|intros -> _; exists l1, kp, k, w, r; auto].
        * intro; apply NU; now right.
      + split; (intros [(l1 & kp & k & w & r & EQ & NU)|(C & NU)]; [left|right; split; [auto|]]).
        * exists ((a0, i0, x) :: l1), kp, k, w, r. rewrite EQ. auto.
        * intros [Q|Q]; [injection Q; intros; subst; contradiction|auto].
        * destruct l1 as [|y l1]; cbn in EQ; injection EQ; [intros; subst; contradiction|intros -> _; exists l1, kp, k, w, r; auto].
        * intro; apply NU; now right.
  Qed.
End M.
Lemma completed_all {V St} (s : bdir V St) m : b_meta s = Some (Full m) ->
  exists b, is_benchmark_completed s = Some b /\ (b = true <-> forall a i, a < m_algs m -> i < m_trials m -> is_complete (b_dir s a i) = true).
Proof.
  intro M. unfold is_benchmark_completed. rewrite M. eexists. split; [reflexivity|]. rewrite forallb_forall. split.
  - intros F a i La Li. assert (I : In a (seq 0 (m_algs m))) by (apply in_seq; lia). apply F in I. rewrite forallb_forall in I. apply I, in_seq. lia.
  - intros F a Ia. apply forallb_forall. intros i Ii. apply in_seq in Ia, Ii. apply F; lia.
Qed.
Theorem C45_mark_history : forall (V St : Type) (algs : list (alg V St)) p n ops,
  exists s b, mrun ops (prepared (fresh algs p n) empty_b) = Some s /\ is_benchmark_completed s = Some b /\
    (forall a i, is_complete (b_dir s a i) = true <-> marked a i ops) /\
    (b = true <-> forall a i, a < length algs -> i < n -> marked a i ops).
Proof.
  intros V St algs p n ops. destruct (mrun_ok ops (prepared (fresh algs p n) empty_b)) as (s & E & M & H); [intros a i; discriminate|].
  destruct (completed_all s (mkMeta n (length algs) 0 0)) as (b & B & K); [rewrite M; reflexivity|]. exists s, b. split; [exact E|]. split; [exact B|].
  assert (H' : forall a i, is_complete (b_dir s a i) = true <-> marked a i ops) by (intros; rewrite H; split; [intros [Q|(Q & _)]; [auto|discriminate]|auto]).
  split; [exact H'|]. cbn in K. rewrite K. split; intros Q a i La Li; apply H'; auto.
Qed.
(** ... of a benchmark that went through any crashes and resumes:
    [is_benchmark_completed] tells whether all original trials are complete; *)
Theorem C45_completed_partial : forall (V St : Type) step (algs : list (alg V St)) p n reqs s,
  supported algs p -> history step algs p n reqs s -> resume 0 0 s <> None ->
  exists b, is_benchmark_completed s = Some b /\ (b = true <-> forall a i, a < length algs -> i < n -> is_complete (b_dir s a i) = true).
Proof.
  intros V St step algs p n reqs s (POS & _) H RS. destruct (history_Ready step algs p n POS reqs s H) as [B|(m & M & _ & _ & MT & MA & _)]; [contradiction|].
  destruct (completed_all s m M) as (b & B & K). exists b. rewrite <- MT, <- MA. auto.
Qed.
(** ... [load_benchmark_result] has an algorithm iff all its original trials are
    complete, and then their final networks in the order of the trials. *)
Theorem C45_load_result_partial : forall (V St : Type) step (algs : list (alg V St)) p n reqs s,
  supported algs p -> history step algs p n reqs s -> resume 0 0 s <> None -> 1 <= n ->
  exists m rs, b_meta s = Some (Full m) /\ load_benchmark_result s = Some rs /\ length rs = length algs /\
    forall a A, nth_error algs a = Some A -> exists o, nth_error rs a = Some o /\
      match o with
      | Some r => (forall i, i < n -> is_complete (b_dir s a i) = true) /\ Forall2 (trial_result p A (al_iters A + m_inc_i m) a) (seq 0 n) r
      | None => exists i, i < n /\ is_complete (b_dir s a i) = false
      end.
Proof.
  intros V St step algs p n reqs s (POS & WB & ND) H RS PN. destruct (history_Ready step algs p n POS reqs s H) as [B|(m & RD)]; [contradiction|]. pose proof RD as (M & AL & PR & MT & MA & _).
  exists m. unfold load_benchmark_result. rewrite PR, AL, M, MT.
  set (f := fun a => if length (completed n a s) =? n then _ else _).
  destruct (all_some_ok f (fun a o => forall A, nth_error algs a = Some A -> match o with
      | Some r => (forall i, i < n -> is_complete (b_dir s a i) = true) /\ Forall2 (trial_result p A (al_iters A + m_inc_i m) a) (seq 0 n) r
      | None => exists i, i < n /\ is_complete (b_dir s a i) = false
      end) (seq 0 (length algs))) as (rs & E & F).
  - intros a Ia. apply in_seq in Ia. destruct (nth_error algs a) as [A|] eqn:EA; [|apply nth_error_None in EA; lia]. unfold f. clear f.
    destruct (Nat.eqb_spec (length (completed n a s)) n) as [LN|LN].
    + assert (ALL : completed n a s = seq 0 n). { unfold completed in *. apply filter_all. rewrite seq_length. exact LN. }
      destruct (load_completed_ok step algs p n WB ND m s 1 (mkPlan [] [] p n) a A RD (le_n 1) EA) as (l & EL & FL). unfold load_completed in EL. cbn [pl_trials] in EL, FL. rewrite EL.
      assert (LL : length l = n). { rewrite ALL in FL. assert (length l = length (seq 0 n)) as -> by (clear - FL; induction FL; cbn; auto). apply seq_length. }
      destruct l as [|x l]; [cbn in LL; lia|]. eexists. split; [reflexivity|]. intros A' EQ. injection EQ as <-. split.
      * intros i Li. assert (I : In i (completed n a s)) by (rewrite ALL; apply in_seq; lia). now apply completed_In in I.
      * rewrite <- ALL. exact FL.
    + eexists. split; [reflexivity|]. intros A' _. apply not_all. intros C. apply LN. unfold completed. rewrite (filter_ext_in _ (fun _ => true)).
      * assert (X2 : forall l : list nat, filter (fun _ => true) l = l) by (induction l; cbn; congruence). rewrite X2. apply seq_length.
      * intros i I. apply in_seq in I. apply C. lia.
  - exists rs. split; [auto|]. split; [exact E|]. split; [assert (length rs = length (seq 0 (length algs))) as -> by (clear - F; induction F; cbn; auto); apply seq_length|].
    intros a A EA. assert (La : a < length algs) by (apply nth_error_Some; congruence).
    destruct (F2_nth _ _ _ F a a) as (o & EO & HO); [rewrite (nth_error_nth' _ 0) by (rewrite seq_length; lia); rewrite seq_nth by lia; reflexivity|]. exists o. split; [exact EO|]. now apply HO.
Qed.

(** ---- non-vacuity: one algorithm of 2 iterations, two trials, checkpoints at
    every iteration, no multiprocessing ---- *)
Definition b_prob1 : problem nat unit := mkProblem ex_topo ex_period (fun _ i => (tt, mkNet (fun _ => new_agent) 0 None [] (100 * i) [])).
Definition b_algs1 : list (alg nat unit) := [ex_alg 2].
Definition b_fresh := fresh b_algs1 b_prob1 2.
(** the plan carried out one trial after the other, killed after [k] effects *)
Definition b_cut (pl : plan nat unit) (k : nat) (s : bdir nat unit) : bdir nat unit :=
  bapply_all (firstn k (pl_prep pl ++ one_by_one (Some 1) 1 pl (prepared pl s))) s.
Lemma b_cut_ok pl k s : carried_out (Some 1) 1 pl s k (b_cut pl k s).
Proof. eexists. split; [apply one_by_one_interleaving|reflexivity]. Qed.
Definition the_plan (o : option (plan nat unit)) : plan nat unit := match o with Some pl => pl | None => b_fresh end.
Lemma the_plan_ok o : (match o with Some _ => true | None => false end) = true -> o = Some (the_plan o).
Proof. destruct o; [reflexivity|discriminate]. Qed.
(** killed after the first trial and one iteration of the second; then resumed for
    3 trials and 1 more iteration, and killed again; *)
Definition b1 := b_cut b_fresh 21 empty_b.
Definition b2 := b_cut (the_plan (resume 1 1 b1)) 14 b1.
(** markers, progress files and metadata *)
Definition view (s : bdir nat unit) := (b_meta s, map (fun i => (d_prog (b_dir s 0 i), is_complete (b_dir s 0 i))) [0; 1; 2]).
Example b_views :
  view b1 = (Some (Full (mkMeta 2 1 0 0)), [(Some (Full 1), true); (Some (Full 0), false); (None, false)]) /\
  view b2 = (Some (Full (mkMeta 2 1 1 1)), [(Some (Full 2), true); (Some (Full 0), false); (None, false)]).
Proof. vm_compute. auto. Qed.
Lemma b_supported : supported b_algs1 b_prob1.
Proof.
  split; [|split].
  - intros A [<-|[]]. cbn. lia.
  - intros A [<-|[]]. split; [exists ex_env; apply (ex_client 2)|exact C32_ext_nonvacuous].
  - repeat constructor; cbn; intuition discriminate.
Qed.
Ltac json_all := split; [vm_compute; discriminate|]; intros a i; destruct a as [|a]; destruct i as [|[|[|i]]]; vm_compute; split; discriminate.
Example b_history : history (Some 1) b_algs1 b_prob1 2 [(1, 1)] b2.
Proof.
  apply (hist_resume (Some 1) b_algs1 b_prob1 2 [] b1 1 1 (the_plan (resume 1 1 b1)) 1 14).
  - apply (hist_start (Some 1) b_algs1 b_prob1 2 1 21); [lia|apply b_cut_ok|json_all].
  - intros _. lia.
  - lia.
  - apply the_plan_ok. vm_compute. reflexivity.
  - apply b_cut_ok.
  - json_all.
Qed.
Example C46_benchmark_nonvacuous : extended b2 = true /\ pl_trials (the_plan (resume 2 0 b2)) = 3 /\
  option_map (map (map n_draws)) (results (Some 1) 1 (the_plan (resume 2 0 b2)) (prepared (the_plan (resume 2 0 b2)) b2) (fun _ => [2; 0; 1])) =
  Some [map (fun i => n_draws (snd (r_world (straight_run b_prob1 (ex_alg 2) 5 0 i)))) [0; 1; 2]].
Proof. vm_compute. auto. Qed.

(** ---- what does not hold ---- *)
Ltac json_b := split; [vm_compute; discriminate|]; intros a i; destruct a as [|a]; destruct i as [|[|[|i]]]; vm_compute; split; discriminate.
(** C47: an algorithm that fails in trial 0: resuming returns the network of trial
    1 first. *)
Definition fails0 : alg nat unit := mkAlg 2 (fun w => w) (fun _ w => (w, n_draws (snd w) =? 0)).
Theorem C47_resume_order_refuted : exists (algs : list (alg nat unit)) p s pl,
  supported algs p /\ history (Some 1) algs p 2 [] s /\ resume 0 0 s = Some pl /\
  option_map (map (map n_draws)) (results (Some 1) 1 pl (prepared pl s) (fun a => to_run (pl_trials pl) a (prepared pl s))) = Some [[100; 0]] /\
  forall A i, nth_error algs 0 = Some A -> i < 2 -> n_draws (snd (r_world (straight_run p A 2 0 i))) = 100 * i.
Proof.
  exists [fails0], b_prob1, (b_cut (fresh [fails0] b_prob1 2) 100 empty_b), (the_plan (resume 0 0 (b_cut (fresh [fails0] b_prob1 2) 100 empty_b))). split; [|split; [|split; [|split]]].
  - split; [|split].
    + intros A [<-|[]]. cbn. lia.
    + intros A [<-|[]]. split.
      * exists ex_env. intros k w. exists []. split; [constructor|reflexivity].
      * intros k w w' U. cbn. split; [exact U|]. destruct U as (_ & _ & _ & _ & _ & -> & _). reflexivity.
    + repeat constructor; cbn; intuition discriminate.
  - apply (hist_start (Some 1) [fails0] b_prob1 2 1 100); [lia|apply b_cut_ok|json_b].
  - apply the_plan_ok. vm_compute. reflexivity.
  - vm_compute. reflexivity.
  - intros A i E L. injection E as <-. destruct i as [|[|i]]; [vm_compute; reflexivity|vm_compute; reflexivity|lia].
Qed.
(** C45: added trials do not count: a benchmark of 2 trials completed, then
    extended by one and killed before running it, is "completed"; and with the
    third trial done, its result is not loaded. *)
Definition b3 := b_cut b_fresh 1000 empty_b.
Definition b4 := b_cut (the_plan (resume 0 1 b3)) 2 b3.
Definition b5 := b_cut (the_plan (resume 0 1 b3)) 1000 b3.
Theorem C45_added_trials_refuted : history (Some 1) b_algs1 b_prob1 2 [(0, 1)] b4 /\ history (Some 1) b_algs1 b_prob1 2 [(0, 1)] b5 /\
  pl_trials (the_plan (resume 0 0 b4)) = 3 /\ is_complete (b_dir b4 0 2) = false /\ is_benchmark_completed b4 = Some true /\
  map (fun i => is_complete (b_dir b5 0 i)) [0; 1; 2] = [true; true; true] /\
  option_map (map (option_map (@length (net nat)))) (load_benchmark_result b5) = Some [Some 2].
Proof.
  assert (H : history (Some 1) b_algs1 b_prob1 2 [] b3) by (apply (hist_start (Some 1) b_algs1 b_prob1 2 1 1000); [lia|apply b_cut_ok|json_b]).
  split; [|split; [|vm_compute; auto 10]].
  - apply (hist_resume (Some 1) b_algs1 b_prob1 2 [] b3 0 1 (the_plan (resume 0 1 b3)) 1 2); [exact H|discriminate|lia|apply the_plan_ok; vm_compute; reflexivity|apply b_cut_ok|json_b].
  - apply (hist_resume (Some 1) b_algs1 b_prob1 2 [] b3 0 1 (the_plan (resume 0 1 b3)) 1 1000); [exact H|discriminate|lia|apply the_plan_ok; vm_compute; reflexivity|apply b_cut_ok|json_b].
Qed.
(** C46: iterations added (here 2, and the process killed on the way) are forgotten
    by a resume that does not ask for more: trial 0 never completes although its
    4 iterations would. *)
Definition b6 := b_cut (the_plan (resume 2 0 b3)) 9 b3.
Definition b7 := b_cut (the_plan (resume 0 0 b6)) 1000 b6.
Theorem C46_extension_lost_refuted : history (Some 1) b_algs1 b_prob1 2 [(2, 0)] b6 /\ finished_plan (Some 1) 1 (the_plan (resume 0 0 b6)) b6 b7 /\
  r_out (straight_run b_prob1 (ex_alg 2) 4 0 0) = Finished /\ is_complete (b_dir b7 0 0) = false /\
  map al_iters (pl_algs (the_plan (resume 0 0 b6))) = [2].
Proof.
  assert (H : history (Some 1) b_algs1 b_prob1 2 [] b3) by (apply (hist_start (Some 1) b_algs1 b_prob1 2 1 1000); [lia|apply b_cut_ok|json_b]).
  split; [|split; [|vm_compute; auto]].
  - apply (hist_resume (Some 1) b_algs1 b_prob1 2 [] b3 2 0 (the_plan (resume 2 0 b3)) 1 9); [exact H|lia|lia|apply the_plan_ok; vm_compute; reflexivity|apply b_cut_ok|json_b].
  - eexists. split; [apply one_by_one_interleaving|]. unfold b7, b_cut. rewrite firstn_all2; [reflexivity|]. apply Nat.leb_le. vm_compute. reflexivity.
Qed.

(** C46: a resume killed while rewriting metadata.json makes the directory
    unusable, whatever was completed. *)
Theorem C46_torn_metadata_refuted : let s := b_cut (the_plan (resume 0 1 b3)) 1 b3 in
  history (Some 1) b_algs1 b_prob1 2 [] b3 /\ is_benchmark_completed b3 = Some true /\ (forall i t, resume i t s = None) /\ load_benchmark_result s = None.
Proof.
  cbv zeta. split; [apply (hist_start (Some 1) b_algs1 b_prob1 2 1 1000); [lia|apply b_cut_ok|json_b]|]. split; [vm_compute; reflexivity|].
  assert (E : b_meta (b_cut (the_plan (resume 0 1 b3)) 1 b3) = Some Torn) by (vm_compute; reflexivity).
  set (s := b_cut _ 1 b3) in *. clearbody s. unfold resume, load_benchmark_result. rewrite E. split; [reflexivity|]. destruct (b_prob s) as [[|]|], (b_algs s) as [[|]|]; reflexivity.
Qed.

Print Assumptions C46_resume_partial.
Print Assumptions C46_complete_not_rerun.
Print Assumptions C42_benchmark_resume_partial.
Print Assumptions C47_any_completion_order.
Print Assumptions C47_new_benchmark_in_order.
Print Assumptions C47_extension_in_order.
Print Assumptions C45_mark_history.
Print Assumptions C45_completed_partial.
Print Assumptions C45_load_result_partial.
