(** Results of benchmarks and resumes. *)
From Coq Require Import List Bool Arith ZArith Lia Permutation Sorted.
From Verif.Model Require Import PyDict History Messages Network Runner Checkpoint Benchmark.
From Verif.Spec Require Import RunnerSpec CheckpointSpec BenchmarkSpec.
From Verif.Proofs Require Import PyDictProofs CheckpointProofs BenchmarkProofs.
From Verif.Props Require Import CheckpointProps.
Import ListNotations.
Open Scope nat_scope.

Lemma completed_In {V St} n a (s : bdir V St) i : In i (completed n a s) <-> i < n /\ is_complete (b_dir s a i) = true.
Proof. unfold completed. rewrite filter_In, in_seq. intuition lia. Qed.
Lemma mem_nat i l : existsb (Nat.eqb i) l = true <-> In i l.
Proof. rewrite existsb_exists. split; [intros (x & I & E); apply Nat.eqb_eq in E; now subst|intro I; exists i; split; [auto|apply Nat.eqb_refl]]. Qed.
Lemma to_run_eq {V St} n a (s : bdir V St) : to_run n a s = filter (fun i => negb (is_complete (b_dir s a i))) (seq 0 n).
Proof.
  unfold to_run. apply filter_ext_in. intros i I. apply in_seq in I. f_equal. destruct (is_complete (b_dir s a i)) eqn:E.
  - apply mem_nat, completed_In. split; [lia|auto].
  - destruct (existsb _ _) eqn:X; auto. apply mem_nat, completed_In in X. destruct X. congruence.
Qed.
Lemma to_run_In {V St} n a (s : bdir V St) i : In i (to_run n a s) <-> i < n /\ is_complete (b_dir s a i) = false.
Proof. rewrite to_run_eq, filter_In, in_seq, negb_true_iff. intuition lia. Qed.
Lemma filter_short {X} (f : X -> bool) l : length (filter f l) <= length l.
Proof. induction l as [|x l IH]; cbn; auto. destruct (f x); cbn; lia. Qed.
Lemma filter_all {X} (f : X -> bool) l : length (filter f l) = length l -> filter f l = l.
Proof. induction l as [|x l IH]; cbn; auto. destruct (f x); cbn; [intro H; f_equal; apply IH; lia|]. intro H. pose proof (filter_short f l). lia. Qed.
Lemma not_all (f : nat -> bool) n : ~ (forall i, i < n -> f i = true) -> exists i, i < n /\ f i = false.
Proof.
  intro H. destruct (forallb f (seq 0 n)) eqn:E.
  - exfalso. apply H. intros i L. rewrite forallb_forall in E. apply E, in_seq. lia.
  - clear H. assert (exists i, In i (seq 0 n) /\ f i = false) as (i & I & F) by (induction (seq 0 n) as [|x l IH]; cbn in *; [discriminate|]; destruct (f x) eqn:Q; [destruct IH as (i & I & F); eauto|eauto]).
    apply in_seq in I. exists i. split; [lia|auto].
Qed.
Lemma seq_sorted n : forall b, StronglySorted lt (seq b n).
Proof. induction n as [|n IH]; intro b; cbn; constructor; [apply IH|]. apply Forall_forall. intros x I. apply in_seq in I. lia. Qed.
Lemma filter_sorted (f : nat -> bool) l : StronglySorted lt l -> StronglySorted lt (filter f l).
Proof. induction 1 as [|x l S IH F]; cbn; [constructor|]. destruct (f x); [|auto]. constructor; [auto|]. apply Forall_forall. intros y I. apply filter_In in I. rewrite Forall_forall in F. now apply F. Qed.
Lemma F2_ext_in {X Y} (R R' : X -> Y -> Prop) l l' : Forall2 R l l' -> (forall x y, In x l -> R x y -> R' x y) -> Forall2 R' l l'.
Proof. induction 1; intro H'; constructor; [apply H'; [now left|auto]|]. apply IHForall2. intros. apply H'; [now right|auto]. Qed.
Lemma F2_app {X Y} (R : X -> Y -> Prop) l l' m m' : Forall2 R l l' -> Forall2 R m m' -> Forall2 R (l ++ m) (l' ++ m').
Proof. induction 1; cbn; auto. Qed.
Lemma F2_map_r {X Y Z} (R : X -> Z -> Prop) (g : Y -> Z) l l' : Forall2 (fun x y => R x (g y)) l l' -> Forall2 R l (map g l').
Proof. induction 1; cbn; auto. Qed.

(** the results do not depend on the order in which trials end *)
Section Order.
  Context {V St : Type}.
  Lemma run_one_fst step keep pl (A : alg V St) s a i x : run_one step keep pl A s a i = Some x -> fst x = i.
  Proof. unfold run_one. destruct (at_answer _); intros [= <-]. reflexivity. Qed.
  Lemma arrivals_fst step keep pl (A : alg V St) s a l r : all_some (run_one step keep pl A s a) l = Some r -> map fst r = l.
  Proof. intro H. apply all_some_F2 in H. induction H; cbn; auto. f_equal; [eapply run_one_fst; eauto|auto]. Qed.
  Lemma sorted_fst (r : list (nat * net V)) : StronglySorted lt (map fst r) -> StronglySorted (fun x y => fst x <= fst y) r.
  Proof.
    induction r as [|x r IH]; cbn; intro S; constructor; inversion S; subst; auto. rewrite Forall_forall in *. intros y I. apply Nat.lt_le_incl, H2, in_map, I.
  Qed.
  Lemma sorted_NoDup l : StronglySorted lt l -> NoDup l.
  Proof. induction 1; constructor; auto. rewrite Forall_forall in H0. intro I. apply H0 in I. lia. Qed.
  Lemma sort_arrivals step keep pl (A : alg V St) s a arr n r : Permutation arr (to_run n a s) -> all_some (run_one step keep pl A s a) arr = Some r ->
    all_some (run_one step keep pl A s a) (to_run n a s) = Some (sort_trials r).
  Proof.
    intros P E. apply all_some_F2 in E. destruct (F2_perm _ _ _ P _ E) as (r0 & F0 & P0). apply all_some_F2 in F0. rewrite F0. f_equal.
    pose proof (arrivals_fst _ _ _ _ _ _ _ _ F0) as M. assert (SS : StronglySorted lt (map fst r0)) by (rewrite M, to_run_eq; apply filter_sorted, seq_sorted).
    symmetry. apply sorted_unique; [apply sortt_sorted|now apply sorted_fst| |].
    - eapply Permutation_NoDup; [apply Permutation_map, Permutation_sym, sortt_perm|]. eapply Permutation_NoDup; [apply Permutation_map, Permutation_sym, P0|]. now apply sorted_NoDup.
    - eapply perm_trans; [apply sortt_perm|exact P0].
  Qed.
  Lemma sort_sorted_id step keep pl (A : alg V St) s a n r : all_some (run_one step keep pl A s a) (to_run n a s) = Some r -> sort_trials r = r.
  Proof. intro E. pose proof (sort_arrivals step keep pl A s a _ n r (Permutation_refl _) E). congruence. Qed.
  Lemma alg_results_order step keep pl (A : alg V St) s a arr : Permutation arr (to_run (pl_trials pl) a s) ->
    alg_results step keep pl s a A arr = alg_results step keep pl s a A (to_run (pl_trials pl) a s).
  Proof.
    intro P. unfold alg_results. destruct (load_completed pl s a) as [l|]; [|reflexivity].
    destruct (all_some (run_one step keep pl A s a) arr) as [r|] eqn:E.
    - pose proof (sort_arrivals _ _ _ _ _ _ _ _ _ P E) as E'. rewrite E'. now rewrite (sort_sorted_id _ _ _ _ _ _ _ _ E').
    - destruct (all_some (run_one step keep pl A s a) (to_run (pl_trials pl) a s)) as [r|] eqn:E'; [|reflexivity].
      apply all_some_F2 in E'. destruct (F2_perm _ _ _ (Permutation_sym P) _ E') as (r0 & F0 & _). apply all_some_F2 in F0. congruence.
  Qed.
  Lemma all_some_ext {X Y} (f g : X -> option Y) l : (forall x, In x l -> f x = g x) -> all_some f l = all_some g l.
  Proof. induction l as [|x l IH]; intro H; cbn; auto. rewrite H by now left. rewrite IH; auto. intros. apply H. now right. Qed.
  Lemma results_order step keep (pl : plan V St) s arr arr' : (forall a, Permutation (arr a) (to_run (pl_trials pl) a s)) -> (forall a, Permutation (arr' a) (to_run (pl_trials pl) a s)) ->
    results step keep pl s arr = results step keep pl s arr'.
  Proof. intros H H'. unfold results. apply all_some_ext. intros (a, A) _. cbn. rewrite (alg_results_order _ _ _ _ _ _ _ (H a)), (alg_results_order _ _ _ _ _ _ _ (H' a)). reflexivity. Qed.
End Order.

Section R.
  Context {V St : Type}.
  Variables (step : option nat) (algs : list (alg V St)) (p : problem V St) (n : nat).
  Hypothesis POS : forall A, In A algs -> 1 <= al_iters A.
  Hypothesis WB : forall A, In A algs -> well_behaved p A.
  Hypothesis ND : NoDup (t_nodes (p_topo p)).
  Notation Ready := (Ready step algs p n).
  Lemma visit_result m s keep a A i : Ready m s -> 1 <= keep -> nth_error algs a = Some A ->
    let N := target A m in let r := straight_run p A N a i in let v := bvisit step keep p (with_iters N A) a i s in
    exists w former, Forall (fun k => al_iters A <= k < N) former /\ same_but former w (r_world r) /\ returns (p_topo p) (at_answer v) (finished (r_out r)) w /\
      let d := apply_all (at_effects v) (b_dir s a i) in is_complete d = finished (r_out r) /\ (r_out r = Finished -> load_result d = Some w).
  Proof.
    intros (_ & _ & _ & _ & _ & H1 & _) KP E N r v. destruct (H1 a A E i) as (Ns & R & F). destruct (WB A (nth_error_In _ _ E)) as ((e & CC) & HA).
    destruct (C46_extended_trial_partial V St (p_topo p) e (p_period p) A (p_start p a i) step N Ns (b_dir s a i) keep ND CC HA R KP) as (w & S1 & S2 & S3).
    exists w, Ns. split; [exact F|]. split; [exact S1|]. split; [exact S2|exact S3].
  Qed.
  Lemma trial_effects_visit keep (pl : plan V St) s a A i : nth_error (pl_algs pl) a = Some A -> i < pl_trials pl -> trial_effects step keep pl s a i = at_effects (bvisit step keep (pl_prob pl) A a i s).
  Proof.
    intros E L. unfold trial_effects. rewrite E. destruct (existsb _ _) eqn:X; [reflexivity|]. unfold bvisit, visit. destruct (is_complete (b_dir s a i)) eqn:C; [reflexivity|].
    exfalso. assert (In i (to_run (pl_trials pl) a s)) as I by (apply to_run_In; auto). apply mem_nat in I. congruence.
  Qed.
  Lemma complete_visit m s keep a A i : Ready m s -> 1 <= keep -> nth_error algs a = Some A -> is_complete (b_dir s a i) = true ->
    exists w, load_result (b_dir s a i) = Some w /\ trial_result p A (target A m) a i (snd w) /\ finished (r_out (straight_run p A (target A m) a i)) = true.
  Proof.
    intros R KP E C. destruct (visit_result m s keep a A i R KP E) as (w & former & F & S & RT & CO & LR). unfold bvisit, visit in *. rewrite C in *. cbn [at_answer at_effects] in *.
    unfold apply_all in *. cbn [fold_left] in *. rewrite C in CO. destruct (r_out _) eqn:O; try discriminate. specialize (LR eq_refl). exists w. split; [exact LR|]. split; [|reflexivity].
    exists w, former. split; [exact F|]. split; [exact S|]. now left.
  Qed.
  Lemma load_completed_ok m s keep pl a A : Ready m s -> 1 <= keep -> nth_error algs a = Some A ->
    exists l, load_completed pl s a = Some l /\ Forall2 (trial_result p A (target A m) a) (completed (pl_trials pl) a s) l.
  Proof.
    intros R KP E. apply all_some_ok. intros i I. apply completed_In in I. destruct I as (_ & C). destruct (complete_visit m s keep a A i R KP E C) as (w & L & T & _).
    exists (snd w). rewrite L. auto.
  Qed.
  Lemma results_ok m s keep pl arr : Ready m s -> 1 <= keep -> pl_algs pl = map (fun A => with_iters (target A m) A) algs -> pl_prob pl = p ->
    (forall a, Permutation (arr a) (to_run (pl_trials pl) a s)) ->
    exists rs, results step keep pl s arr = Some rs /\ length rs = length algs /\
      forall a A, nth_error algs a = Some A -> exists r, nth_error rs a = Some r /\
        Forall2 (trial_result p A (target A m) a) (completed (pl_trials pl) a s ++ to_run (pl_trials pl) a s) r.
  Proof.
    intros R KP PA PP AR. rewrite (results_order step keep pl s arr (fun a => to_run (pl_trials pl) a s) AR) by (intro; apply Permutation_refl).
    destruct (all_some_ok (fun q => alg_results step keep pl s (fst q) (snd q) (to_run (pl_trials pl) (fst q) s))
      (fun q r => forall A, nth_error algs (fst q) = Some A -> Forall2 (trial_result p A (target A m) (fst q)) (completed (pl_trials pl) (fst q) s ++ to_run (pl_trials pl) (fst q) s) r)
      (combine (seq 0 (length (pl_algs pl))) (pl_algs pl))) as (rs & E & F).
    - intros (a, A') I. cbn [fst snd]. apply In_nth_error in I. destruct I as (j & I).
      assert (J : j < length (pl_algs pl)). { assert (nth_error (combine (seq 0 (length (pl_algs pl))) (pl_algs pl)) j <> None) as Q by congruence. apply nth_error_Some in Q. rewrite combine_length, seq_length in Q. lia. }
      destruct (nth_error (pl_algs pl) j) as [A2|] eqn:E2; [|apply nth_error_None in E2; lia]. rewrite (nth_combine _ 0 j A2 E2) in I. injection I as <- ->. cbn [Nat.add] in *.
      rewrite PA in E2. rewrite nth_error_map in E2. destruct (nth_error algs j) as [A|] eqn:EA; [|discriminate]. injection E2 as <-.
      destruct (load_completed_ok m s keep pl j A R KP EA) as (l & EL & FL).
      destruct (all_some_ok (run_one step keep pl (with_iters (target A m) A) s j) (fun i x => trial_result p A (target A m) j i (snd x)) (to_run (pl_trials pl) j s)) as (r & ER & FR).
      { intros i I. destruct (visit_result m s keep j A i R KP EA) as (w & former & F & S & RT & _). unfold run_one. rewrite PP. destruct RT as [-> |(_ & st' & AD & ->)].
        - eexists. split; [reflexivity|]. exists w, former. cbn. split; [exact F|]. split; [exact S|]. now left.
        - eexists. split; [reflexivity|]. exists w, former. cbn. split; [exact F|]. split; [exact S|]. right. exact AD. }
      exists (l ++ map snd r). split.
      + unfold alg_results. rewrite EL, ER. now rewrite (sort_sorted_id _ _ _ _ _ _ _ _ ER).
      + intros A3 E3. assert (A3 = A) by congruence. subst A3. apply F2_app; [exact FL|]. apply F2_map_r. exact FR.
    - exists rs. split; [exact E|]. split.
      + assert (length rs = length (combine (seq 0 (length (pl_algs pl))) (pl_algs pl))) as -> by (clear - F; induction F; cbn; auto). rewrite combine_length, seq_length, PA, map_length. apply Nat.min_id.
      + intros a A EA. assert (E2 : nth_error (pl_algs pl) a = Some (with_iters (target A m) A)) by (now rewrite PA, nth_error_map, EA).
        destruct (F2_nth _ _ _ F a _ (nth_combine _ 0 a _ E2)) as (r & ER & H). exists r. split; [exact ER|]. now apply H.
  Qed.
  (** after the run *)
  Lemma finished_ok m s keep pl l : Ready m s -> 1 <= keep -> pl_algs pl = map (fun A => with_iters (target A m) A) algs -> pl_prob pl = p ->
    interleaving step keep pl s l -> let s' := bapply_all l s in
    forall a A i, nth_error algs a = Some A -> i < pl_trials pl ->
      let r := straight_run p A (target A m) a i in
      is_complete (b_dir s' a i) = finished (r_out r) /\ (r_out r = Finished -> exists w, load_result (b_dir s' a i) = Some w /\ trial_result p A (target A m) a i (snd w)).
  Proof.
    intros R KP PA PP (TO & IL) s' a A i E L r. unfold s'. rewrite b_dir_all, IL. assert (E2 : nth_error (pl_algs pl) a = Some (with_iters (target A m) A)) by (now rewrite PA, nth_error_map, E).
    rewrite (trial_effects_visit keep pl s a _ i E2 L), PP. destruct (visit_result m s keep a A i R KP E) as (w & former & F & S & RT & CO & LR).
    split; [exact CO|]. intro O. exists w. split; [now apply LR|]. exists w, former. split; [exact F|]. split; [exact S|]. now left.
  Qed.
End R.
