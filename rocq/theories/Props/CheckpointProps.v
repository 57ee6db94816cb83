(** C42, C43 and C46 for one trial: crash safety, retention and extension. *)
From Coq Require Import List Bool Arith ZArith Lia Permutation.
From Verif.Model Require Import PyDict History Messages Network Runner Checkpoint.
From Verif.Spec Require Import RunnerSpec CheckpointSpec.
From Verif.Proofs Require Import PyDictProofs NetworkInv RunnerProofs CheckpointProofs CheckpointRun CheckpointExt CheckpointFiles.
From Verif.Props Require Import RunnerProps.
Import ListNotations.
Open Scope nat_scope.

(** C42: whatever crashes (any number of them, each after any number of file
    operations that does not leave a JSON file half written) a trial went
    through, the next visit returns what the uninterrupted run computes, marks
    the trial complete iff that run finishes, and leaves its final state as the
    stored result. *)
Theorem C42_crash_resume_partial : forall (V S : Type) t period (A : alg V S) w0 step keeps s keep,
  1 <= al_iters A -> killed t period A w0 step keeps s -> 1 <= keep ->
  let r := run t period A 0 w0 in
  let v := visit t period A w0 step keep s in
  returns t (at_answer v) (finished (r_out r)) (r_world r) /\
  let s' := apply_all (at_effects v) s in
  is_complete s' = finished (r_out r) /\ (r_out r = Finished -> load_result s' = Some (r_world r)).
Proof.
  intros V S t period A w0 step keeps s keep POS K KP r v.
  destruct (killed_Inv t period A w0 step keeps s POS K) as (_ & H). destruct (H keep KP) as (R & C & L). fold r v in R, C, L.
  split; [exact R|]. split; [exact C|]. intro O. apply L. now rewrite O.
Qed.

(** C43: the progress file never names a checkpoint that cannot be loaded, and
    what it names is the state of the uninterrupted run after that iteration. *)
Theorem C43_named_checkpoint_loadable_partial : forall (V S : Type) t period (A : alg V S) w0 step keeps s,
  1 <= al_iters A -> killed t period A w0 step keeps s ->
  match load s with
  | LNone => d_prog s = None
  | LSome k w => d_prog s = Some (Full k) /\ In (CCallback k w) (r_calls (run t period A 0 w0))
  | LError => False
  end.
Proof.
  intros V S t period A w0 step keeps s POS K. destruct (killed_Inv t period A w0 step keeps s POS K) as ((_ & PR & _) & _).
  unfold load. destruct PR as [(_ & ->)|(p & w & -> & I & -> & _)]; [reflexivity|]. split; [reflexivity|]. now apply callbacks_In.
Qed.

(** C43: saving a checkpoint keeps exactly the newest [keep] of the files present,
    unmodified. *)
Theorem C43_keeps_newest : forall D keep k (d : D) s x,
  NoDup (dkeys (d_ck s)) -> already_saved k s = Some false -> save keep k d s = Some x ->
  let s' := apply_all x s in
  newest keep (k :: dkeys (d_ck s)) (dkeys (d_ck s')) /\
  forall j f, dget Nat.eqb (d_ck s') j = Some f -> f = if j =? k then Full d else match dget Nat.eqb (d_ck s) j with Some f' => f' | None => Torn end.
Proof.
  intros D keep k d s x ND AS SV s'. pose proof (save_eq keep k d s x AS SV) as EX. unfold s'. rewrite EX, apply_app. fold (written k d s).
  destruct (written_spec k d s ND) as (_ & _ & N0 & G0 & G1 & K0).
  destruct (pops (skipn keep (sort_desc (keys (written k d s)))) (written k d s) N0) as (_ & _ & N1 & P1 & P2 & P3). cbn zeta in *.
  set (s1 := apply_all _ (written k d s)) in *. fold (keys s1).
  pose proof (firstn_skipn keep (sort_desc (keys (written k d s)))) as SP. pose proof (sort_NoDup _ N0) as NS.
  assert (E : forall j, In j (keys s1) <-> In j (firstn keep (sort_desc (keys (written k d s))))).
  { intro j. split.
    - intro Hj. pose proof (P3 j Hj) as J. apply (Permutation_in _ (Permutation_sym (sort_perm _))) in J. rewrite <- SP in J. apply in_app_iff in J. destruct J as [J|J]; auto.
      exfalso. apply key_get in Hj. apply Hj. auto.
    - intro Hj. assert (NI : ~ In j (skipn keep (sort_desc (keys (written k d s))))).
      { intro Q. rewrite <- SP in NS. clear - NS Hj Q. induction (firstn keep _) as [|a f IH]; [destruct Hj|]. cbn in NS. inversion NS; subst. destruct Hj as [->|Hj]; [apply H1, in_app_iff; auto|auto]. }
      apply key_get. rewrite P1 by auto. apply key_get. apply (Permutation_in _ (sort_perm _)). rewrite <- SP. apply in_app_iff. auto. }
  split.
  - intro j. rewrite E, (firstn_rank _ (sort_sorted _) NS). 
    assert (PE : Permutation (sort_desc (keys (written k d s))) (nodup Nat.eq_dec (k :: dkeys (d_ck s)))).
    { apply NoDup_Permutation; [exact NS|apply NoDup_nodup|]. intro i. rewrite nodup_In. split.
      - intro H. apply (Permutation_in _ (sort_perm _)) in H. apply K0 in H. destruct H; [left; auto|right; auto].
      - intro H. apply (Permutation_in _ (Permutation_sym (sort_perm _))). apply K0. destruct H; auto. }
    rewrite (filter_len_perm _ _ _ PE). split; intros (H1 & H2); (split; [|exact H2]).
    + apply (Permutation_in _ PE) in H1. now apply nodup_In in H1.
    + apply (Permutation_in _ (Permutation_sym PE)). now apply nodup_In.
  - intros j f H. assert (NI : ~ In j (skipn keep (sort_desc (keys (written k d s))))) by (intro Q; rewrite (P2 j Q) in H; discriminate).
    rewrite (P1 j NI) in H. destruct (Nat.eqb_spec j k) as [->|NE]; [congruence|]. rewrite (G1 j NE) in H. now rewrite H.
Qed.

(** C43: at most one file above the largest retention in use per visit. *)
Theorem C43_file_bound : forall (V S : Type) t period (A : alg V S) w0 step keeps s,
  killed t period A w0 step keeps s -> n_files s <= list_max keeps + length keeps.
Proof. intros. now apply (killed_files t period A w0 step keeps s). Qed.

(** C46, one trial: whatever crashes and increases of the number of iterations a
    trial went through, the next visit returns the state a run of the current
    number of iterations reaches from the start, up to the snapshots forced at
    former targets, and stores it. *)
Theorem C46_extended_trial_partial : forall (V S : Type) t (e : env V) period (A : alg V S) w0 step N Ns s keep,
  NoDup (t_nodes t) -> client_code t e A -> hist_agnostic A ->
  reach t period A w0 step (N :: Ns) s -> 1 <= keep ->
  let r := run t period (with_iters N A) 0 w0 in
  let v := visit t period (with_iters N A) w0 step keep s in
  exists w, same_but Ns w (r_world r) /\ returns t (at_answer v) (finished (r_out r)) w /\
    let s' := apply_all (at_effects v) s in
    is_complete s' = finished (r_out r) /\ (r_out r = Finished -> load_result s' = Some w).
Proof.
  intros V S t e period A w0 step N Ns s keep ND CC AG R KP r v.
  assert (KEEP : forall k w a, a_hist (n_agents (snd (fst (al_step A k w))) a) = a_hist (n_agents (snd w) a)).
  { intros k u a. destruct (CC k u) as (ops & F & ->). now apply client_ops_hist. }
  pose proof (reach_J t period A w0 step AG KEEP ND _ _ R) as H. cbn in H.
  destruct (J_visit t period A w0 step N Ns s keep H KP) as (_ & w & W & RE & _ & C & L).
  exists w. split; [now apply wrel_same|]. split; [exact RE|]. split; [exact C|]. intro O. apply L. unfold straight. fold r. now rewrite O.
Qed.
(** ... and the checkpoint its progress file names can be loaded. *)
Theorem C43_extended_loadable : forall (V S : Type) t (e : env V) period (A : alg V S) w0 step Ns s,
  NoDup (t_nodes t) -> client_code t e A -> hist_agnostic A -> reach t period A w0 step Ns s -> load s <> LError.
Proof.
  intros V S t e period A w0 step Ns s ND CC AG R.
  assert (KEEP : forall k w a, a_hist (n_agents (snd (fst (al_step A k w))) a) = a_hist (n_agents (snd w) a)).
  { intros k u a. destruct (CC k u) as (ops & F & ->). now apply client_ops_hist. }
  pose proof (reach_J t period A w0 step AG KEEP ND _ _ R) as H. destruct Ns as [|N Ns]; [destruct H|].
  destruct H as (m & C & out & wf & _ & _ & _ & _ & _ & _ & _ & _ & PR & _).
  unfold load. destruct PR as [(_ & ->)|(p & w & -> & _ & -> & _)]; discriminate.
Qed.

(** C43: the checkpoints a visit writes are exactly those of the iterations it
    completes whose number (from 1) [checkpoint_step] divides, each with the
    state at that moment, and, if the run finishes, that of the last iteration.
    Without [checkpoint_step] it is the last one only. *)
Theorem C43_schedule : forall (V S : Type) t period (A : alg V S) w0 step keep s start w,
  1 <= al_iters A -> is_complete s = false ->
  (load s = LNone /\ start = 0 /\ w = w0 \/ exists k, load s = LSome k w /\ start = k + 1) ->
  let r := run t period A (Z.of_nat start) w in
  forall k v, In (WriteCk k v) (at_effects (visit t period A w0 step keep s)) <->
    In (CCallback k v) (r_calls r) /\ ((exists n, step = Some n /\ 1 <= n /\ Nat.divide n (k + 1)) \/ (r_out r = Finished /\ k = al_iters A - 1)).
Proof. exact (@schedule). Qed.

(** ---- non-vacuity: the example algorithm of RunnerProps, 3 iterations,
    checkpoints every second iteration, killed while writing the first one, then
    after its progress file, then allowed to finish; then 2 more iterations ---- *)
Definition ck_visit (N step keep : nat) (s : dir (world nat unit)) := visit ex_topo ex_period (ex_alg N) ex_w (Some step) keep s.
Definition cut (N step keep n : nat) (s : dir (world nat unit)) := apply_all (firstn n (at_effects (ck_visit N step keep s))) s.
Definition ck1 := cut 3 2 1 1 empty_dir.
Definition ck2 := cut 3 2 1 4 ck1.
Definition ck3 := cut 3 2 1 9 ck2.
(** the directory without the payloads *)
Definition layout {D} (s : dir D) : list (nat * bool) * option (file nat) * option (file nat) :=
  (map (fun p => (fst p, match snd p with Full _ => true | Torn => false end)) (d_ck s), d_prog s, d_comp s).
Example C42_layouts :
  layout ck1 = ([(1, false)], None, None) /\ layout ck2 = ([(1, true)], Some (Full 1), None) /\
  layout ck3 = ([(2, true)], Some (Full 2), Some (Full 2)) /\ length (at_effects (ck_visit 3 2 1 ck2)) = 7.
Proof. vm_compute. auto. Qed.
Example C42_nonvacuous : killed ex_topo ex_period (ex_alg 3) ex_w (Some 2) [1;1] ck2 /\ killed ex_topo ex_period (ex_alg 3) ex_w (Some 2) [1;1;1] ck3 /\
  r_out (run ex_topo ex_period (ex_alg 3) 0 ex_w) = Finished.
Proof.
  assert (K2 : killed ex_topo ex_period (ex_alg 3) ex_w (Some 2) [1;1] ck2).
  { apply (killed_visit ex_topo ex_period (ex_alg 3) ex_w (Some 2) [1] 1 ck1 4); [|lia|vm_compute; split; discriminate].
    apply (killed_visit ex_topo ex_period (ex_alg 3) ex_w (Some 2) [] 1 empty_dir 1); [constructor|lia|vm_compute; split; discriminate]. }
  split; [exact K2|]. split; [|reflexivity].
  apply (killed_visit ex_topo ex_period (ex_alg 3) ex_w (Some 2) [1;1] 1 ck2 9); [exact K2|lia|vm_compute; split; discriminate].
Qed.
Example C43_nonvacuous : exists x, save 2 5 ex_w (mkDir [(3, Torn); (9, Full ex_w); (1, Full ex_w)] (Some (Full 1)) None) = Some x /\
  map fst (d_ck (apply_all x (mkDir [(3, Torn); (9, Full ex_w); (1, Full ex_w)] (Some (Full 1)) None))) = [9; 5].
Proof. eexists. split; [vm_compute; reflexivity|]. reflexivity. Qed.
Example C43_schedule_case : is_complete ck2 = false /\ match load ck2 with LSome k _ => Some k | _ => None end = Some 1 /\
  flat_map (fun x => match x with WriteCk k _ => [k] | _ => [] end) (at_effects (ck_visit 7 2 1 ck2)) = [3; 5; 6] /\
  flat_map (fun x => match x with WriteCk k _ => [k] | _ => [] end) (at_effects (visit ex_topo ex_period (ex_alg 7) ex_w None 1 empty_dir)) = [6].
Proof. split; [|split; [|split]]; vm_compute; reflexivity. Qed.
Definition ck4 := unmark ck3.
Example C46_nonvacuous : reach ex_topo ex_period (ex_alg 3) ex_w (Some 2) [5; 3] ck4 /\
  layout (apply_all (at_effects (ck_visit 5 2 1 ck4)) ck4) = ([(4, true)], Some (Full 4), Some (Full 4)) /\
  r_out (run ex_topo ex_period (with_iters 5 (ex_alg 3)) 0 ex_w) = Finished.
Proof.
  split; [|vm_compute; auto].
  apply reach_raise; [|reflexivity|lia]. apply reach_unmark.
  apply (reach_visit ex_topo ex_period (ex_alg 3) ex_w (Some 2) 3 [] 1 ck2 9); [|lia|vm_compute; split; discriminate].
  apply (reach_visit ex_topo ex_period (ex_alg 3) ex_w (Some 2) 3 [] 1 ck1 4); [|lia|vm_compute; split; discriminate].
  apply (reach_visit ex_topo ex_period (ex_alg 3) ex_w (Some 2) 3 [] 1 empty_dir 1); [|lia|vm_compute; split; discriminate].
  constructor. lia.
Qed.

(** ---- what is missing from C42 and C43 ---- *)
(** A process killed between opening progress.json for writing and closing it:
    the trial cannot be resumed. *)
Theorem C42_torn_progress_refuted : exists (A : alg nat unit) w0 step keep n,
  let s := apply_all (firstn n (at_effects (visit ex_topo ex_period A w0 step keep empty_dir))) empty_dir in
  r_out (run ex_topo ex_period A 0 w0) = Finished /\ at_answer (visit ex_topo ex_period A w0 step keep s) = Failed.
Proof. exists (ex_alg 3), ex_w, (Some 2), 1, 3. vm_compute. auto. Qed.
(** ... between opening and closing complete.json: the trial counts as complete
    but its result cannot be loaded. *)
Theorem C42_torn_marker_refuted : exists (A : alg nat unit) w0 step keep n,
  let s := apply_all (firstn n (at_effects (visit ex_topo ex_period A w0 step keep empty_dir))) empty_dir in
  r_out (run ex_topo ex_period A 0 w0) = Finished /\ is_complete s = true /\ at_answer (visit ex_topo ex_period A w0 step keep s) = Failed.
Proof. exists (ex_alg 3), ex_w, (Some 2), 1, 10. vm_compute. auto. Qed.
(** In general: a trial whose progress.json is half written cannot be continued or
    loaded from, whatever else its directory holds; and only a trial without
    progress.json is started anew. *)
Theorem C42_torn_progress_stuck : forall (V S : Type) t period (A : alg V S) w0 step keep s,
  d_prog s = Some Torn ->
  load s = LError /\ (is_complete s = false -> visit t period A w0 step keep s = mkAtt [] Failed).
Proof. intros V S t period A w0 step keep s T. split; [unfold load; now rewrite T|]. intro C. unfold visit. rewrite C. unfold attempt, load. now rewrite T. Qed.
Theorem C43_restart_only_when_new : forall D (s : dir D), load s = LNone <-> d_prog s = None.
Proof. intros D s. unfold load. destruct (d_prog s) as [[|k]|]; [split; discriminate| |split; reflexivity]. destruct (dget _ _ _) as [[|?]|]; split; discriminate. Qed.
Example C42_torn_stuck_case : d_prog (cut 3 2 1 3 empty_dir) = Some Torn /\ is_complete (cut 3 2 1 3 empty_dir) = false /\ n_files (cut 3 2 1 3 empty_dir) = 1.
Proof. vm_compute. auto. Qed.
(** A killed trial resumed with another [checkpoint_step]: the cleanup deletes the
    checkpoint just saved in favour of a stale one, so that killing the process
    again leaves a progress file naming a deleted checkpoint; no JSON file is
    half written. *)
Theorem C43_changed_step_refuted : exists (A : alg nat unit) w0 n n',
  let s := apply_all (firstn n (at_effects (visit ex_topo ex_period A w0 (Some 4) 1 empty_dir))) empty_dir in
  let s' := apply_all (firstn n' (at_effects (visit ex_topo ex_period A w0 (Some 2) 1 s))) s in
  json_ok s /\ json_ok s' /\ load s' = LError.
Proof.
  exists (ex_alg 10), ex_w, 6, 6. vm_compute. repeat split; discriminate.
Qed.
(** A trial killed between its last progress write and the cleanup is completed
    without the cleanup: it keeps more than [keep_n_checkpoints] files for good. *)
Theorem C43_completed_above_limit_refuted : exists (A : alg nat unit) w0 keep n,
  let s := apply_all (firstn n (at_effects (visit ex_topo ex_period A w0 (Some 2) keep empty_dir))) empty_dir in
  let s' := apply_all (at_effects (visit ex_topo ex_period A w0 (Some 2) keep s)) s in
  json_ok s /\ is_complete s' = true /\ keep < n_files s'.
Proof. exists (ex_alg 3), ex_w, 1, 8. vm_compute. repeat split; try discriminate. lia. Qed.
Lemma answer_false {V S} (x : answer V S) : match x with Returned false _ => True | _ => False end -> exists w, x = Returned false w.
Proof. destruct x as [|[|] w]; intros []. now exists w. Qed.
(** C46: a trial extended from 2 to 4 iterations and killed on the way, then
    resumed without asking for more iterations (which resumes it with the original
    number, _benchmark.py:172-180): it is no longer complete, whatever is done. *)
Theorem C46_plain_resume_refuted : exists (A : alg nat unit) w0 n,
  let s := unmark (apply_all (at_effects (visit ex_topo ex_period (with_iters 2 A) w0 (Some 1) 1 empty_dir)) empty_dir) in
  let s' := apply_all (firstn n (at_effects (visit ex_topo ex_period (with_iters 4 A) w0 (Some 1) 1 s))) s in
  json_ok s' /\ is_complete s = false /\
  let v := visit ex_topo ex_period (with_iters 2 A) w0 (Some 1) 1 s' in
  (exists w, at_answer v = Returned false w) /\ at_effects v = [].
Proof.
  exists (ex_alg 2), ex_w, 5. cbv zeta. split; [vm_compute; split; discriminate|]. split; [reflexivity|]. split; [apply answer_false; vm_compute; exact I|vm_compute; reflexivity].
Qed.

Print Assumptions C42_crash_resume_partial.
Print Assumptions C43_named_checkpoint_loadable_partial.
Print Assumptions C43_keeps_newest.
Print Assumptions C43_file_bound.
Print Assumptions C46_extended_trial_partial.
Print Assumptions C43_extended_loadable.
Print Assumptions C42_torn_progress_stuck.
Print Assumptions C43_restart_only_when_new.
Print Assumptions C43_schedule.
