(** C66: runtime metrics observe a run. *)
From Coq Require Import Reals List Bool Arith ZArith Lia Lra QArith Qcanon.
From Verif.Model Require Import PyDict History Messages Network Counting Vec Costs Batch EmpiricalRisk Metrics Runner Runtime.
From Verif.Spec Require Import AggregateSpec RuntimeSpec.
From Verif.Proofs Require Import EmpiricalProofs RuntimeProofs.
Import ListNotations.
Local Open Scope R_scope.

(** ** C66 *)
(** With costs that keep no state, a run with runtime metrics is the run
    without them: same calls on the same worlds, same outcome, same result,
    same counters; also when metrics raise. *)
Theorem C66_only_observes (Q P : Type) t (cost : agent_id -> rcost Q) xopt period (A : alg vec (@ostate Q P)) ms start w :
  (forall a, In a (agents t) -> stateless (cost a)) -> Forall (fun m => rm_interval m <> 0%Z) ms ->
  keeps_balance A -> balanced w ->
  fst (run_obs t cost xopt period A ms start w) = run t period A start w.
Proof.
  intros SL FI KB B.
  destruct (run_same t cost xopt eq (eq_equivalence Q) (fun a x q I => conj (eq_sym (proj1 (SL a I x q))) (eq_sym (proj2 (SL a I x q)))) period A KB) with (ms := ms) (start := start) (w := w) as (H1 & H2 & H3); auto.
  - split; [intros u u' E; apply same_eq in E; subst; repeat split; auto|]. intros k u u' E. apply same_eq in E. subst. repeat split; auto.
  - destruct (run t period A start w) as [o c v], (fst _) as [o' c' v']. cbn [r_out r_calls r_world] in *. subst o'. apply same_eq in H3. subst v'. f_equal.
    clear - H2. induction H2 as [|x y l l' H F IH]; [reflexivity|]. f_equal; [|exact IH].
    destruct x, y; cbn in H; try contradiction; [apply same_eq in H; subst; reflexivity|destruct H as (-> & H); apply same_eq in H; subst; reflexivity..].
Qed.

(** With other costs, the network, the algorithm's own state and all counters
    are untouched; private states of costs are related by any equivalence that
    calls respect, and so is the whole run if the algorithm respects it. *)
Theorem C66_counters_and_network_untouched (Q P : Type) t (cost : agent_id -> rcost Q) xopt iters ms k (w : world vec (@ostate Q P)) :
  balanced w -> Forall (fun m => rm_interval m <> 0%Z) ms ->
  let w' := snd (fst (update_all t cost xopt iters 0 ms k w)) in
  fst (fst w') = fst (fst w) /\ snd w' = snd w /\ same_count (o_count (snd (fst w))) (o_count (snd (fst w'))).
Proof.
  intros B F. destruct (update_all_same (P := P) t cost xopt (fun _ _ => True)) with (iters := iters) (k := k) (ms := ms) (i := 0%nat) (w := w) as ((H1 & _ & H3 & H4) & _ & _); auto.
  repeat split; auto.
Qed.
Theorem C66_same_run_up_to_forgotten_state (Q P : Type) t (cost : agent_id -> rcost Q) xopt period (A : alg vec (@ostate Q P)) ms start w (E : Q -> Q -> Prop) :
  equivalence E -> (forall a x q, In a (agents t) -> E q (snd (rc_fun (cost a) x q)) /\ E q (snd (rc_grad (cost a) x q))) ->
  respects E A -> Forall (fun m => rm_interval m <> 0%Z) ms -> keeps_balance A -> balanced w ->
  let r := run t period A start w in let r' := fst (run_obs t cost xopt period A ms start w) in
  r_out r = r_out r' /\ Forall2 (same_call E) (r_calls r) (r_calls r') /\ same_up_to E (r_world r) (r_world r').
Proof. intros EQ HC RS FI KB B. now apply run_same. Qed.

(** Linear regression on mini-batches of [b] of the samples [D]
    (Model/EmpiricalRisk.v), called with the default indices "batch". *)
Definition lr_cost (d : nat) (perm : nat -> list nat -> list nat) (D : dataset) (b : nat) : rcost sampler :=
  mkRCost (fun x s => match lr_function d perm D b x IxBatch s with (OVal v, s) => (Some v, s) | (_, s) => (None, s) end)
          (fun x s => match lr_gradient d perm D b x IxBatch s with (OVal (GVec v), s) => (Some v, s) | (_, s) => (None, s) end)
          (fun s => match sp_last s with Some l => length l | None => 0%nat end).
(** everything that decides later batches *)
Definition same_future (s s' : sampler) : Prop := sp_remaining s = sp_remaining s' /\ sp_draws s = sp_draws s'.

Lemma lr_state d perm D b x s : snd (rc_fun (lr_cost d perm D b) x s) = snd (sample_batch_indices perm (length D) b IxBatch s) /\
  snd (rc_grad (lr_cost d perm D b) x s) = snd (sample_batch_indices perm (length D) b IxBatch s).
Proof.
  cbn [lr_cost rc_fun rc_grad]. unfold lr_function, lr_gradient, lr_batch_data.
  destruct (sample_batch_indices perm (length D) b IxBatch s) as ([l|] & s'); [|auto]. cbn [snd].
  destruct (Nat.eqb (length l) (length D)).
  - destruct (Nat.eqb (length l) 0); [auto|]. destruct (squeeze _); auto.
  - destruct (py_rows D l) as [ps|]; [|auto]. destruct (Nat.eqb (length l) 0); auto.
Qed.

(** Full batches: later batches are not affected. *)
Theorem C66_full_batches (P : Type) t d perm (D : agent_id -> dataset) xopt period (A : alg vec (@ostate sampler P)) ms start w :
  let cost a := lr_cost d perm (D a) (length (D a)) in
  respects same_future A -> Forall (fun m => rm_interval m <> 0%Z) ms -> keeps_balance A -> balanced w ->
  let r := run t period A start w in let r' := fst (run_obs t cost xopt period A ms start w) in
  r_out r = r_out r' /\ Forall2 (same_call same_future) (r_calls r) (r_calls r') /\ same_up_to same_future (r_world r) (r_world r').
Proof.
  intros cost RS FI KB B. apply C66_same_run_up_to_forgotten_state; auto.
  - repeat split; unfold same_future in *; intuition congruence.
  - intros a x q _. unfold cost. destruct (lr_state d perm (D a) (length (D a)) x q) as (-> & ->). cbn [sample_batch_indices]. rewrite Nat.ltb_irrefl. split; split; reflexivity.
Qed.

(** Mini-batches: every evaluation consumes a batch the algorithm would have
    got, so watching a run changes it. *)
Definition one_node : topo := mkTopo [0%nat] (fun _ => []) None 1.
Definition idle_agent : agent vec := mkAgent (Some (fun _ => 0)) (h_run []) [] s_empty 0 0%Qc 0%Qc 0%Qc 0.
Definition mini_world : world vec (@ostate sampler R) :=
  ((0, mkO (fun _ => sp_new) c_init), mkNet (fun _ => idle_agent) 0 None [] 0 []).
Definition two_samples : dataset := [((fun _ => 1), 0); ((fun _ => 1), 2)].
Definition mini_cost (a : agent_id) : rcost sampler := lr_cost 1 (fun _ l => l) two_samples 1.
(** an algorithm that adds up the values of its cost at zero *)
Definition adder : alg vec (@ostate sampler R) :=
  mkAlg 2 (fun w => w) (fun _ w =>
    match oexec mini_cost [0%nat] (callF 0 (fun _ => 0) (fun v => Ret v)) (snd (fst w)) with
    | (Some v, o) => (((fst (fst w) + v, o), snd w), false)
    | (None, o) => (((fst (fst w), o), snd w), true)
    end).
Lemma adder_balanced : keeps_balance adder.
Proof.
  split; [auto|]. intros k w B. cbn [adder al_step]. unfold callF. cbn [oexec nth_error].
  unfold counted_call. destruct (rc_fun _ _ _) as ([v|] & s); cbn [fst snd]; [|exact B].
  intro a. cbn [fst snd o_count]. unfold do_call. cbn [negb]. destruct (_ <? _)%Z; apply (B a).
Qed.
Lemma adder_alone : exists v, fst (fst (r_world (run one_node (fun _ => 1%nat) adder 0 mini_world))) = v /\ v = 2.
Proof.
  eexists. split; [cbv - [Rplus Rmult Rminus Ropp Rdiv Rinv IZR]; reflexivity|]. lra.
Qed.
Lemma adder_watched : exists v, fst (fst (r_world (fst (run_obs one_node mini_cost None (fun _ => 1%nat) adder [RuntimeLoss 1] 0 mini_world)))) = v /\ v = 0.
Proof.
  eexists. split; [cbv - [Rplus Rmult Rminus Ropp Rdiv Rinv IZR]; reflexivity|]. lra.
Qed.
Theorem C66_minibatch_refuted :
  ~ (forall (Q P : Type) t (cost : agent_id -> rcost Q) xopt period (A : alg vec (@ostate Q P)) ms start w,
       Forall (fun m => rm_interval m <> 0%Z) ms -> keeps_balance A -> balanced w ->
       fst (fst (r_world (fst (run_obs t cost xopt period A ms start w)))) = fst (fst (r_world (run t period A start w)))).
Proof.
  intro H. specialize (H sampler R one_node mini_cost None (fun _ => 1%nat) adder [RuntimeLoss 1] 0%Z mini_world).
  destruct adder_alone as (v & E & V), adder_watched as (v' & E' & V'). rewrite E, E' in H.
  assert (v' = v); [|lra]. apply H; [constructor; [discriminate|constructor]|apply adder_balanced|intro a; cbn; lia].
Qed.

(** An interval of 0 is accepted by the constructor and makes the callback
    raise: the run ends after its first iteration. Other failures of a metric
    never stop a run ([C66_only_observes] covers raising programs). *)
Theorem C66_interval_zero_refuted :
  ~ (forall (Q P : Type) t (cost : agent_id -> rcost Q) xopt period (A : alg vec (@ostate Q P)) ms start w,
       (forall a, stateless (cost a)) -> keeps_balance A -> balanced w ->
       r_out (fst (run_obs t cost xopt period A ms start w)) = r_out (run t period A start w)).
Proof.
  intro H. pose (A := mkAlg 2 (fun w => w) (fun _ w => (w, false)) : alg vec (@ostate unit unit)).
  specialize (H unit unit one_node (fun _ => mkRCost (fun _ q => (Some 0, q)) (fun _ q => (None, q)) (fun _ => 1%nat)) None (fun _ => 1%nat) A [RuntimeLoss 0] 0%Z
    ((tt, mkO (fun _ => tt) c_init), mkNet (fun _ => idle_agent) 0 None [] 0 [])).
  assert (X : Raised 0 = Finished); [|discriminate]. apply H; [intros a x q; split; reflexivity|split; auto|intro a; cbn; lia].
Qed.

(** ** What is plotted *)
(** A metric sends exactly one point per iteration that is a multiple of its
    interval or the last, in order, with the value of the current variables;
    none where the value cannot be computed. *)
Theorem C66_points (Q P : Type) t (cost : agent_id -> rcost Q) xopt period (A : alg vec (@ostate Q P)) ms i m F start w :
  Forall (fun m => rm_interval m <> 0%Z) ms -> nth_error ms i = Some m -> reports (agents t) cost xopt m F ->
  let (r, ps) := run_obs t cost xopt period A ms start w in
  sent i ps = flat_map (point_at (agents t) (rm_interval m) (al_iters A) F) (r_calls r).
Proof.
  intros FI N HR. pose proof (run_sent t cost xopt period A F ms i m start w FI N HR) as X. cbn zeta in X.
  destruct (run_obs t cost xopt period A ms start w) as (r & ps). exact X.
Qed.

Section Library.
  Context {Q : Type}.
  Variables (ags : list agent_id) (cost : agent_id -> rcost Q) (f : agent_id -> vec -> option R) (g : agent_id -> vec -> option vec).
  (** the values of the costs do not depend on their private state *)
  Hypothesis PF : forall a x q, In a ags -> fst (rc_fun (cost a) x q) = f a x.
  Hypothesis PG : forall a x q, In a ags -> fst (rc_grad (cost a) x q) = g a x.

  (** mean over agents of f_i(x_i) *)
  Theorem C66_loss interval xopt : reports ags cost xopt (RuntimeLoss interval) (fun xs _ => option_map Fin (agent_mean (at_agent ags f) xs)).
  Proof using PF.
    exists (fun _ => True). split; [exact I|]. intros c xs k o L _. cbn [RuntimeLoss rm_compute]. rewrite oexec_bind.
    pose proof (loss_spec ags cost f PF xs o) as S. destruct (oexec cost ags (loss_prog xs) o) as ([v|] & o'); cbn [fst] in S |- *; rewrite <- S; cbn; auto.
  Qed.
  (** mean over agents of |grad f_i(x_i)| *)
  Theorem C66_gradient_norm d interval xopt : reports ags cost xopt (RuntimeGradientNorm d interval)
    (fun xs _ => option_map Fin (agent_mean (at_agent ags (fun a x => option_map (l2norm d) (g a x))) xs)).
  Proof using PG.
    exists (fun _ => True). split; [exact I|]. intros c xs k o L _. cbn [RuntimeGradientNorm rm_compute]. rewrite oexec_bind.
    pose proof (gradnorm_spec ags cost g PG d xs o) as S. destruct (oexec cost ags (obind _ _) o) as ([v|] & o'); cbn [fst] in S |- *; rewrite <- S; cbn; auto.
  Qed.
  (** mean of f_i(x_i) less mean of f_i(x_opt), at every update although the
      second is computed once; NaN without an optimum *)
  Theorem C66_regret interval xopt : reports ags cost xopt (RuntimeRegret interval) (fun xs _ =>
    match xopt with
    | None => Some NaN
    | Some xo => match agent_mean (at_agent ags f) xs, agent_mean (at_agent ags f) (map (fun _ => Some xo) ags) with
                 | Some v, Some o => Some (Fin (v - o)) | _, _ => None end
    end).
  Proof using PF.
    destruct xopt as [xo|]; [|exists (fun _ => True); split; [exact I|]; intros; cbn; auto].
    exists (fun c => c = None \/ c = agent_mean (at_agent ags f) (map (fun _ => Some xo) ags)). split; [left; reflexivity|].
    intros c xs k o L IC. cbn [RuntimeRegret rm_compute]. rewrite oexec_bind.
    pose proof (loss_spec ags cost f PF xs o) as S. destruct (oexec cost ags (loss_prog xs) o) as ([v|] & o'); cbn [fst] in S |- *; rewrite <- S; [|reflexivity].
    assert (EX : map (fun _ => Some xo) xs = map (fun _ : agent_id => Some xo) ags).
    { clear - L. revert ags L. induction xs as [|x xs IH]; intros [|a ags] L; cbn in *; try discriminate; [reflexivity|]. f_equal. apply IH. congruence. }
    destruct c as [c|].
    - destruct IC as [|IC]; [discriminate|]. cbn [oexec fst]. rewrite <- IC. auto.
    - rewrite EX. rewrite oexec_bind. pose proof (loss_spec ags cost f PF (map (fun _ => Some xo) ags) o') as S'.
      destruct (oexec cost ags (loss_prog _) o') as ([v'|] & o''); cbn [fst oexec] in S' |- *; rewrite <- S'; auto.
  Qed.
End Library.

(** mean distance of the agents from their average *)
Lemma all_x_some xs : all_x xs = all_some xs.
Proof. induction xs as [|[x|] xs IH]; cbn; auto. now rewrite IH. Qed.
Theorem C66_consensus_error (Q : Type) ags (cost : agent_id -> rcost Q) xopt d interval : reports ags cost xopt (RuntimeConsensusError d interval)
  (fun xs _ => match all_some xs with
               | None | Some [] => None
               | Some l => Some (Fin (mean (map (fun x => l2norm d (fun i => x i - mean (map (fun y => y i) l))) l)))
               end).
Proof.
  exists (fun _ => True). split; [exact I|]. intros c xs k o L _. cbn [RuntimeConsensusError rm_compute]. rewrite all_x_some.
  destruct (all_some xs) as [[|x l]|]; [reflexivity| |reflexivity]. cbn [oexec fst]. split; [|exact I]. do 2 f_equal. unfold mean at 1. rewrite map_length. f_equal.
  f_equal. apply map_ext. intro y. f_equal. unfold vsub. apply FunctionalExtensionality.functional_extensionality. intro i. f_equal. unfold vscal, mean. rewrite map_length.
  unfold Rdiv. rewrite Rmult_comm. f_equal.
  clear. generalize (x :: l). intro xs. unfold vsum, rsum.
  assert (X : forall v r, v i = r -> fold_left vadd xs v i = fold_left Rplus (map (fun y => y i) xs) r).
  { induction xs as [|z xs IH]; intros v r E; cbn [fold_left map]; [exact E|]. apply IH. unfold vadd. now rewrite E. }
  symmetry. apply X. reflexivity.
Qed.

(** Instance: one agent with cost x^2/2 (as a value, no state) moving from 4 to
    2, 1, 1/2 in three iterations; the loss every second iteration and at the
    last, the regret every third, and one metric that always fails. *)
Definition sq_cost (a : agent_id) : rcost unit := mkRCost (fun x q => (Some (x 0%nat * x 0%nat / 2), q)) (fun x q => (Some x, q)) (fun _ => 1%nat).
Definition halver : alg vec (@ostate unit unit) :=
  mkAlg 3 (fun w => (fst w, upd_agent 0%nat (set_x (fun _ => 4)) (snd w)))
    (fun _ w => ((fst w, upd_agent 0%nat (fun g => match a_x g with Some x => set_x (vscal (/2) x) g | None => g end) (snd w)), false)).
Definition halver_world : world vec (@ostate unit unit) := ((tt, mkO (fun _ => tt) c_init), mkNet (fun _ => idle_agent) 0 None [] 0 []).
Definition failing : rmetric := mkRM 1 None (fun _ _ _ _ => Raise).
Definition watched : list rmetric := [RuntimeLoss 2; failing; RuntimeRegret 3].
Example C66_case :
  fst (run_obs one_node sq_cost (Some (fun _ => 1)) (fun _ => 1%nat) halver watched 0 halver_world) = run one_node (fun _ => 1%nat) halver 0 halver_world /\
  r_out (run one_node (fun _ => 1%nat) halver 0 halver_world) = Finished /\
  exists l0 l2 r0 r2, sent 0 (snd (run_obs one_node sq_cost (Some (fun _ => 1)) (fun _ => 1%nat) halver watched 0 halver_world)) = [(0%nat, Fin l0); (2%nat, Fin l2)] /\
    sent 1 (snd (run_obs one_node sq_cost (Some (fun _ => 1)) (fun _ => 1%nat) halver watched 0 halver_world)) = [] /\
    sent 2 (snd (run_obs one_node sq_cost (Some (fun _ => 1)) (fun _ => 1%nat) halver watched 0 halver_world)) = [(0%nat, Fin r0); (2%nat, Fin r2)] /\
    l0 = 2 /\ l2 = 1/8 /\ r0 = 3/2 /\ r2 = -3/8.
Proof.
  split; [|split].
  - apply C66_only_observes; [intros a _ x q; split; reflexivity|repeat constructor; discriminate|split; auto|intro a; cbn; lia].
  - reflexivity.
  - do 4 eexists. split; [cbv - [Rplus Rmult Rminus Ropp Rdiv Rinv IZR]; reflexivity|].
    split; [cbv - [Rplus Rmult Rminus Ropp Rdiv Rinv IZR]; reflexivity|]. split; [cbv - [Rplus Rmult Rminus Ropp Rdiv Rinv IZR]; reflexivity|].
    repeat split; field.
Qed.

Print Assumptions C66_only_observes.
Print Assumptions C66_counters_and_network_untouched.
Print Assumptions C66_same_run_up_to_forgotten_state.
Print Assumptions C66_full_batches.
Print Assumptions C66_minibatch_refuted.
Print Assumptions C66_interval_zero_refuted.
Print Assumptions C66_points.
Print Assumptions C66_loss.
Print Assumptions C66_gradient_norm.
Print Assumptions C66_regret.
Print Assumptions C66_consensus_error.
