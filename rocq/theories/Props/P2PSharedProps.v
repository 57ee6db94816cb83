(** C33, C34, C36 for DLM and DiNNO, which write into received arrays. *)
From Coq Require Import Reals String List Bool Arith ZArith QArith.Qcanon Lia Lra FunctionalExtensionality.
From Verif.Model Require Import PyDict History Messages Network Runner Vec P2P P2PShared.
From Verif.Spec Require Import NetworkSpec P2PSpec P2PSharedSpec.
From Verif.Proofs Require Import EmpiricalProofs P2PRuns P2PSharedProofs P2PSharedRuns P2PSharedSteps P2PSharedSync.
From Verif.Props Require Import P2PProps.
Import ListNotations.
Open Scope R_scope.

(** ** When sharing is harmless *)
(** On any network, reliable or not, a run makes the same calls on the same
    states as that of the program in which [+=] and [/=] create new arrays, and
    ends the same way, if: the framework's arrays are immutable ([ip = false]:
    TensorFlow, JAX), or no two receivers of one agent sum its array with others
    (for DLM: every component is a star; for DiNNO: at most one neighbour each),
    or, for DLM, every message carries noise. *)
Theorem C33_dlm_as_without_sharing t e period N ip grad mu rho x0 w : p2p_topo t ->
  ip = false \/ stars t \/ noisy_sends e ->
  plain_res (run t period (shared t e N (dlm_init x0) (dlm ip grad mu rho)) 0 w) =
  run t period (p2p t e N (plain_init (dlm_init x0)) (dlm_plain grad mu rho)) 0 (plain_world w).
Proof. intros (WF & SV & _) H. apply run_sim; auto. intro k. now apply dlm_sims. Qed.

Theorem C33_dinno_as_without_sharing t e period N ip grad a rho B x0 w : p2p_topo t ->
  ip = false \/ pairs t ->
  plain_res (run t period (shared t e N (dinno_init x0) (dinno ip grad a rho B)) 0 w) =
  run t period (p2p t e N (plain_init (dinno_init x0)) (dinno_plain grad a rho B)) 0 (plain_world w).
Proof. intros (WF & SV & _) H. apply run_sim; auto. intro k. now apply dinno_sims. Qed.

(** ** The recursions on reliable synchronous networks *)
Section Sync.
  Variables (t : topo) (e : env vec).
  Hypothesis PT : p2p_topo t.
  Hypothesis SY : synchronous e.
  Variables (ip : bool) (grad : nat -> agent_id -> vec -> vec) (period : agent_id -> nat) (N : nat).
  Variable w : world buf (nat * heap).
  Notation nodes := (t_nodes t).

  (** DLM: after a first iteration that only exchanges the states,
      x' = x - mu (g + rho s + y) and y' = y + rho s', where s is the sum of the
      differences to the neighbours. *)
  Theorem C33_dlm_run mu rho x0 : ip = false \/ stars t ->
    let A := shared t e N (dlm_init x0) (dlm ip grad mu rho) in
    exists X Y G, strajectory t period A w X /\ saux_trajectory t period A w "y" Y /\
      (forall i, X 0%nat i = x0 i /\ Y 0%nat i = vzero) /\
      (forall i, (0 < N)%nat -> In i nodes -> X 1%nat i = X 0%nat i /\ Y 1%nat i = Y 0%nat i) /\
      forall k i, (0 < k < N)%nat -> In i nodes -> gradient_of grad i (X k i) (G k i) /\
        X (S k) i = vsub (X k i) (vscal mu (vadd (vadd (G k i) (vscal rho (disagreement t (X k) i))) (Y k i))) /\
        Y (S k) i = vadd (Y k i) (vscal rho (disagreement t (X (S k)) i)).
  Proof.
    intros H A. destruct (dlm_plain_run t e PT SY grad period N mu rho x0 (plain_world w)) as (X & Y & G & T1 & T2 & R).
    assert (EQ := C33_dlm_as_without_sharing t e period N ip grad mu rho x0 w PT ltac:(tauto)).
    exists X, Y, G. split; [|split; [|exact R]].
    - eapply lift_traj; [|exact EQ|exact T1]. reflexivity.
    - eapply lift_aux; [|exact EQ|exact T2]. reflexivity.
  Qed.

  (** The mean of the states then moves by minus [mu] times the mean gradient. *)
  Theorem C34_dlm_mean mu rho x0 : ip = false \/ stars t ->
    let A := shared t e N (dlm_init x0) (dlm ip grad mu rho) in
    exists X Y G, strajectory t period A w X /\ saux_trajectory t period A w "y" Y /\ (forall i, X 0%nat i = x0 i) /\
      (forall k i, (0 < k < N)%nat -> In i nodes -> gradient_of grad i (X k i) (G k i)) /\
      (forall k, (k <= N)%nat -> total_of t (Y k) = vzero) /\
      forall k, (0 < k < N)%nat -> mean_of t (X (S k)) = vsub (mean_of t (X k)) (vscal mu (mean_of t (G k))).
  Proof.
    intros H A. destruct (C33_dlm_run mu rho x0 H) as (X & Y & G & T1 & T2 & R0 & R1 & R). exists X, Y, G.
    assert (TY : forall k, (k <= N)%nat -> total_of t (Y k) = vzero).
    { induction k as [|k IH]; intro Hk.
      - rewrite (total_ext t _ (fun _ => vzero)); [apply total_zero|]. intros i _. apply R0.
      - destruct k as [|k].
        + rewrite (total_ext t _ (Y 0%nat)); [apply IH; lia|]. intros i Hi. apply (R1 i); auto.
        + rewrite (total_ext t _ (fun i => vadd (Y (S k) i) (vscal rho (disagreement t (X (S (S k))) i)))).
          * rewrite total_add, total_scal, (total_disagreement t PT), IH by lia. apply functional_extensionality. intro c. unfold vadd, vscal, vzero. ring.
          * intros i Hi. apply (R (S k) i); auto. lia. }
    split; [exact T1|]. split; [exact T2|]. split; [intro; apply R0|]. split; [intros k i Hk Hi; apply (R k i Hk Hi)|]. split; [exact TY|].
    intros k Hk. apply (mean_moves t mu (X k) (X (S k)) (G k) (Y k) rho (disagreement t (X k))); auto.
    - now apply total_disagreement.
    - apply TY. lia.
    - intros i Hi. apply (R k i Hk Hi).
  Qed.

  (** DiNNO: p' = p + rho sum_j (x_i - x_j), then [B] steps
      psi <- psi - a (g + p' + 2 rho sum_j (psi - (x_i + x_j)/2)) from x_i on. *)
  Theorem C33_dinno_run a rho B x0 : ip = false \/ pairs t ->
    let A := shared t e N (dinno_init x0) (dinno ip grad a rho B) in
    exists X P Sg, strajectory t period A w X /\ saux_trajectory t period A w "p" P /\
      (forall i, X 0%nat i = x0 i /\ P 0%nat i = vzero) /\
      forall k i, (k < N)%nat -> In i nodes ->
        P (S k) i = vadd (P k i) (vscal rho (disagreement t (X k) i)) /\
        local_steps grad i
          (fun psi g => vsub psi (vscal a (vadd (vadd g (P (S k) i))
             (vscal (2 * rho) (fun c => rsum (map (fun j => psi c - (X k i c + X k j c) / 2) (t_adj t i)))))))
          B (X k i) (X (S k) i) (Sg k i).
  Proof.
    intros H A. destruct (dinno_plain_run t e PT SY grad period N a rho B x0 (plain_world w)) as (X & P & Sg & T1 & T2 & R).
    assert (EQ := C33_dinno_as_without_sharing t e period N ip grad a rho B x0 w PT H).
    exists X, P, Sg. split; [|split; [|exact R]].
    - eapply lift_traj; [|exact EQ|exact T1]. reflexivity.
    - eapply lift_aux; [|exact EQ|exact T2]. reflexivity.
  Qed.

End Sync.
Section Fixed.
  Variables (t : topo) (e : env vec).
  Hypothesis PT : p2p_topo t.
  Hypothesis SY : synchronous e.
  Variables (ip : bool) (grad : nat -> agent_id -> vec -> vec).
  Notation nodes := (t_nodes t).
  (** A consensual point [xs] with gradients [G i] there is kept, with y = -G,
      s = 0 (DLM) or p = -G (DiNNO). *)
  Variables (xs : vec) (G : agent_id -> vec).
  Hypothesis GR : forall n i, In i nodes -> grad n i xs = G i.
  Theorem C36_dlm_fixed mu rho k d h st : ip = false \/ stars t -> stale h st ->
    (forall i, In i nodes -> state_is (plain_net st) i xs /\ aux_is (plain_net st) i "y" (vscal (-1) (G i)) /\ aux_is (plain_net st) i "s" vzero) ->
    exists d' h' st', do_sphases t e (dlm ip grad mu rho k) ((d, h), step t k st) = (((d', h'), st'), false) /\
      (forall i, In i nodes -> state_is (plain_net st') i xs /\ aux_is (plain_net st') i "y" (vscal (-1) (G i)) /\ aux_is (plain_net st') i "s" vzero).
  Proof.
    intros HC ST H. destruct (dlm_plain_fixed t e PT SY grad xs G GR mu rho k d (plain_net st) H) as (d' & st' & E & Q).
    pose proof (sims_ok t e _ _ _ _ (dlm_sims t e (proj1 PT) (proj1 (proj2 PT)) ip grad mu rho k ltac:(tauto)) (n_draws st) d h (step t k st) (inv_step t e k st) ST) as (S1 & _).
    cbn zeta in S1. rewrite p_step in E. rewrite E in S1. destruct (do_sphases t e (dlm ip grad mu rho k) (d, h, step t k st)) as [[[d2 h2] st2] b].
    unfold pr, pw, plain_world in S1. cbn [fst snd] in S1. injection S1 as -> -> <-. exists d2, h2, st2. auto.
  Qed.
  Theorem C36_dinno_fixed a rho B k d h st : ip = false \/ pairs t -> stale h st ->
    (forall i, In i nodes -> state_is (plain_net st) i xs /\ aux_is (plain_net st) i "p" (vscal (-1) (G i))) ->
    exists d' h' st', do_sphases t e (dinno ip grad a rho B k) ((d, h), step t k st) = (((d', h'), st'), false) /\
      (forall i, In i nodes -> state_is (plain_net st') i xs /\ aux_is (plain_net st') i "p" (vscal (-1) (G i))).
  Proof.
    intros HC ST H. destruct (dinno_plain_fixed t e PT SY grad xs G GR a rho B k d (plain_net st) H) as (d' & st' & E & Q).
    pose proof (sims_ok t e _ _ _ _ (dinno_sims t e (proj1 PT) (proj1 (proj2 PT)) ip grad a rho B k HC) (n_draws st) d h (step t k st) (inv_step t e k st) ST) as (S1 & _).
    cbn zeta in S1. rewrite p_step in E. rewrite E in S1. destruct (do_sphases t e (dinno ip grad a rho B k) (d, h, step t k st)) as [[[d2 h2] st2] b].
    unfold pr, pw, plain_world in S1. cbn [fst snd] in S1. injection S1 as -> -> <-. exists d2, h2, st2. auto.
  Qed.
End Fixed.

(** The hypotheses are met: two agents, one neighbour each. *)
Definition sblank : world buf (nat * heap) := ((0%nat, no_writes), mkNet (fun _ => new_agent) 0 None [] 0 []).
Example two_small : stars two /\ pairs two.
Proof. split; [intros [|[|i]] j; cbn; intros; try lia; contradiction|intros [|[|i]]; cbn; lia]. Qed.
Example dlm_two grad : exists X Y G,
  let A := shared two sync_env 3 (dlm_init (fun _ => vzero)) (dlm true grad 1 1) in
  strajectory two (fun _ => 1%nat) A sblank X /\ saux_trajectory two (fun _ => 1%nat) A sblank "y" Y /\
  X 3%nat 0%nat = vsub (X 2%nat 0%nat) (vscal 1 (vadd (vadd (G 2%nat 0%nat) (vscal 1 (disagreement two (X 2%nat) 0%nat))) (Y 2%nat 0%nat))).
Proof.
  destruct (C33_dlm_run two sync_env two_ok sync_ok true grad (fun _ => 1%nat) 3 sblank 1 1 (fun _ => vzero) (or_intror (proj1 two_small))) as (X & Y & G & T1 & T2 & _ & _ & R).
  exists X, Y, G. split; [exact T1|]. split; [exact T2|]. apply (R 2%nat 0%nat); [lia|cbn; auto].
Qed.

(** ** When it is not *)
(** Three connected agents; three agents in a row. *)
Definition triangle : topo := mkTopo [0%nat; 1%nat; 2%nat]
  (fun a => match a with 0%nat => [1%nat; 2%nat] | 1%nat => [0%nat; 2%nat] | 2%nat => [0%nat; 1%nat] | _ => [] end) None 1.
Definition path3 : topo := mkTopo [0%nat; 1%nat; 2%nat]
  (fun a => match a with 0%nat => [1%nat] | 1%nat => [0%nat; 2%nat] | 2%nat => [1%nat] | _ => [] end) None 1.
Lemma triangle_ok : p2p_topo triangle.
Proof.
  split; [|split; [reflexivity|]].
  - split; [repeat constructor; cbn; intuition; discriminate|]. split; [|split; [|exact I]].
    + intros [|[|[|a]]] b; cbn; intuition; subst; cbn; auto.
    + intros [|[|[|a]]]; cbn; repeat constructor; cbn; intuition; discriminate.
  - intros [|[|[|a]]]; cbn; intuition; discriminate.
Qed.
Lemma path3_ok : p2p_topo path3.
Proof.
  split; [|split; [reflexivity|]].
  - split; [repeat constructor; cbn; intuition; discriminate|]. split; [|split; [|exact I]].
    + intros [|[|[|a]]] b; cbn; intuition; subst; cbn; auto.
    + intros [|[|[|a]]]; cbn; repeat constructor; cbn; intuition; discriminate.
  - intros [|[|[|a]]]; cbn; intuition; discriminate.
Qed.
Definition ones : vec := fun _ => 1.
Definition flat : nat -> agent_id -> vec -> vec := fun _ _ _ => vzero.

(** With arrays written in place (NumPy, PyTorch) on three connected agents, all
    at the same point and all gradients zero there, the third agent moves. *)
Theorem C36_dlm_shared_refuted mu rho : mu * rho <> 0 ->
  let r := run triangle (fun _ => 1%nat) (shared triangle sync_env 2 (dlm_init (fun _ => ones)) (dlm true flat mu rho)) 0 sblank in
  r_out r = Finished /\
  exists v, state_is (plain_net (snd (r_world r))) 2%nat v /\ v 0%nat = 1 + 2 * (mu * rho) /\ v 0%nat <> 1.
Proof.
  intros H r.
  assert (E : exists v, r_out r = Finished /\ a_x (n_agents (plain_net (snd (r_world r))) 2%nat) = Some v /\ v 0%nat = 1 + 2 * (mu * rho)).
  { eexists. unfold r. cbv - [Rplus Rmult Rminus Ropp Rdiv Rinv IZR INR]. split; [reflexivity|]. split; [reflexivity|].
    cbn [INR]. ring. }
  destruct E as (v & E0 & E1 & E2). split; [exact E0|]. exists v. split; [exact E1|]. split; [exact E2|]. rewrite E2. lra.
Qed.

(** So the recursion of [C33_dlm_run] does not hold on every network. *)
Theorem C33_dlm_shared_refuted :
  ~ (forall t e grad period N w mu rho x0, p2p_topo t -> synchronous e ->
      exists X Y G, strajectory t period (shared t e N (dlm_init x0) (dlm true grad mu rho)) w X /\
        (forall i, X 0%nat i = x0 i /\ Y 0%nat i = vzero) /\
        (forall i, (0 < N)%nat -> In i (t_nodes t) -> X 1%nat i = X 0%nat i /\ Y 1%nat i = Y 0%nat i) /\
        forall k i, (0 < k < N)%nat -> In i (t_nodes t) -> gradient_of grad i (X k i) (G k i) /\
          X (S k) i = vsub (X k i) (vscal mu (vadd (vadd (G k i) (vscal rho (disagreement t (X k) i))) (Y k i)))).
Proof.
  intro H. destruct (H triangle sync_env flat (fun _ => 1%nat) 2%nat sblank 1 1 (fun _ => ones) triangle_ok sync_ok) as (X & Y & G & (_ & _ & _ & T) & R0 & R1 & R).
  destruct (C36_dlm_shared_refuted 1 1) as (_ & v & V1 & V2 & V3); [lra|].
  assert (Hi : forall i, In i [0%nat; 1%nat; 2%nat] -> X 1%nat i = ones /\ Y 1%nat i = vzero).
  { intros i Hi. destruct (R1 i) as (-> & ->); [lia|exact Hi|]. apply R0. }
  assert (H2 : In 2%nat [0%nat; 1%nat; 2%nat]) by (cbn; auto).
  specialize (T 2%nat H2). unfold state_is in T, V1. cbn [al_iters shared] in T. rewrite T in V1. injection V1 as V1.
  destruct (R 1%nat 2%nat) as ((n & Rg) & Rx); [lia|exact H2|]. rewrite Rg in Rx. rewrite Rx in V1.
  apply V3. rewrite <- V1. unfold vsub, vscal, vadd, flat, vzero, disagreement. cbn [triangle t_adj map]. rewrite !rsum_cons, rsum_nil.
  destruct (Hi 0%nat) as (-> & _); [cbn; auto|]. destruct (Hi 1%nat) as (-> & _); [cbn; auto|]. destruct (Hi 2%nat H2) as (-> & ->). unfold ones, vzero. ring.
Qed.

(** DiNNO, on three agents in a row: the array of the middle agent is halved by
    the first agent before the third uses it. *)
Theorem C36_dinno_shared_refuted a rho : a * rho <> 0 ->
  let r := run path3 (fun _ => 1%nat) (shared path3 sync_env 1 (dinno_init (fun _ => ones)) (dinno true flat a rho 1)) 0 sblank in
  r_out r = Finished /\
  exists v, state_is (plain_net (snd (r_world r))) 2%nat v /\ v 0%nat = 1 - (a * rho) / 2 /\ v 0%nat <> 1.
Proof.
  intros H r.
  assert (E : exists v, r_out r = Finished /\ a_x (n_agents (plain_net (snd (r_world r))) 2%nat) = Some v /\ v 0%nat = 1 - (a * rho) / 2).
  { eexists. unfold r. cbv - [Rplus Rmult Rminus Ropp Rdiv Rinv IZR INR]. split; [reflexivity|]. split; [reflexivity|].
    cbn [INR]. field. }
  destruct E as (v & E0 & E1 & E2). split; [exact E0|]. exists v. split; [exact E1|]. split; [exact E2|]. rewrite E2. lra.
Qed.
Theorem C33_dinno_shared_refuted :
  ~ (forall t e grad period N w a rho B x0, p2p_topo t -> synchronous e ->
      exists X P Sg, strajectory t period (shared t e N (dinno_init x0) (dinno true grad a rho B)) w X /\
        (forall i, X 0%nat i = x0 i /\ P 0%nat i = vzero) /\
        forall k i, (k < N)%nat -> In i (t_nodes t) ->
          P (S k) i = vadd (P k i) (vscal rho (disagreement t (X k) i)) /\
          local_steps grad i
            (fun psi g => vsub psi (vscal a (vadd (vadd g (P (S k) i))
               (vscal (2 * rho) (fun c => rsum (map (fun j => psi c - (X k i c + X k j c) / 2) (t_adj t i)))))))
            B (X k i) (X (S k) i) (Sg k i)).
Proof.
  intro H. destruct (H path3 sync_env flat (fun _ => 1%nat) 1%nat sblank 1 1 1%nat (fun _ => ones) path3_ok sync_ok) as (X & P & Sg & (_ & _ & _ & T) & R0 & R).
  destruct (C36_dinno_shared_refuted 1 1) as (_ & v & V1 & V2 & V3); [lra|].
  assert (H2 : In 2%nat [0%nat; 1%nat; 2%nat]) by (cbn; auto).
  specialize (T 2%nat H2). unfold state_is in T, V1. cbn [al_iters shared] in T. rewrite T in V1. injection V1 as V1.
  destruct (R 0%nat 2%nat) as (RP & RL); [lia|exact H2|]. rewrite V1 in RL.
  inversion RL as [|n x g z s Hg RL2 E1 E2 E3]; subst. inversion RL2; subst. destruct Hg as (n & ->).
  apply V3. match goal with K : vsub _ _ = X 1%nat 2%nat |- _ => rewrite <- K end. cbn [path3 t_adj map]. unfold vsub, vscal, vadd. rewrite RP. unfold vadd, vscal, disagreement. cbn [path3 t_adj map]. rewrite !rsum_cons, !rsum_nil.
  destruct (R0 1%nat) as (-> & _). destruct (R0 2%nat) as (-> & ->). unfold flat, ones, vzero. field.
Qed.

(** Examples for the theorems of the section: the hypotheses of the fixed-point
    theorems hold of a network of two agents at rest. *)
Definition rest : net buf :=
  mkNet (fun _ => mkAgent (Some (own ones)) h_empty [("y"%string, AArr (own vzero)); ("p"%string, AArr (own vzero)); ("s"%string, AArr (own vzero))]
    [] 0 0%Qc 0%Qc 0%Qc 0) 0 None [] 0 [].
Example dlm_rest mu rho : exists d' h' st', do_sphases two sync_env (dlm true flat mu rho 5) ((0%nat, no_writes), step two 5 rest) = (((d', h'), st'), false) /\
  state_is (plain_net st') 1%nat ones.
Proof.
  destruct (C36_dlm_fixed two sync_env two_ok sync_ok true flat ones (fun _ => vzero) ltac:(reflexivity) mu rho 5 0 no_writes rest) as (d' & h' & st' & E & Q).
  - right. apply two_small.
  - intros g Hg. now elim Hg.
  - assert (Z : vscal (-1) vzero = vzero) by (apply functional_extensionality; intro c; unfold vscal, vzero; ring).
    intros i _. unfold state_is, aux_is. rewrite Z. auto.
  - exists d', h', st'. split; [exact E|]. apply Q. cbn. auto.
Qed.
Example dinno_two grad : exists X P,
  let A := shared two sync_env 2 (dinno_init (fun _ => ones)) (dinno true grad 1 1 3) in
  strajectory two (fun _ => 1%nat) A sblank X /\ saux_trajectory two (fun _ => 1%nat) A sblank "p" P /\
  P 2%nat 0%nat = vadd (P 1%nat 0%nat) (vscal 1 (disagreement two (X 1%nat) 0%nat)).
Proof.
  destruct (C33_dinno_run two sync_env two_ok sync_ok true grad (fun _ => 1%nat) 2 sblank 1 1 3 (fun _ => ones) (or_intror (proj2 two_small))) as (X & P & Sg & T1 & T2 & _ & R).
  exists X, P. split; [exact T1|]. split; [exact T2|]. apply (R 1%nat 0%nat); [lia|cbn; auto].
Qed.
(** a star that is not a pair *)
Example path3_star : stars path3 /\ ~ pairs path3 /\ ~ stars triangle.
Proof.
  split; [|split].
  - intros [|[|[|i]]] j; cbn; intros; try lia; try contradiction. destruct H as [<-|[<-|[]]]; reflexivity.
  - intro H. specialize (H 1%nat). cbn in H. lia.
  - intro H. specialize (H 0%nat 1%nat). cbn in H. discriminate H; auto.
Qed.

Print Assumptions C33_dlm_as_without_sharing.
Print Assumptions C33_dinno_as_without_sharing.
Print Assumptions C33_dlm_run.
Print Assumptions C34_dlm_mean.
Print Assumptions C33_dinno_run.
Print Assumptions C36_dlm_fixed.
Print Assumptions C36_dinno_fixed.
Print Assumptions C36_dlm_shared_refuted.
Print Assumptions C36_dinno_shared_refuted.
Print Assumptions C33_dlm_shared_refuted.
Print Assumptions C33_dinno_shared_refuted.
