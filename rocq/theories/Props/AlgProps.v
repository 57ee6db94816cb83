(** C04, C32 and C61 for the library's own algorithms. *)
From Coq Require Import Reals String List Bool Arith ZArith QArith.Qcanon Lia Lra.
From Verif.Model Require Import PyDict History Messages Network Runner Vec P2P Fed.
From Verif.Spec Require Import HistorySpec NetworkSpec RunnerSpec P2PSpec FedSpec AlgSpec CountSpec.
From Verif.Proofs Require Import PyDictProofs HistoryProofs NetworkProofs NetworkInv RunnerProofs P2PLock FedLock FedSelect AlgClient CountX.
From Verif.Props Require Import RunnerProps P2PProps FedProps.
Import ListNotations.
Open Scope nat_scope.

(** ** C04 *)
(** Any network conditions, any parameters: after a finished run every agent's
    history has exactly the keys 0 and the due iterations, and the value recorded
    for [n + 1] is the x that the callback of iteration [n] sees. *)
Definition schedule_kept (t : topo) (period : agent_id -> nat) (A : alg vec nat) (w : world vec nat) (a : agent_id) : Prop :=
  let r := run t period A 0 w in
  let h := a_hist (n_agents (snd (r_world r)) a) in
  (forall k, In k (h_keylist h) <-> k = 0%Z \/ exists n, k = Z.of_nat n /\ due (period a) (al_iters A) n) /\
  (forall v, a_x (n_agents (snd (al_init A w)) a) = Some v -> h_get h 0 = Ok v) /\
  (forall n, n < al_iters A -> exists w' v, In (CCallback n w') (r_calls r) /\
     a_x (n_agents (snd w') a) = Some v /\
     (due (period a) (al_iters A) (n + 1) -> h_get h (Z.of_nat (n + 1)) = Ok v)).

Lemma schedule_of t (e : env vec) period A w a x0 : NoDup (t_nodes t) -> In a (t_nodes t) -> client_code t e A ->
  initialised (snd (al_init A w)) a x0 -> r_out (run t period A 0 w) = Finished -> schedule_kept t period A w a.
Proof.
  intros ND IN CC I O. destruct (C04_snapshot_schedule _ _ t e period A w a x0 ND IN CC I O) as (K & Z & C).
  split; [exact K|]. split; [|exact C]. intros v E. destruct I as (E' & _). congruence.
Qed.
Theorem C04_peer_to_peer t e period grad prox N A w a : NoDup (t_nodes t) -> t_server t = None -> p2p_class t e grad prox N A ->
  In a (t_nodes t) -> r_out (run t period A 0 w) = Finished -> schedule_kept t period A w a.
Proof.
  intros ND NS CL IN O. destruct (p2p_class_ok t e grad prox N A CL) as (CC & _).
  assert (I : exists x0, initialised (snd (al_init A w)) a x0).
  { destruct CL; cbn [p2p al_init]; unfold do_init; rewrite (agents_p2p t NS); apply do_init_in; auto. }
  destruct I as (x0 & I). eapply schedule_of; eauto.
Qed.
Theorem C04_federated t e period grad prox sv sch N A w a : wf_topo t -> t_server t = Some sv -> fed_class t e grad prox sv sch N A ->
  In a (t_nodes t) -> r_out (run t period A 0 w) = Finished -> schedule_kept t period A w a.
Proof.
  intros WF SV CL IN O. destruct (fed_class_ok t e sv grad prox sch N A CL) as (CC & _).
  destruct (fed_class_form t e sv grad prox sch N A CL) as (x0 & saux & caux & round & -> & _).
  refine (schedule_of t e period _ w a (x0 a) (proj1 WF) IN CC _ O). cbn [fed al_init].
  destruct (Nat.eq_dec a sv) as [->|NE].
  - unfold initialised, fed_init. cbn [snd]. rewrite fold_init by (apply agents_NoDup, WF).
    replace (memb sv (agents t)) with false.
    + cbn. unfold upd. rewrite Nat.eqb_refl. split; reflexivity.
    + symmetry. apply not_true_is_false. intro H. apply memb_In in H. unfold agents, is_server in H. rewrite SV in H.
      apply filter_In in H. destruct H as (_ & H). now rewrite Nat.eqb_refl in H.
  - apply init_client; auto. unfold agents, is_server. rewrite SV. apply filter_In. split; auto. apply Nat.eqb_neq in NE. now rewrite NE.
Qed.

(** ** C32 *)
Definition extension_agrees (t : topo) (period : agent_id -> nat) (A : alg vec nat) (N' : nat) (w : world vec nat) : Prop :=
  let A' := mkAlg N' (al_init A) (al_step A) in
  let first := run t period A 0 w in
  let ext := run t period A' (Z.of_nat (al_iters A)) (r_world first) in
  let straight := run t period A' 0 w in
  r_out ext = r_out straight /\ world_upto_hist (r_world ext) (r_world straight) /\
  forall a k, k <> Z.of_nat (al_iters A) ->
    let h := a_hist (n_agents (snd (r_world ext)) a) in
    let h' := a_hist (n_agents (snd (r_world straight)) a) in
    h_contains h k = h_contains h' k /\ h_at h k = h_at h' k.
Theorem C32_library_extension t e period grad prox N N' A w :
  NoDup (t_nodes t) -> p2p_class t e grad prox N A \/ (exists sv sch, fed_class t e grad prox sv sch N A) ->
  1 <= al_iters A <= N' -> r_out (run t period A 0 w) = Finished -> extension_agrees t period A N' w.
Proof.
  intros ND CL B O.
  assert (X : client_code t e A /\ hist_agnostic A).
  { destruct CL as [CL|(sv & sch & CL)]; [eapply p2p_class_ok; eauto|eapply fed_class_ok; eauto]. }
  destruct X as (CC & HA).
  exact (C32_extending_equals_longer_run _ _ t e period A (mkAlg N' (al_init A) (al_step A)) w ND CC HA (fun _ => eq_refl) (fun _ _ => eq_refl) B O).
Qed.

(** ** C61 *)
(** One step never changes an agent's x without its x-update counter growing. *)
Theorem C61_step_counts t e grad prox N A k w a :
  p2p_class t e grad prox N A \/ (exists sv sch, fed_class t e grad prox sv sch N A) ->
  let before := n_agents (snd w) a in let after := n_agents (snd (fst (al_step A k w))) a in
  a_nx before <= a_nx after /\ (a_x after <> a_x before -> a_nx before < a_nx after).
Proof.
  intro CL. cbn zeta. assert (CC : client_code t e A).
  { destruct CL as [CL|(sv & sch & CL)]; [apply (p2p_class_ok t e grad prox N A CL)|apply (fed_class_ok t e sv grad prox sch N A CL)]. }
  destruct (step_counted t e A k w a CC) as [H|(H & H')]; [split; [lia|auto]|]. split; [lia|]. intro NE. contradiction.
Qed.
(** Hence a finished run counts at least one update for every iteration that
    changed x. *)
Theorem C61_run_counts t e period grad prox N A w a X ks : NoDup (t_nodes t) ->
  p2p_class t e grad prox N A \/ (exists sv sch, fed_class t e grad prox sv sch N A) ->
  let r := run t period A 0 w in r_out r = Finished -> xs_of_run t period A w a X ->
  NoDup ks -> (forall k, In k ks -> k < al_iters A /\ X (S k) <> X k) ->
  length ks <= a_nx (n_agents (snd (r_world r)) a).
Proof.
  intros ND CL r O (X0 & XC) NK HK. assert (CC : client_code t e A).
  { destruct CL as [CL|(sv & sch & CL)]; [apply (p2p_class_ok t e grad prox N A CL)|apply (fed_class_ok t e sv grad prox sch N A CL)]. }
  unfold r in *. pose proof (loop_indices _ _ t period A (al_iters A) 0 (al_init A w)) as (LI & _).
  rewrite run_loop0 in O, XC |- *. cbn [r_out r_calls r_world] in *. rewrite O in LI. destruct LI as (_ & CI).
  destruct (loop_counts t e period A a ND CC (al_iters A) 0 (al_init A w) O) as (Y & c & Y0 & C0 & CB & ST & FI).
  cbn [Nat.add] in FI. rewrite FI. transitivity (c 0 + length ks); [lia|].
  assert (E : forall k, k <= al_iters A -> X k = Y k).
  { intros [|k] Hk; [congruence|]. assert (I : In k (callback_indices (r_calls (loop t period A (al_iters A) 0 (al_init A w))))).
    { rewrite CI. apply in_seq. lia. } apply callback_index in I. destruct I as (w' & I).
    destruct (CB k w' I) as (_ & E & _). rewrite <- E. symmetry. apply XC. right. exact I. }
  apply (increments period c (fun k => X (S k) <> X k) (al_iters A)); auto.
  - intros j Hj. destruct (ST j ltac:(lia)) as [?|(-> & _)]; lia.
  - intros j Hj NE. destruct (ST j ltac:(lia)) as [?|(_ & E')]; [lia|]. exfalso. apply NE. rewrite !E by lia. exact E'.
Qed.

(** ** Cases *)
(** DGD for three iterations on a path with lost messages and an idle agent, and
    FedAvg for four on a lossy star; both finish. *)
Definition case_p2p : alg vec nat := p2p path3 lossy_env 3 (dgd_init start) (dgd W3 qgrad (1/2)).
Lemma case_p2p_class : p2p_class path3 lossy_env qgrad qprox 3 case_p2p. Proof. apply cl_dgd. Qed.
Lemma case_p2p_out : r_out (run path3 (fun _ => 2) case_p2p 0 blank) = Finished.
Proof. cbv - [Rplus Rmult Rminus Ropp Rdiv Rinv IZR]. reflexivity. Qed.
Example C04_p2p_case : schedule_kept path3 (fun _ => 2) case_p2p blank 2.
Proof. apply (C04_peer_to_peer path3 lossy_env (fun _ => 2) qgrad qprox 3); [apply path3_ok|reflexivity|apply case_p2p_class|cbn; auto|apply case_p2p_out]. Qed.
Example C04_p2p_keys : h_keylist (a_hist (n_agents (snd (r_world (run path3 (fun _ => 2) case_p2p 0 blank))) 2)) = [0%Z; 2%Z; 3%Z].
Proof. cbv - [Rplus Rmult Rminus Ropp Rdiv Rinv IZR]. reflexivity. Qed.
Example C04_fed_case : schedule_kept star3 (fun _ => 1) case40 blank 2.
Proof. apply (C04_federated star3 lossy_fed (fun _ => 1) qgrad qprox 2 None 4); [apply star3_wf|reflexivity|apply case40_class|cbn; auto|apply case40_out]. Qed.
Example C32_library_case : extension_agrees path3 (fun _ => 2) case_p2p 7 blank.
Proof. apply (C32_library_extension path3 lossy_env (fun _ => 2) qgrad qprox 3); [apply path3_ok|left; apply case_p2p_class|cbn; lia|apply case_p2p_out]. Qed.
(** agent 2 is idle in iterations 0 and 2, its x changes in iteration 1 only *)
Example C61_case : a_nx (n_agents (snd (r_world (run path3 (fun _ => 2) case_p2p 0 blank))) 2) = 1 /\
  a_nx (n_agents (snd (r_world (run path3 (fun _ => 2) case_p2p 0 blank))) 0) = 3.
Proof. split; cbv - [Rplus Rmult Rminus Ropp Rdiv Rinv IZR]; reflexivity. Qed.

Print Assumptions C04_peer_to_peer.
Print Assumptions C04_federated.
Print Assumptions C32_library_extension.
Print Assumptions C61_step_counts.
Print Assumptions C61_run_counts.
