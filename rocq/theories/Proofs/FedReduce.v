(** Relations between federated algorithms. *)
From Coq Require Import Reals String List Bool Arith ZArith Lia Lra FunctionalExtensionality Permutation.
From Verif.Model Require Import PyDict History Messages Network Runner Vec P2P Fed.
From Verif.Spec Require Import NetworkSpec P2PSpec FedSpec.
From Verif.Proofs Require Import PyDictProofs MessagesProofs NetworkProofs NetworkInv NetworkMore NetworkActive RunnerProofs EmpiricalProofs P2PLock P2PSteps P2PRuns FedLock FedSteps FedSteps2 FedRuns FedRuns2 FedRuns3.
Import ListNotations.
Open Scope R_scope.

Lemma vext (u v : vec) : (forall c, u c = v c) -> u = v.
Proof. intro H. now apply functional_extensionality. Qed.

(** FedProx without penalty *)
Lemma fedprox_zero grad K a : fedprox_alg grad K a 0 = fedavg_alg grad K a.
Proof.
  unfold fedprox_alg, fedavg_alg. f_equal. apply functional_extensionality. intro i. apply functional_extensionality. intro b. f_equal.
  f_equal. apply functional_extensionality. intro y. f_equal. apply functional_extensionality. intro g. f_equal. f_equal. f_equal.
  apply vext. intro c. unfold vadd, vscal, vsub. lra.
Qed.

(** local steps are determined by the gradients *)
Lemma local_steps_det grad i next n x z s : deterministic grad -> local_steps grad i next n x z s -> forall z' s', local_steps grad i next n x z' s' -> z = z'.
Proof.
  intros D H. induction H as [x|n x g z s G H IH]; intros z' s' H'; inversion H'; subst; auto.
  destruct G as (m & ->), H1 as (m' & ->). rewrite (D m m') in *. eapply IH; eauto.
Qed.
Lemma local_ext grad i next next' n x z s : (forall x g, next x g = next' x g) -> local_steps grad i next n x z s -> local_steps grad i next' n x z s.
Proof. intros E H. induction H; [constructor|]. apply ls_cons; auto. now rewrite <- E. Qed.

(** FedNova *)
Lemma nova_plain a n : fst (nova_coeff a None None n) = INR n.
Proof. induction n as [|n IH]; [reflexivity|]. rewrite S_INR, <- IH. cbn [nova_coeff]. destruct (nova_coeff a None None n). reflexivity. Qed.
Lemma nova_path_local grad i a ref n x m z : nova_path grad i a None None ref n x m z -> exists s, local_steps grad i (fun y g => vsub y (vscal a g)) n x z s.
Proof.
  intro H. induction H as [x m|n x m g m' z G E H (s & IH)]; [exists vzero; constructor|]. cbn zeta in E. subst m'. exists (vadd g s). now constructor.
Qed.
Lemma nova_equal count A c R tau : (forall i, In i R -> A i = tau) -> tau <> 0 -> 0 < rsum (map count R) ->
  nova_aggregate count A c R = fun n => rsum (map (fun i => count i / rsum (map count R) * c i n) R).
Proof.
  intros HA NZ POS. unfold nova_aggregate. apply vext. intro n. set (T := rsum (map count R)) in *.
  assert (E : rsum (map (fun i => count i / T * A i) R) = tau).
  { rewrite (map_ext_in _ (fun i => (tau * / T) * count i)) by (intros i Hi; rewrite HA by auto; unfold Rdiv; ring).
    rewrite rsum_map_scal. fold T. field. lra. }
  rewrite E. f_equal. apply map_ext_in. intros i Hi. rewrite HA by auto. field. lra.
Qed.
Lemma weights_sum count (R : list agent_id) : 0 < rsum (map count R) -> rsum (map (fun i => count i / rsum (map count R)) R) = 1.
Proof.
  intro POS. set (T := rsum (map count R)) in *.
  rewrite (map_ext _ (fun i => / T * count i)) by (intro; unfold Rdiv; ring). rewrite rsum_map_scal. fold T. field. lra.
Qed.
(** the average of the clients' models with weights [count] *)
Lemma nova_average count A (x : vec) (Y : agent_id -> vec) R tau : (forall i, In i R -> A i = tau) -> tau <> 0 -> 0 < rsum (map count R) ->
  vsub x (nova_aggregate count A (fun i => vsub x (Y i)) R) = fun n => rsum (map (fun i => count i / rsum (map count R) * Y i n) R).
Proof.
  intros HA NZ POS. rewrite (nova_equal count A _ R tau HA NZ POS). apply vext. intro n. unfold vsub.
  pose proof (weights_sum count R POS) as WS. set (T := rsum (map count R)) in *.
  rewrite (map_ext (fun i => count i / T * (x n - Y i n)) (fun i => x n * (count i / T) - count i / T * Y i n)) by (intro; ring).
  rewrite rsum_map_sub, rsum_map_scal, WS. ring.
Qed.
Lemma equal_counts (q : R) (R : list agent_id) (Y : agent_id -> vec) count : 0 < q -> R <> [] -> (forall i, In i R -> count i = q) ->
  (fun n => rsum (map (fun i => count i / rsum (map count R) * Y i n) R)) = mean_over R Y.
Proof.
  intros Q NE H. pose proof (len_pos R NE) as L. assert (E : rsum (map count R) = INR (length R) * q).
  { rewrite (map_ext_in count (fun _ => q)) by auto. apply rsum_const. }
  apply vext. intro n. unfold mean_over. rewrite <- rsum_map_scal. f_equal. apply map_ext_in. intros i Hi. rewrite E, H by auto. field. lra.
Qed.
Lemma counts_pos (q : R) (R : list agent_id) count : 0 < q -> R <> [] -> (forall i, In i R -> count i = q) -> 0 < rsum (map count R).
Proof.
  intros Q NE H. pose proof (len_pos R NE). rewrite (map_ext_in count (fun _ => q)) by auto. rewrite rsum_const. nra.
Qed.

(** the average of updates relative to [x] *)
Lemma mean_shift (R : list agent_id) (x : vec) Y : R <> [] -> vadd x (mean_over R (fun i => vsub (Y i) x)) = mean_over R Y.
Proof.
  intro NE. pose proof (len_pos R NE). apply vext. intro c. unfold vadd, mean_over, vsub.
  rewrite (rsum_map_sub (fun i => Y i c) (fun _ => x c)), rsum_const. field. lra.
Qed.

Section Red.
  Variables (t : topo) (e : env vec) (sv : agent_id).
  Hypothesis NET : fed_net t e sv.
  Notation clients := (agents t).
  (** trajectories of averaging algorithms with full participation are determined *)
  Lemma average_unique grad (next : vec -> vec -> vec -> vec) K N (X X' : nat -> agent_id -> vec) : deterministic grad -> clients <> [] ->
    (forall i, In i (t_nodes t) -> X 0%nat i = X' 0%nat i) ->
    (forall k, (k < N)%nat -> (forall i, In i clients -> exists s, local_steps grad i (next (X k sv)) K (X k sv) (X (S k) i) s) /\ X (S k) sv = mean_over clients (X (S k))) ->
    (forall k, (k < N)%nat -> (forall i, In i clients -> exists s, local_steps grad i (next (X' k sv)) K (X' k sv) (X' (S k) i) s) /\ X' (S k) sv = mean_over clients (X' (S k))) ->
    forall k, (k <= N)%nat -> forall i, In i (t_nodes t) -> X k i = X' k i.
  Proof.
    intros DT NE X0 R R'. induction k as [|k IH]; intros Hk i Hi; auto.
    assert (E : X k sv = X' k sv) by (apply IH; [lia|apply (sv_node t e sv NET)]).
    destruct (R k) as (A & B); [lia|]. destruct (R' k) as (A' & B'); [lia|].
    assert (C : forall j, In j clients -> X (S k) j = X' (S k) j).
    { intros j Hj. destruct (A j Hj) as (s & L), (A' j Hj) as (s' & L'). rewrite <- E in L'. eapply local_steps_det; eauto. }
    destruct (node_cases t e sv NET i Hi) as [->|Hc]; auto. rewrite B, B'. now apply mean_ext.
  Qed.
End Red.
