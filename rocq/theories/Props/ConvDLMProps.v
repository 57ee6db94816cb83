(** C90 for DLM. *)
From Coq Require Import Reals String List Lra Lia Arith.
From Verif.Model Require Import PyDict History Messages Network Runner Vec P2P P2PShared.
From Verif.Spec Require Import CostSpec NetworkSpec P2PSpec P2PSharedSpec ConvSpec.
From Verif.Proofs Require Import CostProofs VecProofs EmpiricalProofs P2PRuns ConvStack ConvSolve ConvDLM.
From Verif.Props Require Import P2PProps P2PSharedProps ConvProps.
Import ListNotations.
Open Scope R_scope.

(** [w0]: the penalty leaves every agent a margin, 2 mu rho deg <= 1 - w0.  As
    in C33, arrays have to be immutable ([ip = false]) or the components stars. *)
Theorem C90_dlm_linear t n F G grad m L mu rho w0 xs ip : p2p_topo t -> connected t -> ip = false \/ stars t ->
  (forall i, In i (t_nodes t) -> smooth_strongly_convex n (F i) (G i) m L) -> 0 < m -> 0 < L -> exact_gradients grad G -> minimises (t_nodes t) F xs ->
  0 < mu -> 0 < rho -> 0 < w0 -> (forall i, In i (t_nodes t) -> 2 * mu * rho * INR (length (t_adj t i)) <= 1 - w0) -> mu * L < 2 * w0 ->
  exists q, 0 <= q < 1 /\ forall x0, exists C, forall e period N w, synchronous e ->
    exists X, strajectory t period (shared t e N (dlm_init x0) (dlm ip grad mu rho)) w X /\ (forall i, X 0%nat i = x0 i) /\
      forall k, (k < N)%nat -> sq_error (t_nodes t) n (X (S k)) xs <= C * q ^ k.
Proof.
  intros PT CN IP SC MP LP EG MIN MU RH W0 DG AL.
  destruct (dlm_seq t n PT CN F G m L mu rho w0 xs SC MP LP MU RH W0 DG AL MIN) as (q & Q & H). exists q. split; [exact Q|].
  intro x0. destruct (H x0) as (C & HC). exists C. intros e period N w SY.
  destruct (C33_dlm_run t e PT SY ip grad period N w mu rho x0 IP) as (X & Y & Gk & TR & _ & I0 & I1 & ST). exists X. split; [exact TR|]. split; [intro; apply I0|].
  apply (HC N X Y).
  - intros i I K. destruct (I1 i K I) as (-> & ->). apply I0.
  - intros k i K I. destruct (ST k i K I) as ((d & GE) & E1 & E2). rewrite GE, EG in E1. auto.
Qed.
(** Every agent ends as close to the minimiser as one likes. *)
Theorem C90_dlm_reaches t n F G grad m L mu rho w0 xs ip x0 eps : p2p_topo t -> connected t -> ip = false \/ stars t ->
  (forall i, In i (t_nodes t) -> smooth_strongly_convex n (F i) (G i) m L) -> 0 < m -> 0 < L -> exact_gradients grad G -> minimises (t_nodes t) F xs ->
  0 < mu -> 0 < rho -> 0 < w0 -> (forall i, In i (t_nodes t) -> 2 * mu * rho * INR (length (t_adj t i)) <= 1 - w0) -> mu * L < 2 * w0 -> 0 < eps ->
  exists K, forall N e period w, (K <= N)%nat -> synchronous e ->
    let r := run t period (shared t e N (dlm_init x0) (dlm ip grad mu rho)) 0 w in
    r_out r = Finished /\ forall i, In i (t_nodes t) -> exists x, state_is (plain_net (snd (r_world r))) i x /\ nrm2 n (vsub x xs) <= eps.
Proof.
  intros PT CN IP SC MP LP EG MIN MU RH W0 DG AL EP.
  destruct (C90_dlm_linear t n F G grad m L mu rho w0 xs ip PT CN IP SC MP LP EG MIN MU RH W0 DG AL) as (q & Q & H).
  destruct (H x0) as (C & HC). destruct (geometric C q eps Q EP) as (K & HK). exists (S K). intros [|N] e period w KN SY; [lia|].
  destruct (HC e period (S N) w SY) as (X & (FI & _ & _ & LAST) & _ & B).
  split; [exact FI|]. intros i I. exists (X (S N) i). split; [exact (LAST i I)|].
  eapply Rle_trans; [apply (error_each t n (X (S N)) xs i I)|]. eapply Rle_trans; [apply (B N (le_n _))|]. apply HK. lia.
Qed.
Example C90_dlm_case : exists K, forall N e period w, (K <= N)%nat -> synchronous e ->
  let r := run path3 period (shared path3 e N (dlm_init start) (dlm true qgrad (1/8) 1)) 0 w in
  r_out r = Finished /\ forall i, In i (t_nodes path3) -> exists x, state_is (plain_net (snd (r_world r))) i x /\ nrm2 1 (vsub x vzero) <= / 1000.
Proof.
  apply (C90_dlm_reaches path3 1 qcost qg qgrad 1 1 (1/8) 1 (1/2) vzero true start (/1000)); try lra;
    auto using path3_ok, path3_connected, qgrad_ok, zero_minimises.
  - right. intros i j J D. destruct i as [|[|[|]]]; cbn in J, D; try lia. destruct J as [<-|[<-|[]]]; reflexivity.
  - intros; apply qcost_ok.
  - intros i [<-|[<-|[<-|[]]]]; cbn; lra.
Qed.
Print Assumptions C90_dlm_linear.
Print Assumptions C90_dlm_reaches.
