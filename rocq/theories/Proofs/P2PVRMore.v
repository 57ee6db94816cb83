(** Tracking, tables and snapshots, fixed points of the variance-reduced algorithms. *)
From Coq Require Import Reals String List Bool Arith ZArith Lia Lra FunctionalExtensionality Permutation.
From Verif.Model Require Import PyDict History Messages Network Runner Vec P2P P2PVR.
From Verif.Spec Require Import NetworkSpec P2PSpec P2PVRSpec.
From Verif.Proofs Require Import PyDictProofs NetworkProofs NetworkInv NetworkMore EmpiricalProofs RunnerProofs P2PLock P2PSteps P2PRuns P2PMean P2PFixed P2PVRSteps P2PVRRuns P2PVREst.
Import ListNotations.
Open Scope R_scope.

Section Track.
  Variables (t : topo) (e : env vec).
  Hypothesis PT : p2p_topo t.
  Hypothesis SY : synchronous e.
  Variable W : agent_id -> agent_id -> R.
  Hypothesis SP : sparse t W.
  Hypothesis CS : col_stochastic t W.
  Variables (m : agent_id -> nat) (sg : agent_id -> nat -> vec -> vec) (batch : nat -> agent_id -> list nat).
  Hypothesis PB : proper m batch.
  Variables (period : agent_id -> nat) (N : nat) (w : world vec nat).
  Notation nodes := (t_nodes t).
  Notation row := (row_of t).
  Notation T := (total_of t).
  Notation mean := (mean_of t).
  Notation full := (full_gradient m sg).
  Lemma T_row v : T (row W v) = T v. Proof. now apply total_row. Qed.
  Ltac tot := repeat progress rewrite ?total_add, ?total_sub, ?total_scal, ?T_row, ?total_zero.

  (** GT-SAGA: tables *)
  Lemma table_history (X : nat -> agent_id -> vec) (Tb : nat -> agent_id -> nat -> vec) (B' : nat -> agent_id -> list nat) i :
    (forall s, Tb 0%nat i s = sg i s (X 0%nat i)) ->
    (forall k, (k < N)%nat -> Tb (S k) i = refresh (B' k i) (fun s => sg i s (X (S k) i)) (Tb k i)) ->
    forall k s, (k <= N)%nat -> exists k', (k' <= k)%nat /\ Tb k i s = sg i s (X k' i).
  Proof.
    intros H0 HS. induction k as [|k IH]; intros s Hk; [exists 0%nat; auto|].
    rewrite HS by lia. unfold refresh. destruct (existsb (Nat.eqb s) (B' k i)); [exists (S k); auto|].
    destruct (IH s ltac:(lia)) as (k' & L & E). exists k'. split; [lia|exact E].
  Qed.

  Theorem saga_tracking a x0 : let A := p2p t e N (saga_init m sg x0) (saga W sg batch a) in
    exists X Y G Tb B, trajectory t period A w X /\ aux_trajectory t period A w "y" Y /\ aux_trajectory t period A w "g" G /\
      (forall i, X 0%nat i = x0 i) /\
      (forall k i, (k < N)%nat -> In i nodes -> drawn batch i (B k i) /\ G (S k) i = saga_est m sg i (B k i) (Tb k i) (X k i)) /\
      (forall k i s, (k <= N)%nat -> In i nodes -> exists k', (k' <= k)%nat /\ Tb k i s = sg i s (X k' i)) /\
      (forall k, (k <= N)%nat -> T (Y k) = T (G k)) /\
      forall k, (k < N)%nat -> mean (X (S k)) = vsub (mean (X k)) (vscal a (mean (G (S k)))).
  Proof.
    intro A. destruct (saga_run t e PT SY W SP m sg batch PB period N w a x0) as (X & Y & G & Tb & B & B' & TR & TY & TG & TT & X0 & R).
    exists X, Y, G, Tb, B. split; auto. split; auto. split; auto. split; [intro i; apply X0|].
    split; [intros k i Hk Hi; destruct (R k i Hk Hi) as (R1 & _ & R2 & _); auto|]. split; [|].
    { intros k i s Hk Hi. apply (table_history X Tb B' i); auto.
      - intro q. destruct (X0 i) as (-> & _ & _ & E). apply E.
      - intros q Hq. apply (R q i Hq Hi). }
    assert (YG : forall k, (k <= N)%nat -> T (Y k) = T (G k)).
    { induction k as [|k IH]; intro Hk; [apply total_ext; intros i Hi; destruct (X0 i) as (_ & -> & -> & _); reflexivity|].
      rewrite (total_ext t (Y (S k)) (row W (fun i => vsub (vadd (Y k i) (G (S k) i)) (G k i)))) by (intros; apply R; auto). tot. rewrite IH by lia. vext. ring. }
    split; auto. intros k Hk. apply mean_step.
    rewrite (total_ext t (X (S k)) (row W (fun j => vsub (X k j) (vscal a (Y (S k) j))))) by (intros; apply R; auto). tot. rewrite YG by lia. reflexivity.
  Qed.

  Theorem gt_vr_tracking coin a x0 : let A := p2p t e N (vr_init m sg x0) (gt_vr W m sg batch coin a) in
    exists X Y V Ta B, trajectory t period A w X /\ aux_trajectory t period A w "y" Y /\ aux_trajectory t period A w "v" V /\
      (forall i, X 0%nat i = x0 i /\ V 0%nat i = full i (x0 i)) /\
      (forall k i, (k < N)%nat -> In i nodes -> drawn batch i (B k i) /\ V (S k) i = svrg_est m sg i (B k i) (Ta (S k) i) (X (S k) i)) /\
      (forall k i, (k <= N)%nat -> In i nodes -> exists k', (k' <= k)%nat /\ Ta k i = X k' i /\ forall q, (k' <= q < k)%nat -> coin q i = false) /\
      (forall k, (k <= N)%nat -> T (Y k) = T (V k)) /\
      forall k, (k < N)%nat -> mean (X (S k)) = vsub (mean (X k)) (vscal a (mean (V k))).
  Proof.
    intro A. destruct (gt_vr_run t e PT SY W SP m sg batch period N w coin a x0) as (X & Y & V & Ta & B & TR & TY & TV & TT & X0 & R).
    exists X, Y, V, Ta, B. split; auto. split; auto. split; auto. split; [intro i; destruct (X0 i) as (? & _ & ? & _); auto|].
    split; [intros k i Hk Hi; destruct (R k i Hk Hi) as (R1 & _ & _ & R2 & _); auto|]. split; [|].
    { intros k i Hk Hi. induction k as [|k IH]; [exists 0%nat; destruct (X0 i) as (-> & _ & _ & ->); repeat split; auto; intros; lia|].
      destruct (R k i ltac:(lia) Hi) as (_ & _ & E & _). rewrite E. destruct (coin k i) eqn:C; [exists (S k); repeat split; auto; intros; lia|].
      destruct (IH ltac:(lia)) as (k' & L & E' & F). exists k'. split; [lia|]. split; [exact E'|]. intros q Hq. destruct (Nat.eq_dec q k); [now subst|]. apply F. lia. }
    assert (YG : forall k, (k <= N)%nat -> T (Y k) = T (V k)).
    { induction k as [|k IH]; intro Hk; [apply total_ext; intros i Hi; destruct (X0 i) as (_ & -> & -> & _); reflexivity|].
      rewrite (total_ext t (Y (S k)) (row W (fun i => vsub (vadd (Y k i) (V (S k) i)) (V k i)))) by (intros; apply R; auto). tot. rewrite IH by lia. vext. ring. }
    split; auto. intros k Hk. apply mean_step.
    rewrite (total_ext t (X (S k)) (row W (fun j => vsub (X k j) (vscal a (Y k j))))) by (intros; apply R; auto). tot. rewrite YG by lia. reflexivity.
  Qed.

  Theorem sarah_tracking a q x0 : let A := p2p t e N (sarah_init x0) (sarah W m sg batch a q) in
    exists X Y V B, trajectory t period A w (fun k => X k 0%nat) /\ aux_trajectory t period A w "y" (fun k => Y k 0%nat) /\ aux_trajectory t period A w "v" (fun k => V k 0%nat) /\
      (forall i, X 0%nat 0%nat i = x0 i) /\
      (forall k i, (k < N)%nat -> In i nodes -> V k 1%nat i = full i (X k 0%nat i) /\
        (forall r, (r < q)%nat -> drawn batch i (B k r i) /\ V k (S (S r)) i = sarah_est sg i (B k r i) (X k r i) (V k (S r) i) (X k (S r) i)) /\
        X (S k) 0%nat i = X k (S q) i) /\
      (forall k, (k <= N)%nat -> T (Y k 0%nat) = T (V k 0%nat)) /\
      forall k r, (k < N)%nat -> (r <= q)%nat -> mean (X k (S r)) = vsub (mean (X k r)) (vscal a (mean (V k (S r)))).
  Proof.
    intro A. destruct (sarah_run t e PT SY W SP m sg batch period N w a q x0) as (X & Y & V & B & TR & TY & TV & X0 & R).
    exists X, Y, V, B. split; auto. split; auto. split; auto. split; [intro i; apply X0|].
    split; [intros k i Hk Hi; destruct (R k i Hk Hi) as (R1 & R2 & _ & R3 & _); auto|].
    assert (ST : forall k r, (k < N)%nat -> (r <= q)%nat -> T (Y k r) = T (V k r) -> T (Y k (S r)) = T (V k (S r))).
    { intros k r Hk Hr E. rewrite (total_ext t (Y k (S r)) (fun i => vsub (vadd (row W (Y k r) i) (V k (S r) i)) (V k r i))) by (intros i Hi; apply (R k i Hk Hi); auto).
      tot. rewrite E. vext. ring. }
    assert (IN : forall k r, (k < N)%nat -> (r <= S q)%nat -> T (Y k 0%nat) = T (V k 0%nat) -> T (Y k r) = T (V k r)).
    { intros k r Hk. induction r as [|r IH]; intros Hr E; auto. apply ST; auto; [lia|]. apply IH; auto. lia. }
    assert (YG : forall k, (k <= N)%nat -> T (Y k 0%nat) = T (V k 0%nat)).
    { induction k as [|k IH]; intro Hk; [apply total_ext; intros i Hi; destruct (X0 i) as (_ & -> & ->); reflexivity|].
      rewrite (total_ext t (Y (S k) 0%nat) (Y k (S q))) by (intros i Hi; apply (R k i Hk Hi)).
      rewrite (total_ext t (V (S k) 0%nat) (V k (S q))) by (intros i Hi; apply (R k i Hk Hi)). apply IN; auto. apply IH. lia. }
    split; auto. intros k r Hk Hr. apply mean_step.
    rewrite (total_ext t (X k (S r)) (fun i => vsub (row W (X k r) i) (vscal a (Y k (S r) i)))) by (intros i Hi; apply (R k i Hk Hi); auto). tot.
    rewrite (IN k (S r)); auto; [lia|]. apply YG. lia.
  Qed.
End Track.

Section VRFixed.
  Variables (t : topo) (e : env vec).
  Hypothesis PT : p2p_topo t.
  Hypothesis SY : synchronous e.
  Variable W : agent_id -> agent_id -> R.
  Hypothesis SP : sparse t W.
  Hypothesis RS : row_stochastic t W.
  Variables (m : agent_id -> nat) (sg : agent_id -> nat -> vec -> vec) (batch : nat -> agent_id -> list nat).
  Hypothesis PB : proper m batch.
  Variable xs : vec.
  Notation nodes := (t_nodes t).
  Notation row := (row_of t).
  Notation full := (full_gradient m sg).
  Notation G := (fun i => full i xs).
  Notation acts := (active_all t e PT SY).
  Notation smx := (smix t e PT SY).
  Notation FAe := (P2PRuns.FA e SY).

  Lemma rconst v i : In i nodes -> (forall j, In j nodes -> v j = xs) -> row W v i = xs.
  Proof. intros Hi Hv. rewrite (row_const_gen t xs W 1 v i); auto. apply vscal1. Qed.
  Lemma rzero v i : (forall j, In j nodes -> v j = vzero) -> row W v i = vzero.
  Proof. apply row_zero. Qed.
  Lemma dr_incl i B : drawn batch i B -> incl B (seq 0 (m i)).
  Proof. intros (n & ->). apply PB. Qed.
  Lemma refresh_same i B (T : nat -> vec) : (forall s, (s < m i)%nat -> T s = sg i s xs) -> forall s, (s < m i)%nat -> refresh B (fun s => sg i s xs) T s = sg i s xs.
  Proof. intros H s Hs. unfold refresh. destruct (existsb (Nat.eqb s) B); auto. Qed.
  Lemma table_ext n T T' : (forall s, (s < n)%nat -> T s = T' s) -> table n T = table n T'.
  Proof. intro H. unfold table. apply map_ext_in. intros s Hs. apply in_seq in Hs. rewrite H by lia. reflexivity. Qed.

  Theorem saga_fixed a k d st :
    (forall i, In i nodes -> state_is st i xs /\ aux_is st i "y" vzero /\ aux_is st i "g" (G i) /\ auxmap_is st i "z_grads" (table (m i) (fun s => sg i s xs))) ->
    exists d' st', do_phases t e (saga W sg batch a k) (d, step t k st) = ((d', st'), false) /\
      (forall i, In i nodes -> state_is st' i xs /\ aux_is st' i "y" vzero /\ aux_is st' i "g" (G i) /\ auxmap_is st' i "z_grads" (table (m i) (fun s => sg i s xs))).
  Proof.
    intro H. destruct (saga_step t e PT W m sg batch PB FAe a k d st (fun _ => xs) (fun _ => vzero) G (fun i s => sg i s xs) H) as (d' & st' & D1 & D2 & B & B' & Y' & E & DE1 & DE2 & Q & _).
    rewrite acts in *. exists d', st'. split; [exact E|]. cbv zeta in Q.
    assert (GE : forall i, In i nodes -> saga_est m sg i (B i) (fun s => sg i s xs) xs = full i xs).
    { intros i Hi. destruct (Q i Hi) as (R1 & _). apply saga_exact; auto. now apply dr_incl. }
    assert (YE : forall i, In i nodes -> Y' i = vzero).
    { intros i Hi. destruct (Q i Hi) as (_ & _ & -> & _). rewrite (smx W) by auto. apply rzero. intros j Hj. rewrite GE by auto. vext. ring. }
    intros i Hi. destruct (Q i Hi) as (_ & _ & _ & Q4 & Q5 & Q6 & Q7). rewrite (smx W), rconst in Q4, Q7 by (auto; intros j Hj; rewrite ?YE by auto; vext; ring).
    rewrite YE in Q5 by auto. rewrite GE in Q6 by auto. split; auto. split; auto. split; auto.
    erewrite table_ext; [exact Q7|]. intros s Hs. symmetry. now apply refresh_same with (i := i).
  Qed.

  Theorem gt_vr_fixed coin a k d st :
    (forall i, In i nodes -> state_is st i xs /\ aux_is st i "y" vzero /\ aux_is st i "v" (G i) /\ aux_is st i "tau" xs /\ aux_is st i "full_grad_tau" (G i)) ->
    exists d' st', do_phases t e (gt_vr W m sg batch coin a k) (d, step t k st) = ((d', st'), false) /\
      (forall i, In i nodes -> state_is st' i xs /\ aux_is st' i "y" vzero /\ aux_is st' i "v" (G i) /\ aux_is st' i "tau" xs /\ aux_is st' i "full_grad_tau" (G i)).
  Proof.
    intro H. destruct (gt_vr_step t e PT W m sg batch FAe coin a k d st (fun _ => xs) (fun _ => vzero) G (fun _ => xs) H) as (d' & st' & D1 & D2 & B & X' & E & DE1 & DE2 & Q & _).
    rewrite acts in *. exists d', st'. split; [exact E|].
    assert (XE : forall i, In i nodes -> X' i = xs).
    { intros i Hi. destruct (Q i Hi) as (_ & -> & _). rewrite (smx W) by auto. apply rconst; auto. intros j Hj. vext. ring. }
    assert (TE : forall i, In i nodes -> (if coin k i then X' i else xs) = xs) by (intros i Hi; rewrite XE by auto; now destruct (coin k i)).
    intros i Hi. destruct (Q i Hi) as (_ & _ & Q3 & Q4 & Q5 & Q6 & Q7). rewrite TE in Q5, Q6, Q7 by auto. rewrite XE in Q3, Q5 by auto.
    rewrite svrg_exact in Q5. rewrite (smx W), rzero in Q4; auto.
    intros j Hj. rewrite TE, XE, svrg_exact by auto. vext. ring.
  Qed.

  Theorem sarah_fixed a q k d st :
    (forall i, In i nodes -> state_is st i xs /\ aux_is st i "y" vzero /\ aux_is st i "v" (G i)) ->
    exists d' st', do_phases t e (sarah W m sg batch a q k) (d, step t k st) = ((d', st'), false) /\
      (forall i, In i nodes -> state_is st' i xs /\ aux_is st' i "y" vzero /\ aux_is st' i "v" (G i)).
  Proof.
    intro H. destruct (sarah_step t e PT W m sg batch (proj1 SY) a q k d st (fun _ => xs) (fun _ => vzero) G H) as (d' & st' & Xs & Ys & Vs & B & E & E1 & E2 & E3 & Q1 & Q2 & Q3 & Q4 & _).
    rewrite acts in *. exists d', st'. split; [exact E|].
    assert (K : forall r, (r <= S q)%nat -> forall i, In i nodes -> Xs r i = xs /\ Ys r i = vzero /\ Vs r i = full i xs).
    { intro r. induction (lt_wf r) as [r _ IH]. intros Hr i Hi. destruct r as [|r]; [rewrite E1, E2, E3; auto|].
      assert (VE : Vs (S r) i = full i xs).
      { destruct r as [|r]; [now apply Q1|]. rewrite (proj2 (Q2 r i ltac:(lia) Hi)).
        destruct (IH r ltac:(lia) ltac:(lia) i Hi) as (-> & _). destruct (IH (S r) ltac:(lia) ltac:(lia) i Hi) as (-> & _ & ->). apply sarah_exact. }
      destruct (Q3 r i ltac:(lia) Hi) as (Y1 & X1). rewrite (heard_row t e PT SY) in Y1, X1 by auto.
      assert (YE : Ys (S r) i = vzero).
      { rewrite Y1, VE, rzero by (intros j Hj; apply (IH r); auto; lia). destruct (IH r ltac:(lia) ltac:(lia) i Hi) as (_ & _ & ->). vext. ring. }
      split; [|auto]. rewrite X1, YE, rconst; auto; [vext; ring|]. intros j Hj. apply (IH r); auto; lia. }
    intros i Hi. destruct (Q4 i Hi) as (S1 & S2 & S3). destruct (K (S q) ltac:(lia) i Hi) as (-> & -> & ->) in S1, S2, S3. auto.
  Qed.

  Lemma vr_fixed i ga co n z Tb Tb' : vscal ga (full i xs) = vscal (-1) co -> (forall s, (s < m i)%nat -> Tb s = sg i s xs) ->
    vr_steps m sg batch i ga co n xs Tb z Tb' -> z = xs /\ forall s, (s < m i)%nat -> Tb' s = sg i s xs.
  Proof.
    intros HC HT H. remember xs as x eqn:EX in H. revert EX HT. induction H as [x Tb|n x Tb B x1 z Tb' DR E V IH]; intros -> HT; auto.
    rewrite saga_exact in E by (auto; now apply dr_incl). rewrite HC in E. assert (EQ : x1 = xs) by (rewrite E; vext; ring). clear E. subst x1.
    apply IH; auto. intros s Hs. apply refresh_same with (i := i); auto.
  Qed.

  Theorem ltvr_fixed v2 tau ga be rho al z k d st :
    (forall i, In i nodes -> vscal be (vsub (vscal (rho * deg t i) xs) (vsum (map (z i) (t_adj t i)))) = vscal (-1) (vscal ga (G i))) ->
    (forall i j, In j (t_adj t i) -> vadd (z i j) (z j i) = vscal (2 * rho) xs) ->
    (forall i, In i nodes -> state_is st i xs /\ auxmap_is st i "z_i" (rows t i (z i)) /\ (v2 = true -> auxmap_is st i "r_grads" (table (m i) (fun s => sg i s xs)))) ->
    exists d' st', do_phases t e (lt_admm_vr t m sg batch v2 tau ga be rho al k) (d, step t k st) = ((d', st'), false) /\
      (forall i, In i nodes -> state_is st' i xs /\ auxmap_is st' i "z_i" (rows t i (z i)) /\ auxmap_is st' i "r_grads" (table (m i) (fun s => sg i s xs))).
  Proof.
    intros HP HZ H. destruct (ltvr_step t e PT m sg batch PB FAe v2 tau ga be rho al k d st (fun _ => xs) z (fun i s => sg i s xs) H) as (d' & st' & D & X' & T' & E & DE & Q & _).
    rewrite acts in *. exists d', st'. split; [exact E|].
    assert (PH : forall i, In i nodes -> X' i = xs /\ forall s, (s < m i)%nat -> T' i s = sg i s xs).
    { intros i Hi. destruct (Q i Hi) as (L & _). eapply vr_fixed; [|  |exact L]; [rewrite HP by auto; vext; ring|]. intros s _. now destruct v2. }
    intros i Hi. destruct (Q i Hi) as (_ & S1 & S2 & S3). destruct (PH i Hi) as (P1 & P2). rewrite P1 in S1. split; auto. split.
    - erewrite rows_ext in S3; [exact S3|]. intros j Hj. cbn beta. rewrite (P2PVRRuns.smem t e PT SY) by auto.
      destruct PT as ((_ & AD & _) & _). destruct (AD i j Hj) as (_ & Hj' & _). destruct (PH j Hj') as (-> & _).
      rewrite <- (HZ i j Hj). vext. ring.
    - erewrite table_ext; [exact S2|]. intros s Hs. symmetry. auto.
  Qed.
End VRFixed.
