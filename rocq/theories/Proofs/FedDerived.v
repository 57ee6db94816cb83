(** Consequences of the run theorems: gradient descent, invariants, reductions. *)
From Coq Require Import Reals String List Bool Arith ZArith Lia Lra FunctionalExtensionality Permutation.
From Verif.Model Require Import PyDict History Messages Network Runner Vec P2P Fed.
From Verif.Spec Require Import NetworkSpec P2PSpec FedSpec.
From Verif.Proofs Require Import NetworkProofs EmpiricalProofs P2PLock P2PRuns FedLock FedSteps FedSteps2 FedRuns FedRuns2 FedRuns3 FedReduce FedRuns4.
Import ListNotations.
Open Scope R_scope.

Lemma mean_affine l (x : vec) (g : agent_id -> vec) a : l <> [] -> mean_over l (fun i => vsub x (vscal a (g i))) = vsub x (vscal a (mean_over l g)).
Proof.
  intro H. pose proof (len_pos l H). apply vext. intro c. unfold mean_over, vsub, vscal.
  rewrite (rsum_map_ext (fun i => x c - a * g i c) (fun i => x c + (- a) * g i c)) by (intros; lra).
  rewrite (rsum_map_add (fun _ => x c) (fun i => - a * g i c)), rsum_const, (rsum_map_scal (fun i => g i c)). field. lra.
Qed.
Lemma vsub_zero (g : vec) : vsub g vzero = g. Proof. apply vext. intro. unfold vsub, vzero. lra. Qed.
Lemma vadd_zero (g : vec) : vadd g vzero = g. Proof. apply vext. intro. unfold vadd, vzero. lra. Qed.
Lemma vscal_1 (g : vec) : vscal 1 g = g. Proof. apply vext. intro. unfold vscal. lra. Qed.
Lemma vsub_self_zero (u v : vec) : vsub u v = vzero -> u = v.
Proof. intro H. apply vext. intro c. assert (A := f_equal (fun f : vec => f c) H). unfold vsub, vzero in A. lra. Qed.

Lemma filter_none (P : list agent_id) : filter (fun i => negb (memb i P)) P = [].
Proof.
  assert (Q : forall l, incl l P -> filter (fun i => negb (memb i P)) l = []); [|apply Q, incl_refl].
  induction l as [|q l IH]; intro I; cbn [filter]; auto. assert (E : memb q P = true) by (apply memb_In, I; now left). rewrite E. cbn. apply IH.
  intros x Hx. apply I. now right.
Qed.

Lemma throughout_mono t period A w (Obs Obs' : nat -> net vec -> Prop) : (forall k st, Obs k st -> Obs' k st) -> throughout t period A w Obs -> throughout t period A w Obs'.
Proof. intros H (A1 & A2 & A3 & A4). repeat split; eauto. Qed.

Section Derived.
  Variables (t : topo) (e : env vec) (sv : agent_id).
  Hypothesis NET : fed_net t e sv.
  Notation clients := (agents t).
  Hypothesis NE : clients <> [].

  Lemma sync_part P R : synchronous e -> participation t e None P R -> P = clients /\ R = clients.
  Proof using. clear. intros (RE & AA) (_ & _ & _ & _ & A & B). rewrite (A RE), (B RE AA eq_refl). auto. Qed.

  Variables (period : agent_id -> nat) (N : nat) (w : world vec nat).
  Variable grad : nat -> agent_id -> vec -> vec.
  Variable prox : nat -> agent_id -> vec -> R -> vec.

  Lemma fedavg_gd a x0 : synchronous e ->
    exists X G, throughout t period (fed N (fedavg_init t sv x0) (fed_round t e sv (fedavg_alg grad 1 a) None)) w (fun k st => forall i, In i (t_nodes t) -> state_is st i (X k i)) /\
      (forall i, X 0%nat i = x0 i) /\
      forall k, (k < N)%nat -> (forall i, In i clients -> gradient_of grad i (X k sv) (G k i)) /\
        X (S k) sv = vsub (X k sv) (vscal a (mean_over clients (G k))).
  Proof.
    intro SY. destruct (fedavg_run t e sv NET period N w grad None 1 a x0 proper_none (reliable_faithful e (proj1 SY))) as (X & T & I & R).
    assert (forall k, exists g, (k < N)%nat -> (forall i, In i clients -> gradient_of grad i (X k sv) (g i)) /\ X (S k) sv = vsub (X k sv) (vscal a (mean_over clients g))) as CH.
    { intro k. destruct (le_lt_dec N k) as [L|L]; [exists (fun _ => vzero); lia|]. destruct (R k L) as (P & Q & PA & LO & _ & _ & M).
      destruct (sync_part P Q SY PA) as (-> & ->). specialize (M NE).
      destruct (list_choice vzero clients (fun i g => gradient_of grad i (X k sv) g /\ X (S k) i = vsub (X k sv) (vscal a g))) as (g & G).
      { intros i Hi. destruct (LO i Hi) as (s & LS). destruct (local_one grad i _ _ _ _ LS) as (g & G1 & G2). exists g. auto. }
      exists g. intros _. split; [intros; now apply G|]. rewrite M. rewrite (mean_ext clients (X (S k)) (fun i => vsub (X k sv) (vscal a (g i)))) by (intros; now apply G).
      now apply mean_affine. }
    assert (exists G, forall k, (k < N)%nat -> (forall i, In i clients -> gradient_of grad i (X k sv) (G k i)) /\ X (S k) sv = vsub (X k sv) (vscal a (mean_over clients (G k)))) as (G & HG).
    { destruct (list_choice (fun _ : agent_id => vzero) (seq 0 N) (fun k g => (forall i, In i clients -> gradient_of grad i (X k sv) (g i)) /\ X (S k) sv = vsub (X k sv) (vscal a (mean_over clients g)))) as (G & HG).
      - intros k Hk. apply in_seq in Hk. destruct (CH k) as (g & H). exists g. apply H. lia.
      - exists G. intros k Hk. apply HG, in_seq. lia. }
    exists X, G. auto.
  Qed.

  Lemma fedlt_rows_equal X Z ZS sch : reliable e -> (forall i, Z 0%nat i = ZS 0%nat i :> vec) ->
    (forall k, (k < N)%nat -> exists P R : list agent_id, participation t e sch P R /\ (forall i, In i clients -> ~ In i P -> X (S k) i = X k i :> vec /\ Z (S k) i = Z k i) /\
        (forall i, In i R -> ZS (S k) i = Z (S k) i) /\ (forall i, ~ In i R -> ZS (S k) i = ZS k i)) ->
    forall k i, (k <= N)%nat -> In i clients -> ZS k i = Z k i.
  Proof using.
    intros RE Z0 H. induction k as [|k IH]; intros i K Hi; [auto|]. destruct (H k ltac:(lia)) as (P & R & PA & NP & A & B).
    destruct PA as (_ & _ & _ & _ & RP & _). specialize (RP RE). subst R. destruct (in_dec Nat.eq_dec i P) as [I|I]; [now apply A|].
    rewrite B by auto. destruct (NP i Hi I) as (_ & ->). apply IH; auto. lia.
  Qed.

  Lemma drift_zero (C : nat -> agent_id -> vec) sch : reliable e -> drift t sv C 0 = vzero ->
    (forall k, (k < N)%nat -> exists P R, participation t e sch P R /\ (forall i, In i clients -> ~ In i P -> C (S k) i = C k i) /\
      C (S k) sv = vadd (C k sv) (vscal (/ INR (length clients)) (sum_over R (fun i => vsub (C (S k) i) (C k i))))) ->
    forall k, (k <= N)%nat -> drift t sv C k = vzero.
  Proof.
    intros RE D0 H. induction k as [|k IH]; intro K; [auto|]. destruct (H k ltac:(lia)) as (P & R & (P1 & P2 & P3 & P4 & P5 & _) & A & B).
    rewrite (drift_step t e sv NET C k P R NE P1 P2 P3 P4 A B). rewrite IH by lia. rewrite (P5 RE).
    rewrite filter_none.
    apply vext. intro c. unfold vsub, vscal, sum_over, vzero. cbn. unfold rsum. cbn. lra.
  Qed.

  Lemma drift_mean C k : drift t sv C k = vzero -> C k sv = mean_over clients (C k).
  Proof using. clear. apply vsub_self_zero. Qed.
  Lemma mean_drift (c0 : agent_id -> vec) (C : nat -> agent_id -> vec) : (forall i, C 0%nat i = c0 i) -> c0 sv = mean_over clients c0 -> drift t sv C 0 = vzero.
  Proof using.
    clear. intros I M. unfold drift. rewrite I, M, (mean_ext clients (C 0%nat) c0) by auto. apply vext. intro. unfold vsub, vzero. lra.
  Qed.

  (** Scaffold with a single local step and everybody present *)
  Lemma scaffold_gd a eta x0 c0 : synchronous e -> a <> 0 -> c0 sv = mean_over clients c0 ->
    exists X C G, throughout t period (fed N (scaffold_init t sv x0 c0) (fed_round t e sv (scaffold_alg t grad 1 a eta) None)) w
        (fun k st => (forall i, In i (t_nodes t) -> state_is st i (X k i)) /\ aux_is st sv "c" (C k sv) /\ forall i, In i clients -> aux_is st i "c_i" (C k i)) /\
      (forall i, X 0%nat i = x0 i) /\
      forall k, (k < N)%nat -> (forall i, In i clients -> gradient_of grad i (X k sv) (G k i) /\ C (S k) i = G k i) /\
        X (S k) sv = vsub (X k sv) (vscal (eta * a) (mean_over clients (G k))).
  Proof.
    intros SY NA M0. destruct (scaffold_run t e sv NET period N w grad None 1 a eta x0 c0 proper_none (reliable_faithful e (proj1 SY))) as (X & C & T & I & R).
    assert (DZ : forall k, (k <= N)%nat -> drift t sv C k = vzero).
    { apply (drift_zero C None (proj1 SY)).
      - apply mean_drift with (c0 := c0); auto. intro; apply I.
      - intros k Hk. destruct (R k Hk) as (P & Q & PA & LO & OU & _ & _ & SU). exists P, Q. split; auto. split; auto. intros i Hi Ni. now apply OU. }
    assert (CH : forall k, In k (seq 0 N) -> exists g, (forall i, In i clients -> gradient_of grad i (X k sv) (g i) /\ C (S k) i = g i) /\ X (S k) sv = vsub (X k sv) (vscal (eta * a) (mean_over clients g))).
    { intros k Hk. apply in_seq in Hk. destruct (R k ltac:(lia)) as (P & Q & PA & LO & _ & _ & M & _). destruct (sync_part P Q SY PA) as (-> & ->). specialize (M NE).
      destruct (list_choice vzero clients (fun i g => gradient_of grad i (X k sv) g /\ X (S k) i = vsub (X k sv) (vscal a (vadd (vsub g (C k i)) (C k sv))))) as (g & G).
      { intros i Hi. destruct (LO i Hi) as ((s & LS) & _). destruct (local_one grad i _ _ _ _ LS) as (g & G1 & G2). exists g. auto. }
      exists g. split.
      - intros i Hi. split; [now apply G|]. destruct (LO i Hi) as (_ & ->). destruct (G i Hi) as (_ & ->). apply vext. intro c. unfold vadd, vsub, vscal. cbn [INR]. field. auto.
      - apply (scaffold_one t sv X C g a eta k NA NE); auto; [apply DZ; lia|]. intros i Hi. now apply G. }
    destruct (list_choice (fun _ : agent_id => vzero) (seq 0 N) _ CH) as (G & HG). exists X, C, G. split; auto. split; [intro; apply I|].
    intros k Hk. apply HG, in_seq. lia.
  Qed.
  Lemma scaffold_fedavg a x0 c0 : synchronous e -> deterministic grad -> a <> 0 -> c0 sv = mean_over clients c0 ->
    exists X X', throughout t period (fed N (scaffold_init t sv x0 c0) (fed_round t e sv (scaffold_alg t grad 1 a 1) None)) w (fun k st => state_is st sv (X k)) /\
      throughout t period (fed N (fedavg_init t sv x0) (fed_round t e sv (fedavg_alg grad 1 a) None)) w (fun k st => state_is st sv (X' k)) /\
      forall k, (k <= N)%nat -> X k = X' k.
  Proof.
    intros SY DE NA M0. destruct (scaffold_gd a 1 x0 c0 SY NA M0) as (X & C & G & T & I & R). destruct (fedavg_gd a x0 SY) as (X' & G' & T' & I' & R').
    assert (Isv : In sv (t_nodes t)) by (eapply sv_node; eauto).
    exists (fun k => X k sv), (fun k => X' k sv). split; [|split].
    - eapply throughout_mono; [|exact T]. intros k st (H & _). now apply H.
    - eapply throughout_mono; [|exact T']. intros k st H. now apply H.
    - induction k as [|k IH]; intro K; [now rewrite I, I'|]. destruct (R k ltac:(lia)) as (GR & ->). destruct (R' k ltac:(lia)) as (GR' & ->).
      rewrite IH by lia. rewrite Rmult_1_l. f_equal. f_equal. apply mean_ext. intros i Hi. destruct (GR i Hi) as ((n & ->) & _). destruct (GR' i Hi) as (m & ->). rewrite IH by lia. apply DE.
  Qed.

  (** the first round from zero control variates *)
  Lemma scaffold_first (X C : nat -> agent_id -> vec) K a P R : (forall i, C 0%nat i = vzero) ->
    (forall i, In i P -> exists s, local_steps grad i (fun y g => vsub y (vscal a (vadd (vsub g (C 0%nat i)) (C 0%nat sv)))) K (X 0%nat sv) (X 1%nat i) s) ->
    (R <> [] -> X 1%nat sv = vadd (X 0%nat sv) (vscal 1 (mean_over R (fun i => vsub (X 1%nat i) (X 0%nat sv))))) ->
    (forall i, In i P -> exists s, local_steps grad i (fun y g => vsub y (vscal a g)) K (X 0%nat sv) (X 1%nat i) s) /\
    (R <> [] -> X 1%nat sv = mean_over R (X 1%nat)).
  Proof using.
    clear. intros Z H S. split.
    - intros i Hi. destruct (H i Hi) as (s & LS). exists s. eapply local_ext; [|exact LS]. intros x g. cbv beta. now rewrite !Z, vadd_zero, vsub_zero.
    - intro NR. rewrite (S NR), vscal_1. now apply mean_shift.
  Qed.
End Derived.
