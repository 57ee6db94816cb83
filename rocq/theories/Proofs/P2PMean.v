(** Mean dynamics, tracking, and the default weights. *)
From Coq Require Import Reals String List Bool Arith ZArith Lia Lra FunctionalExtensionality Permutation.
From Verif.Model Require Import PyDict History Messages Network Runner Vec P2P.
From Verif.Spec Require Import NetworkSpec P2PSpec.
From Verif.Proofs Require Import PyDictProofs NetworkProofs EmpiricalProofs P2PLock P2PSteps P2PRuns.
Import ListNotations.
Open Scope R_scope.

(** ** Metropolis weights *)
Section Metropolis.
  Variable t : topo.
  Hypothesis PT : p2p_topo t.
  Notation nodes := (t_nodes t).
  Let q i j : R := 1 / (1 + INR (Nat.max (length (t_adj t i)) (length (t_adj t j)))).
  Lemma inner l i : forall V a b, fold_left (fun W j => mset W i j (q i j)) l V a b = if Nat.eqb a i && memb b l then q i b else V a b.
  Proof.
    induction l as [|j l IH]; intros V a b; cbn [fold_left memb existsb]; [now rewrite andb_false_r|].
    rewrite IH. fold (memb b l). unfold mset. destruct (Nat.eqb_spec a i); cbn [andb]; auto. destruct (memb b l); [now rewrite orb_true_r|].
    rewrite orb_false_r. destruct (Nat.eqb_spec b j); subst; auto.
  Qed.
  Lemma outer l : forall V a b, fold_left (fun W i => fold_left (fun W j => mset W i j (q i j)) (t_adj t i) W) l V a b =
    if memb a l && memb b (t_adj t a) then q a b else V a b.
  Proof.
    induction l as [|i l IH]; intros V a b; cbn [fold_left memb existsb]; auto. rewrite IH. fold (memb a l). rewrite inner.
    destruct (Nat.eqb_spec a i); cbn [andb orb]; [subst; destruct (memb i l), (memb b (t_adj t i)); auto|].
    destruct (memb a l && memb b (t_adj t a)); auto.
  Qed.
  Let off a b : R := if memb a nodes && memb b (t_adj t a) then q a b else 0.
  Lemma diag l : NoDup l -> (forall i, off i i = 0) -> forall V, (forall i, In i l -> forall b, V i b = off i b) -> forall a b,
    fold_left (fun W i => mset W i i (1 - rsum (map (W i) nodes))) l V a b = 
    if Nat.eqb a b && memb a l then 1 - rsum (map (off a) nodes) else V a b.
  Proof.
    intros ND Z. induction ND as [|i l Hi ND IH]; intros V HV a b; cbn [fold_left memb existsb]; [now rewrite andb_false_r|].
    rewrite IH.
    - fold (memb a l). unfold mset. destruct (Nat.eqb_spec a b); cbn [andb].
      + subst b. destruct (memb a l) eqn:M; [now rewrite orb_true_r|]. rewrite orb_false_r. destruct (Nat.eqb_spec a i); cbn [andb]; auto.
        subst. f_equal. apply rsum_map_ext. intros j _. apply HV. now left.
      + destruct (Nat.eqb_spec a i); cbn [andb]; auto. destruct (Nat.eqb_spec b i); auto. congruence.
    - intros j Hj b'. unfold mset. destruct (Nat.eqb_spec j i); [subst; contradiction|]. cbn [andb]. apply HV. now right.
  Qed.
  Lemma metropolis_eq a b : metropolis t a b = if Nat.eqb a b && memb a nodes then 1 - rsum (map (off a) nodes) else off a b.
  Proof.
    unfold metropolis. 
    assert (E : fold_left (fun W i => fold_left (fun W j => mset W i j (q i j)) (t_adj t i) W) nodes (fun _ _ => 0) = off).
    { apply functional_extensionality; intro x; apply functional_extensionality; intro y. apply outer. }
    unfold q in E at 1. cbv zeta. rewrite E. clear E.
    apply diag; auto; [apply PT|]. intro i. unfold off. destruct PT as (_ & _ & LOOP). 
    destruct (memb i (t_adj t i)) eqn:E; [apply memb_In in E; destruct (LOOP i E)|]. now rewrite andb_false_r.
  Qed.
  Lemma off_sym a b : off a b = off b a.
  Proof.
    unfold off. destruct PT as ((_ & SYM & _) & _).
    assert (G : forall a b, memb a nodes && memb b (t_adj t a) = true -> memb b nodes && memb a (t_adj t b) = true).
    { intros x y. rewrite !andb_true_iff, !memb_In. intros (_ & H). destruct (SYM x y H) as (? & ? & ?). auto. }
    destruct (memb a nodes && memb b (t_adj t a)) eqn:E1, (memb b nodes && memb a (t_adj t b)) eqn:E2; auto.
    - unfold q. now rewrite Nat.max_comm.
    - apply G in E1. congruence.
    - apply G in E2. congruence.
  Qed.
  Lemma metropolis_sym a b : metropolis t a b = metropolis t b a.
  Proof. rewrite !metropolis_eq. rewrite (Nat.eqb_sym b a). destruct (Nat.eqb_spec a b); [now subst|]. cbn [andb]. apply off_sym. Qed.
  Lemma metropolis_sparse : sparse t (metropolis t).
  Proof.
    intros i j N A. rewrite metropolis_eq. destruct (Nat.eqb_spec i j); [congruence|]. cbn [andb]. unfold off.
    destruct (memb j (t_adj t i)) eqn:E; [apply memb_In in E; contradiction|]. now rewrite andb_false_r.
  Qed.
  Lemma rsum_point (f g : agent_id -> R) i (l : list agent_id) (d : R) : NoDup l -> In i l -> (forall j, j <> i -> f j = g j) -> f i = g i + d -> rsum (map f l) = rsum (map g l) + d.
  Proof.
    induction 1 as [|j l Hj ND IH]; intros I H1 H2; [destruct I|]. cbn [map]. rewrite !rsum_cons. destruct I as [->|I].
    - rewrite H2. rewrite (rsum_map_ext f g l) by (intros x Hx; apply H1; congruence). lra.
    - rewrite IH; auto. rewrite (H1 j); [lra|]. congruence.
  Qed.
  Lemma metropolis_row : row_stochastic t (metropolis t).
  Proof.
    intros i Hi. change (fun j : agent_id => metropolis t i j) with (metropolis t i). rewrite (rsum_point (metropolis t i) (off i) i nodes (1 - rsum (map (off i) nodes) - off i i)); auto.
    - assert (off i i = 0); [|lra]. unfold off. destruct PT as (_ & _ & LOOP). destruct (memb i (t_adj t i)) eqn:E; [apply memb_In in E; destruct (LOOP i E)|]. now rewrite andb_false_r.
    - apply PT.
    - intros j Nj. rewrite metropolis_eq. destruct (Nat.eqb_spec i j); [congruence|]. reflexivity.
    - rewrite metropolis_eq, Nat.eqb_refl. apply memb_In in Hi. rewrite Hi. cbn [andb]. lra.
  Qed.
  Lemma metropolis_col : col_stochastic t (metropolis t).
  Proof. intros j Hj. rewrite (rsum_map_ext (fun i => metropolis t i j) (metropolis t j)) by (intros; apply metropolis_sym). now apply metropolis_row. Qed.
  Lemma metropolis_edge i j : In j (t_adj t i) -> metropolis t i j = 1 / (1 + INR (Nat.max (length (t_adj t i)) (length (t_adj t j)))).
  Proof.
    intro H. destruct PT as ((_ & SYM & _) & _ & LOOP). rewrite metropolis_eq. destruct (Nat.eqb_spec i j); [subst; destruct (LOOP j H)|].
    cbn [andb]. unfold off. destruct (SYM i j H) as (H1 & _). apply memb_In in H, H1. now rewrite H, H1.
  Qed.
End Metropolis.

Ltac vext := apply functional_extensionality; let c := fresh "c" in intro c; unfold vadd, vsub, vscal, vzero in *.

(** local step chains *)
Lemma local_steps_sum grad i next n x z s (a : R) (y : vec) : (forall u g, next u g = vsub u (vadd (vscal a g) y)) ->
  local_steps grad i next n x z s -> z = vsub x (vadd (vscal a s) (vscal (INR n) y)).
Proof.
  intros H. induction 1 as [x|n x g z s G L IH].
  - vext. cbn. lra.
  - rewrite IH, H. vext. rewrite S_INR. lra.
Qed.

Section Mean.
  Variables (t : topo) (e : env vec).
  Hypothesis PT : p2p_topo t.
  Hypothesis SY : synchronous e.
  Variable W : agent_id -> agent_id -> R.
  Hypothesis SP : sparse t W.
  Hypothesis CS : col_stochastic t W.
  Variable grad : nat -> agent_id -> vec -> vec.
  Variable prox : nat -> agent_id -> vec -> R -> vec.
  Variables (period : agent_id -> nat) (N : nat) (w : world vec nat).
  Notation nodes := (t_nodes t).
  Notation row := (row_of t).
  Notation T := (total_of t).
  Notation mean := (mean_of t).

  Lemma NDm : NoDup nodes. Proof. apply PT. Qed.
  Lemma mean_step a X X' G : T X' = vsub (T X) (vscal a (T G)) -> mean X' = vsub (mean X) (vscal a (mean G)).
  Proof. intro H. unfold mean_of. rewrite H. vext. ring. Qed.
  Lemma mean_eq X Y : T X = T Y -> mean X = mean Y.
  Proof. unfold mean_of. now intros ->. Qed.
  Lemma T_half v : T (row (half_plus W) v) = T v.
  Proof. apply total_row. rewrite <- halfW_eq. apply halfW_col; auto. apply NDm. Qed.
  Lemma T_minus v : T (row (half_minus W) v) = vzero.
  Proof. rewrite (total_row_gen t _ 0); [apply vscal0|]. rewrite <- weK_eq. apply weK_col; auto. apply NDm. Qed.
  Lemma T_damped chi v : T (row (damped W chi) v) = T v.
  Proof. apply total_row. rewrite <- psW_eq. apply psW_col; auto. apply NDm. Qed.
  Lemma T_row v : T (row W v) = T v. Proof. now apply total_row. Qed.
  Ltac tot := repeat progress rewrite ?total_add, ?total_sub, ?total_scal, ?T_row, ?T_half, ?T_minus, ?T_damped, ?total_zero.
  Ltac text := let E := fresh in match goal with |- context [T (?f ?k)] => idtac end.

  Theorem dgd_mean a x0 : let A := p2p t e N (dgd_init x0) (dgd W grad a) in
    exists X G, trajectory t period A w X /\ (forall i, X 0%nat i = x0 i) /\
      (forall k i, (k < N)%nat -> In i nodes -> gradient_of grad i (X k i) (G k i)) /\
      forall k, (k < N)%nat -> mean (X (S k)) = vsub (mean (X k)) (vscal a (mean (G k))).
  Proof.
    intro A. destruct (dgd_run t e PT SY W SP grad period N w a x0) as (X & G & TR & X0 & R). exists X, G.
    split; auto. split; auto. split; [intros; apply R; auto|]. intros k Hk. apply mean_step.
    rewrite (total_ext t (X (S k)) (fun i => vsub (row W (X k) i) (vscal a (G k i)))) by (intros; apply R; auto). tot. reflexivity.
  Qed.

  Theorem simple_gt_mean a x0 : let A := p2p t e N (simple_gt_init x0) (simple_gt W grad a) in
    exists X G, trajectory t period A w X /\ (forall i, X 0%nat i = x0 i) /\
      (forall k i, (k < N)%nat -> In i nodes -> gradient_of grad i (X k i) (G k i)) /\
      forall k, (k < N)%nat -> mean (X (S k)) = vsub (mean (X k)) (vscal a (mean (G k))).
  Proof.
    intro A. destruct (simple_gt_run t e PT SY W SP grad period N w a x0) as (X & Y & G & TR & TY & X0 & R). exists X, G.
    split; auto. split; [intro; apply X0|]. split; [intros; apply R; auto|].
    assert (TYS : forall k, (k < N)%nat -> T (Y (S k)) = vsub (T (X k)) (vscal a (T (G k)))).
    { intros k Hk. rewrite (total_ext t (Y (S k)) (fun i => vsub (X k i) (vscal a (G k i)))) by (intros; apply R; auto). tot. reflexivity. }
    assert (TXS : forall k, (k < N)%nat -> T (X (S k)) = vadd (vsub (T (Y (S k))) (T (Y k))) (T (X k))).
    { intros k Hk. rewrite (total_ext t (X (S k)) (fun i => vadd (vsub (Y (S k) i) (Y k i)) (row W (X k) i))) by (intros; apply R; auto). tot. reflexivity. }
    assert (XY : forall k, (k <= N)%nat -> T (X k) = T (Y k)).
    { induction k as [|k IH]; intro Hk; [apply total_ext; intros; destruct (X0 i); congruence|].
      rewrite TXS, IH by lia. vext. ring. }
    intros k Hk. apply mean_step. rewrite TXS, XY, TYS, XY by lia. vext. ring.
  Qed.

  Theorem atct_tracking a x0 : let A := p2p t e N (track_init grad x0) (atct W grad a) in
    exists X Y G, trajectory t period A w X /\ aux_trajectory t period A w "y" Y /\ (forall i, In i nodes -> X 0%nat i = x0 i) /\
      (forall k i, (k <= N)%nat -> In i nodes -> gradient_of grad i (X k i) (G k i)) /\
      (forall k, (k <= N)%nat -> T (Y k) = T (G k)) /\
      forall k, (k < N)%nat -> mean (X (S k)) = vsub (mean (X k)) (vscal a (mean (G k))).
  Proof.
    intro A. destruct (atct_run t e PT SY W SP grad period N w a x0) as (X & Y & G & TR & TY & TG & X0 & GR & R). exists X, Y, G.
    split; auto. split; auto. split; [intros; apply X0; auto|]. split; auto.
    assert (YG : forall k, (k <= N)%nat -> T (Y k) = T (G k)).
    { induction k as [|k IH]; intro Hk; [apply total_ext; intros; apply X0; auto|].
      rewrite (total_ext t (Y (S k)) (fun i => vsub (vadd (row W (Y k) i) (G (S k) i)) (G k i))) by (intros; apply R; auto). tot. rewrite IH by lia. vext. ring. }
    split; auto. intros k Hk. apply mean_step.
    rewrite (total_ext t (X (S k)) (row W (fun j => vsub (X k j) (vscal a (Y k j))))) by (intros; apply R; auto). tot. rewrite YG by lia. reflexivity.
  Qed.
  Theorem aug_dgm_tracking a x0 : let A := p2p t e N (track_init grad x0) (aug_dgm W grad a) in
    exists X Y G, trajectory t period A w X /\ aux_trajectory t period A w "y" Y /\ (forall i, In i nodes -> X 0%nat i = x0 i) /\
      (forall k i, (k <= N)%nat -> In i nodes -> gradient_of grad i (X k i) (G k i)) /\
      (forall k, (k <= N)%nat -> T (Y k) = T (G k)) /\
      forall k, (k < N)%nat -> mean (X (S k)) = vsub (mean (X k)) (vscal a (mean (G k))).
  Proof.
    intro A. destruct (aug_dgm_run t e PT SY W SP grad period N w a x0) as (X & Y & G & TR & TY & TG & X0 & GR & R). exists X, Y, G.
    split; auto. split; auto. split; [intros; apply X0; auto|]. split; auto.
    assert (YG : forall k, (k <= N)%nat -> T (Y k) = T (G k)).
    { induction k as [|k IH]; intro Hk; [apply total_ext; intros; apply X0; auto|].
      rewrite (total_ext t (Y (S k)) (row W (fun i => vsub (vadd (Y k i) (G (S k) i)) (G k i)))) by (intros; apply R; auto). tot. rewrite IH by lia. vext. ring. }
    split; auto. intros k Hk. apply mean_step.
    rewrite (total_ext t (X (S k)) (row W (fun j => vsub (X k j) (vscal a (Y k j))))) by (intros; apply R; auto). tot. rewrite YG by lia. reflexivity.
  Qed.

  Theorem extra_mean a x0 : (forall n m i x, grad n i x = grad m i x) -> let A := p2p t e N (extra_init x0) (extra W grad a) in
    exists X G, trajectory t period A w X /\ (forall i, X 0%nat i = x0 i) /\
      (forall k i, (k < N)%nat -> In i nodes -> gradient_of grad i (X k i) (G k i)) /\
      forall k, (k < N)%nat -> mean (X (S k)) = vsub (mean (X k)) (vscal a (mean (G k))).
  Proof.
    intros DT A. destruct (extra_run t e PT SY W SP grad period N w a x0) as (X & G & G' & TR & X0 & R1 & R2 & R3 & R4). exists X, G.
    split; auto. split; auto. split; auto.
    assert (K : forall k, (k < N)%nat -> T (X (S k)) = vsub (T (X k)) (vscal a (T (G k)))).
    { induction k as [|k IH]; intro Hk.
      - rewrite (total_ext t (X 1%nat) (fun i => vsub (row W (X 0%nat) i) (vscal a (G 0%nat i)))) by (intros; apply R3; auto). tot. reflexivity.
      - assert (GE : T (G' k) = T (G k)).
        { apply total_ext. intros i Hi. destruct (R1 k i ltac:(lia) Hi) as (n & ->), (R2 k i Hk Hi) as (m & ->). apply DT. }
        rewrite (total_ext t _ (fun i => vsub (vsub (vadd (X (S k) i) (row W (X (S k)) i)) (vscal (1/2) (vadd (X k i) (row W (X k) i))))
                             (vscal a (vsub (G (S k) i) (G' k i))))) by (intros; apply R4; auto).
        tot. rewrite GE, IH by lia. vext. field. }
    intros k Hk. apply mean_step. auto.
  Qed.

  Theorem nids_mean a x0 : let A := p2p t e N (nids_init x0) (nids W grad a) in
    exists X G, trajectory t period A w X /\ (forall i, X 0%nat i = x0 i) /\
      (forall k i, (k < N)%nat -> In i nodes -> gradient_of grad i (X k i) (G k i)) /\
      forall k, (k < N)%nat -> mean (X (S k)) = vsub (mean (X k)) (vscal a (mean (G k))).
  Proof.
    intro A. destruct (nids_run t e PT SY W SP grad period N w a x0) as (X & G & TR & X0 & R1 & R3 & R4). exists X, G.
    split; auto. split; auto. split; auto.
    assert (K : forall k, (k < N)%nat -> T (X (S k)) = vsub (T (X k)) (vscal a (T (G k)))).
    { induction k as [|k IH]; intro Hk.
      - rewrite (total_ext t (X 1%nat) (fun i => vsub (X 0%nat i) (vscal a (G 0%nat i)))) by (intros; apply R3; auto). tot. reflexivity.
      - rewrite (total_ext t _ (row (half_plus W) (fun j => vsub (vsub (vscal 2 (X (S k) j)) (X k j)) (vscal a (vsub (G (S k) j) (G k j)))))) by (intros; apply R4; auto).
        tot. rewrite IH by lia. vext. field. }
    intros k Hk. apply mean_step. auto.
  Qed.

  Theorem ed_mean a x0 : let A := p2p t e N (ed_init grad a x0) (ed W grad a) in
    exists X G, trajectory t period A w X /\ (forall i, X 0%nat i = x0 i) /\
      (forall k i, (k < N)%nat -> In i nodes -> gradient_of grad i (X k i) (G k i)) /\
      forall k, (k < N)%nat -> mean (X (S k)) = vsub (mean (X k)) (vscal a (mean (G k))).
  Proof.
    intro A. destruct (ed_run t e PT SY W SP grad period N w a x0) as (X & Y & G & TR & TY & TY' & X0 & R). exists X, G.
    split; auto. split; [intro; apply X0|]. split; [intros k i Hk Hi; apply (R k i); auto; lia|].
    assert (TYS : forall k, (k <= N)%nat -> T (Y (S k)) = vsub (T (X k)) (vscal a (T (G k)))).
    { intros k Hk. rewrite (total_ext t (Y (S k)) (fun i => vsub (X k i) (vscal a (G k i)))) by (intros; apply R; auto). tot. reflexivity. }
    assert (TXS : forall k, (k < N)%nat -> T (X (S k)) = vsub (vadd (T (Y (S k))) (T (X k))) (T (Y k))).
    { intros k Hk. rewrite (total_ext t (X (S k)) (row (half_plus W) (fun j => vsub (vadd (Y (S k) j) (X k j)) (Y k j)))).
      - tot. reflexivity.
      - intros i Hi. destruct (R k i ltac:(lia) Hi) as (_ & _ & Q). auto. }
    assert (XY : forall k, (k <= N)%nat -> T (X k) = T (Y k)).
    { induction k as [|k IH]; intro Hk; [apply total_ext; intros; destruct (X0 i); congruence|].
      rewrite TXS, IH by lia. vext. ring. }
    intros k Hk. apply mean_step. rewrite TXS, XY, TYS, XY by lia. vext. ring.
  Qed.

  Theorem wang_elia_mean a x0 : let A := p2p t e N (we_init x0) (wang_elia W grad a) in
    exists X G, trajectory t period A w X /\ (forall i, X 0%nat i = x0 i) /\
      (forall k i, (k < N)%nat -> In i nodes -> gradient_of grad i (X k i) (G k i)) /\
      forall k, (k < N)%nat -> mean (X (S k)) = vsub (mean (X k)) (vscal a (mean (G k))).
  Proof.
    intro A. destruct (wang_elia_run t e PT SY W SP grad period N w a x0) as (X & Z & G & TR & TZ & X0 & R). exists X, G.
    split; auto. split; [intro; apply X0|]. split; [intros; apply R; auto|]. intros k Hk. apply mean_step.
    rewrite (total_ext t (X (S k)) (fun i => vsub (vsub (X k i) (row (half_minus W) (fun j => vadd (X k j) (Z k j)) i)) (vscal a (G k i)))) by (intros; apply R; auto).
    tot. vext. ring.
  Qed.

  Theorem led_mean tau a b x0 : let A := p2p t e N (led_init x0) (led W grad tau a b) in
    exists X Y Phi Sg, trajectory t period A w X /\ aux_trajectory t period A w "y" Y /\ (forall i, X 0%nat i = x0 i) /\
      (forall k i, (k < N)%nat -> In i nodes ->
         local_steps grad i (fun phi g => vsub phi (vadd (vscal a g) (vscal b (Y k i)))) tau (X k i) (Phi k i) (Sg k i)) /\
      (forall k, (k <= N)%nat -> T (Y k) = vzero) /\
      forall k, (k < N)%nat -> mean (X (S k)) = vsub (mean (X k)) (vscal a (mean (Sg k))).
  Proof.
    intro A. destruct (led_run t e PT SY W SP grad period N w tau a b x0) as (X & Y & Phi & Sg & TR & TY & X0 & R). exists X, Y, Phi, Sg.
    split; auto. split; auto. split; [intro; apply X0|]. split; [intros; apply R; auto|].
    assert (TXS : forall k, (k < N)%nat -> T (X (S k)) = T (Phi k)).
    { intros k Hk. rewrite (total_ext t (X (S k)) (row W (Phi k))) by (intros; apply R; auto). apply T_row. }
    assert (Y0 : forall k, (k <= N)%nat -> T (Y k) = vzero).
    { induction k as [|k IH]; intro Hk; [rewrite (total_ext t (Y 0%nat) (fun _ => vzero)) by (intros; apply X0); apply total_zero|].
      rewrite (total_ext t (Y (S k)) (fun i => vadd (Y k i) (vsub (Phi k i) (X (S k) i)))) by (intros; apply R; auto).
      tot. rewrite TXS, IH by lia. vext. ring. }
    split; auto. intros k Hk. apply mean_step. rewrite TXS by auto.
    rewrite (total_ext t (Phi k) (fun i => vsub (X k i) (vadd (vscal a (Sg k i)) (vscal (INR tau) (vscal b (Y k i)))))).
    - tot. rewrite Y0 by lia. vext. ring.
    - intros i Hi. destruct (R k i Hk Hi) as (L & _). eapply local_steps_sum; [|exact L]. reflexivity.
  Qed.

  Theorem kgt_mean kk a b x0 : INR kk * a <> 0 -> let A := p2p t e N (kgt_init x0) (kgt W grad kk a b) in
    exists X C XK Sg, trajectory t period A w X /\ aux_trajectory t period A w "c" C /\ (forall i, X 0%nat i = x0 i) /\
      (forall k i, (k < N)%nat -> In i nodes ->
         local_steps grad i (fun x g => vsub x (vscal a (vadd g (C k i)))) kk (X k i) (XK k i) (Sg k i)) /\
      (forall k, (k <= N)%nat -> T (C k) = vzero) /\
      forall k, (k < N)%nat -> mean (X (S k)) = vsub (mean (X k)) (vscal (a * b) (mean (Sg k))).
  Proof.
    intros NZ A. destruct (kgt_run t e PT SY W SP grad prox period N w kk a b x0) as (X & C & XK & Sg & TR & TC & X0 & R). exists X, C, XK, Sg.
    split; auto. split; auto. split; [intro; apply X0|]. split; [intros; apply R; auto|]. cbn zeta in R.
    set (Z := fun k j => vscal (/ (INR kk * a)) (vsub (X k j) (XK k j))).
    assert (C0 : forall k, (k <= N)%nat -> T (C k) = vzero).
    { induction k as [|k IH]; intro Hk; [rewrite (total_ext t (C 0%nat) (fun _ => vzero)) by (intros; apply X0); apply total_zero|].
      rewrite (total_ext t (C (S k)) (fun i => vadd (vsub (C k i) (Z k i)) (row W (Z k) i))) by (intros; apply R; auto).
      tot. rewrite IH by lia. vext. ring. }
    split; auto. intros k Hk. apply mean_step.
    rewrite (total_ext t (X (S k)) (row W (fun j => vsub (X k j) (vscal (INR kk * b * a) (Z k j))))) by (intros; apply R; auto).
    tot. rewrite (total_ext t (Z k) (fun i => vadd (vscal (/ INR kk) (Sg k i)) (C k i))).
    - tot. rewrite C0 by lia. vext. assert (INR kk <> 0) by (intro E; apply NZ; rewrite E; ring). field. auto.
    - intros i Hi. destruct (R k i Hk Hi) as (L & _). 
      assert (E : XK k i = vsub (X k i) (vadd (vscal a (Sg k i)) (vscal (INR kk) (vscal a (C k i))))).
      { eapply local_steps_sum; [|exact L]. intros u g. vext. ring. }
      unfold Z. rewrite E. vext. assert (INR kk <> 0) by (intro E'; apply NZ; rewrite E'; ring). assert (a <> 0) by (intro E'; apply NZ; rewrite E'; ring). field. auto.
  Qed.

  Theorem prox_skip_mean coin chi a b x0 : let A := p2p t e N (ps_init x0) (prox_skip W grad coin chi a b) in
    exists X Y G, trajectory t period A w X /\ aux_trajectory t period A w "y" Y /\ (forall i, X 0%nat i = x0 i) /\
      (forall k i, (k < N)%nat -> In i nodes -> gradient_of grad i (X k i) (G k i)) /\
      (forall k, (k <= N)%nat -> T (Y k) = vzero) /\
      forall k, (k < N)%nat -> mean (X (S k)) = vsub (mean (X k)) (vscal a (mean (G k))).
  Proof.
    intro A. destruct (prox_skip_run t e PT SY W SP grad period N w coin chi a b x0) as (X & Y & G & TR & TY & X0 & R). exists X, Y, G.
    split; auto. split; auto. split; [intro; apply X0|]. split; [intros; apply R; auto|]. cbn zeta in R.
    set (Z := fun k j => vsub (vsub (X k j) (vscal a (G k j))) (Y k j)).
    assert (TXS : forall k, (k < N)%nat -> T (X (S k)) = T (Z k)).
    { intros k Hk. destruct (coin k) eqn:CK.
      - rewrite (total_ext t (X (S k)) (row (damped W chi) (Z k))); [apply T_damped|]. intros i Hi. destruct (R k i Hk Hi) as (_ & Q & _). now rewrite CK in Q.
      - apply total_ext. intros i Hi. destruct (R k i Hk Hi) as (_ & Q & _). now rewrite CK in Q. }
    assert (Y0 : forall k, (k <= N)%nat -> T (Y k) = vzero).
    { induction k as [|k IH]; intro Hk; [rewrite (total_ext t (Y 0%nat) (fun _ => vzero)) by (intros; apply X0); apply total_zero|].
      destruct (coin k) eqn:CK.
      - rewrite (total_ext t (Y (S k)) (fun i => vadd (Y k i) (vscal b (vsub (Z k i) (X (S k) i))))).
        + tot. rewrite TXS, IH by lia. vext. ring.
        + intros i Hi. destruct (R k i Hk Hi) as (_ & _ & Q). now rewrite CK in Q.
      - rewrite (total_ext t (Y (S k)) (Y k)); [apply IH; lia|]. intros i Hi. destruct (R k i Hk Hi) as (_ & _ & Q). now rewrite CK in Q. }
    split; auto. intros k Hk. apply mean_step. rewrite TXS by auto. unfold Z. tot. rewrite Y0 by lia. vext. ring.
  Qed.
End Mean.
