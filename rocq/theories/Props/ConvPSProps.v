(** C97: ProxSkip, which communicates in an iteration only if a coin says so,
    converges to the minimiser of the sum in mean square and in probability. *)
From Coq Require Import Reals String List Bool Lra Lia Arith.
From Verif.Model Require Import PyDict History Messages Network Runner Vec P2P.
From Verif.Spec Require Import CostSpec NetworkSpec P2PSpec ConvSpec.
From Verif.Proofs Require Import CostProofs VecProofs EmpiricalProofs P2PRuns ConvStack ConvPS.
From Verif.Props Require Import P2PProps ConvProps.
Import ListNotations.
Open Scope R_scope.

(** [expect] is a mean: weights of the outcomes are not negative and add up to
    one. *)
Theorem C97_expect_const p N c : expect p N (fun _ => c) = c.
Proof. induction N as [|N IH]; cbn [expect]; [reflexivity|]. rewrite IH. lra. Qed.
Theorem C97_expect_mono p N f g : 0 <= p <= 1 -> (forall l, List.length l = N -> f l <= g l) -> expect p N f <= expect p N g.
Proof. exact (expect_le p N f g). Qed.
Theorem C97_expect_linear p N c f g : expect p N (fun l => c * f l + g l) = c * expect p N f + expect p N g.
Proof. revert f g. induction N as [|N IH]; intros f g; cbn [expect]; [reflexivity|]. rewrite !IH. lra. Qed.
(** the flip of an iteration is heads with probability [p], independently of
    the other flips *)
Theorem C97_flip_probability p N k : (k < N)%nat -> expect p N (fun l => if flips l k then 1 else 0) = p.
Proof.
  revert k. induction N as [|N IH]; intros k K; [lia|]. cbn [expect]. destruct k as [|k].
  - unfold flips. cbn [nth]. rewrite !C97_expect_const. lra.
  - change (p * expect p N (fun l => if flips l k then 1 else 0) + (1 - p) * expect p N (fun l => if flips l k then 1 else 0) = p).
    rewrite IH by lia. lra.
Qed.
Theorem C97_flips_independent p N j k : (j < k < N)%nat ->
  expect p N (fun l => if flips l j && flips l k then 1 else 0) = p * p.
Proof.
  revert j k. induction N as [|N IH]; intros j k K; [lia|]. cbn [expect]. destruct k as [|k]; [lia|]. destruct j as [|j].
  - change (p * expect p N (fun l => if flips l k then 1 else 0) + (1 - p) * expect p N (fun _ => 0) = p * p).
    rewrite C97_flip_probability, C97_expect_const by lia. lra.
  - change (p * expect p N (fun l => if flips l j && flips l k then 1 else 0) + (1 - p) * expect p N (fun l => if flips l j && flips l k then 1 else 0) = p * p).
    rewrite IH by lia. lra.
Qed.

Section C97.
  Variables (t : topo) (n : nat) (W : agent_id -> agent_id -> R).
  Hypothesis PT : p2p_topo t.
  Hypothesis CN : connected t.
  Hypothesis MX : mixing t W.
  Notation nodes := (t_nodes t).

  (** [X l] is the run in which the coins fall as in [l]. *)
  Theorem C97_prox_skip_mean : exists lam, 0 < lam <= 1 /\ forall F G grad m L a b chi p xs,
    (forall i, In i nodes -> smooth_strongly_convex n (F i) (G i) m L) -> 0 < m -> 0 < L -> exact_gradients grad G -> minimises nodes F xs ->
    0 < a -> a * L < 2 -> 0 < b <= p -> p <= 1 -> 1 <= chi ->
    let q := Rmax (1 - a * m * (2 - a * L)) (1 - p * b * (/ chi * lam)) in 0 <= q < 1 /\
    forall x0, exists C, forall e period N w, synchronous e ->
      exists X, (forall l, List.length l = N -> trajectory t period (p2p t e N (ps_init x0) (prox_skip W grad (flips l) chi a b)) w (X l)) /\
        expect p N (fun l => sq_error nodes n (X l N) xs) <= C * q ^ N.
  Proof. exact (prox_skip_converges t n W PT CN MX). Qed.

  (** The probability that the final error is above [eps] vanishes. *)
  Theorem C97_prox_skip_probably F G grad m L a b chi p xs x0 eps del :
    (forall i, In i nodes -> smooth_strongly_convex n (F i) (G i) m L) -> 0 < m -> 0 < L -> exact_gradients grad G -> minimises nodes F xs ->
    0 < a -> a * L < 2 -> 0 < b <= p -> p <= 1 -> 1 <= chi -> 0 < eps -> 0 < del ->
    exists K, forall e period N w, (K <= N)%nat -> synchronous e ->
      exists X, (forall l, List.length l = N -> trajectory t period (p2p t e N (ps_init x0) (prox_skip W grad (flips l) chi a b)) w (X l)) /\
        expect p N (fun l => if Rlt_dec eps (sq_error nodes n (X l N) xs) then 1 else 0) <= del.
  Proof.
    intros SC MP LP EG MIN AP AL BP P1 CH EP DP. destruct C97_prox_skip_mean as (lam & _ & H).
    destruct (H F G grad m L a b chi p xs SC MP LP EG MIN AP AL BP P1 CH) as (Q & HC). destruct (HC x0) as (C & B).
    destruct (geometric C _ (eps * del) Q ltac:(now apply Rmult_lt_0_compat)) as (K & HK). exists K. intros e period N w KN SY.
    destruct (B e period N w SY) as (X & TR & BD). exists X. split; [exact TR|]. specialize (HK N KN).
    apply Rmult_le_reg_l with eps; [exact EP|]. eapply Rle_trans; [|exact HK]. eapply Rle_trans; [|exact BD].
    replace (eps * expect p N (fun l => if Rlt_dec eps (sq_error nodes n (X l N) xs) then 1 else 0))
      with (eps * expect p N (fun l => if Rlt_dec eps (sq_error nodes n (X l N) xs) then 1 else 0) + expect p N (fun _ => 0)) by (rewrite C97_expect_const; lra).
    rewrite <- C97_expect_linear. apply C97_expect_mono; [lra|]. intros l _.
    assert (0 <= sq_error nodes n (X l N) xs) by (apply rs_nonneg; intros; apply nrm2_nonneg).
    destruct (Rlt_dec eps (sq_error nodes n (X l N) xs)); lra.
  Qed.
End C97.

(** Non-vacuity: three agents on a path, costs 1/2 |x - b_i|^2, the default
    weights and the default parameters of the class. *)
Example C97_case : forall x0 eps del, 0 < eps -> 0 < del -> exists K, forall e period N w, (K <= N)%nat -> synchronous e ->
  exists X, (forall l, List.length l = N -> trajectory path3 period (p2p path3 e N (ps_init x0) (prox_skip W3 qgrad (flips l) 1 (1/100) (1/100))) w (X l)) /\
    expect (7/10) N (fun l => if Rlt_dec eps (sq_error (t_nodes path3) 1 (X l N) vzero) then 1 else 0) <= del.
Proof.
  intros x0 eps del EP DP.
  apply (C97_prox_skip_probably path3 1 W3 path3_ok path3_connected (C90_default_weights_mix path3 path3_ok) qcost qg qgrad 1 1);
    try lra; auto using qgrad_ok, zero_minimises. intros; apply qcost_ok.
Qed.

Print Assumptions C97_expect_const.
Print Assumptions C97_expect_mono.
Print Assumptions C97_expect_linear.
Print Assumptions C97_flip_probability.
Print Assumptions C97_flips_independent.
Print Assumptions C97_prox_skip_mean.
Print Assumptions C97_prox_skip_probably.
