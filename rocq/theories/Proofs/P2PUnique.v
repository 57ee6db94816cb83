(** The states of a run are determined; concrete runs. *)
From Coq Require Import Reals String List Bool Arith ZArith Lia Lra FunctionalExtensionality.
From Verif.Model Require Import PyDict History Messages Network Runner Vec P2P.
From Verif.Spec Require Import NetworkSpec RunnerSpec P2PSpec.
From Verif.Proofs Require Import NetworkProofs EmpiricalProofs RunnerProofs P2PLock P2PSteps P2PRuns P2PMean.
Import ListNotations.
Open Scope R_scope.

Lemma run_has_step t period (A : alg vec nat) w k : r_out (run t period A 0 w) = Finished -> (k < al_iters A)%nat ->
  exists w', In (CStep k w') (r_calls (run t period A 0 w)).
Proof.
  assert (E : r_calls (run t period A 0 w) = CInit w :: r_calls (loop t period A (al_iters A) 0 (al_init A w)) /\
     r_out (run t period A 0 w) = r_out (loop t period A (al_iters A) 0 (al_init A w))).
  { unfold run. cbn [Z.ltb Z.compare orb]. replace (Z.of_nat (al_iters A) <? 0)%Z with false by (symmetry; apply Z.ltb_ge; lia).
    cbn [Z.eqb Z.to_nat r_calls r_out]. now rewrite Nat.sub_0_r. }
  destruct E as (-> & ->). intros O K. pose proof (loop_indices vec nat t period A (al_iters A) 0 (al_init A w)) as (X & _). rewrite O in X. destruct X as (X & _).
  assert (I : In k (seq 0 (al_iters A))) by (apply in_seq; lia). rewrite <- X in I. apply in_flat_map in I. destruct I as (c & I & J).
  destruct c; cbn in J; try contradiction. destruct J as [->|[]]. exists w0. now right.
Qed.
Lemma trajectory_unique t period A w X X' : trajectory t period A w X -> trajectory t period A w X' ->
  forall k i, (k <= al_iters A)%nat -> In i (t_nodes t) -> X k i = X' k i.
Proof.
  intros (F & S1 & _ & L1) (_ & S2 & _ & L2) k i Hk Hi. destruct (Nat.eq_dec k (al_iters A)) as [->|N].
  - specialize (L1 i Hi). specialize (L2 i Hi). unfold state_is in *. congruence.
  - destruct (run_has_step t period A w k F ltac:(lia)) as (w' & I). specialize (S1 k w' I i Hi). specialize (S2 k w' I i Hi). unfold state_is in *. congruence.
Qed.
