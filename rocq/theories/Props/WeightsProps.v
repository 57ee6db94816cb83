(** C12: Metropolis weights. *)
From mathcomp Require Import all_ssreflect all_algebra.
From Verif.Model Require Import Weights.
From Verif.Spec Require Import WeightsSpec.
From Verif.Proofs Require Import WeightsProofs.
Set Implicit Arguments.
Unset Strict Implicit.
Import Order.TTheory GRing.Theory Num.Theory.
Local Open Scope ring_scope.

Theorem C12_metropolis_doubly_stochastic : forall (F : numFieldType) (n : nat) (adj : nat -> seq nat),
  simple_graph n adj ->
  symmetric_mat n (weights F n adj) /\ doubly_stochastic n (weights F n adj) /\
  forall i j, (i < n)%N -> (j < n)%N -> (0 < weights F n adj i j) = ((j == i) || (j \in adj i)).
Proof.
  move=> F n adj G. split; first exact: weights_sym.
  split; last exact: weights_pos.
  split; first exact: weights_ge0. split; [exact: weights_rows|exact: weights_cols].
Qed.

(** Averaging with any column-stochastic weights preserves the sum (mean), for
    states in any vector space. *)
Theorem C12_averaging_preserves_sum : forall (F : numFieldType) (V : lmodType F) (n : nat) (W : nat -> nat -> F) (x : nat -> V),
  columns_sum_to_one n W ->
  \sum_(0 <= i < n) \sum_(0 <= j < n) W i j *: x j = \sum_(0 <= j < n) x j.
Proof.
  move=> F V n W x C. rewrite exchange_big_nat /= !big_nat. apply: eq_bigr => j /andP [_ Hj].
  by rewrite -scaler_suml C // scale1r.
Qed.

Corollary C12_metropolis_preserves_sum : forall (F : numFieldType) (V : lmodType F) (n : nat) (adj : nat -> seq nat) (x : nat -> V),
  simple_graph n adj ->
  \sum_(0 <= i < n) \sum_(0 <= j < n) weights F n adj i j *: x j = \sum_(0 <= j < n) x j.
Proof. move=> F V n adj x G. apply: C12_averaging_preserves_sum. by case: (C12_metropolis_doubly_stochastic F G) => _ [] [] _ []. Qed.

(** The constructor accepts graphs with self-loops (networks.py:60-72), for
    which the documented double stochasticity fails: one edge plus a self-loop
    at node 0 gives a first row summing to 3/4. *)
Definition loop_adj (i : nat) : seq nat := match i with 0 => [:: 1; 0]%N | 1 => [:: 0]%N | _ => [::] end.
Theorem C12_self_loop_rows_refuted :
  \sum_(0 <= j < 2) weights rat_numFieldType 2 loop_adj 0%N j = 3%:R / 4%:R.
Proof. rewrite /index_iota /= !big_cons big_nil. apply/eqP. by vm_compute. Qed.

(** non-vacuity: the path 0-1-2 *)
Definition path3 (i : nat) : seq nat := match i with 0 => [:: 1]%N | 1 => [:: 0; 2]%N | 2 => [:: 1]%N | _ => [::] end.
Example C12_nonvacuous : simple_graph 3 path3 /\ weights rat_numFieldType 3 path3 0%N 0%N = 2%:R / 3%:R /\
  weights rat_numFieldType 3 path3 1%N 1%N = 1 / 3%:R /\ weights rat_numFieldType 3 path3 0%N 2%N = 0.
Proof.
  split; last by (repeat split); apply/eqP; vm_compute.
  split; first by move=> [|[|[|i]]] [|[|[|j]]].
  split; first by move=> [|[|[|i]]] [|[|[|j]]].
  split; by move=> [|[|[|i]]].
Qed.

Print Assumptions C12_metropolis_doubly_stochastic.
Print Assumptions C12_self_loop_rows_refuted.
