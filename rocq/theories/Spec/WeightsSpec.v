(** Graphs and stochastic matrices. *)
From mathcomp Require Import all_ssreflect all_algebra.
Set Implicit Arguments.
Unset Strict Implicit.
Import Order.TTheory GRing.Theory Num.Theory.
Local Open Scope ring_scope.

(** A simple undirected graph on 0..n-1 given by neighbour lists. *)
Definition simple_graph (n : nat) (adj : nat -> seq nat) : Prop :=
  (forall i j, (i < n)%N -> j \in adj i -> (j < n)%N) /\
  (forall i j, (i < n)%N -> (j < n)%N -> (j \in adj i) = (i \in adj j)) /\
  (forall i, (i < n)%N -> i \notin adj i) /\
  (forall i, (i < n)%N -> uniq (adj i)).

Section S.
  Variable F : numFieldType.
  Definition symmetric_mat (n : nat) (W : nat -> nat -> F) : Prop :=
    forall i j, (i < n)%N -> (j < n)%N -> W i j = W j i.
  Definition nonnegative_mat (n : nat) (W : nat -> nat -> F) : Prop :=
    forall i j, (i < n)%N -> (j < n)%N -> 0 <= W i j.
  Definition rows_sum_to_one (n : nat) (W : nat -> nat -> F) : Prop :=
    forall i, (i < n)%N -> \sum_(0 <= j < n) W i j = 1.
  Definition columns_sum_to_one (n : nat) (W : nat -> nat -> F) : Prop :=
    forall j, (j < n)%N -> \sum_(0 <= i < n) W i j = 1.
  Definition doubly_stochastic (n : nat) (W : nat -> nat -> F) : Prop :=
    nonnegative_mat n W /\ rows_sum_to_one n W /\ columns_sum_to_one n W.
End S.
