(** The elbow curve as documented in utils.py:379-392, and least squares. *)
From Coq Require Import Reals List Arith.
From Verif.Model Require Import Vec Metrics.
Local Open Scope R_scope.

(** [f(x) = s x + y0] for [x <= b] and [s b + y0] beyond. *)
Definition elbow (s y0 : R) (b x : nat) : R := if (x <=? b)%nat then s * INR x + y0 else s * INR b + y0.
(** Sum of squared deviations of the curve from the data [y]. *)
Definition sse (y : list R) (s y0 : R) (b : nat) : R :=
  sumn (length y) (fun x => (elbow s y0 b x - nth x y 0) ^ 2).
(** Slope and intercept fit the data best for this breakpoint. *)
Definition least_squares (y : list R) (s y0 : R) (b : nat) : Prop :=
  forall s' y0', sse y s y0 b <= sse y s' y0' b.
(** Best over every slope, intercept and breakpoint that has data on the slope
    (1 to the last index). *)
Definition best_elbow (y : list R) (s y0 : R) (b : nat) : Prop :=
  (1 <= b < length y)%nat /\ forall s' y0' b', (1 <= b' < length y)%nat -> sse y s y0 b <= sse y s' y0' b'.
(** The data lie on an elbow curve. *)
Definition on_elbow (y : list R) (s y0 : R) (b : nat) : Prop :=
  (1 <= b < length y)%nat /\ forall x, (x < length y)%nat -> nth x y 0 = elbow s y0 b x.
