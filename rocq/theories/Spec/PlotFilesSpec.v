(** Vocabulary for the figures of plots. *)
From Coq Require Import String List Bool Arith Ascii.
From Verif.Model Require Import PlotFiles.
Import ListNotations.

(** Abscissas of column [c]: when both are asked for, cost left and iterations right. *)
Definition column_axis (use_cost use_iteration : bool) (c : nat) : xaxis :=
  match use_cost, use_iteration, c with
  | true, true, O => Cost
  | true, true, _ => Iterations
  | true, false, _ => Cost
  | false, _, _ => Iterations
  end.
Definition columns (use_cost use_iteration : bool) : nat := if use_cost && use_iteration then 2 else 1.
(** the algorithms whose names can appear in a legend *)
Definition visible (a : string) : Prop := a <> EmptyString /\ forall s, a <> String "_"%char s.
