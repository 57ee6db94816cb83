(** What a progress bar should show. *)
From Coq Require Import List Arith.
From Verif.Model Require Import Progress.
Import ListNotations.

(** a trial of the algorithm with bar [bar], as far as it has come: not started,
    found completed in a checkpoint, or started (or resumed) at iteration
    [start], before its last one, and [k] iterations done *)
Inductive stage := Waiting | Loaded | Running (start k : nat).
Definition proper (iters : nat) (s : stage) : Prop :=
  match s with Running start k => start < iters /\ start <= k <= iters | _ => True end.
Definition ended (iters : nat) (s : stage) : Prop :=
  match s with Waiting => False | Loaded => True | Running _ k => k = iters end.
(** the messages it has sent *)
Definition sent (step : option nat) (bar iters : nat) (s : stage) : list precord :=
  match s with Waiting => [] | Loaded => [complete_record step bar iters] | Running start k => trial_records step bar iters start k end.
