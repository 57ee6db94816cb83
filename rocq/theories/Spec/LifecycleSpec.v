(** What the user wants of helpers. *)
From Coq Require Import List Arith.
From Verif.Model Require Import Lifecycle.
Import ListNotations.

Definition returned (r : run) : Prop := snd r = None.
Definition raised (r : run) : Prop := snd r <> None.
(** started and not stopped *)
Definition left_running (h : helper) (r : run) : Prop := In (Start h) (fst r) /\ ~ In (Stop h) (fst r).
(** the thread of the progress bars waits for more: it ends on [Stop], or when the
    units of all trials have arrived (progress_bar.py:272-286).  It is not a daemon:
    Python does not exit before it ends. *)
Definition hangs (n_algs n_trials : nat) (r : run) : Prop :=
  left_running Bars r /\ exists a i, a < n_algs /\ i < n_trials /\ ~ In (Units a i) (fst r).
(** points inside the runs of algorithms, where exceptions are to be contained *)
Definition in_a_run (p : point) : Prop :=
  match p with PMetric _ _ _ | PIteration _ _ _ | PMark _ _ | PCleanup _ _ => True | _ => False end.
(** points of one trial *)
Definition of_trial (a i : nat) (p : point) : Prop :=
  match p with PIteration b j _ | PMark b j | PCleanup b j | PMetric b j _ => b = a /\ j = i | _ => False end.
(** the results there are: algorithm, trial, and whether the run was completed *)
Definition results (r : run) : list (nat * nat * bool) :=
  flat_map (fun e => match e with Result a i b => [(a, i, b)] | _ => [] end) (fst r).
(** there is a trial to run *)
Definition some_to_run (n_algs n_trials : nat) (checkpoints : bool) (complete : nat -> nat -> bool) : Prop :=
  exists a i, a < n_algs /\ i < n_trials /\ (checkpoints = true -> complete a i = false).
