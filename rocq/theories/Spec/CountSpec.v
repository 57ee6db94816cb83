(** Vocabulary for C61. *)
From Coq Require Import List ZArith.
From Verif.Model Require Import PyDict History Messages Network Runner.
Import ListNotations.

(** [X k] is the agent's x before iteration [k] of a run, [X (S k)] what the
    callback of iteration [k] sees. *)
Definition xs_of_run {V S} (t : topo) (period : agent_id -> nat) (A : alg V S) (w : world V S) (a : agent_id) (X : nat -> option V) : Prop :=
  X 0 = a_x (n_agents (snd (al_init A w)) a) /\
  forall k w', In (CCallback k w') (r_calls (run t period A 0%Z w)) -> a_x (n_agents (snd w') a) = X (Datatypes.S k).
