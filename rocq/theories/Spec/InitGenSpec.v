(** Randomly generated initial states, as documented. *)
From Coq Require Import Reals List Arith.
From Verif.Model Require Import PyDict Messages Network Vec InitStates InitGen.
Import ListNotations.
Local Open Scope R_scope.

(** how many variates the agents before [a] need *)
Fixpoint before (cs : agent_id -> shape) (l : list agent_id) (a : agent_id) : nat :=
  match l with [] => 0 | b :: l' => if Nat.eqb b a then 0 else size (cs b) + before cs l' a end.
Definition needed (cs : agent_id -> shape) (l : list agent_id) : nat := list_sum (map (fun a => size (cs a)) l).
(** the state of [a] is made, entry by entry, of its own stretch of variates *)
Definition own_stretch (cs : agent_id -> shape) (z : nat -> R) (f : R -> R) (l : list agent_id) (p : nat) (a : agent_id) (v : arr) : Prop :=
  ar_shape v = cs a /\ forall i, (i < size (cs a))%nat -> ar_data v i = f (z (p + before cs l a + i)%nat).
(** a mapping as the [x0] of an algorithm *)
Definition as_x0 (cs : agent_id -> shape) (r : list (agent_id * arr)) : x0arg :=
  X0Dict (map (fun e => (KeyAgent (fst e) (cs (fst e)), snd e)) r).
