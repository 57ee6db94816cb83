(** Initial states, as documented. *)
From Coq Require Import Reals List Arith.
From Verif.Model Require Import PyDict Messages Network Vec InitStates.
From Verif.Spec Require Import AggregateSpec.
Import ListNotations.
Local Open Scope R_scope.

(** The state a dictionary gives an agent: its last entry with that id. *)
Definition gives (d : list (x0key * arr)) (a : agent_id) (v : arr) : Prop :=
  exists d1 s d2, d = d1 ++ (KeyAgent a s, v) :: d2 /\ forall s' v', ~ In (KeyAgent a s', v') d2.
(** every key is an agent and every value has the shape of its cost *)
Definition proper (d : list (x0key * arr)) : Prop := Forall (fun p => exists id, fst p = KeyAgent id (ar_shape (snd p))) d.
(** state of an agent for a dictionary: what it gives, or for a server it does
    not mention the entrywise mean of the clients' states *)
Definition state_from (t : topo) (d : list (x0key * arr)) (a : agent_id) (v : arr) : Prop :=
  gives d a v \/
  ((forall u, ~ gives d a u) /\ t_server t = Some a /\ exists vs, Forall2 (gives d) (agents t) vs /\
    (forall c cs, vs = c :: cs -> ar_shape v = ar_shape c) /\ forall i, ar_data v i = mean (map (fun c => ar_data c i) vs)).
(** the states of all nodes, in order *)
Definition assigns (t : topo) (P : agent_id -> arr -> Prop) (r : list (agent_id * arr)) : Prop :=
  map fst r = t_nodes t /\ forall a v, In (a, v) r -> P a v.
