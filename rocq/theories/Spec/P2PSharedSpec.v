(** Vocabulary for the theorems about DLM and DiNNO. *)
From Coq Require Import Reals String List Bool Arith.
From Verif.Model Require Import PyDict History Messages Network Runner Vec P2P P2PShared.
From Verif.Spec Require Import NetworkSpec P2PSpec.
Import ListNotations.

(** A network with every array replaced by its image under [f]. *)
Section Map.
  Context {A B : Type} (f : A -> B).
  Definition map_vals {K} (l : list (K * A)) : list (K * B) := map (fun kv => (fst kv, f (snd kv))) l.
  Definition map_hist (h : history A) : history B := mkHist (map_vals (h_dict h)) (h_keys h).
  Definition map_auxv (v : auxv A) : auxv B := match v with AArr x => AArr (f x) | AMap m => AMap (map_vals m) end.
  Definition map_aux (l : list (string * auxv A)) : list (string * auxv B) := map (fun kv => (fst kv, map_auxv (snd kv))) l.
  Definition map_store (m : store A) : store B := map (fun cb => (fst cb, map_vals (snd cb))) m.
  Definition map_agent (a : agent A) : agent B :=
    mkAgent (option_map f (a_x a)) (map_hist (a_hist a)) (map_aux (a_aux a)) (map_store (a_msgs a))
            (a_nx a) (a_sent a) (a_recv a) (a_drop a) (a_nsel a).
  Definition map_event (ev : event A) : event B :=
    match ev with EvStep k => EvStep k | EvConsult a => EvConsult a | EvDeliver s r c p v => EvDeliver s r c (f p) (f v) end.
  Definition map_net (st : net A) : net B :=
    mkNet (fun a => map_agent (n_agents st a)) (n_iter st) (n_cache st) (n_conn st) (n_draws st) (map map_event (n_log st)).
End Map.

(** A network of DLM or DiNNO without the identities of arrays: the agents'
    variables, and the messages as they were delivered. *)
Definition plain_net (st : net buf) : net vec := map_net fst st.
Definition plain_world (w : world buf (nat * heap)) : world vec nat := (fst (fst w), plain_net (snd w)).
Definition plain_call (c : call buf (nat * heap)) : call vec nat :=
  match c with
  | CInit w => CInit (plain_world w)
  | CStep k w => CStep k (plain_world w)
  | CCallback k w => CCallback k (plain_world w)
  end.
Definition plain_res (r : run_res buf (nat * heap)) : run_res vec nat :=
  mkRes (r_out r) (map plain_call (r_calls r)) (plain_world (r_world r)).

(** Agents with two or more neighbours have only neighbours with one neighbour:
    every connected component is a star (or a pair, or a single agent). *)
Definition stars (t : topo) : Prop :=
  forall i j, In j (t_adj t i) -> (2 <= length (t_adj t i))%nat -> t_adj t j = [i].
(** No agent has two neighbours. *)
Definition pairs (t : topo) : Prop := forall i, (length (t_adj t i) <= 1)%nat.
(** Every message is sent with noise (possibly zero). *)
Definition noisy_sends (e : env vec) : Prop := forall d a, e_noise e d a <> None.

(** As [trajectory] of P2PSpec, for a run of DLM or DiNNO. *)
Definition strajectory (t : topo) (period : agent_id -> nat) (A : alg buf (nat * heap)) (w : world buf (nat * heap)) (X : nat -> agent_id -> vec) : Prop :=
  let r := run t period A 0 w in
  r_out r = Finished /\
  (forall k w', In (CStep k w') (r_calls r) -> forall i, In i (t_nodes t) -> state_is (plain_net (snd w')) i (X k i)) /\
  (forall k w', In (CCallback k w') (r_calls r) -> forall i, In i (t_nodes t) -> state_is (plain_net (snd w')) i (X (S k) i)) /\
  (forall i, In i (t_nodes t) -> state_is (plain_net (snd (r_world r))) i (X (al_iters A) i)).
(** The same for the auxiliary variable [key]. *)
Definition saux_trajectory (t : topo) (period : agent_id -> nat) (A : alg buf (nat * heap)) (w : world buf (nat * heap)) (key : string) (Y : nat -> agent_id -> vec) : Prop :=
  let r := run t period A 0 w in
  (forall k w', In (CStep k w') (r_calls r) -> forall i, In i (t_nodes t) -> aux_is (plain_net (snd w')) i key (Y k i)) /\
  (forall k w', In (CCallback k w') (r_calls r) -> forall i, In i (t_nodes t) -> aux_is (plain_net (snd w')) i key (Y (S k) i)) /\
  (forall i, In i (t_nodes t) -> aux_is (plain_net (snd (r_world r))) i key (Y (al_iters A) i)).
(** Nothing has been written into arrays that are yet to be made. *)
Definition stale (h : heap) (st : net buf) : Prop := forall g, h g <> None -> (g_draw g < n_draws st)%nat.
(** The sum over the neighbours of agent [i] of what it differs from them. *)
Definition disagreement (t : topo) (v : agent_id -> vec) (i : agent_id) : vec :=
  fun c => rsum (map (fun j => (v i c - v j c)%R) (t_adj t i)).
