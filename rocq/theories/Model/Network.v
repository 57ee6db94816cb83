(** Model of networks: /repo/decent_bench/networks.py (Network, P2PNetwork,
    FedNetwork communication) and the communication state of
    /repo/decent_bench/agents.py (Agent).

    Simplifications: message counters, floats in Python, are exact rationals
    ([Qc]); arrays are values of an arbitrary type [V]: [send] copies
    the payload (networks.py:321), but without noise all receivers then hold the
    same copy (326-327), which matters only to algorithms that write into
    received arrays (DLM and DiNNO, Model/P2PShared.v); random and user-defined schemes are
    oracles indexed by a draw number that increases with every consultation,
    so that every behaviour of stateful/random schemes is an instance.
    [n_log] is a ghost trace read by no model function. *)
From Coq Require Import String List Bool Arith ZArith QArith Qcanon.
From Verif.Model Require Import PyDict History Messages.
Import ListNotations.
Open Scope nat_scope.

Section Net.
  Variable V : Type.

  (** Auxiliary variables are arrays, or mappings keyed by agent
      (agents.py:182-185). *)
  Inductive auxv := AArr (v : V) | AMap (m : list (agent_id * V)).

  (** The mutable state of [Agent], agents.py:56-75 (cost-call counters are in
      Model/Counting.v). *)
  Record agent := mkAgent {
    a_x : option V;
    a_hist : history V;
    a_aux : list (string * auxv);
    a_msgs : store V;
    a_nx : nat;            (* _n_x_updates *)
    a_sent : Qc;           (* _n_sent_messages *)
    a_recv : Qc;           (* _n_received_messages *)
    a_drop : Qc;           (* _n_sent_messages_dropped *)
    a_nsel : nat           (* _n_times_selected *)
  }.

  (** agents.py:56-75 *)
  Definition new_agent : agent := mkAgent None h_empty [] s_empty 0 0%Qc 0%Qc 0%Qc 0.

  (** [x] setter, agents.py:121-124 *)
  Definition set_x (x : V) (a : agent) : agent :=
    mkAgent (Some x) (a_hist a) (a_aux a) (a_msgs a) (S (a_nx a)) (a_sent a) (a_recv a) (a_drop a) (a_nsel a).
  (** [aux_vars[k] = v] *)
  Definition set_aux (k : string) (v : auxv) (a : agent) : agent :=
    mkAgent (a_x a) (a_hist a) (dset String.eqb (a_aux a) k v) (a_msgs a) (a_nx a) (a_sent a) (a_recv a) (a_drop a) (a_nsel a).
  Definition set_msgs (m : store V) (a : agent) : agent :=
    mkAgent (a_x a) (a_hist a) (a_aux a) m (a_nx a) (a_sent a) (a_recv a) (a_drop a) (a_nsel a).
  Definition set_hist (h : history V) (a : agent) : agent :=
    mkAgent (a_x a) h (a_aux a) (a_msgs a) (a_nx a) (a_sent a) (a_recv a) (a_drop a) (a_nsel a).
  Definition add_sent (q : Qc) (a : agent) : agent :=
    mkAgent (a_x a) (a_hist a) (a_aux a) (a_msgs a) (a_nx a) (a_sent a + q)%Qc (a_recv a) (a_drop a) (a_nsel a).
  Definition add_drop (q : Qc) (a : agent) : agent :=
    mkAgent (a_x a) (a_hist a) (a_aux a) (a_msgs a) (a_nx a) (a_sent a) (a_recv a) (a_drop a + q)%Qc (a_nsel a).
  Definition add_recv (q : Qc) (a : agent) : agent :=
    mkAgent (a_x a) (a_hist a) (a_aux a) (a_msgs a) (a_nx a) (a_sent a) (a_recv a + q)%Qc (a_drop a) (a_nsel a).
  (** [_n_times_selected += 1], fed_algorithm *)
  Definition add_sel (a : agent) : agent :=
    mkAgent (a_x a) (a_hist a) (a_aux a) (a_msgs a) (a_nx a) (a_sent a) (a_recv a) (a_drop a) (S (a_nsel a)).

  (** [Agent.initialize], agents.py:144-180 (shape check not modelled: arrays
      are untyped values). Note that [_current_x] is kept when [x] is None. *)
  Definition initialize (x : option V) (aux : list (string * auxv)) (a : agent) : agent :=
    match x with
    | None => mkAgent (a_x a) h_empty aux s_empty 0 0%Qc 0%Qc 0%Qc 0
    | Some v => mkAgent (Some v) (h_write h_empty (0%Z, v)) aux s_empty 0 0%Qc 0%Qc 0%Qc 0
    end.

  (** [Agent._snapshot], agents.py:187-204 *)
  Definition snapshot (period : nat) (it : nat) (force : bool) (a : agent) : agent :=
    match a_x a with
    | Some x => if force || (it mod period =? 0) then set_hist (h_write (a_hist a) (Z.of_nat it, x)) a else a
    | None => a
    end.

  (** Static part of a network: graph nodes in order, adjacency in order
      ([graph.neighbors]), the server of a FedNetwork, the common [cost.size]
      (all costs share their shape, networks.py:84-112). *)
  Record topo := mkTopo {
    t_nodes : list agent_id;
    t_adj : agent_id -> list agent_id;
    t_server : option agent_id;
    t_size : positive
  }.

  (** Message schemes and activation schemes (networks.py:74-78,
      agents.py:58, schemes.py). *)
  Record env := mkEnv {
    e_act : nat -> agent_id -> nat -> bool;       (* is_active: draw, agent, iteration *)
    e_dropd : nat -> agent_id -> bool;            (* should_drop *)
    e_comp : nat -> agent_id -> V -> V;           (* compress *)
    e_csize : agent_id -> V -> Z;                 (* compressed_msg_size *)
    e_noise : nat -> agent_id -> option (nat -> V); (* make_noise: None or one array per receiver *)
    e_add : V -> V -> V                           (* array addition *)
  }.

  Inductive event :=
  | EvStep (k : nat)
  | EvConsult (a : agent_id)                      (* a._activation.is_active called by active_agents *)
  | EvDeliver (s r : agent_id) (c : channel) (payload value : V).

  (** networks.py:73-81 *)
  Record net := mkNet {
    n_agents : agent_id -> agent;
    n_iter : nat;
    n_cache : option (list agent_id);                    (* _active_agents_cache *)
    n_conn : list (agent_id * list agent_id);            (* _active_connected_agents_cache *)
    n_draws : nat;
    n_log : list event                                   (* ghost, newest first *)
  }.

  Definition memb (a : agent_id) (l : list agent_id) : bool := existsb (Nat.eqb a) l.
  Definition upd (f : agent_id -> agent) (a : agent_id) (g : agent -> agent) : agent_id -> agent :=
    fun b => if Nat.eqb b a then g (f b) else f b.
  Definition upd_agent (a : agent_id) (g : agent -> agent) (st : net) : net :=
    mkNet (upd (n_agents st) a g) (n_iter st) (n_cache st) (n_conn st) (n_draws st) (n_log st).
  Definition logev (ev : event) (st : net) : net :=
    mkNet (n_agents st) (n_iter st) (n_cache st) (n_conn st) (n_draws st) (ev :: n_log st).
  Definition set_draws (d : nat) (st : net) : net :=
    mkNet (n_agents st) (n_iter st) (n_cache st) (n_conn st) d (n_log st).

  Variables (t : topo) (e : env).

  Definition is_server (a : agent_id) : bool :=
    match t_server t with Some s => Nat.eqb a s | None => false end.

  (** [Network.agents] networks.py:192-203, [FedNetwork.agents] 574-590 *)
  Definition agents : list agent_id := filter (fun a => negb (is_server a)) (t_nodes t).

  (** the list comprehension of networks.py:235-239 *)
  Fixpoint act_filter (it : nat) (l : list agent_id) (d : nat) : list agent_id * nat :=
    match l with
    | [] => ([], d)
    | a :: l' =>
      let b := e_act e d a it in
      let '(r, d') := act_filter it l' (S d) in
      (if b then a :: r else r, d')
    end.

  (** [Network.active_agents], networks.py:224-240 (FedNetwork: 592-600) *)
  Definition active_agents (st : net) : list agent_id * net :=
    match n_cache st with
    | Some l => (l, st)
    | None =>
      let '(l, d) := act_filter (n_iter st) agents (n_draws st) in
      (l, mkNet (n_agents st) (n_iter st) (Some l) (n_conn st) d
                (rev (map EvConsult agents) ++ n_log st))
    end.

  (** [Network.connected_agents], networks.py:242-253 *)
  Definition connected_agents (a : agent_id) : list agent_id := t_adj t a.

  (** [Network.active_connected_agents], networks.py:255-260 *)
  Definition active_connected (st : net) (a : agent_id) : list agent_id * net :=
    match dget Nat.eqb (n_conn st) a with
    | Some l => (l, st)
    | None =>
      let '(act, st1) := active_agents st in
      let l := filter (fun b => memb b act) (connected_agents a) in
      (l, mkNet (n_agents st1) (n_iter st1) (n_cache st1) (dset Nat.eqb (n_conn st1) a l)
                (n_draws st1) (n_log st1))
    end.

  (** [_allowed_receivers], networks.py:262-264 and FedNetwork's 610-614 *)
  Definition allowed (st : net) (sender : agent_id) : list agent_id * net :=
    match t_server t with
    | Some sv =>
      if Nat.eqb sender sv then active_connected st sender
      else ((if e_act e (n_draws st) sv (n_iter st) then [sv] else []), set_draws (S (n_draws st)) st)
    | None => active_connected st sender
    end.

  Inductive receiver := RNone | ROne (r : agent_id) | RMany (l : list agent_id).
  (** Result of [send]: the state, and whether a ValueError was raised. *)
  Inductive sres := SOk (st : net) | SErr (st : net).
  Definition sstate (r : sres) : net := match r with SOk st => st | SErr st => st end.

  (** [confirmed_receivers = [r for r in receiver if not should_drop()]], networks.py:319 *)
  Fixpoint drop_filter (sender : agent_id) (l : list agent_id) (d : nat) : list agent_id * nat :=
    match l with
    | [] => ([], d)
    | r :: l' =>
      let b := e_dropd e d sender in
      let '(c, d') := drop_filter sender l' (S d) in
      (if b then c else r :: c, d')
    end.

  (** networks.py:314 *)
  Definition counter_increment (sender : agent_id) (m : V) : Qc :=
    Q2Qc (e_csize e sender m # t_size t).

  Definition noisy (m : V) (noise : option (nat -> V)) (i : nat) : V :=
    match noise with None => m | Some f => e_add e m (f i) end.

  (** the transmission loop, networks.py:325-329 *)
  Fixpoint deliver (sender : agent_id) (c : channel) (payload m : V) (noise : option (nat -> V)) (inc : Qc)
           (i : nat) (l : list agent_id) (st : net) : net :=
    match l with
    | [] => st
    | r :: l' =>
      let v := noisy m noise i in
      let st1 := upd_agent r (fun a => add_recv inc (set_msgs (s_put (a_msgs a) sender v c) a)) st in
      deliver sender c payload m noise inc (S i) l' (logev (EvDeliver sender r c payload v) st1)
    end.

  (** networks.py:314-329 *)
  Definition transmit (st : net) (sender : agent_id) (rs : list agent_id) (m : V) (c : channel) : net :=
    let inc := counter_increment sender m in
    let n := Q2Qc (inject_Z (Z.of_nat (length rs))) in
    let st1 := upd_agent sender (add_sent (inc * n)%Qc) st in
    let '(conf, d) := drop_filter sender rs (n_draws st1) in
    let nd := Q2Qc (inject_Z (Z.of_nat (length rs - length conf))) in
    let st2 := upd_agent sender (add_drop (inc * nd)%Qc) st1 in
    let m' := e_comp e d sender m in
    let noise := e_noise e (S d) sender in
    deliver sender c m m' noise inc 0 conf (set_draws (S (S d)) st2).

  (** [Network.send], networks.py:266-329 *)
  Definition send_base (st : net) (sender : agent_id) (r : receiver) (msg : option V) (c : channel) : sres :=
    match msg with
    | None => SErr st
    | Some m =>
      if negb (memb sender (t_nodes t)) then SErr st
      else
        match (match r with
               | RNone => let '(l, st1) := active_connected st sender in Some (l, st1)
               | ROne a => if memb a (connected_agents sender) then Some ([a], st) else None
               | RMany l => Some (l, st)
               end) with
        | None => SErr st
        | Some (rs, st1) =>
          let '(al, st2) := allowed st1 sender in
          if forallb (fun a => memb a al) rs then SOk (transmit st2 sender rs m c) else SErr st2
        end
    end.

  (** [FedNetwork.send], networks.py:616-653 *)
  Definition send_fed (sv : agent_id) (st : net) (sender : agent_id) (r : receiver) (msg : option V) (c : channel) : sres :=
    match r with
    | ROne a =>
      if Nat.eqb sender sv && Nat.eqb a sv then SErr st
      else if negb (Nat.eqb sender sv) && negb (Nat.eqb a sv) then SErr st
      else send_base st sender r msg c
    | RNone =>
      if negb (Nat.eqb sender sv) then send_base st sender (ROne sv) msg c
      else send_base st sender r msg c
    | RMany l =>
      if negb (Nat.eqb sender sv) then SErr st
      else if existsb (fun a => Nat.eqb a sv) l then SErr st
      else send_base st sender r msg c
    end.

  Definition send (st : net) (sender : agent_id) (r : receiver) (msg : option V) (c : channel) : sres :=
    match t_server t with
    | Some sv => send_fed sv st sender r msg c
    | None => send_base st sender r msg c
    end.

  (** [_clear_received_messages], networks.py:341-353 *)
  Definition clear_received (receivers : option (list agent_id)) (senders : option (list agent_id)) (st : net) : net :=
    let rs := match receivers with None => t_nodes t | Some l => l end in
    fold_left (fun st r => upd_agent r (fun a => set_msgs (s_clear (a_msgs a) senders None) a) st) rs st.

  (** [Network._step], networks.py:331-339 *)
  Definition step (k : nat) (st : net) : net :=
    clear_received None None
      (mkNet (n_agents st) k None [] (n_draws st) (EvStep k :: n_log st)).

  (** Client programs: what algorithm code can do to a network. *)
  Inductive nop :=
  | NQuery                                   (* active_agents() *)
  | NConn (a : agent_id)                     (* active_connected_agents(a) *)
  | NSend (s : agent_id) (r : receiver) (m : option V) (c : channel)
  | NStep (k : nat)
  | NSetX (a : agent_id) (v : V)
  | NSetAux (a : agent_id) (k : string) (v : auxv)
  | NSnap (a : agent_id) (period it : nat) (force : bool)
  | NSel (a : agent_id).                     (* federated client selection counter *)

  Definition nstep (st : net) (o : nop) : net :=
    match o with
    | NQuery => snd (active_agents st)
    | NConn a => snd (active_connected st a)
    | NSend s r m c => sstate (send st s r m c)
    | NStep k => step k st
    | NSetX a v => upd_agent a (set_x v) st
    | NSetAux a k v => upd_agent a (set_aux k v) st
    | NSnap a p it f => upd_agent a (snapshot p it f) st
    | NSel a => upd_agent a add_sel st
    end.
  Definition nrun (st : net) (ops : list nop) : net := fold_left nstep ops st.

  (** A network right after construction and [initialize] of all agents:
      networks.py:79-81, agents.py:161-172. *)
  Definition init_net (x0 : agent_id -> option V) : net :=
    mkNet (fun a => initialize (x0 a) [] new_agent) 0 None [] 0 [].
End Net.

Arguments AArr {V}. Arguments AMap {V}.
Arguments mkAgent {V}. Arguments a_x {V}. Arguments a_hist {V}. Arguments a_aux {V}. Arguments a_msgs {V}.
Arguments a_nx {V}. Arguments a_sent {V}. Arguments a_recv {V}. Arguments a_drop {V}. Arguments a_nsel {V}.
Arguments new_agent {V}. Arguments set_x {V}. Arguments set_aux {V}. Arguments set_msgs {V}. Arguments set_hist {V}.
Arguments add_sent {V}. Arguments add_drop {V}. Arguments add_recv {V}. Arguments add_sel {V}.
Arguments initialize {V}. Arguments snapshot {V}.
Arguments mkEnv {V}. Arguments e_act {V}. Arguments e_dropd {V}. Arguments e_comp {V}. Arguments e_csize {V}.
Arguments e_noise {V}. Arguments e_add {V}.
Arguments EvStep {V}. Arguments EvConsult {V}. Arguments EvDeliver {V}.
Arguments mkNet {V}. Arguments n_agents {V}. Arguments n_iter {V}. Arguments n_cache {V}. Arguments n_conn {V}.
Arguments n_draws {V}. Arguments n_log {V}.
Arguments upd {V}. Arguments upd_agent {V}. Arguments logev {V}. Arguments set_draws {V}.
Arguments act_filter {V}. Arguments active_agents {V}. Arguments active_connected {V}. Arguments allowed {V}.
Arguments SOk {V}. Arguments SErr {V}. Arguments sstate {V}. Arguments drop_filter {V}. Arguments counter_increment {V}.
Arguments noisy {V}. Arguments deliver {V}. Arguments transmit {V}. Arguments send_base {V}. Arguments send_fed {V}. Arguments send {V}.
Arguments clear_received {V}. Arguments step {V}.
Arguments NQuery {V}. Arguments NConn {V}. Arguments NSend {V}. Arguments NStep {V}. Arguments NSetX {V}. Arguments NSetAux {V}. Arguments NSnap {V}. Arguments NSel {V}.
Arguments nstep {V}. Arguments nrun {V}. Arguments init_net {V}.
