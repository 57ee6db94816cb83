(** Vocabulary for the network theorems. *)
From Coq Require Import String List Arith ZArith QArith Qcanon.
From Verif.Model Require Import PyDict History Messages Network.
Import ListNotations.

(** Graph well-formedness: an undirected graph (nx.Graph) with ordered
    duplicate-free nodes and neighbours, networks.py:60-72; a FedNetwork is the
    star around its server, networks.py:521-564. *)
Definition wf_topo (t : topo) : Prop :=
  NoDup (t_nodes t) /\
  (forall a b, In b (t_adj t a) -> In a (t_nodes t) /\ In b (t_nodes t) /\ In a (t_adj t b)) /\
  (forall a, NoDup (t_adj t a)) /\
  match t_server t with
  | None => True
  | Some sv => In sv (t_nodes t) /\ forall a b, In b (t_adj t a) <->
      In a (t_nodes t) /\ In b (t_nodes t) /\ ((a = sv /\ b <> sv) \/ (a <> sv /\ b = sv))
  end.

Section S.
  Variable V : Type.
  (** No agent's state (variables, history, messages, counters) differs. *)
  Definition same_agents (st st' : net V) : Prop := forall a, n_agents st' a = n_agents st a.
  (** Everything except messages and communication counters is equal. *)
  Definition same_private (a b : agent V) : Prop :=
    a_x b = a_x a /\ a_hist b = a_hist a /\ a_aux b = a_aux a /\ a_nx b = a_nx a /\ a_nsel b = a_nsel a.

  (** Who a send is addressed to when the set [act] of agents is active:
      by default every active neighbour, except that a client of a federated
      network addresses the server. *)
  Definition intended (t : topo) (act : list agent_id) (s : agent_id) (r : receiver) (x : agent_id) : Prop :=
    match r with
    | ROne a => x = a
    | RMany l => In x l
    | RNone => match t_server t with
               | Some sv => if Nat.eqb s sv then In x (t_adj t s) /\ In x act else x = sv
               | None => In x (t_adj t s) /\ In x act
               end
    end.

  (** A network without drops, compression or noise. *)
  Definition reliable (e : env V) : Prop :=
    (forall d a, e_dropd e d a = false) /\ (forall d a v, e_comp e d a v = v) /\ (forall d a, e_noise e d a = None).

  (** What the deliveries in a trace add up to, each counted as the ratio of
      its compressed size to the common array size. *)
  Definition volume (t : topo) (e : env V) (sel : agent_id -> agent_id -> bool) (log : list (event V)) : Qc :=
    fold_right Qcplus 0%Qc (map (fun ev => match ev with
      | EvDeliver s r _ payload _ => if sel s r then Q2Qc (e_csize e s payload # t_size t) else 0%Qc
      | _ => 0%Qc end) log).

  (** Sum of a per-agent quantity over all nodes of the network. *)
  Definition total (t : topo) (f : agent V -> Qc) (st : net V) : Qc :=
    fold_right Qcplus 0%Qc (map (fun a => f (n_agents st a)) (t_nodes t)).

  (** A network right after construction/initialisation: no traffic yet. *)
  Definition fresh (st : net V) : Prop :=
    n_cache st = None /\ n_conn st = [] /\ n_log st = [] /\
    forall a, let g := n_agents st a in
      a_msgs g = [] /\ a_sent g = 0%Qc /\ a_recv g = 0%Qc /\ a_drop g = 0%Qc.

  (** The message that agent [r] currently sees from [s] on channel [c]
      ([r.message(s, c)]). *)
  Definition sees (st : net V) (r s : agent_id) (c : channel) (v : V) : Prop :=
    s_get (a_msgs (n_agents st r)) s c = Ok v.
  Definition sees_nothing (st : net V) (r s : agent_id) (c : channel) : Prop :=
    s_get (a_msgs (n_agents st r)) s c = KeyError.

  (** The iteration a program has reached: that of its last step. *)
  Fixpoint reached (k : nat) (ops : list (nop V)) : nat :=
    match ops with [] => k | NStep j :: l => reached j l | _ :: l => reached k l end.

  Definition is_nstep (o : nop V) : Prop := match o with NStep _ => True | _ => False end.

  (** Number of consultations of [a]'s activation scheme by active-agent
      queries since the last step (ghost trace is newest-first). *)
  Fixpoint consults (a : agent_id) (log : list (event V)) : nat :=
    match log with
    | [] => 0
    | EvStep _ :: _ => 0
    | EvConsult b :: l => (if Nat.eqb b a then 1 else 0) + consults a l
    | EvDeliver _ _ _ _ _ :: l => consults a l
    end.
End S.
Arguments total {V}. Arguments fresh {V}. Arguments sees {V}. Arguments sees_nothing {V}.
Arguments same_agents {V}. Arguments same_private {V}. Arguments reliable {V}. Arguments volume {V}.
Arguments is_nstep {V}. Arguments reached {V}. Arguments consults {V}.
