(** Model of [ReceivedMessages], /repo/decent_bench/agents.py:296-349.

    Agents are identified by their id (agents.py:82-84, hash and equality are
    the id's, agents.py:259-267), modelled as [nat]; channels are strings. *)
From Coq Require Import String List Bool Arith.
From Verif.Model Require Import PyDict History.
Import ListNotations.

Definition agent_id := nat.
Definition channel := string.

Section Messages.
  Variable V : Type.

  (** [self._messages : dict[str, dict[Agent, Array]]], agents.py:299-300 *)
  Definition bucket := list (agent_id * V).
  Definition store := list (channel * bucket).
  Definition s_empty : store := [].

  (** [ReceivedMessages.put], agents.py:302-306 *)
  Definition s_put (m : store) (sender : agent_id) (msg : V) (c : channel) : store :=
    let m1 := if dmem String.eqb m c then m else dset String.eqb m c [] in
    match dget String.eqb m1 c with
    | Some b => dset String.eqb m1 c (dset Nat.eqb b sender msg)
    | None => m1
    end.

  (** [ReceivedMessages.get], agents.py:308-310 *)
  Definition s_get (m : store) (sender : agent_id) (c : channel) : res V :=
    match dget String.eqb m c with
    | None => KeyError
    | Some b => match dget Nat.eqb b sender with None => KeyError | Some v => Ok v end
    end.

  (** [ReceivedMessages.has], agents.py:312-314 *)
  Definition s_has (m : store) (sender : agent_id) (c : channel) : bool :=
    dmem String.eqb m c &&
    match dget String.eqb m c with Some b => dmem Nat.eqb b sender | None => false end.

  (** [ReceivedMessages.by_channel], agents.py:316-318 *)
  Definition s_by_channel (m : store) (c : channel) : bucket :=
    match dget String.eqb m c with Some b => b | None => [] end.

  (** [for s in sender_list: bucket.pop(s, None)] *)
  Definition pop_all (b : bucket) (senders : list agent_id) : bucket :=
    fold_left (fun b s => dpop Nat.eqb b s) senders b.

  (** The loop over channels of agents.py:331-340: every bucket is purged, the
      channels whose bucket became empty are collected, then popped. *)
  Definition purge_all (m : store) (senders : list agent_id) : store :=
    let m1 := map (fun cb => (fst cb, pop_all (snd cb) senders)) m in
    let empty := map fst (filter (fun cb => Nat.eqb (length (snd cb)) 0) m1) in
    fold_left (fun m c => dpop String.eqb m c) empty m1.

  (** [ReceivedMessages.clear], agents.py:320-349.  [sender]: [None], or the
      list of senders (a single [Agent] is turned into a one-element list,
      agents.py:329). *)
  Definition s_clear (m : store) (sender : option (list agent_id)) (c : option channel) : store :=
    match sender, c with
    | None, None => []
    | None, Some c => dpop String.eqb m c
    | Some ss, None => purge_all m ss
    | Some ss, Some c =>
      match dget String.eqb m c with
      | None => m
      | Some b =>
        let b' := pop_all b ss in
        let m' := dset String.eqb m c b' in
        match b' with [] => dpop String.eqb m' c | _ => m' end
      end
    end.

  (** A client program. *)
  Inductive sop := OpPut (s : agent_id) (v : V) (c : channel)
                 | OpClear (s : option (list agent_id)) (c : option channel).
  Definition s_step (m : store) (o : sop) : store :=
    match o with OpPut s v c => s_put m s v c | OpClear s c => s_clear m s c end.
  Definition s_run (ops : list sop) : store := fold_left s_step ops s_empty.
End Messages.

Arguments s_empty {V}. Arguments s_put {V}. Arguments s_get {V}. Arguments s_has {V}.
Arguments s_by_channel {V}. Arguments pop_all {V}. Arguments purge_all {V}. Arguments s_clear {V}.
Arguments OpPut {V}. Arguments OpClear {V}. Arguments s_step {V}. Arguments s_run {V}.
