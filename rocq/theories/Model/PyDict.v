(** Python [dict] as an insertion-ordered association list.

    Modelled behaviour (CPython language reference, dict): assignment to an
    existing key keeps its position, a new key goes last, [pop(k, None)]
    removes the key if present, iteration is in insertion order.  Keys are
    compared with a boolean equality (for agents: [Agent.__eq__],
    /repo/decent_bench/agents.py:263-267, equality of ids). *)
From Coq Require Import List Bool.
Import ListNotations.

Section Dict.
  Variables (K V : Type) (keqb : K -> K -> bool).

  Definition dict := list (K * V).

  (** [d.get(k)] / [d[k]] ([None] = KeyError). *)
  Fixpoint dget (d : dict) (k : K) : option V :=
    match d with
    | [] => None
    | (k', v) :: d' => if keqb k k' then Some v else dget d' k
    end.

  (** [k in d]. *)
  Definition dmem (d : dict) (k : K) : bool :=
    match dget d k with Some _ => true | None => false end.

  (** [d[k] = v]. *)
  Fixpoint dset (d : dict) (k : K) (v : V) : dict :=
    match d with
    | [] => [(k, v)]
    | (k', v') :: d' => if keqb k k' then (k', v) :: d' else (k', v') :: dset d' k v
    end.

  (** [d.pop(k, None)]. *)
  Fixpoint dpop (d : dict) (k : K) : dict :=
    match d with
    | [] => []
    | (k', v') :: d' => if keqb k k' then d' else (k', v') :: dpop d' k
    end.

  Definition dkeys (d : dict) : list K := map fst d.
End Dict.

Arguments dget {K V}. Arguments dmem {K V}. Arguments dset {K V}.
Arguments dpop {K V}. Arguments dkeys {K V}.
