(** Model of how initial algorithms are saved and loaded: dictionaries keyed by
    agents are stored keyed by the agents' hashes,
    /repo/decent_bench/utils/checkpoint_manager.py:266-283, 792-805, 899-955.

    An algorithm is the list of its attributes ([__dict__]); agents are compared
    by their ids ([Agent.__eq__], agents.py:263-267), [hash] is any function of
    the id. Simplifications: Python values are reduced to [True], dictionaries
    with agent, integer, string and other keys, and everything else; pickling is
    faithful. *)
From Coq Require Import List Bool Arith ZArith String.
From Verif.Model Require Import PyDict.
Import ListNotations.
Open Scope nat_scope.

Inductive key := KAgent (a : nat) | KInt (z : Z) | KStr (s : string) | KOther (n : nat).
Definition key_eqb (x y : key) : bool :=
  match x, y with
  | KAgent a, KAgent b => a =? b
  | KInt a, KInt b => (a =? b)%Z
  | KStr a, KStr b => (a =? b)%string
  | KOther a, KOther b => a =? b
  | _, _ => false
  end.

Section C.
  Variable X : Type.
  Inductive pv := PTrue | PAtom (x : X) | PDict (l : list (key * pv)).
  Definition attrs : Type := list (string * pv).
  (** [hash(agent)], agents.py:259-261 *)
  Variable hash : nat -> Z.

  Definition agent_key (k : key) : bool := match k with KAgent _ => true | _ => false end.
  (** a value replaced by the first loop body: a non-empty dictionary with agent
      keys only, checkpoint_manager.py:902-906 *)
  Definition agent_dict (v : pv) : bool :=
    match v with PDict [] => false | PDict l => forallb (fun p => agent_key (fst p)) l | _ => false end.
  Definition hash_key (k : key) : key := match k with KAgent a => KInt (hash a) | _ => k end.
  (** [{hash(agent): item for agent, item in value.items()}], line 909 *)
  Definition rekey (l : list (key * pv)) : list (key * pv) :=
    fold_left (fun d p => dset key_eqb d (hash_key (fst p)) (snd p)) l [].
  (** _AGENT_HASH_DICT_MARKER, line 27 *)
  Definition marker : key := KStr "__agent_hash_keyed__".
  Definition data : key := KStr "data".
  Definition compact_value (v : pv) : pv :=
    match v with
    | PDict l => if agent_dict v then PDict [(marker, PTrue); (data, PDict (rekey l))] else v
    | _ => v
    end.
  (** [_compact_algorithm_agent_dicts_inplace], lines 899-918: the attributes
      afterwards and the values it replaced *)
  Definition compact (A : attrs) : attrs := map (fun p => (fst p, compact_value (snd p))) A.
  Definition originals (A : attrs) : attrs := filter (fun p => agent_dict (snd p)) A.
  (** [_save_initial_algorithms], lines 792-805: what goes to the file, and the
      attributes afterwards *)
  Definition save_alg (A : attrs) : attrs * attrs :=
    (compact A, fold_left (fun d p => dset String.eqb d (fst p) (snd p)) (originals A) (compact A)).

  (** [hash_to_agent = {hash(agent): agent for agent in network.graph}], line 940 *)
  Definition hash_to_agent (nodes : list nat) : list (Z * nat) :=
    fold_left (fun d a => dset Z.eqb d (hash a) a) nodes [].
  (** lines 951-957; [None]: ValueError *)
  Fixpoint decode (tbl : list (Z * nat)) (l : list (key * pv)) (d : list (key * pv)) : option (list (key * pv)) :=
    match l with
    | [] => Some d
    | (k, v) :: l' =>
        match k with
        | KInt z => match dget Z.eqb tbl z with Some a => decode tbl l' (dset key_eqb d (KAgent a) v) | None => None end
        | _ => None
        end
    end.
  (** lines 942-948 *)
  Definition marked_data (v : pv) : option (list (key * pv)) :=
    match v with
    | PDict l => match dget key_eqb l marker, dget key_eqb l data with Some PTrue, Some (PDict d) => Some d | _, _ => None end
    | _ => None
    end.
  Definition restore_value (nodes : list nat) (v : pv) : option pv :=
    match marked_data v with
    | Some d => option_map PDict (decode (hash_to_agent nodes) d [])
    | None => Some v
    end.
  (** [_restore_algorithm_agent_dicts_inplace], lines 921-957 *)
  Fixpoint restore (nodes : list nat) (A : attrs) : option attrs :=
    match A with
    | [] => Some []
    | (n, v) :: A' => match restore_value nodes v, restore nodes A' with Some v', Some r => Some ((n, v') :: r) | _, _ => None end
    end.
  (** [load_initial_algorithms], lines 266-283 *)
  Definition load_alg (network : option (list nat)) (file : attrs) : option attrs :=
    match network with None => Some file | Some nodes => restore nodes file end.
End C.
Arguments PTrue {X}. Arguments PAtom {X}. Arguments PDict {X}. Arguments agent_dict {X}. Arguments rekey {X}. Arguments compact_value {X}. Arguments compact {X}. Arguments originals {X}. Arguments save_alg {X}.
Arguments decode {X}. Arguments marked_data {X}. Arguments restore_value {X}. Arguments restore {X}. Arguments load_alg {X}.
