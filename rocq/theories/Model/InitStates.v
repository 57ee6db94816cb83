(** [initial_states], /repo/decent_bench/algorithms/utils.py:17-82.

    Arrays are a shape and entries; conversion to the framework and device of an
    agent (line 82) keeps both.  Dictionary keys that are agents are given by
    their id and the shape of their cost. *)
From Coq Require Import Reals List Bool Arith.
From Verif.Model Require Import PyDict Messages Network Vec.
Import ListNotations.
Local Open Scope R_scope.

Definition shape : Type := list nat.
Record arr := mkArr { ar_shape : shape; ar_data : vec }.
Definition shape_eqb (s s' : shape) : bool := if list_eq_dec Nat.eq_dec s s' then true else false.

Inductive x0key := KeyAgent (id : agent_id) (s : shape) | KeyOther.
(** [InitialStates]: [None], a dictionary, an array, or anything else *)
Inductive x0arg := X0None | X0Dict (d : list (x0key * arr)) | X0Array (a : arr) | X0Other.
Inductive init_res := IOk (d : list (agent_id * arr)) | IValueError | ITypeError.

Section Init.
  Variables (t : topo) (cost_shape : agent_id -> shape).

  (** lines 46-55: the loop over [x0.items()] *)
  Fixpoint by_id (d : list (x0key * arr)) (acc : dict agent_id arr) : dict agent_id arr + init_res :=
    match d with
    | [] => inl acc
    | (KeyOther, _) :: _ => inr ITypeError
    | (KeyAgent id s, v) :: d' => if shape_eqb (ar_shape v) s then by_id d' (dset Nat.eqb acc id v) else inr IValueError
    end.

  (** lines 56-60: the loop over [network.agents()] *)
  Fixpoint take (l : list agent_id) (d : dict agent_id arr) (acc : dict agent_id arr) : option (dict agent_id arr) :=
    match l with
    | [] => Some acc
    | a :: l' => match dget Nat.eqb d a with None => None | Some v => take l' d (dset Nat.eqb acc a v) end
    end.

  (** lines 64-68: [zeros_like] of the first client's state plus all of them,
      divided by their number (a network has clients) *)
  Definition client_mean (vs : list arr) : arr :=
    mkArr (match vs with v :: _ => ar_shape v | [] => [] end) (vscal (/ INR (length vs)) (vsum (map ar_data vs))).
  Definition entry (d : dict agent_id arr) (a : agent_id) : arr :=
    match dget Nat.eqb d a with Some v => v | None => mkArr [] vzero end.

  (** line 82: the result lists every node of the graph in order; [None]: a
      node without state, a KeyError no input leads to *)
  Fixpoint normalise (l : list agent_id) (d : dict agent_id arr) : option (list (agent_id * arr)) :=
    match l with
    | [] => Some []
    | a :: l' => match dget Nat.eqb d a, normalise l' d with
                 | Some v, Some r => Some ((a, v) :: r)
                 | _, _ => None
                 end
    end.
  Definition finish (d : dict agent_id arr) : option init_res :=
    match normalise (t_nodes t) d with Some r => Some (IOk r) | None => None end.

  Definition initial_states (x0 : x0arg) : option init_res :=
    match x0 with
    | X0None => finish (map (fun a => (a, mkArr (cost_shape a) vzero)) (t_nodes t))
    | X0Dict d =>
        match by_id d [] with
        | inr e => Some e
        | inl x0_by_id =>
            match take (agents t) x0_by_id [] with
            | None => Some IValueError
            | Some x0s =>
                match t_server t with
                | None => finish x0s
                | Some srv =>
                    finish (dset Nat.eqb x0s srv
                      (match dget Nat.eqb x0_by_id srv with
                       | Some v => v
                       | None => client_mean (map (entry x0s) (agents t))
                       end))
                end
            end
        end
    | X0Array v =>
        if forallb (fun a => shape_eqb (ar_shape v) (cost_shape a)) (t_nodes t)
        then finish (map (fun a => (a, v)) (t_nodes t))
        else Some IValueError
    | X0Other => Some IValueError
    end.
End Init.
