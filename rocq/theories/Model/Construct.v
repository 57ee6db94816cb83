(** Model of network construction: /repo/decent_bench/networks.py:53-180
    (Network), 381-401 (P2PNetwork), 521-564 (FedNetwork).

    Agent objects are handles into a store (so that partial effects of a failed
    construction are visible). Costs are their signature (shape, framework,
    device), coded as one number. Scheme objects are numbers. networkx graphs
    are the number of nodes and an edge list over node positions. Non-Agent
    nodes are not representable (the check of networks.py:67-68 cannot fail
    after the relabelling of 391-392). *)
From Coq Require Import List Bool Arith ZArith.
From Verif.Model Require Import PyDict.
Import ListNotations.
Open Scope nat_scope.

Record ag := mkAg { g_id : nat; g_index : Z; g_sig : nat; g_always : bool; g_server : bool; g_period : nat }.
Definition store := nat -> ag.
Definition set_index (s : store) (h : nat) (i : Z) : store :=
  fun k => if Nat.eqb k h then mkAg (g_id (s k)) i (g_sig (s k)) (g_always (s k)) (g_server (s k)) (g_period (s k)) else s k.
Definition set_server (s : store) (h : nat) (b : bool) : store :=
  fun k => if Nat.eqb k h then mkAg (g_id (s k)) (g_index (s k)) (g_sig (s k)) (g_always (s k)) b (g_period (s k)) else s k.

(** A scheme argument: None, one instance, a dict keyed by agent (hashed by
    id), or anything else. *)
Inductive scharg := SNone | SOne (x : nat) | SDict (d : list (nat * nat)) | SBad.
(** The scheme used for an agent: a fresh default, a deepcopy of the given
    instance, or the dict's own object. *)
Inductive scheme := Default | Copied (x : nat) | Own (x : nat).

(** [_initialize_message_schemes], networks.py:138-180; keys are agent ids *)
Definition init_schemes (ids : list nat) (a : scharg) : option (list (nat * scheme)) :=
  match a with
  | SNone => Some (map (fun i => (i, Default)) ids)
  | SOne x => Some (map (fun i => (i, Copied x)) ids)
  | SDict d => if forallb (fun i => dmem Nat.eqb d i) ids
               then Some (map (fun i => (i, match dget Nat.eqb d i with Some x => Own x | None => Default end)) ids)
               else None
  | SBad => None
  end.

Record graph := mkGraph { gr_n : nat; gr_edges : list (nat * nat); gr_multi : bool; gr_directed : bool }.

(** networkx [is_connected]: breadth-first search from the first node reaches
    every node ([gr_n] rounds always suffice). The null graph raises. *)
Definition adjacent (g : graph) (i j : nat) : bool :=
  existsb (fun e => (Nat.eqb (fst e) i && Nat.eqb (snd e) j) || (Nat.eqb (fst e) j && Nat.eqb (snd e) i)) (gr_edges g).
Definition bfs_round (g : graph) (seen : list nat) : list nat :=
  filter (fun j => existsb (Nat.eqb j) seen || existsb (fun i => adjacent g i j) seen) (seq 0 (gr_n g)).
Definition bfs (g : graph) : list nat := Nat.iter (gr_n g) (bfs_round g) [0].
Definition is_connected (g : graph) : bool := length (bfs g) =? gr_n g.

Inductive cres := COk (s : store) (noise comp drop : list (nat * scheme)) | CErr (s : store).

(** [_validate_agent_ids], networks.py:114-136: [len(ids) == len(set(ids))] and no index set *)
Definition validate_ids (s : store) (hs : list nat) : bool :=
  (length (nodup Nat.eq_dec (map (fun h => g_id (s h)) hs)) =? length hs) &&
  forallb (fun h => (g_index (s h) =? -1)%Z) hs.

(** [_validate_agent_cost_compatibility], networks.py:83-112 *)
Definition compatible (s : store) (hs : list nat) : bool :=
  match hs with
  | [] => true
  | h :: t => forallb (fun k => g_sig (s k) =? g_sig (s h)) t
  end.

(** networks.py:71-72 *)
Fixpoint assign (s : store) (hs : list nat) (i : nat) : store :=
  match hs with
  | [] => s
  | h :: t => assign (set_index s h (Z.of_nat i)) t (S i)
  end.

(** [Network.__init__], networks.py:53-81 *)
Definition network_init (s : store) (g : graph) (hs : list nat) (noise comp drop : scharg) : cres :=
  if gr_multi g then CErr s
  else if gr_directed g then CErr s
  else if gr_n g =? 0 then CErr s                (* nx.is_connected on the null graph raises *)
  else if negb (is_connected g) then CErr s
  else if negb (compatible s hs) then CErr s
  else
    let s1 := assign s hs 0 in
    let ids := map (fun h => g_id (s h)) hs in
    match init_schemes ids noise with
    | None => CErr s1
    | Some a => match init_schemes ids comp with
      | None => CErr s1
      | Some b => match init_schemes ids drop with
        | None => CErr s1
        | Some c => COk s1 a b c
        end end end.

(** [P2PNetwork.__init__], networks.py:381-400 *)
Definition p2p_init (s : store) (g : graph) (hs : list nat) (noise comp drop : scharg) : cres :=
  if negb (length hs =? gr_n g) then CErr s
  else if negb (validate_ids s hs) then CErr s
  else network_init s g hs noise comp drop.

(** [nx.star_graph(nodes)]: the first node is the hub *)
Definition star (n : nat) : graph := mkGraph n (map (fun i => (0, i)) (seq 1 (n - 1))) false false.

(** networks.py:551-557: the server's entry is added to a dict argument *)
Definition add_server (sid : nat) (a : scharg) (fresh : nat) : scharg :=
  match a with SDict d => if dmem Nat.eqb d sid then a else SDict (dset Nat.eqb d sid fresh) | _ => a end.

(** [FedNetwork.__init__], networks.py:521-564. [server = None] creates a new
    agent; [newh] is its handle (its id is fresh), [nil] the number of the
    default scheme object. *)
Definition fed_init (s : store) (clients : list nat) (server : option nat) (newh newid nil : nat) (noise comp drop : scharg) : cres :=
  match clients with
  | [] => CErr s
  | c0 :: _ =>
    let '(s0, sv, ok) :=
      match server with
      | Some h => (s, h, g_always (s h))
      | None => (fun k => if Nat.eqb k newh
                          then mkAg newid (-1) (g_sig (s c0)) true false
                                 (fold_left Nat.min (map (fun c => g_period (s c)) clients) (g_period (s c0)))
                          else s k, newh, true)
      end in
    if negb ok then CErr s
    else
      let s1 := fold_left (fun s c => set_server s c false) clients s0 in
      let s2 := set_server s1 sv true in
      let nodes := sv :: clients in
      if negb (validate_ids s2 nodes) then CErr s2
      else
        let sid := g_id (s2 sv) in
        network_init s2 (star (length nodes)) nodes (add_server sid noise nil) (add_server sid comp nil) (add_server sid drop nil)
  end.
