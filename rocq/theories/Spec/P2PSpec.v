(** Vocabulary for the theorems about peer-to-peer algorithms. *)
From Coq Require Import Reals String List Bool Arith Permutation.
From Verif.Model Require Import PyDict History Messages Network Runner Vec P2P.
From Verif.Spec Require Import NetworkSpec.
Import ListNotations.
Open Scope R_scope.

(** A message arrives as it was sent or not at all. *)
Definition faithful (e : env vec) : Prop :=
  (forall d a v, e_comp e d a v = v) /\ (forall d a, e_noise e d a = None).
(** A peer-to-peer network: undirected graph without self-loops, no server. *)
Definition p2p_topo (t : topo) : Prop :=
  wf_topo t /\ t_server t = None /\ forall a, ~ In a (t_adj t a).
(** Every agent is active in every iteration. *)
Definition always_active (e : env vec) : Prop := forall d a k, e_act e d a k = true.
(** Reliable and synchronous: every agent active, every message delivered as sent. *)
Definition synchronous (e : env vec) : Prop := reliable e /\ always_active e.

(** The agents active in iteration [k] of a network in state [st]. *)
Definition active_at (t : topo) (e : env vec) (k : nat) (st : net vec) : list agent_id :=
  fst (active_agents t e (step t k st)).

(** [D i]: from whom agent [i] received something in one round of broadcasts
    among the active agents [act]. *)
Definition delivery (t : topo) (e : env vec) (act : list agent_id) (D : agent_id -> list agent_id) : Prop :=
  forall i, NoDup (D i) /\
    (forall j, In j (D i) -> In j (t_adj t i) /\ In j act) /\
    (reliable e -> In i act -> forall j, In j (t_adj t i) -> In j act -> In j (D i)).

(** Row [i] of a matrix applied to the agents' vectors, restricted to [i] itself
    and the senders in [D]. *)
Definition mix (M : agent_id -> agent_id -> R) (D : list agent_id) (v : agent_id -> vec) (i : agent_id) : vec :=
  fun c => M i i * v i c + rsum (map (fun j => M i j * v j c) D).
(** Row [i] of the matrix-vector product over all nodes. *)
Definition row_of (t : topo) (M : agent_id -> agent_id -> R) (v : agent_id -> vec) (i : agent_id) : vec :=
  fun c => rsum (map (fun j => M i j * v j c) (t_nodes t)).
(** A matrix compatible with the graph: zero off the edges and the diagonal. *)
Definition sparse (t : topo) (M : agent_id -> agent_id -> R) : Prop :=
  forall i j, i <> j -> ~ In j (t_adj t i) -> M i j = 0.
(** Columns (over the nodes) sum to one; rows sum to one. *)
Definition col_stochastic (t : topo) (M : agent_id -> agent_id -> R) : Prop :=
  forall j, In j (t_nodes t) -> rsum (map (fun i => M i j) (t_nodes t)) = 1.
Definition row_stochastic (t : topo) (M : agent_id -> agent_id -> R) : Prop :=
  forall i, In i (t_nodes t) -> rsum (map (fun j => M i j) (t_nodes t)) = 1.

(** Observations of agent [i]: its state, an auxiliary variable, a row of a
    per-neighbour auxiliary variable. *)
Definition state_is (st : net vec) (i : agent_id) (v : vec) : Prop := a_x (n_agents st i) = Some v.
Definition aux_is (st : net vec) (i : agent_id) (k : string) (v : vec) : Prop :=
  dget String.eqb (a_aux (n_agents st i)) k = Some (AArr v).
Definition auxmap_is (st : net vec) (i : agent_id) (k : string) (m : list (agent_id * vec)) : Prop :=
  dget String.eqb (a_aux (n_agents st i)) k = Some (AMap m).
(** All variables of the agent are as before. *)
Definition untouched (st st' : net vec) (i : agent_id) : Prop :=
  a_x (n_agents st' i) = a_x (n_agents st i) /\ a_aux (n_agents st' i) = a_aux (n_agents st i).

(** A per-neighbour variable of agent [i] with row [z j] for neighbour [j]. *)
Definition rows (t : topo) (i : agent_id) (z : agent_id -> vec) : list (agent_id * vec) := map (fun j => (j, z j)) (t_adj t i).

(** [g] is a gradient that the cost of agent [i] may return at [x]. *)
Definition gradient_of (grad : nat -> agent_id -> vec -> vec) (i : agent_id) (x g : vec) : Prop :=
  exists n, g = grad n i x.
(** a chain of [n] local steps from [x] to [z], each with a gradient at the
    current point; [s] is the sum of these gradients *)
Inductive local_steps (grad : nat -> agent_id -> vec -> vec) (i : agent_id) (next : vec -> vec -> vec) : nat -> vec -> vec -> vec -> Prop :=
| ls_nil x : local_steps grad i next 0 x x vzero
| ls_cons n x g z s : gradient_of grad i x g -> local_steps grad i next n (next x g) z s -> local_steps grad i next (S n) x z (vadd g s).

(** Sum over all agents and mean over all agents. *)
Definition total_of (t : topo) (v : agent_id -> vec) : vec := fun c => rsum (map (fun i => v i c) (t_nodes t)).
Definition mean_of (t : topo) (v : agent_id -> vec) : vec := vscal (/ INR (length (t_nodes t))) (total_of t v).

(** The states that the agents go through in a run from iteration 0 on: the run
    finishes, [X k i] is the state of agent [i] at the beginning of iteration [k],
    [X (S k) i] its state when the callback of iteration [k] is made, and
    [X N i] its final state. *)
Definition trajectory (t : topo) (period : agent_id -> nat) (A : alg vec nat) (w : world vec nat) (X : nat -> agent_id -> vec) : Prop :=
  let r := run t period A 0 w in
  r_out r = Finished /\
  (forall k w', In (CStep k w') (r_calls r) -> forall i, In i (t_nodes t) -> state_is (snd w') i (X k i)) /\
  (forall k w', In (CCallback k w') (r_calls r) -> forall i, In i (t_nodes t) -> state_is (snd w') i (X (S k) i)) /\
  (forall i, In i (t_nodes t) -> state_is (snd (r_world r)) i (X (al_iters A) i)).
(** The same for the auxiliary variable [key]. *)
Definition aux_trajectory (t : topo) (period : agent_id -> nat) (A : alg vec nat) (w : world vec nat) (key : string) (Y : nat -> agent_id -> vec) : Prop :=
  let r := run t period A 0 w in
  (forall k w', In (CStep k w') (r_calls r) -> forall i, In i (t_nodes t) -> aux_is (snd w') i key (Y k i)) /\
  (forall k w', In (CCallback k w') (r_calls r) -> forall i, In i (t_nodes t) -> aux_is (snd w') i key (Y (S k) i)) /\
  (forall i, In i (t_nodes t) -> aux_is (snd (r_world r)) i key (Y (al_iters A) i)).
(** and for per-neighbour variables, [Z k i j] being the row of agent [i] for
    neighbour [j]. *)
Definition rows_trajectory (t : topo) (period : agent_id -> nat) (A : alg vec nat) (w : world vec nat) (key : string) (Z : nat -> agent_id -> agent_id -> vec) : Prop :=
  let r := run t period A 0 w in
  (forall k w', In (CStep k w') (r_calls r) -> forall i, In i (t_nodes t) -> auxmap_is (snd w') i key (rows t i (Z k i))) /\
  (forall k w', In (CCallback k w') (r_calls r) -> forall i, In i (t_nodes t) -> auxmap_is (snd w') i key (rows t i (Z (S k) i))) /\
  (forall i, In i (t_nodes t) -> auxmap_is (snd (r_world r)) i key (rows t i (Z (al_iters A) i))).

(** The matrices (I + W)/2 and (I - W)/2, and I - (I - W)/(2 chi), used by the
    published forms of NIDS and ED, of Wang-Elia, and of ProxSkip. *)
Definition ident (i j : agent_id) : R := if Nat.eqb i j then 1 else 0.
Definition half_plus (W : agent_id -> agent_id -> R) (i j : agent_id) : R := (ident i j + W i j) / 2.
Definition half_minus (W : agent_id -> agent_id -> R) (i j : agent_id) : R := (ident i j - W i j) / 2.
Definition damped (W : agent_id -> agent_id -> R) (chi : R) (i j : agent_id) : R := ident i j - (ident i j - W i j) / (2 * chi).
