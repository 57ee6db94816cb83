(** Reported metrics of a run. *)
From Coq Require Import List ZArith Reals.
From Verif.Model Require Import PyDict History Messages Network Counting Runner Vec Metrics.
From Verif.Spec Require Import RunnerSpec P2PSpec FedSpec ConvSpec.
Import ListNotations.
Local Open Scope R_scope.

(** the metrics see the agents' costs *)
Definition costs_are (l : list agent_id) (cost : agent_id -> mcost) (F : agent_id -> vec -> R) (G : agent_id -> vec -> vec) : Prop :=
  forall i, In i l -> (forall x, c_fun (cost i) x = F i x) /\ (forall x, c_grad (cost i) x = G i x).

(** What Regret, XError, GradientNorm and ConsensusError report at iteration [it]
    of a trial that ended with the network [st]: one finite number, and for the
    last one number per agent. *)
Definition reported (t : topo) (n : nat) (cost : agent_id -> mcost) (xs : vec) (st : net vec) (it : Z) (rg xe gn : R) (ces : list R) : Prop :=
  forall cnt id, let nv := from_network t cost (mkTrial st cnt) in
    m_compute (Regret id xs) nv it = Ok [Fin rg] /\ m_compute (XError n id xs) nv it = Ok [Fin xe] /\
    m_compute (GradientNorm n id) nv it = Ok [Fin gn] /\ m_compute (ConsensusError n id) nv it = Ok (map Fin ces).
(** ... and they are all between 0 and [eps]. *)
Definition reported_within (t : topo) (n : nat) (cost : agent_id -> mcost) (xs : vec) (st : net vec) (it : Z) (eps : R) : Prop :=
  exists rg xe gn ces, reported t n cost xs st it rg xe gn ces /\ List.length ces = List.length (t_nodes t) /\
    Forall (fun v => 0 <= v <= eps) (rg :: xe :: gn :: ces).

(** Whatever the tolerance, from some iteration on the reported curves stay within
    it, in every run long enough, synchronous, from any network, with any snapshot
    periods: at every iteration in which all agents take a snapshot, and so at the
    end, which is what a table shows. *)
Definition curves_vanish (t : topo) (n : nat) (F : agent_id -> vec -> R) (G : agent_id -> vec -> vec) (xs : vec) (A : env vec -> nat -> alg vec nat) : Prop :=
  forall eps, 0 < eps -> exists K, forall e N period w cost, synchronous e -> costs_are (t_nodes t) cost F G ->
    let r := run t period (A e N) 0 w in
    r_out r = Finished /\
    forall k, (1 <= k)%nat -> (K <= k)%nat -> (forall i, In i (t_nodes t) -> due (period i) N k) ->
      reported_within t n cost xs (snd (r_world r)) (Z.of_nat k) eps.

(** The same of a federated algorithm; the metrics look at the clients.  For
    Regret, XError and GradientNorm only: *)
Definition mean_curves_vanish (t : topo) (sv : agent_id) (n : nat) (F : agent_id -> vec -> R) (G : agent_id -> vec -> vec) (xs : vec) (A : env vec -> nat -> alg vec nat) : Prop :=
  forall eps, 0 < eps -> exists K, forall e N period w cost, fed_net t e sv -> synchronous e -> costs_are (agents t) cost F G ->
    let r := run t period (A e N) 0 w in
    r_out r = Finished /\
    forall k, (1 <= k)%nat -> (K <= k)%nat -> (forall i, In i (agents t) -> due (period i) N k) ->
      exists rg xe gn ces, reported t n cost xs (snd (r_world r)) (Z.of_nat k) rg xe gn ces /\ Forall (fun v => 0 <= v <= eps) [rg; xe; gn].
(** ... and for ConsensusError too: *)
Definition fed_curves_vanish (t : topo) (sv : agent_id) (n : nat) (F : agent_id -> vec -> R) (G : agent_id -> vec -> vec) (xs : vec) (A : env vec -> nat -> alg vec nat) : Prop :=
  forall eps, 0 < eps -> exists K, forall e N period w cost, fed_net t e sv -> synchronous e -> costs_are (agents t) cost F G ->
    let r := run t period (A e N) 0 w in
    r_out r = Finished /\
    forall k, (1 <= k)%nat -> (K <= k)%nat -> (forall i, In i (agents t) -> due (period i) N k) ->
      exists rg xe gn ces, reported t n cost xs (snd (r_world r)) (Z.of_nat k) rg xe gn ces /\
        List.length ces = List.length (agents t) /\ Forall (fun v => 0 <= v <= eps) (rg :: xe :: gn :: ces).
