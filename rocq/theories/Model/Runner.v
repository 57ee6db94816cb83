(** Model of [Algorithm.run], /repo/decent_bench/algorithms/_algorithm.py:75-125,
    for an arbitrary algorithm (its state [S], [initialize] and [step]).

    Simplifications: the progress callback is an observer (it does not modify
    the network); [initialize] does not raise; [step] may raise, which is the
    boolean it returns along with the state left behind. The random state of
    schemes is the draw counter inside [net]. *)
From Coq Require Import List Bool Arith ZArith.
From Verif.Model Require Import PyDict History Messages Network.
Import ListNotations.
Open Scope nat_scope.

Section Run.
  Variables (V S : Type) (t : topo).
  (** [Agent.state_snapshot_period], validated positive, agents.py:53-54 *)
  Variable period : agent_id -> nat.
  Definition world : Type := S * net V.

  (** The subclass-provided part of an algorithm, _algorithm.py:41-62 *)
  Record alg := mkAlg {
    al_iters : nat;
    al_init : world -> world;
    al_step : nat -> world -> world * bool
  }.

  (** Calls made by [run], for stating theorems: each with the world at the
      moment of the call. *)
  Inductive call :=
  | CInit (w : world)
  | CStep (k : nat) (w : world)
  | CCallback (k : nat) (w : world).

  Inductive outcome := Finished | Raised (k : nat) | Rejected.
  Record run_res := mkRes { r_out : outcome; r_calls : list call; r_world : world }.

  Variable A : alg.

  (** [_snapshot_agents], _algorithm.py:80-84; [snapshot_agents] is
      [graph.nodes()], networks.py:205-207 *)
  Definition snapshot_all (it : nat) (st : net V) : net V :=
    fold_left (fun st a => upd_agent a (snapshot (period a) it (it =? al_iters A)) st) (t_nodes t) st.

  (** The [for] loop, _algorithm.py:119-125, [n] iterations left, next is [k] *)
  Fixpoint loop (n k : nat) (w : world) : run_res :=
    match n with
    | 0 => mkRes Finished [] w
    | Datatypes.S n' =>
      let w1 := (fst w, step t k (snd w)) in
      let '(w2, raised) := al_step A k w1 in
      if raised then mkRes (Raised k) [CStep k w1] w2
      else
        let w3 := (fst w2, snapshot_all (k + 1) (snd w2)) in
        let r := loop n' (k + 1) w3 in
        mkRes (r_out r) (CStep k w1 :: CCallback k w3 :: r_calls r) (r_world r)
    end.

  (** [Algorithm.run], _algorithm.py:111-125 *)
  Definition run (start : Z) (w : world) : run_res :=
    if ((start <? 0) || (Z.of_nat (al_iters A) <? start))%Z then mkRes Rejected [] w
    else
      let k0 := Z.to_nat start in
      if (start =? 0)%Z then
        let w0 := al_init A w in
        let r := loop (al_iters A - k0) k0 w0 in
        mkRes (r_out r) (CInit w :: r_calls r) (r_world r)
      else loop (al_iters A - k0) k0 w.
End Run.

Arguments mkAlg {V S}. Arguments al_iters {V S}. Arguments al_init {V S}. Arguments al_step {V S}.
Arguments CInit {V S}. Arguments CStep {V S}. Arguments CCallback {V S}.
Arguments mkRes {V S}. Arguments r_out {V S}. Arguments r_calls {V S}. Arguments r_world {V S}.
Arguments snapshot_all {V S}. Arguments loop {V S}. Arguments run {V S}.
