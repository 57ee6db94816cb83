(** Vocabulary for the theorems about [Algorithm.run]. *)
From Coq Require Import String List Bool Arith ZArith.
From Verif.Model Require Import PyDict History Messages Network Runner.
Import ListNotations.
Open Scope nat_scope.

Section S.
  Variables V S : Type.

  (** Operations available to algorithm code: everything except the
      run-internal step and snapshot. *)
  Definition client_op (o : nop V) : Prop :=
    match o with NStep _ | NSnap _ _ _ _ => False | _ => True end.

  (** The algorithm's [step] acts on the network only through client
      operations; which ones may depend on anything. *)
  Definition client_code (t : topo) (e : env V) (A : alg V S) : Prop :=
    forall k w, exists ops, Forall client_op ops /\ snd (fst (al_step A k w)) = nrun t e (snd w) ops.

  (** Agent [a] was initialised with [x0] (Agent.initialize). *)
  Definition initialised (st : net V) (a : agent_id) (x0 : V) : Prop :=
    a_x (n_agents st a) = Some x0 /\ a_hist (n_agents st a) = h_run [(0%Z, x0)].

  (** Iteration count [n] is recorded: a multiple of the period, or the end. *)
  Definition due (period N n : nat) : Prop := 1 <= n <= N /\ (n mod period = 0 \/ n = N).

  Definition step_indices (l : list (call V S)) : list nat :=
    flat_map (fun c => match c with CStep k _ => [k] | _ => [] end) l.
  Definition callback_indices (l : list (call V S)) : list nat :=
    flat_map (fun c => match c with CCallback k _ => [k] | _ => [] end) l.
  Definition init_calls (l : list (call V S)) : list (world V S) :=
    flat_map (fun c => match c with CInit w => [w] | _ => [] end) l.

  (** Equal in everything but the recorded histories. *)
  Definition agent_upto_hist (a b : agent V) : Prop :=
    a_x b = a_x a /\ a_aux b = a_aux a /\ a_msgs b = a_msgs a /\ a_nx b = a_nx a /\ a_sent b = a_sent a /\
    a_recv b = a_recv a /\ a_drop b = a_drop a /\ a_nsel b = a_nsel a.
  Definition net_upto_hist (st st' : net V) : Prop :=
    (forall a, agent_upto_hist (n_agents st a) (n_agents st' a)) /\
    n_iter st' = n_iter st /\ n_cache st' = n_cache st /\ n_conn st' = n_conn st /\ n_draws st' = n_draws st /\ n_log st' = n_log st.
  Definition world_upto_hist (w w' : world V S) : Prop := fst w' = fst w /\ net_upto_hist (snd w) (snd w').
  (** Steps that do not look at histories (no algorithm in the package does). *)
  Definition hist_agnostic (A : alg V S) : Prop :=
    forall k w w', world_upto_hist w w' ->
      world_upto_hist (fst (al_step A k w)) (fst (al_step A k w')) /\ snd (al_step A k w) = snd (al_step A k w').
End S.
Arguments client_op {V}. Arguments client_code {V S}. Arguments initialised {V}.
Arguments step_indices {V S}. Arguments callback_indices {V S}. Arguments init_calls {V S}.
Arguments agent_upto_hist {V}. Arguments net_upto_hist {V}. Arguments world_upto_hist {V S}. Arguments hist_agnostic {V S}.
