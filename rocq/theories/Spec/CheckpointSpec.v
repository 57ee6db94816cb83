(** Vocabulary for the checkpoint properties C42, C43, C46. *)
From Coq Require Import List Bool Arith ZArith.
From Verif.Model Require Import PyDict History Messages Network Runner Checkpoint.
From Verif.Spec Require Import RunnerSpec.
Import ListNotations.
Open Scope nat_scope.

(** Neither JSON file of the directory is half written. *)
Definition json_ok {D} (s : dir D) : Prop := d_prog s <> Some Torn /\ d_comp s <> Some Torn.

Section S.
  Context {V S : Type}.
  Variables (t : topo) (period : agent_id -> nat) (A : alg V S) (w0 : world V S) (step : option nat).
  (** The directories a trial can be found in: it starts with none; each visit may
      be killed after any number [n] of its effects on the disk (all of them: the
      visit ends), provided no JSON file is half written then. The number of
      checkpoints to keep may differ between visits, [keeps] lists it. *)
  Inductive killed : list nat -> dir (world V S) -> Prop :=
  | killed_new : killed [] empty_dir
  | killed_visit keeps keep s n : killed keeps s -> 1 <= keep ->
      let s' := apply_all (firstn n (at_effects (visit t period A w0 step keep s))) s in
      json_ok s' -> killed (keep :: keeps) s'.

  (** The same when the target number of iterations may be raised between visits.
      [Ns] lists the targets, the current one first. Raising it starts by
      removing the completion marker. *)
  Inductive reach : list nat -> dir (world V S) -> Prop :=
  | reach_new N : 1 <= N -> reach [N] empty_dir
  | reach_visit N Ns keep s n : reach (N :: Ns) s -> 1 <= keep ->
      let s' := apply_all (firstn n (at_effects (visit t period (with_iters N A) w0 step keep s))) s in
      json_ok s' -> reach (N :: Ns) s'
  | reach_unmark Ns s : reach Ns s -> reach Ns (unmark s)
  | reach_raise N N' Ns s : reach (N :: Ns) s -> is_complete s = false -> N < N' -> reach (N' :: N :: Ns) s.

  (** Equal but for what the histories hold at the iterations [X] *)
  Definition same_but (X : list nat) (w w' : world V S) : Prop :=
    world_upto_hist w w' /\
    forall a k, ~ In k (map Z.of_nat X) ->
      let h := a_hist (n_agents (snd w) a) in let h' := a_hist (n_agents (snd w') a) in
      h_contains h k = h_contains h' k /\ h_at h k = h_at h' k.

  (** [st'] is [st] with the auxiliary variables of all nodes dropped and nothing
      else changed. *)
  Definition aux_dropped (st st' : net V) : Prop :=
    n_iter st' = n_iter st /\ n_cache st' = n_cache st /\ n_conn st' = n_conn st /\ n_draws st' = n_draws st /\ n_log st' = n_log st /\
    forall a, let o := n_agents st a in let o' := n_agents st' a in
      a_x o' = a_x o /\ a_hist o' = a_hist o /\ a_msgs o' = a_msgs o /\ a_nx o' = a_nx o /\
      a_sent o' = a_sent o /\ a_recv o' = a_recv o /\ a_drop o' = a_drop o /\ a_nsel o' = a_nsel o /\
      (In a (t_nodes t) -> a_aux o' = []) /\ (~ In a (t_nodes t) -> a_aux o' = a_aux o).

  (** What a trial should return: [c] tells whether it is marked complete, [w] is
      its state; the auxiliary variables are dropped in memory after a completed
      trial. *)
  Definition returns (x : answer V S) (c : bool) (w : world V S) : Prop :=
    x = Returned c w \/ (c = true /\ exists st', aux_dropped (snd w) st' /\ x = Returned c (fst w, st')).
End S.

(** The files kept are the [keep] newest. *)
Definition newest (keep : nat) (all kept : list nat) : Prop :=
  forall j, In j kept <-> In j all /\ length (filter (fun i => j <? i) (nodup Nat.eq_dec all)) < keep.

(** number of checkpoint files *)
Definition n_files {D} (s : dir D) : nat := length (d_ck s).
(** the run finished all its iterations *)
Definition finished (o : outcome) : bool := match o with Finished => true | _ => false end.
