(** Vocabulary for the benchmark-level properties C42, C45, C46, C47. *)
From Coq Require Import List Bool Arith ZArith Permutation.
From Verif.Model Require Import PyDict History Messages Network Runner Checkpoint Benchmark.
From Verif.Spec Require Import RunnerSpec CheckpointSpec.
Import ListNotations.
Open Scope nat_scope.

Section S.
  Context {V St : Type}.
  Notation world := (world V St).

  (** No JSON file of the checkpoint directory is half written. *)
  Definition all_json_ok (s : bdir V St) : Prop := b_meta s <> Some Torn /\ forall a i, json_ok (b_dir s a i).

  (** what trial [i] of algorithm [a] does, in a sequence of effects *)
  Definition of_trial (a i : nat) (l : list (beffect V St)) : list (effect world) :=
    flat_map (fun x => match x with InTrial b j y => if (b =? a) && (j =? i) then [y] else [] | _ => [] end) l.
  Definition trials_only (l : list (beffect V St)) : Prop := forall x, In x l -> exists a i y, x = InTrial a i y.
  (** [l]: the trials of the plan run to their ends, in any interleaving, from
      directory [s] *)
  Definition interleaving step keep (pl : plan V St) (s : bdir V St) (l : list (beffect V St)) : Prop :=
    trials_only l /\ forall a i, of_trial a i l = trial_effects step keep pl s a i.
  (** the directory after the first [k] effects of carrying the plan out *)
  Definition prepared (pl : plan V St) (s : bdir V St) : bdir V St := bapply_all (pl_prep pl) s.
  Definition carried_out step keep (pl : plan V St) (s : bdir V St) (k : nat) (s' : bdir V St) : Prop :=
    exists l, interleaving step keep pl (prepared pl s) l /\ s' = bapply_all (firstn k (pl_prep pl ++ l)) s.
  (** ... to the end *)
  Definition finished_plan step keep (pl : plan V St) (s : bdir V St) (s' : bdir V St) : Prop :=
    exists l, interleaving step keep pl (prepared pl s) l /\ s' = bapply_all (pl_prep pl ++ l) s.

  (** Iterations were added before (according to the metadata). *)
  Definition extended (s : bdir V St) : bool := match b_meta s with Some (Full m) => negb (m_inc_i m =? 0) | _ => false end.

  (** Directories that arise from [benchmark] on an empty directory and any number
      of [resume_benchmark], each killed at any moment (no JSON file being half
      written) or run to the end. [reqs]: the increases (iterations, trials) the
      resumes asked for. Once iterations were added, the resumes go on adding some
      (without, see C46_extension_lost_refuted). *)
  Inductive history step (algs : list (alg V St)) (p : problem V St) (n : nat) : list (nat * nat) -> bdir V St -> Prop :=
  | hist_start keep k s' : 1 <= keep -> carried_out step keep (fresh algs p n) empty_b k s' -> all_json_ok s' -> history step algs p n [] s'
  | hist_resume reqs s inc_i inc_t pl keep k s' :
      history step algs p n reqs s -> (extended s = true -> inc_i <> 0) -> 1 <= keep ->
      resume inc_i inc_t s = Some pl -> carried_out step keep pl s k s' -> all_json_ok s' ->
      history step algs p n ((inc_i, inc_t) :: reqs) s'.

  (** the uninterrupted run of trial [i] of algorithm [a] for [N] iterations *)
  Definition straight_run (p : problem V St) (A : alg V St) (N a i : nat) : run_res V St := run (p_topo p) (p_period p) (with_iters N A) 0 (p_start p a i).

  (** [x] is the network of [w], possibly with the auxiliary variables dropped *)
  Definition network_of (p : problem V St) (w : world) (x : net V) : Prop := x = snd w \/ aux_dropped (p_topo p) (snd w) x.

  (** [x] is the final network of trial [i] of algorithm [a] run for [N] iterations
      without interruption, but for the history entries forced at earlier targets
      (iteration numbers from the original target up to [N - 1]) *)
  Definition trial_result (p : problem V St) (A : alg V St) (N a i : nat) (x : net V) : Prop :=
    exists w former, Forall (fun k => al_iters A <= k < N) former /\ same_but former w (r_world (straight_run p A N a i)) /\ network_of p w x.

  (** what C46 asks of algorithms: [step] uses the network's interface and does not
      read histories *)
  Definition well_behaved (p : problem V St) (A : alg V St) : Prop := (exists e, client_code (p_topo p) e A) /\ hist_agnostic A.

  (** Direct use of a [CheckpointManager]: saving a checkpoint, marking a trial
      complete, removing the mark (which trial each call is about comes first). *)
  Inductive mop := MSave (keep k : nat) (d : world) | MMark (keep k : nat) (d : world) | MUnmark.
  Definition mop_effects (x : mop) (d : dir world) : option (list (effect world)) :=
    match x with
    | MSave keep k w => save keep k w d
    | MMark keep k w => mark_complete keep k w d
    | MUnmark => Some (if is_complete d then [UnlinkComp] else [])
    end.
  Fixpoint mrun (ops : list (nat * nat * mop)) (s : bdir V St) : option (bdir V St) :=
    match ops with
    | [] => Some s
    | (a, i, x) :: ops' => match mop_effects x (b_dir s a i) with Some l => mrun ops' (bapply_all (map (InTrial a i) l) s) | None => None end
    end.
  (** the trial has been marked complete and not unmarked since *)
  Definition marked (a i : nat) (ops : list (nat * nat * mop)) : Prop :=
    exists l keep k w r, ops = l ++ (a, i, MMark keep k w) :: r /\ ~ In (a, i, MUnmark) r.
End S.
