(** Model of a trial's checkpoint directory,
    /repo/decent_bench/utils/checkpoint_manager.py, and of one attempt at a
    trial, /repo/decent_bench/benchmark/_benchmark.py:541-621, as the sequence of
    its effects on the directory: a process killed at any moment leaves a prefix.

    Simplifications: a file is absent, torn (opened for writing, not yet closed)
    or complete; effects reach the disk in program order; a file name
    checkpoint_<iteration>.pkl.zst is its iteration; legacy .pkl files are not
    modelled; pickling is faithful; the payload (algorithm, network, RNG snapshot)
    is the world of Model/Runner.v, whose RNG part is restored exactly (Model/Rng.v);
    a proper prefix of a JSON object is not a JSON document, so a torn JSON file
    cannot be decoded. *)
From Coq Require Import List Bool Arith ZArith.
From Verif.Model Require Import PyDict History Messages Network Runner.
Import ListNotations.
Open Scope nat_scope.

(** contents of a file *)
Inductive file (A : Type) := Torn | Full (a : A).
Arguments Torn {A}. Arguments Full {A}.

Section Dir.
  Variable D : Type.
  (** a trial directory, checkpoint_manager.py:45-66: checkpoints by iteration,
      progress.json with [last_completed_iteration], complete.json with the
      iteration of the final checkpoint *)
  Record dir := mkDir { d_ck : list (nat * file D); d_prog : option (file nat); d_comp : option (file nat) }.
  Definition empty_dir : dir := mkDir [] None None.

  (** file system operations *)
  Inductive effect :=
  | TruncCk (k : nat) | WriteCk (k : nat) (d : D) | UnlinkCk (k : nat)
  | TruncProg | WriteProg (k : nat)
  | TruncComp | WriteComp (k : nat) | UnlinkComp.
  Definition apply (s : dir) (x : effect) : dir :=
    match x with
    | TruncCk k => mkDir (dset Nat.eqb (d_ck s) k Torn) (d_prog s) (d_comp s)
    | WriteCk k d => mkDir (dset Nat.eqb (d_ck s) k (Full d)) (d_prog s) (d_comp s)
    | UnlinkCk k => mkDir (dpop Nat.eqb (d_ck s) k) (d_prog s) (d_comp s)
    | TruncProg => mkDir (d_ck s) (Some Torn) (d_comp s)
    | WriteProg k => mkDir (d_ck s) (Some (Full k)) (d_comp s)
    | TruncComp => mkDir (d_ck s) (d_prog s) (Some Torn)
    | WriteComp k => mkDir (d_ck s) (d_prog s) (Some (Full k))
    | UnlinkComp => mkDir (d_ck s) (d_prog s) None
    end.
  Definition apply_all (l : list effect) (s : dir) : dir := fold_left apply l s.

  (** [checkpoint_files.sort(key=.., reverse=True)], checkpoint_manager.py:886-887 *)
  Fixpoint insert_desc (k : nat) (l : list nat) : list nat :=
    match l with [] => [k] | j :: l' => if j <? k then k :: l else j :: insert_desc k l' end.
  Definition sort_desc (l : list nat) : list nat := fold_right insert_desc [] l.
  (** [_cleanup_old_checkpoints], checkpoint_manager.py:868-896 *)
  Definition cleanup (keep : nat) (s : dir) : list effect :=
    map UnlinkCk (skipn keep (sort_desc (dkeys (d_ck s)))).

  (** [save_checkpoint], checkpoint_manager.py:321-380; [None]: it raises (torn
      progress.json) *)
  Definition already_saved (k : nat) (s : dir) : option bool :=
    if dmem Nat.eqb (d_ck s) k then
      match d_prog s with None => Some false | Some Torn => None | Some (Full p) => Some (p =? k) end
    else Some false.
  Definition save (keep k : nat) (d : D) (s : dir) : option (list effect) :=
    match already_saved k s with
    | None => None
    | Some true => Some []
    | Some false =>
        let l := [TruncCk k; WriteCk k d; TruncProg; WriteProg k] in
        Some (l ++ cleanup keep (apply_all l s))
    end.
  (** [mark_trial_complete], checkpoint_manager.py:419-467 *)
  Definition mark_complete (keep k : nat) (d : D) (s : dir) : option (list effect) :=
    match save keep k d s with None => None | Some l => Some (l ++ [TruncComp; WriteComp k]) end.
  (** [unmark_trial_complete], checkpoint_manager.py:469-482 *)
  Definition unmark (s : dir) : dir := match d_comp s with Some _ => apply s UnlinkComp | None => s end.
  (** [is_trial_complete], checkpoint_manager.py:484-497 *)
  Definition is_complete (s : dir) : bool := match d_comp s with Some _ => true | None => false end.
  (** [load_checkpoint], checkpoint_manager.py:382-417 *)
  Inductive loaded := LNone | LSome (k : nat) (d : D) | LError.
  Definition load (s : dir) : loaded :=
    match d_prog s with
    | None => LNone
    | Some Torn => LError
    | Some (Full k) => match dget Nat.eqb (d_ck s) k with Some (Full d) => LSome k d | _ => LError end
    end.
  (** [load_trial_result], checkpoint_manager.py:554-584; [None]: it raises *)
  Definition load_result (s : dir) : option D :=
    match d_comp s with
    | Some (Full k) => match dget Nat.eqb (d_ck s) k with Some (Full d) => Some d | _ => None end
    | _ => None
    end.
  (** [should_checkpoint], checkpoint_manager.py:296-319 *)
  Definition should (step : option nat) (k : nat) : bool :=
    match step with None => false | Some n => (k + 1) mod n =? 0 end.
End Dir.
Arguments mkDir {D}. Arguments d_ck {D}. Arguments d_prog {D}. Arguments d_comp {D}. Arguments empty_dir {D}.
Arguments TruncCk {D}. Arguments WriteCk {D}. Arguments UnlinkCk {D}. Arguments TruncProg {D}. Arguments WriteProg {D}.
Arguments TruncComp {D}. Arguments WriteComp {D}. Arguments UnlinkComp {D}. Arguments apply {D}. Arguments apply_all {D}.
Arguments cleanup {D}. Arguments already_saved {D}. Arguments save {D}. Arguments mark_complete {D}. Arguments unmark {D}. Arguments is_complete {D}.
Arguments LNone {D}. Arguments LSome {D}. Arguments LError {D}. Arguments load {D}. Arguments load_result {D}.

Section Trial.
  Variables (V S : Type) (t : topo) (period : agent_id -> nat).
  Notation world := (world V S).
  Variable A : alg V S.
  (** [deepcopy] of the algorithm and the problem's network, seeded for the trial,
      _benchmark.py:553-554, 573-579 *)
  Variable w0 : world.
  (** [checkpoint_step] and [keep_n_checkpoints] of the manager *)
  Variables (step : option nat) (keep : nat).

  (** the checkpoints asked for by [progress_callback], _benchmark.py:585-595 *)
  Definition wanted (l : list (call V S)) : list (nat * world) :=
    flat_map (fun c => match c with CCallback k w => if should step k then [(k, w)] else [] | _ => [] end) l.
  (** their effects; if one of them raises, which ends the run, the world at that
      moment *)
  Fixpoint save_all (l : list (nat * world)) (s : dir world) : list (effect world) * option world :=
    match l with
    | [] => ([], None)
    | (k, w) :: l' =>
        match save keep k w s with
        | None => ([], Some w)
        | Some x => let '(y, r) := save_all l' (apply_all x s) in (x ++ y, r)
        end
    end.
  (** [Algorithm._cleanup], _algorithm.py:62-76 *)
  Definition drop_aux (a : agent V) : agent V :=
    mkAgent (a_x a) (a_hist a) [] (a_msgs a) (a_nx a) (a_sent a) (a_recv a) (a_drop a) (a_nsel a).
  Definition clear_aux (st : net V) : net V := fold_left (fun st a => upd_agent a drop_aux st) (t_nodes t) st.

  (** What [_run_trial] returns and leaves behind, _benchmark.py:541-621 *)
  Inductive answer :=
  | Failed                                 (** the call itself raises *)
  | Returned (completed : bool) (w : world).  (** [(trial, network)]; errors inside the run are logged *)
  Record attempt_res := mkAtt { at_effects : list (effect world); at_answer : answer }.
  Definition attempt (s : dir world) : attempt_res :=
    let go start w :=
      let r := run t period A start w in
      let '(x, failed) := save_all (wanted (r_calls r)) s in
      match failed with
      | Some w' => mkAtt x (Returned false w')
      | None =>
        match r_out r with
        | Finished =>
            match mark_complete keep (al_iters A - 1) (r_world r) (apply_all x s) with
            | Some y => mkAtt (x ++ y) (Returned true (fst (r_world r), clear_aux (snd (r_world r))))
            | None => mkAtt x (Returned false (r_world r))
            end
        | _ => mkAtt x (Returned false (r_world r))
        end
      end in
    match load s with
    | LError => mkAtt [] Failed
    | LNone => go 0%Z w0
    | LSome k w => go (Z.of_nat (k + 1)) w
    end.
  (** What [_run_trials] does with a trial, _benchmark.py:455-471: loads its result
      if it is marked complete, else runs it. *)
  Definition visit (s : dir world) : attempt_res :=
    if is_complete s then mkAtt [] (match load_result s with Some w => Returned true w | None => Failed end)
    else attempt s.
End Trial.
(** [alg.iterations = n], _benchmark.py:175, 562 *)
Definition with_iters {V S} (n : nat) (A : alg V S) : alg V S := mkAlg n (al_init A) (al_step A).
Arguments wanted {V S}. Arguments save_all {V S}. Arguments drop_aux {V}. Arguments clear_aux {V}. Arguments Failed {V S}. Arguments Returned {V S}.
Arguments mkAtt {V S}. Arguments at_effects {V S}. Arguments at_answer {V S}. Arguments attempt {V S}. Arguments visit {V S}.
