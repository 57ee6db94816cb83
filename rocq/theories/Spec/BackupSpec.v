(** Vocabulary for C106: lives of a checkpoint directory and its backups. *)
From Coq Require Import List Bool Arith ZArith.
From Verif.Model Require Import PyDict History Messages Network Runner Checkpoint Benchmark Backup.
From Verif.Spec Require Import BenchmarkSpec.
Import ListNotations.
Open Scope nat_scope.

Section S.
  Context {V St : Type}.
  Notation place := (place V St).
  Notation op := (op V St).

  (** everything a call that was not refused does to the place if it is left to
      finish: its preparation, then its trials in any interleaving *)
  Definition whole_run step keep (o : option (list op * plan V St)) (s : place) (l : list op) : Prop :=
    match o with
    | None => l = []
    | Some (pre, pl) => exists e c, at_dir (acts pre s) = Some c /\ interleaving step keep pl (c_files c) e /\ l = pre ++ map InDir e
    end.
  (** one use of the public interface *)
  Inductive call step keep (s : place) : list op -> Prop :=
  | call_benchmark dup algs p n l : whole_run step keep (benchmark_call dup algs p n s) s l -> call step keep s l
  | call_resume backup inc_i inc_t t l : whole_run step keep (resume_call backup inc_i inc_t t s) s l -> call step keep s l
  | call_backup t l : create_backup t s = Some l -> call step keep s l
  | call_clear how : call step keep s (clear how s)
  | call_other e : call step keep s (map InDir e)  (* save_checkpoint, mark_trial_complete, append_metadata, ... *).
  (** any number of calls, each killed at any moment or run to its end; meanwhile the user may
      replace the directory by an unpacked archive. [step], [keep] of each call's
      manager are free. *)
  Inductive life : place -> place -> Prop :=
  | life_nil s : life s s
  | life_call s step keep l k s' : call step keep s l -> life (acts (firstn k l) s) s' -> life s s'
  | life_unpack s t s1 s' : unpack t s = Some s1 -> life s1 s' -> life s s'.

  (** the archive of time [t] is complete and holds [c] *)
  Definition backed_up (s : place) (t : nat) (c : content V St) : Prop := dget Nat.eqb (at_zips s) t = Some (Full c).
End S.
