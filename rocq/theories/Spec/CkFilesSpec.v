(** What the names of checkpoint files mean, and what it is for a directory of
    files to hold the abstract trial directory of Model/Checkpoint.v. *)
From Coq Require Import List Bool Arith Ascii String Permutation.
From Verif.Model Require Import PyDict Checkpoint CkFiles.
Import ListNotations.
Open Scope nat_scope.

(** [s] is a non-empty string of decimal digits *)
Definition digits (s : name) : Prop := s <> [] /\ forall c, In c s -> 48 <= nat_of_ascii c <= 57.
(** and denotes *)
Fixpoint value (s : name) : nat :=
  match s with [] => 0 | c :: r => (nat_of_ascii c - 48) * 10 ^ List.length r + value r end.
(** [s] names a checkpoint of iteration [k] *)
Definition names (s : name) (k : nat) : Prop :=
  exists ds ext, s = (str "checkpoint_" ++ ds ++ ext)%list /\ digits ds /\ value ds = k /\
    (ext = str ".pkl" \/ ext = str ".pkl.zst" \/ ext = (str ".pkl" ++ newline)%list \/ ext = (str ".pkl.zst" ++ newline)%list).
(** [s] is one of the two names the manager gives *)
Definition managed (s : name) : Prop := exists k, s = ck_name k \/ s = legacy_name k.
(** [s] matches checkpoint_*.pkl or checkpoint_*.pkl.zst *)
Definition looks_like (s : name) : Prop :=
  exists r, s = (str "checkpoint_" ++ r ++ str ".pkl")%list \/ s = (str "checkpoint_" ++ r ++ str ".pkl.zst")%list.
(** an order in which directories are listed *)
Definition listing (ord : list name -> list name) : Prop := forall l, Permutation (ord l) l.

Section Holds.
  Context {D : Type}.
  Definition as_comp (f : file nat) : file (data D) := match f with Torn => Torn | Full k => Full (Comp (ck_name k)) end.
  Definition as_prog (f : file nat) : file (data D) := match f with Torn => Torn | Full k => Full (Prog k) end.
  Definition as_ck (f : file D) : file (data D) := match f with Torn => Torn | Full d => Full (Ck d) end.
  (** The files [fs] are those of the trial directory [s], in the current format,
      and perhaps others that do not look like checkpoints. *)
  Definition holds (fs : fdir D) (s : dir D) : Prop :=
    NoDup (dkeys fs) /\ NoDup (dkeys (d_ck s)) /\
    (forall k, dget neqb fs (ck_name k) = option_map as_ck (dget Nat.eqb (d_ck s) k)) /\
    dget neqb fs progress_name = option_map as_prog (d_prog s) /\
    dget neqb fs complete_name = option_map as_comp (d_comp s) /\
    (forall n, In n (dkeys fs) -> looks_like n -> exists k, n = ck_name k).
  (** the effect on the files of an effect on the trial directory *)
  Definition on_files (x : effect D) : feffect D :=
    match x with
    | TruncCk k => FTrunc (ck_name k) | WriteCk k d => FWrite (ck_name k) (Ck d) | UnlinkCk k => FUnlink (ck_name k)
    | TruncProg => FTrunc progress_name | WriteProg k => FWrite progress_name (Prog k)
    | TruncComp => FTrunc complete_name | WriteComp k => FWrite complete_name (Comp (ck_name k)) | UnlinkComp => FUnlink complete_name
    end.
End Holds.

(** All checkpoints in the directory are files the manager wrote, in the current or
    the old format, of iterations up to [k]. *)
Definition own_files {D} (fs : fdir D) (k : nat) : Prop :=
  NoDup (dkeys fs) /\ forall n, In n (dkeys fs) -> looks_like n -> managed n /\ forall j, names n j -> j <= k.
(** the checkpoints in the directory, whoever wrote them *)
Definition checkpoint_in {D} (fs : fdir D) (n : name) : Prop := In n (dkeys fs) /\ looks_like n.

(** What is done to a trial directory: calls of the manager, each of which may be
    cut off after some of its effects. *)
Inductive op (D : Type) := OSave (keep k : nat) (d : D) | OMark (keep k : nat) (d : D) | OUnmark.
Arguments OSave {D}. Arguments OMark {D}. Arguments OUnmark {D}.
Definition do_files {D} (ord : list name -> list name) (fs : fdir D) (c : op D * nat) : fdir D :=
  let l := match fst c with
    | OSave keep k d => fst (fsave ord keep k d fs)
    | OMark keep k d => fst (fmark ord keep k d fs)
    | OUnmark => funmark fs
    end in fapply_all (firstn (snd c) l) fs.
Definition do_dir {D} (s : dir D) (c : op D * nat) : dir D :=
  let get o := match o with Some l => l | None => [] end in
  let l := match fst c with
    | OSave keep k d => get (save keep k d s)
    | OMark keep k d => get (mark_complete keep k d s)
    | OUnmark => if is_complete s then [UnlinkComp] else []
    end in apply_all (firstn (snd c) l) s.
