(** Model of what the public operations do to the place where a checkpoint
    directory lives: the directory itself and the backup archives next to it.
    /repo/decent_bench/utils/checkpoint_manager.py:175-243, 751-762 and
    /repo/decent_bench/benchmark/_benchmark.py:53-190, 215-305.

    Simplifications: contents of the directory as in Model/Benchmark.v, plus the
    list of its other entries (algorithm directories, results, anything); an
    archive is absent, torn (killed while writing it) or holds a copy of the whole
    directory; its name is the formatted time, here a number; the manager's
    directory is not "." or "..", so the archives are outside of it; one process
    at a time writes there; the order in which [rmtree] removes entries, and how
    far it got, is arbitrary. *)
From Coq Require Import List Bool Arith ZArith.
From Verif.Model Require Import PyDict History Messages Network Runner Checkpoint Benchmark.
Import ListNotations.
Open Scope nat_scope.

Section Backup.
  Variables (V St : Type).
  Notation bdir := (bdir V St).
  Notation beffect := (beffect V St).
  Notation plan := (plan V St).
  Record content := mkContent { c_files : bdir; c_dirs : list nat }.
  (** the directory, if it exists, and the archives by time *)
  Record place := mkPlace { at_dir : option content; at_zips : list (nat * file content) }.

  Inductive op :=
  | Mkdir | MkAlg (a : nat) | InDir (x : beffect) | ZipOpen (t : nat) | ZipClose (t : nat)
  | Scrub (c : content) | Rmdir.
  Definition in_dir (f : content -> content) (s : place) : place := mkPlace (option_map f (at_dir s)) (at_zips s).
  (** [path.mkdir(parents=True)] makes the algorithm's directory too,
      checkpoint_manager.py:346-347 *)
  Definition touch (x : beffect) (l : list nat) : list nat :=
    match x with InTrial a _ _ => if existsb (Nat.eqb a) l then l else a :: l | _ => l end.
  Definition act (s : place) (o : op) : place :=
    match o with
    | Mkdir => mkPlace (Some (match at_dir s with Some c => c | None => mkContent empty_b [] end)) (at_zips s)
    | MkAlg a => in_dir (fun c => mkContent (c_files c) (if existsb (Nat.eqb a) (c_dirs c) then c_dirs c else a :: c_dirs c)) s
    | InDir x => in_dir (fun c => mkContent (bapply (c_files c) x) (touch x (c_dirs c))) s
    | ZipOpen t => mkPlace (at_dir s) (dset Nat.eqb (at_zips s) t Torn)
    | ZipClose t => match at_dir s with Some c => mkPlace (at_dir s) (dset Nat.eqb (at_zips s) t (Full c)) | None => s end
    | Scrub c => in_dir (fun _ => c) s
    | Rmdir => mkPlace None (at_zips s)
    end.
  Definition acts (l : list op) (s : place) : place := fold_left act l s.

  (** [is_empty] of an existing directory, checkpoint_manager.py:175-179 *)
  Definition is_none {A} (o : option A) : bool := match o with None => true | Some _ => false end.
  Definition is_empty (c : content) : bool :=
    is_none (b_meta (c_files c)) && is_none (b_algs (c_files c)) && is_none (b_prob (c_files c)) && match c_dirs c with [] => true | _ => false end.

  (** [create_backup], checkpoint_manager.py:226-243; [None]: it raises
      (FileExistsError, or there is no directory) *)
  Definition create_backup (t : nat) (s : place) : option (list op) :=
    if dmem Nat.eqb (at_zips s) t then None
    else match at_dir s with None => None | Some _ => Some [ZipOpen t; ZipClose t] end.
  (** [clear], checkpoint_manager.py:751-762; [how]: the states the directory goes
      through *)
  Definition clear (how : list content) (s : place) : list op :=
    match at_dir s with None => [] | Some _ => map Scrub how ++ [Rmdir] end.

  (** [benchmark] before its trials, _benchmark.py:270-284, and [initialize],
      checkpoint_manager.py:181-224. [dup]: two algorithms share their name.
      [None]: it raises without having changed anything *)
  Definition benchmark_call (dup : bool) (algs : list (alg V St)) (p : problem V St) (n : nat) (s : place) : option (list op * plan) :=
    if dup then None
    else if match at_dir s with Some c => is_empty c | None => true end
    then Some (Mkdir :: map InDir (initialize algs p n) ++ map MkAlg (seq 0 (length algs)), fresh algs p n)
    else None.
  (** [resume_benchmark] before its trials, _benchmark.py:121-186; [t]: the time
      create_backup reads, were it called *)
  Definition resume_call (backup : bool) (inc_i inc_t : Z) (t : nat) (s : place) : option (list op * plan) :=
    match at_dir s with
    | None => None
    | Some c =>
      if is_empty c then None
      else if (inc_i <? 0)%Z then None
      else if (inc_t <? 0)%Z then None
      else match resume (Z.to_nat inc_i) (Z.to_nat inc_t) (c_files c) with
      | None => None
      | Some pl =>
        match (if backup then create_backup t s else Some []) with
        | None => None
        | Some z => Some (z ++ map InDir (pl_prep pl), pl)
        end
      end
    end.

  (** unpacking an archive to where the directory was (by the user) *)
  Definition unpack (t : nat) (s : place) : option place :=
    match dget Nat.eqb (at_zips s) t with Some (Full c) => Some (mkPlace (Some c) (at_zips s)) | _ => None end.
End Backup.
Arguments mkContent {V St}. Arguments c_files {V St}. Arguments c_dirs {V St}. Arguments mkPlace {V St}. Arguments at_dir {V St}. Arguments at_zips {V St}.
Arguments Mkdir {V St}. Arguments MkAlg {V St}. Arguments InDir {V St}. Arguments ZipOpen {V St}. Arguments ZipClose {V St}. Arguments Scrub {V St}. Arguments Rmdir {V St}.
Arguments in_dir {V St}. Arguments touch {V St}. Arguments act {V St}. Arguments acts {V St}. Arguments is_empty {V St}. Arguments create_backup {V St}. Arguments clear {V St}.
Arguments benchmark_call {V St}. Arguments resume_call {V St}. Arguments unpack {V St}.
