(** The file names of a trial's checkpoint directory, and save / load / clean up
    in terms of them: /repo/decent_bench/utils/checkpoint_manager.py. Refines
    Model/Checkpoint.v, in which a checkpoint file is its iteration.

    Simplifications: names are ASCII, so [\d] is 0-9; a directory is the list of
    its entries, in the order in which the operating system lists them ([ord]);
    iterations are natural numbers; the payload of a checkpoint is a parameter, and
    [_load_pickle] (856-866), which recognises the format by the first bytes of the
    file and not by its name, reads any completely written checkpoint. *)
From Coq Require Import List Bool Arith Ascii String.
From Verif.Model Require Import PyDict Checkpoint.
Import ListNotations.
Open Scope nat_scope.

Definition name := list ascii.
Definition str (s : string) : name := list_ascii_of_string s.
Definition neqb (a b : name) : bool := if list_eq_dec ascii_dec a b then true else false.

(** decimal notation of a natural number *)
Definition digit (d : nat) : ascii := ascii_of_nat (48 + d).
Fixpoint dec_aux (fuel n : nat) (acc : name) : name :=
  match fuel with
  | 0 => acc
  | S f => let acc' := digit (n mod 10) :: acc in if n / 10 =? 0 then acc' else dec_aux f (n / 10) acc'
  end.
Definition dec (n : nat) : name := dec_aux (S n) n [].
(** f"{n:07d}" *)
Definition pad7 (n : nat) : name := repeat (digit 0) (7 - List.length (dec n)) ++ dec n.
(** f"checkpoint_{iteration:07d}.pkl.zst", checkpoint_manager.py:350, 827 *)
Definition ck_name (k : nat) : name := str "checkpoint_" ++ pad7 k ++ str ".pkl.zst".
(** f"checkpoint_{iteration:07d}.pkl", checkpoint_manager.py:831 *)
Definition legacy_name (k : nat) : name := str "checkpoint_" ++ pad7 k ++ str ".pkl".
Definition progress_name : name := str "progress.json".
Definition complete_name : name := str "complete.json".

(** [re.match(r"^checkpoint_(\d+)\.pkl(?:\.zst)?$", name)], checkpoint_manager.py:26;
    [$] also matches before a final newline *)
Fixpoint strip (p s : name) : option name :=
  match p, s with
  | [], _ => Some s
  | a :: p', b :: s' => if ascii_dec a b then strip p' s' else None
  | _, [] => None
  end.
Definition is_digit (c : ascii) : bool := (48 <=? nat_of_ascii c) && (nat_of_ascii c <=? 57).
Fixpoint span_digits (s : name) : name * name :=
  match s with
  | c :: s' => if is_digit c then let '(a, b) := span_digits s' in (c :: a, b) else ([], s)
  | [] => ([], [])
  end.
Definition int_of (s : name) : nat := fold_left (fun v c => 10 * v + (nat_of_ascii c - 48)) s 0.
Definition newline : name := [ascii_of_nat 10].
Definition extensions : list name := [str ".pkl"; str ".pkl.zst"; str ".pkl" ++ newline; str ".pkl.zst" ++ newline].
(** [_checkpoint_iteration], checkpoint_manager.py:837-848; [None]: ValueError *)
Definition ck_iteration (s : name) : option nat :=
  match strip (str "checkpoint_") s with
  | None => None
  | Some r => let '(ds, rest) := span_digits r in
      match ds with [] => None | _ => if existsb (neqb rest) extensions then Some (int_of ds) else None end
  end.

(** [glob("checkpoint_*<suffix>")], checkpoint_manager.py:882-885 *)
Definition ends_with (suf s : name) : bool := match strip (rev suf) (rev s) with Some _ => true | None => false end.
Definition glob (suf : name) (s : name) : bool :=
  match strip (str "checkpoint_") s with Some r => ends_with suf r | None => false end.

Section Files.
  Variable D : Type.
  (** what a file holds: a checkpoint, progress.json, complete.json *)
  Inductive data := Ck (d : D) | Prog (k : nat) | Comp (n : name).
  Definition fdir := list (name * file data).
  (** the order in which the operating system lists the entries of a directory *)
  Variable ord : list name -> list name.

  Inductive feffect := FTrunc (n : name) | FWrite (n : name) (d : data) | FUnlink (n : name).
  Definition fapply (s : fdir) (x : feffect) : fdir :=
    match x with
    | FTrunc n => dset neqb s n Torn
    | FWrite n d => dset neqb s n (Full d)
    | FUnlink n => dpop neqb s n
    end.
  Definition fapply_all (l : list feffect) (s : fdir) : fdir := fold_left fapply l s.

  (** [.exists()] *)
  Definition there (s : fdir) (n : name) : bool := dmem neqb s n.

  (** stable sort, largest key first: [sort(key=.., reverse=True)] *)
  Fixpoint insert_key (x : nat * name) (l : list (nat * name)) : list (nat * name) :=
    match l with [] => [x] | y :: l' => if fst y <=? fst x then x :: l else y :: insert_key x l' end.
  Definition sort_keys (l : list (nat * name)) : list (nat * name) := fold_right insert_key [] l.
  (** the keys; [None]: one of the names is not a checkpoint name, ValueError *)
  Fixpoint with_keys (l : list name) : option (list (nat * name)) :=
    match l with
    | [] => Some []
    | n :: l' => match ck_iteration n, with_keys l' with Some k, Some r => Some ((k, n) :: r) | _, _ => None end
    end.
  (** the files found, checkpoint_manager.py:881-885 *)
  Definition found (s : fdir) : list name :=
    filter (glob (str ".pkl")) (ord (dkeys s)) ++ filter (glob (str ".pkl.zst")) (ord (dkeys s)).
  (** [_cleanup_old_checkpoints], checkpoint_manager.py:868-896; [None]: ValueError,
      nothing is removed *)
  Definition fcleanup (keep : nat) (s : fdir) : option (list feffect) :=
    match with_keys (found s) with
    | None => None
    | Some l => Some (map (fun x => FUnlink (snd x)) (skipn keep (sort_keys l)))
    end.

  (** [save_checkpoint], checkpoint_manager.py:321-380: its effects, and whether it
      returns rather than raises *)
  Definition fsave (keep k : nat) (d : D) (s : fdir) : list feffect * bool :=
    let go :=
      let l := [FTrunc (ck_name k); FWrite (ck_name k) (Ck d); FTrunc progress_name; FWrite progress_name (Prog k)] in
      match fcleanup keep (fapply_all l s) with
      | Some u => ((l ++ u)%list, true)
      | None => (l, false)
      end in
    if there s (ck_name k) then
      match dget neqb s progress_name with
      | None => go
      | Some (Full (Prog p)) => if p =? k then ([], true) else go
      | Some _ => ([], false)
      end
    else go.
  (** [mark_trial_complete], checkpoint_manager.py:419-467 *)
  Definition fmark (keep k : nat) (d : D) (s : fdir) : list feffect * bool :=
    match fsave keep k d s with
    | (l, true) => ((l ++ [FTrunc complete_name; FWrite complete_name (Comp (ck_name k))])%list, true)
    | (l, false) => (l, false)
    end.
  (** [unmark_trial_complete], checkpoint_manager.py:469-482 *)
  Definition funmark (s : fdir) : list feffect := if there s complete_name then [FUnlink complete_name] else [].
  (** [is_trial_complete], checkpoint_manager.py:484-497 *)
  Definition fcomplete (s : fdir) : bool := there s complete_name.

  (** [_resolve_checkpoint_path], checkpoint_manager.py:825-835 *)
  Definition resolve (s : fdir) (k : nat) : name :=
    if there s (ck_name k) then ck_name k else if there s (legacy_name k) then legacy_name k else ck_name k.
  (** [load_checkpoint], checkpoint_manager.py:382-417 *)
  Definition fload (s : fdir) : loaded D :=
    match dget neqb s progress_name with
    | None => LNone
    | Some (Full (Prog k)) => match dget neqb s (resolve s k) with Some (Full (Ck d)) => LSome k d | _ => LError end
    | Some _ => LError
    end.
  (** [load_trial_result], checkpoint_manager.py:554-584; [None]: it raises *)
  Definition fload_result (s : fdir) : option D :=
    match dget neqb s complete_name with
    | Some (Full (Comp n)) => match dget neqb s n with Some (Full (Ck d)) => Some d | _ => None end
    | _ => None
    end.
End Files.
Arguments Ck {D}. Arguments Prog {D}. Arguments Comp {D}. Arguments FTrunc {D}. Arguments FWrite {D}. Arguments FUnlink {D}.
Arguments fapply {D}. Arguments fapply_all {D}. Arguments there {D}. Arguments found {D}. Arguments fcleanup {D}. Arguments fsave {D}. Arguments fmark {D}.
Arguments funmark {D}. Arguments fcomplete {D}. Arguments resolve {D}. Arguments fload {D}. Arguments fload_result {D}.

(** [is_benchmark_started], checkpoint_manager.py:499-519, for a metadata file
    with the algorithm indices [algs] and [trials] trials; [dirs] are the trial
    directories. [glob("checkpoint_*.pkl*")]: somewhere after the prefix there is ".pkl". *)
Fixpoint contains (p s : name) : bool :=
  match strip p s with
  | Some _ => true
  | None => match s with [] => false | _ :: s' => contains p s' end
  end.
Definition glob_any (s : name) : bool :=
  match strip (str "checkpoint_") s with Some r => contains (str ".pkl") r | None => false end.
Definition started {D} (algs : list nat) (trials : nat) (dirs : nat -> nat -> fdir D) : bool :=
  existsb (fun a => existsb (fun tr => existsb glob_any (dkeys (dirs a tr))) (seq 0 trials)) algs.
