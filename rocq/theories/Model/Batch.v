(** Model of mini-batch sampling:
    /repo/decent_bench/costs/_empirical_risk/_empirical_risk_cost.py:56-67
    ([batch_used]) and :218-287 ([_sample_batch_indices]).

    [perm t l] is the result of [rng.permutation(l)], [t] counting the calls;
    [permutation(n)] permutes [0..n-1].  Lists are values here: the code
    extends the list [remaining] in place (line 277), but the attribute that
    held it is reassigned on the next line. *)
From Coq Require Import List Bool Arith ZArith.
Import ListNotations.
Open Scope nat_scope.

(** [indices: int | list[int] | str] *)
Inductive indices := IxOne (i : Z) | IxMany (l : list Z) | IxAll | IxBatch | IxBadString.

(** attributes [_last_batch_used] ([None] = no attribute) and
    [_remaining_batch_indices] ([getattr(..., [])]), and the number of
    permutations drawn so far *)
Record sampler := { sp_last : option (list Z); sp_remaining : list nat; sp_draws : nat }.
Definition sp_new : sampler := {| sp_last := None; sp_remaining := []; sp_draws := 0 |}.

Inductive bres := BOk (l : list Z) | BValueError.

(** [batch_used], lines 56-67 *)
Definition batch_used (s : sampler) : bres := match sp_last s with None => BValueError | Some l => BOk l end.

Section Sampling.
  Variable perm : nat -> list nat -> list nat.
  Variables (n b : nat).   (* n_samples, batch_size *)

  Definition zs (l : list nat) : list Z := map Z.of_nat l.
  Definition nmem (i : nat) (l : list nat) : bool := existsb (Nat.eqb i) l.

  (** the branch [batch_size < n_samples], lines 260-280: the sample and the
      new state *)
  Definition draw_batch (s : sampler) : list nat * sampler :=
    let '(remaining, t) :=
      match sp_remaining s with
      | [] => (perm (sp_draws s) (seq 0 n), S (sp_draws s))
      | r => (r, sp_draws s)
      end in
    if b <=? length remaining
    then (firstn b remaining, {| sp_last := sp_last s; sp_remaining := skipn b remaining; sp_draws := t |})
    else
      let needed := b - length remaining in
      let next_epoch :=
        match remaining with
        | [] => perm t (seq 0 n)
        | _ => perm t (filter (fun i => negb (nmem i remaining)) (seq 0 n))
        end in
      (remaining ++ firstn needed next_epoch,
       {| sp_last := sp_last s; sp_remaining := skipn needed next_epoch; sp_draws := S t |}).

  Definition with_last (l : list Z) (s : sampler) : sampler :=
    {| sp_last := Some l; sp_remaining := sp_remaining s; sp_draws := sp_draws s |}.

  (** [_sample_batch_indices], lines 246-287 *)
  Definition sample_batch_indices (ix : indices) (s : sampler) : bres * sampler :=
    match ix with
    | IxOne i => (BOk [i], with_last [i] s)
    | IxMany l => (BOk l, with_last l s)
    | IxAll => (BOk (zs (seq 0 n)), with_last (zs (seq 0 n)) s)
    | IxBatch =>
        if b <? n
        then let '(sample, s) := draw_batch s in (BOk (zs sample), with_last (zs sample) s)
        else (BOk (zs (seq 0 n)), with_last (zs (seq 0 n)) s)
    | IxBadString => (BValueError, s)
    end.

  (** a history of calls: results in order, final state *)
  Fixpoint calls (ixs : list indices) (s : sampler) : list bres * sampler :=
    match ixs with
    | [] => ([], s)
    | ix :: ixs => let '(r, s) := sample_batch_indices ix s in
                   let '(rs, s) := calls ixs s in (r :: rs, s)
    end.
End Sampling.
