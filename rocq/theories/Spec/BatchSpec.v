(** What a user expects of mini-batches; independent of the sampling code. *)
From Coq Require Import List Bool Arith ZArith Permutation.
From Verif.Model Require Import Batch.
Import ListNotations.
Open Scope nat_scope.

(** numpy: [permutation(l)] returns the elements of [l] in some order *)
Definition permutes (perm : nat -> list nat -> list nat) : Prop := forall t l, Permutation (perm t l) l.

(** the answers to the calls with [indices="batch"], in order *)
Fixpoint batch_answers (ixs : list indices) (rs : list bres) : list (list Z) :=
  match ixs, rs with
  | IxBatch :: ixs, BOk l :: rs => l :: batch_answers ixs rs
  | _ :: ixs, _ :: rs => batch_answers ixs rs
  | _, _ => []
  end.

(** [l] consists of [m] different sample numbers of a dataset of [n] samples *)
Definition distinct_samples (n m : nat) (l : list Z) : Prop :=
  NoDup l /\ length l = m /\ forall z, In z l -> (0 <= z < Z.of_nat n)%Z.
(** calls number [from], ..., [from + count - 1] of a list of batches *)
Definition window {A} (from count : nat) (bs : list (list A)) : list A := concat (firstn count (skipn from bs)).
