(** What a user expects of a dataset handler; independent of the handlers'
    code. *)
From Coq Require Import List ZArith.
From Verif.Model Require Import Partition Handlers.
Import ListNotations.

(** [ps] are the datapoints of [D] at the positions [zs], in that order *)
Definition points_at {P} (D : list P) (zs : list Z) (ps : list P) : Prop :=
  Forall2 (fun z p => (0 <= z)%Z /\ nth_error D (Z.to_nat z) = Some p) zs ps.
(** the partitions that may be asked for: lists of distinct integers in range *)
Definition asks_for (n : nat) (ps : list (list pyindex)) (zss : list (list Z)) : Prop :=
  ps = map (map IxInt) zss /\ NoDup (concat zss) /\ forall z, In z (concat zss) -> (0 <= z < Z.of_nat n)%Z.
(** the right answer to [split(partitions)] of a handler holding the datapoints
    [D]: the named datapoints, partition by partition; an exception exactly if
    the partitions are not admissible *)
Definition split_right {P} (D : list P) (ps : list (list pyindex)) (r : hout (list (list P))) : Prop :=
  (forall zss, asks_for (length D) ps zss -> exists pss, r = HOk pss /\ Forall2 (points_at D) zss pss) /\
  (forall pss, r = HOk pss -> exists zss, asks_for (length D) ps zss).
(** an observation agrees with the datapoints [D] and the labels [ls] *)
Definition agrees {L P} (D : list P) (ls : list L) (o : sy_obs) : Prop :=
  match o with
  | ObPoints r => r = HOk D
  | ObLabels r => r = HOk ls
  | ObSplit ps r => split_right D ps r
  | ObWorld => True
  end.
(** a generator returns as many rows of features and targets as asked for *)
Definition gives {F T} (gen : nat -> list F * list T) : Prop := forall n, length (fst (gen n)) = n /\ length (snd (gen n)) = n.
