(** What a user expects of dataset partitions; independent of the code. *)
From Coq Require Import List Bool Arith ZArith Permutation.
From Verif.Model Require Import Partition.
Import ListNotations.
Open Scope nat_scope.

(** numpy: [permutation(n)] returns the numbers 0..n-1 in some order;
    [choice(l)] returns an element of [l]. *)
Definition perm_ok (perm : list nat -> nat -> list nat) : Prop :=
  forall path n, Permutation (perm path n) (seq 0 n).
Definition pick_ok (pick : list nat -> list nat -> nat) : Prop :=
  forall path l, l <> [] -> In (pick path l) l.

(** No sample twice (within or across partitions), none outside the dataset *)
Definition disjoint_in_range (n : nat) (ps : list (list nat)) : Prop :=
  NoDup (concat ps) /\ forall i, In i (concat ps) -> i < n.
(** every sample exactly once *)
Definition covers (n : nat) (ps : list (list nat)) : Prop := Permutation (concat ps) (seq 0 n).

(** [counts] as equal as possible, larger ones first *)
Definition even (n k : nat) (counts : list nat) : Prop :=
  length counts = k /\ list_sum counts = n /\
  forall i j, i < j < k -> nth j counts 0 <= nth i counts 0 <= nth j counts 0 + 1.

(** the sizes a user asks for with [n_partitions] and [samples_per_partition],
    when the request can be met by [n] samples *)
Definition requests (n : nat) (k : Z) (s : samples) (counts : list nat) : Prop :=
  (0 < k)%Z /\ length counts = Z.to_nat k /\ list_sum counts <= n /\
  match s with
  | SNone => even n (Z.to_nat k) counts
  | SInt z => Forall (fun c => Z.of_nat c = z) counts
  | SList l => map Z.of_nat counts = l
  end.

(** how many members of a partition carry label [l] *)
Definition label_count {L} (leqb : L -> L -> bool) (labels : list L) (l : L) (p : list nat) : nat :=
  length (filter (fun i => match nth_error labels i with Some b => leqb l b | None => false end) p).
Definition samples_of {L} (leqb : L -> L -> bool) (labels : list L) (l : L) : nat :=
  length (filter (leqb l) labels).

Definition is_eq {L} (leqb : L -> L -> bool) : Prop := forall a b, leqb a b = true <-> a = b.

(** [u] is the exact share [t * m / n] rounded up or down *)
Definition rounded_share (t m n u : nat) : Prop := n * u < t * m + n /\ t * m < n * u + n.

(** A distribution of label sizes over partitions of given sizes in which
    partition [p] only receives labels allowed for it *)
Definition feasible (sizes : list nat) (allowed : nat -> nat -> bool) (pcounts : list nat) (al : list (list nat)) : Prop :=
  length al = length sizes /\
  (forall i, i < length sizes -> length (nth i al []) = length pcounts) /\
  (forall i p, i < length sizes -> p < length pcounts -> allowed i p = false -> nth p (nth i al []) 0 = 0) /\
  (forall i, i < length sizes -> list_sum (nth i al []) <= nth i sizes 0) /\
  (forall p, p < length pcounts -> list_sum (map (fun row => nth p row 0) al) = nth p pcounts 0).

(** An integral flow in a network with capacities [c] *)
Definition nsum (n : nat) (f : nat -> Z) : Z := fold_right Z.add 0%Z (map f (seq 0 n)).
Definition flow_in (n : nat) (c : nat -> nat -> Z) (source sink : nat) (f : nat -> nat -> Z) : Prop :=
  (forall u v, f v u = - f u v)%Z /\ (forall u v, f u v <= c u v)%Z /\
  (forall u, u < n -> u <> source -> u <> sink -> nsum n (f u) = 0%Z).

(** Partitions of the given sizes in which partition [p] only holds samples
    whose label is permitted for [p] *)
Definition respects {L} (labels : list L) (permitted : nat -> L -> Prop) (counts : list nat) (ps : list (list nat)) : Prop :=
  map (@length nat) ps = counts /\ disjoint_in_range (length labels) ps /\
  forall p i l, In i (nth p ps []) -> nth_error labels i = Some l -> permitted p l.
(** the [j]-th label of partition [p] when the labels are dealt out cyclically,
    [cpp] to each partition *)
Definition dealt {L} (order : list L) (cpp p : nat) (l : L) : Prop :=
  exists o, o < cpp /\ nth_error order ((p * cpp + o) mod length order) = Some l.
(** number of samples whose label is permitted somewhere *)
Definition is_usable {L} (labels : list L) (permitted : nat -> L -> Prop) (np : nat) (m : nat) : Prop :=
  exists is, NoDup is /\ length is = m /\
    forall i, In i is <-> exists l p, p < np /\ nth_error labels i = Some l /\ permitted p l.
