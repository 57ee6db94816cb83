(** Model of the dataset partitioners:
    /repo/decent_bench/datasets/partitioners/*.py and
    /repo/decent_bench/datasets/_dataset_handler.py:93-114.

    Random draws are oracles indexed by the place of the draw in the execution
    (a path): [perm path n] is the result of [rng.permutation(n)] and
    [pick path l] the element of [l] returned by [rng.choice(l, p=...)]. What
    numpy promises about them is stated in Spec/PartitionSpec.v.  Probabilities
    and Dirichlet weights only influence which value is drawn, so they are not
    represented.  [_proportional_counts] divides in floating point; here the
    division is exact (floor and remainder of natural numbers).
    [None] = the call raises (ValueError unless said otherwise). *)
From Coq Require Import List Bool Arith ZArith.
From Verif.Model Require Import PyDict Schemes.
Import ListNotations.
Open Scope nat_scope.

(** [samples_per_partition: int | Sequence[int] | None] *)
Inductive samples := SNone | SInt (z : Z) | SList (l : list Z).

(** [_validate_samples_per_partition], _utils.py:24-39, and the choice of the
    counts in [_partition_counts], _utils.py:49-55 *)
Definition even_counts (n k : nat) : list nat :=   (* _utils.py:63-65 *)
  map (fun i => n / k + (if i <? n mod k then 1 else 0)) (seq 0 k).
Definition raw_counts (n k : nat) (s : samples) : option (list nat) :=
  match s with
  | SNone => Some (even_counts n k)
  | SInt z => if (z <? 0)%Z then None else Some (repeat (Z.to_nat z) k)
  | SList l => if negb (length l =? k) then None
               else if existsb (fun z => (z <? 0)%Z) l then None else Some (map Z.to_nat l)
  end.
(** [_partition_counts], _utils.py:42-60 *)
Definition partition_counts (n : nat) (n_partitions : Z) (s : samples) : option (list nat) :=
  if (n_partitions <=? 0)%Z then None
  else match raw_counts n (Z.to_nat n_partitions) s with
       | None => None
       | Some counts => if n <? list_sum counts then None else Some counts
       end.

(** list assignment [xs[i] = v] *)
Fixpoint upd {A} (xs : list A) (i : nat) (v : A) : list A :=
  match xs, i with
  | [], _ => []
  | _ :: t, 0 => v :: t
  | x :: t, S i => x :: upd t i v
  end.

(** [_proportional_counts], _utils.py:68-89.  [distribute] is the loop of
    lines 83-88. Python sorts with [reverse=True], which keeps the original
    order of equal keys. *)
Fixpoint distribute (counts order props : list nat) (remainder : nat) : list nat :=
  match order with
  | [] => props
  | i :: order =>
      if remainder =? 0 then props
      else if nth i props 0 <? nth i counts 0
           then distribute counts order (upd props i (S (nth i props 0))) (remainder - 1)
           else distribute counts order props remainder
  end.
Definition proportional_counts (counts : list nat) (total : nat) : list nat :=
  let available := list_sum counts in
  if available =? 0 then map (fun _ => 0) counts
  else
    let floors := map (fun c => total * c / available) counts in
    let frac i := (total * nth i counts 0) mod available in
    let order := sorted (fun i j => frac j <=? frac i) (seq 0 (length counts)) in
    distribute counts order floors (total - list_sum floors).

(** [_split_by_counts], _utils.py:92-99; [split_from start] is the loop *)
Fixpoint split_from {A} (xs : list A) (start : nat) (counts : list nat) : list (list A) :=
  match counts with
  | [] => []
  | c :: counts => firstn c (skipn start xs) :: split_from xs (start + c) counts
  end.
Definition split_by_counts {A} (xs : list A) (counts : list nat) : list (list A) := split_from xs 0 counts.

Section Oracles.
  Variable perm : list nat -> nat -> list nat.
  Variable pick : list nat -> list nat -> nat.

  (** [_shuffled_range], _utils.py:155-156 *)
  Definition shuffled_range (path : list nat) (n : nat) : list nat := perm path n.
  (** [_shuffled_sequence], _utils.py:159-161 *)
  Definition shuffled {A} (path : list nat) (xs : list A) : list A :=
    flat_map (fun i => match nth_error xs i with Some x => [x] | None => [] end) (perm path (length xs)).
  (** [[_shuffled_sequence(p) for p in partitions]] *)
  Definition shuffle_each {A} (path : list nat) (ps : list (list A)) : list (list A) :=
    map (fun jp => shuffled (path ++ [fst jp]) (snd jp)) (combine (seq 0 (length ps)) ps).

  (** [split_iid], _iid.py:8-26 *)
  Definition split_iid (n : nat) (n_partitions : Z) (s : samples) : option (list (list nat)) :=
    match partition_counts n n_partitions s with
    | None => None
    | Some counts => Some (split_by_counts (shuffled_range [] n) counts)
    end.
  (** [split_size], _size.py:8-21 *)
  Definition split_size (n : nat) (sizes : list Z) : option (list (list nat)) :=
    if length sizes =? 0 then None
    else match partition_counts n (Z.of_nat (length sizes)) (SList sizes) with
         | None => None
         | Some counts => Some (split_by_counts (shuffled_range [] n) counts)
         end.

  (** [_extend_weighted_by_capacity], _utils.py:102-124: state = (partitions,
      remaining_counts) *)
  Fixpoint extend_weighted (path : list nat) (j : nat) (indices : list nat)
      (st : list (list nat) * list nat) : list (list nat) * list nat :=
    match indices with
    | [] => st
    | x :: indices =>
        let '(parts, rem) := st in
        let available := filter (fun p => 0 <? nth p rem 0) (seq 0 (length rem)) in
        match available with
        | [] => st
        | _ => let p := pick (path ++ [j]) available in
               extend_weighted path (S j) indices (upd parts p (nth p parts [] ++ [x]), upd rem p (nth p rem 0 - 1))
        end
    end.

  Section Labels.
    (** Labels after [_normalize_label], with [==] on them and the order of
        their [repr] strings *)
    Context {L : Type}.
    Variable leqb : L -> L -> bool.
    Variable rle : L -> L -> bool.

    (** [_indices_by_label], _utils.py:148-152 *)
    Fixpoint add_index (d : list (L * list nat)) (l : L) (i : nat) : list (L * list nat) :=
      match d with
      | [] => [(l, [i])]
      | (l', is) :: d => if leqb l l' then (l', is ++ [i]) :: d else (l', is) :: add_index d l i
      end.
    Definition indices_by_label (labels : list L) : list (L * list nat) :=
      fold_left (fun d il => add_index d (snd il) (fst il)) (combine (seq 0 (length labels)) labels) [].

    (** [split_shard], _shard.py:8-39.  [np.array_split(a, k)] cuts [a] into
        [k] contiguous pieces of even sizes, larger ones first (numpy). *)
    Definition split_shard (labels : list L) (n_partitions shards_per : Z) : option (list (list nat)) :=
      if (n_partitions <=? 0)%Z || (shards_per <=? 0)%Z then None
      else
        let np := Z.to_nat n_partitions in
        let spp := Z.to_nat shards_per in
        let n := length labels in
        let total := np * spp in
        if n <? total then None
        else
          let label_le i j := match nth_error labels i, nth_error labels j with
                              | Some a, Some b => rle a b | _, _ => true end in
          let sorted_indices := sorted label_le (seq 0 n) in
          let shards := split_by_counts sorted_indices (even_counts n total) in
          let order := shuffled_range [0] total in
          Some (map (fun p => shuffled [1; p]
                                (flat_map (fun s => nth s shards []) (firstn spp (skipn (p * spp) order))))
                    (seq 0 np)).

    (** [partition.extend(indices)] for each pair of [zip(partitions, parts)] *)
    Fixpoint extend_all (ps qs : list (list nat)) : list (list nat) :=
      match ps, qs with p :: ps, q :: qs => (p ++ q) :: extend_all ps qs | _, _ => ps end.
    Fixpoint minus_all (xs ys : list nat) : list nat :=
      match xs, ys with x :: xs, y :: ys => (x - y) :: minus_all xs ys | _, _ => xs end.
    (** [split_stratified_iid], _stratified_iid.py:15-52; [stratify] is the
        loop of lines 42-47 *)
    Fixpoint stratify (j : nat) (items : list ((L * list nat) * nat)) (st : list (list nat) * list nat)
        : list (list nat) * list nat :=
      match items with
      | [] => st
      | ((_, is), label_count) :: items =>
          let '(parts, rem) := st in
          let selected := firstn label_count (shuffled [0; j] is) in
          let counts := proportional_counts rem label_count in
          stratify (S j) items (extend_all parts (split_by_counts selected counts), minus_all rem counts)
      end.
    Definition split_stratified_iid (labels : list L) (n_partitions : Z) (s : samples) : option (list (list nat)) :=
      match partition_counts (length labels) n_partitions s with
      | None => None
      | Some pcounts =>
          let items := sorted (fun a b : L * list nat => rle (fst a) (fst b)) (indices_by_label labels) in
          let lcounts := proportional_counts (map (fun it => length (snd it)) items) (list_sum pcounts) in
          let '(parts, rem) := stratify 0 (combine items lcounts) (repeat [] (Z.to_nat n_partitions), pcounts) in
          if existsb (fun r => 0 <? r) rem then None else Some (shuffle_each [1] parts)
      end.

    (** [_split_once], _dirichlet_label.py:59-82; [t] = number of the attempt *)
    Fixpoint dirichlet_assign (t j : nat) (items : list ((L * list nat) * nat)) (st : list (list nat) * list nat)
        : list (list nat) * list nat :=
      match items with
      | [] => st
      | ((_, is), label_count) :: items =>
          let selected := firstn label_count (shuffled [t; 1; j] is) in
          dirichlet_assign t (S j) items (extend_weighted [t; 2; j] 0 selected st)
      end.
    Definition dirichlet_once (t : nat) (labels : list L) (pcounts : list nat) : option (list (list nat)) :=
      let items := indices_by_label labels in
      let lcounts := proportional_counts (map (fun it => length (snd it)) items) (list_sum pcounts) in
      let assignments := shuffled [t; 0] (combine items lcounts) in
      let '(parts, rem) := dirichlet_assign t 0 assignments (repeat [] (length pcounts), pcounts) in
      if existsb (fun r => 0 <? r) rem then None else Some (shuffle_each [t; 3] parts).
    (** [split_dirichlet_label], _dirichlet_label.py:20-56. [alpha_ok] =
        [alpha > 0]; [dirichlet_retry] is the loop of lines 48-51. *)
    Fixpoint dirichlet_retry (fuel t : nat) (labels : list L) (pcounts : list nat) (min_size : Z)
        : option (list (list nat)) :=
      match fuel with
      | 0 => None
      | S fuel => match dirichlet_once t labels pcounts with
                  | None => None
                  | Some ps => if forallb (fun p => (min_size <=? Z.of_nat (length p))%Z) ps then Some ps
                               else dirichlet_retry fuel (S t) labels pcounts min_size
                  end
      end.
    Definition split_dirichlet_label (labels : list L) (n_partitions : Z) (alpha_ok : bool) (s : samples)
        (min_size max_retries : Z) : option (list (list nat)) :=
      if negb alpha_ok then None
      else if (min_size <? 0)%Z then None
      else if (max_retries <=? 0)%Z then None
      else match partition_counts (length labels) n_partitions s with
           | None => None
           | Some pcounts => dirichlet_retry (Z.to_nat max_retries) 0 labels pcounts min_size
           end.
  End Labels.
End Oracles.

(** [_resolve_partitions], _dataset_handler.py:93-114.  A Python object in an
    index position is a [bool], some integral number, or something else. *)
Inductive pyindex := IxBool (b : bool) | IxInt (z : Z) | IxOther.
Inductive resolved := ROk (l : list (list Z)) | RTypeError | RIndexError (z : Z) | RValueError (z : Z).
Inductive row_result := RowOk (row seen : list Z) | RowErr (e : resolved).
Fixpoint resolve_row (n : Z) (p : list pyindex) (acc seen : list Z) : row_result :=
  match p with
  | [] => RowOk acc seen
  | IxBool _ :: _ => RowErr RTypeError
  | IxOther :: _ => RowErr RTypeError
  | IxInt z :: p =>
      if (z <? 0)%Z || (n <=? z)%Z then RowErr (RIndexError z)
      else if existsb (Z.eqb z) seen then RowErr (RValueError z)
      else resolve_row n p (acc ++ [z]) (z :: seen)
  end.
Fixpoint resolve_rows (n : Z) (ps : list (list pyindex)) (acc : list (list Z)) (seen : list Z) : resolved :=
  match ps with
  | [] => ROk acc
  | p :: ps => match resolve_row n p [] seen with
               | RowErr e => e
               | RowOk row seen => resolve_rows n ps (acc ++ [row]) seen
               end
  end.
Definition resolve_partitions (n : nat) (ps : list (list pyindex)) : resolved := resolve_rows (Z.of_nat n) ps [] [].
