(** Model of the label-quantity partitioner:
    /repo/decent_bench/datasets/partitioners/_label_quantity.py:18-215.

    Capacities are integers [Z]; the capacity dictionary is a total function
    (absent pairs read 0: every lookup in the code is on a pair stored by
    [_add_flow_edge]).  Adjacency lists and parent pointers are functions of
    the node ([-1] = [None]).  Python's [while] loops get fuel; that the fuel
    never runs out is proved (Proofs/LabelFlowProofs.v).  [imax] is
    [np.iinfo(np.int64).max]. *)
From Coq Require Import List Bool Arith ZArith.
From Verif.Model Require Import PyDict Schemes Partition.
Import ListNotations.
Open Scope nat_scope.

Definition caps := nat -> nat -> Z.
Definition adj := nat -> list nat.
Definition set1 {A} (f : nat -> A) (u : nat) (x : A) : nat -> A := fun v => if v =? u then x else f v.
Definition set2 (c : caps) (u v : nat) (x : Z) : caps := fun a b => if (a =? u) && (b =? v) then x else c a b.

(** [_add_flow_edge], _label_quantity.py:153-165 *)
Definition add_edge (g : adj * caps) (s t : nat) (capacity : Z) : adj * caps :=
  if (capacity =? 0)%Z then g
  else let '(a, c) := g in
       let a := set1 a s (a s ++ [t]) in
       let a := set1 a t (a t ++ [s]) in
       (a, set2 c s t (c s t + capacity)%Z).

(** [_find_augmenting_path], _label_quantity.py:196-215.  [scan] is the inner
    loop 208-214; its boolean says that the sink was reached. *)
Definition parents := nat -> option nat.
Fixpoint scan (c : caps) (sink node : nat) (nbs : list nat) (par : parents) (queue : list nat)
    : parents * list nat * bool :=
  match nbs with
  | [] => (par, queue, false)
  | v :: nbs =>
      if match par v with Some _ => true | None => false end || (c node v <=? 0)%Z
      then scan c sink node nbs par queue
      else let par := set1 par v (Some node) in
           if v =? sink then (par, queue, true)
           else scan c sink node nbs par (queue ++ [v])
  end.
Fixpoint bfs (fuel : nat) (a : adj) (c : caps) (sink : nat) (par : parents) (queue : list nat) : parents :=
  match fuel, queue with
  | S fuel, node :: queue =>
      let '(par, queue, found) := scan c sink node (a node) par queue in
      if found then par else bfs fuel a c sink par queue
  | _, _ => par
  end.
Definition find_path (n : nat) (a : adj) (c : caps) (source sink : nat) : parents :=
  bfs n a c sink (set1 (fun _ => None) source (Some source)) [source].

(** [_max_flow], _label_quantity.py:168-193.  [bottleneck] is the loop
    182-185, [push] the loop 188-192, both walking the parents from [node]. *)
Fixpoint bottleneck (fuel : nat) (c : caps) (par : parents) (source node : nat) (pf : Z) : Z :=
  if node =? source then pf
  else match fuel, par node with
       | S fuel, Some prev => bottleneck fuel c par source prev (Z.min pf (c prev node))
       | _, _ => pf
       end.
Fixpoint push (fuel : nat) (c : caps) (par : parents) (source node : nat) (pf : Z) : caps :=
  if node =? source then c
  else match fuel, par node with
       | S fuel, Some prev =>
           let c := set2 c prev node (c prev node - pf)%Z in
           let c := set2 c node prev (c node prev + pf)%Z in
           push fuel c par source prev pf
       | _, _ => c
       end.
Fixpoint max_flow (fuel n : nat) (imax : Z) (a : adj) (c : caps) (source sink : nat) (flow : Z) : option (Z * caps) :=
  match fuel with
  | 0 => None
  | S fuel =>
      let par := find_path n a c source sink in
      match par sink with
      | None => Some (flow, c)
      | Some _ =>
          let pf := bottleneck n c par source sink imax in
          max_flow fuel n imax a (push n c par source sink pf) source sink (flow + pf)%Z
      end
  end.

Section Labels.
  Context {L : Type}.
  Variable leqb : L -> L -> bool.
  Variable rle : L -> L -> bool.
  Variable perm : list nat -> nat -> list nat.
  Variable imax : Z.

  Definition memb (l : L) (ls : list L) : bool := existsb (leqb l) ls.
  Definition sizeof (d : list (L * list nat)) (l : L) : nat :=
    match dget leqb d l with Some is => length is | None => 0 end.

  (** the flow network of [_label_partition_allocations], lines 99-138 *)
  Definition flow_graph (sizes : list nat) (allowed : nat -> nat -> bool) (pcounts : list nat) : adj * caps :=
    let nl := length sizes in
    let np := length pcounts in
    let po := 1 + nl in
    let sink := po + np in
    let g0 : adj * caps := (fun _ => [], fun _ _ => 0%Z) in
    let g1 := fold_left (fun g i => add_edge g 0 (1 + i) (Z.of_nat (nth i sizes 0))) (seq 0 nl) g0 in
    let total := Z.of_nat (list_sum pcounts) in
    let g2 := fold_left (fun g i =>
                fold_left (fun g p => if allowed i p then add_edge g (1 + i) (po + p) total else g)
                          (seq 0 np) g) (seq 0 nl) g1 in
    fold_left (fun g p => add_edge g (po + p) sink (Z.of_nat (nth p pcounts 0))) (seq 0 np) g2.
  (** [_label_partition_allocations], lines 94-150, on label sizes and the
      relation "label i is allowed in partition p" *)
  Definition allocations (sizes : list nat) (allowed : nat -> nat -> bool) (pcounts : list nat)
      : option (list (list nat)) :=
    let nl := length sizes in
    let np := length pcounts in
    let po := 1 + nl in
    let sink := po + np in
    let total := list_sum pcounts in
    let '(a, c) := flow_graph sizes allowed pcounts in
    match max_flow (S total) (S sink) imax a c 0 sink 0%Z with
    | None => None
    | Some (flow, c) =>
        if negb (flow =? Z.of_nat total)%Z then None
        else Some (map (fun i => map (fun p => Z.to_nat (c (po + p) (1 + i))) (seq 0 np)) (seq 0 nl))
    end.

  (** [_fill_allowed_label_partitions], lines 66-91 *)
  Fixpoint fill (allocs : list (L * list nat)) (rem : list (L * list nat)) (parts : list (list nat)) : list (list nat) :=
    match allocs with
    | [] => parts
    | (l, counts) :: allocs =>
        let is := match dget leqb rem l with Some is => is | None => [] end in
        fill allocs rem (extend_all parts (split_by_counts is counts))
    end.
  Definition fill_allowed (d : list (L * list nat)) (groups : list (list L)) (pcounts : list nat)
      : option (list (list nat)) :=
    let rem0 := filter (fun it => existsb (memb (fst it)) groups) d in
    let rem := map (fun jit => (fst (snd jit), shuffled perm [1; fst jit] (snd (snd jit))))
                   (combine (seq 0 (length rem0)) rem0) in
    let labels := sorted rle (map fst rem) in
    let allowed i p := match nth_error labels i, nth_error groups p with
                       | Some l, Some g => memb l g | _, _ => false end in
    match allocations (map (sizeof rem) labels) allowed pcounts with
    | None => None
    | Some al => Some (shuffle_each perm [2] (fill (combine labels al) rem (repeat [] (length pcounts))))
    end.

  (** [split_label_quantity], lines 18-63.  A set of labels is the list of its
      elements (duplicates do not matter: only membership is used).
      [label_order[...]] is a list lookup that cannot fail. *)
  Definition label_groups (order : list L) (np cpp : nat) : list (list L) :=
    map (fun p => flat_map (fun o => match nth_error order ((p * cpp + o) mod length order) with
                                     | Some l => [l] | None => [] end) (seq 0 cpp)) (seq 0 np).
  Definition split_label_quantity (labels : list L) (n_partitions classes_per : Z) (s : samples)
      : option (list (list nat)) :=
    if (n_partitions <=? 0)%Z || (classes_per <=? 0)%Z then None
    else
      let np := Z.to_nat n_partitions in
      let cpp := Z.to_nat classes_per in
      let d := indices_by_label leqb labels in
      let sorted_labels := sorted rle (map fst d) in
      if length sorted_labels <? cpp then None
      else
        let order := shuffled perm [0] sorted_labels in
        let groups := label_groups order np cpp in
        let usable := list_sum (map (fun it => if existsb (memb (fst it)) groups then length (snd it) else 0) d) in
        let pcounts := match s with
                       | SNone => Some (even_counts usable np)
                       | _ => partition_counts usable n_partitions s
                       end in
        match pcounts with
        | None => None
        | Some pcounts => fill_allowed d groups pcounts
        end.
End Labels.
