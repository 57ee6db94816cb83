(** Model of the dataset handlers:
    /repo/decent_bench/datasets/_dataset_handler.py,
    _synthetic_regression_handler.py, _synthetic_classification_handler.py,
    _kaggle_handler.py and _pytorch_handler.py.

    The data source (scikit-learn, a data frame, a torch dataset) is a
    parameter; conversions to framework arrays are functions given as
    parameters.  [_resolve_partitions] is in Model/Partition.v. *)
From Coq Require Import List Bool Arith ZArith.
From Verif.Model Require Import Partition.
Import ListNotations.
Open Scope nat_scope.

(** the outcome of a call: a value or an exception *)
Inductive hout (A : Type) := HOk (a : A) | HTypeError | HIndexError | HValueError | HKeyError.
Arguments HOk {A}. Arguments HTypeError {A}. Arguments HIndexError {A}. Arguments HValueError {A}. Arguments HKeyError {A}.
Definition hbind {A B} (m : hout A) (f : A -> hout B) : hout B :=
  match m with HOk a => f a | HTypeError => HTypeError | HIndexError => HIndexError | HValueError => HValueError | HKeyError => HKeyError end.
(** a list comprehension: left to right, the first exception ends it *)
Fixpoint hmap {A B} (f : A -> hout B) (l : list A) : hout (list B) :=
  match l with [] => HOk [] | a :: l => hbind (f a) (fun b => hbind (hmap f l) (fun bs => HOk (b :: bs))) end.
Definition of_resolved (r : resolved) : hout (list (list Z)) :=
  match r with ROk l => HOk l | RTypeError => HTypeError | RIndexError _ => HIndexError | RValueError _ => HValueError end.
(** [l[j]] for a nonnegative [j] *)
Definition hget {A} (l : list A) (j : Z) : hout A := match nth_error l (Z.to_nat j) with Some a => HOk a | None => HIndexError end.

(** ** Synthetic data *)
Section Synthetic.
  (** one row of features, one target, the label made of it
      ([int] or the target itself), a datapoint *)
  Context {F T L P : Type}.
  (** [(iop.to_array(features[j], ...), iop.to_array(targets[j : j + 1], ...))]
      or its squeezed form, from the row and the slice:
      _synthetic_regression_handler.py:94-105,
      _synthetic_classification_handler.py:93-104 *)
  Variable mk : F -> list T -> P.
  Variable to_label : T -> L.
  (** [sk_datasets.make_regression] / [make_classification] followed by
      [astype], as a function of [n_samples] and of [random_state]: with an
      integer the result is determined by it, with [None] it is whatever numpy's
      global generator yields at that moment (numbered) *)
  Variables (seeded : Z -> nat -> list F * list T) (unseeded : nat -> nat -> list F * list T).

  (** the seed [iop.get_seed()] returns, and how many unseeded draws were made *)
  Record world := { w_seed : option Z; w_draws : nat }.
  (** a handler: [_n_samples] and the [cached_property] [_raw_data] *)
  Record synthetic := { sy_n : nat; sy_raw : option (list F * list T) }.
  Definition new_synthetic (n : nat) : synthetic := {| sy_n := n; sy_raw := None |}.
  (** [_raw_data], _synthetic_regression_handler.py:80-92,
      _synthetic_classification_handler.py:80-91 *)
  Definition raw_data (w : world) (h : synthetic) : (list F * list T) * world * synthetic :=
    match sy_raw h with
    | Some d => (d, w, h)
    | None =>
        let d := match w_seed w with Some s => seeded s (sy_n h) | None => unseeded (w_draws w) (sy_n h) end in
        let w := match w_seed w with Some _ => w | None => {| w_seed := None; w_draws := S (w_draws w) |} end in
        (d, w, {| sy_n := sy_n h; sy_raw := Some d |})
    end.
  (** [_create_partition], _synthetic_regression_handler.py:94-105 and
      _synthetic_classification_handler.py:93-104.  Indexing raises out of
      range, slicing does not. *)
  Definition create_partition (d : list F * list T) (idx : list Z) : hout (list P) :=
    hmap (fun j => hbind (hget (fst d) j) (fun x => HOk (mk x (firstn 1 (skipn (Z.to_nat j) (snd d)))))) idx.
  Definition zrange (n : nat) : list Z := map Z.of_nat (seq 0 n).
  (** [get_datapoints], lines 63-65 (both) *)
  Definition sy_datapoints (w : world) (h : synthetic) : hout (list P) * world * synthetic :=
    let '(d, w, h) := raw_data w h in (create_partition d (zrange (sy_n h)), w, h).
  (** [get_labels]: regression indexes the targets by [range(n_samples)], lines
      67-69; classification takes all of them, lines 67-69 *)
  Definition sy_labels_regression (w : world) (h : synthetic) : hout (list L) * world * synthetic :=
    let '(d, w, h) := raw_data w h in (hmap (fun j => hbind (hget (snd d) j) (fun t => HOk (to_label t))) (zrange (sy_n h)), w, h).
  Definition sy_labels_classification (w : world) (h : synthetic) : hout (list L) * world * synthetic :=
    let '(d, w, h) := raw_data w h in (HOk (map to_label (snd d)), w, h).
  (** [split], lines 71-78 (both); the data are generated before the partitions
      are checked.  [len(self)] is [n_samples], _dataset_handler.py:116-118. *)
  Definition sy_split (ps : list (list pyindex)) (w : world) (h : synthetic) : hout (list (list P)) * world * synthetic :=
    let '(d, w, h) := raw_data w h in
    (hbind (of_resolved (resolve_partitions (sy_n h) ps)) (fun zs => hmap (create_partition d) zs), w, h).

  (** a history of calls on one handler, interleaved with changes of the world
      (a new seed, draws made elsewhere) *)
  Inductive sy_op := OpPoints | OpLabels | OpSplit (ps : list (list pyindex)) | OpWorld (w : world).
  Inductive sy_obs := ObPoints (r : hout (list P)) | ObLabels (r : hout (list L)) | ObSplit (ps : list (list pyindex)) (r : hout (list (list P))) | ObWorld.
  Variable classification : bool.
  Definition sy_step (op : sy_op) (w : world) (h : synthetic) : sy_obs * world * synthetic :=
    match op with
    | OpPoints => let '(r, w, h) := sy_datapoints w h in (ObPoints r, w, h)
    | OpLabels => let '(r, w, h) := (if classification then sy_labels_classification w h else sy_labels_regression w h) in (ObLabels r, w, h)
    | OpSplit ps => let '(r, w, h) := sy_split ps w h in (ObSplit ps r, w, h)
    | OpWorld w => (ObWorld, w, h)
    end.
  Fixpoint sy_run (ops : list sy_op) (w : world) (h : synthetic) : list sy_obs * world * synthetic :=
    match ops with
    | [] => ([], w, h)
    | op :: ops => let '(o, w, h) := sy_step op w h in let '(os, w, h) := sy_run ops w h in (o :: os, w, h)
    end.
End Synthetic.
Arguments synthetic F T : clear implicits.

(** ** Kaggle *)
Section Kaggle.
  (** column names, cell values, the array made of some cells
      ([to_numpy().astype(dtype)] and [iop.to_array]) *)
  Context {C V A : Type} (ceqb : C -> C -> bool) (arr : list V -> A).
  (** a data frame: its columns in order, its rows as lists of cells *)
  Record frame := { fr_columns : list C; fr_rows : list (list V) }.
  (** [row[c]]: KeyError if there is no such column *)
  Fixpoint cell (cols : list C) (row : list V) (c : C) : hout V :=
    match cols, row with
    | c' :: cols, v :: row => if ceqb c c' then HOk v else cell cols row c
    | _, _ => HKeyError
    end.
  Record kaggle := { ka_df : frame; ka_features : list C; ka_targets : list C; ka_label : option C }.
  (** [__init__], _kaggle_handler.py:83-84 (after the frame was loaded) *)
  Definition ka_init (df : frame) (features targets : list C) (label : option C) : hout kaggle :=
    match label with
    | Some c => if existsb (ceqb c) (fr_columns df)
                then HOk {| ka_df := df; ka_features := features; ka_targets := targets; ka_label := label |}
                else HValueError
    | None => HOk {| ka_df := df; ka_features := features; ka_targets := targets; ka_label := None |}
    end.
  Definition ka_n_samples (h : kaggle) : nat := length (fr_rows (ka_df h)).   (* lines 86-88 *)
  (** [_create_partition], lines 118-132 *)
  Definition ka_point (h : kaggle) (row : list V) : hout (A * A) :=
    hbind (hmap (cell (fr_columns (ka_df h)) row) (ka_features h)) (fun xs =>
    hbind (hmap (cell (fr_columns (ka_df h)) row) (ka_targets h)) (fun ys => HOk (arr xs, arr ys))).
  Definition ka_partition (h : kaggle) (rows : list (list V)) : hout (list (A * A)) := hmap (ka_point h) rows.
  Definition ka_datapoints (h : kaggle) : hout (list (A * A)) := ka_partition h (fr_rows (ka_df h)).   (* lines 98-99 *)
  (** [get_labels], lines 101-108 *)
  Definition ka_labels (h : kaggle) : hout (list V) :=
    hbind (match ka_label h with
           | Some c => HOk c
           | None => match ka_targets h with [c] => HOk c | _ => HValueError end
           end)
          (fun c => if existsb (ceqb c) (fr_columns (ka_df h)) then hmap (fun row => cell (fr_columns (ka_df h)) row c) (fr_rows (ka_df h)) else HKeyError).
  (** [split], lines 110-116; [df.iloc[indices]] *)
  Definition ka_split (h : kaggle) (ps : list (list pyindex)) : hout (list (list (A * A))) :=
    hbind (of_resolved (resolve_partitions (ka_n_samples h) ps))
          (hmap (fun idx => hbind (hmap (hget (fr_rows (ka_df h))) idx) (ka_partition h))).
End Kaggle.
Arguments frame C V : clear implicits.
Arguments kaggle C V : clear implicits.

(** ** PyTorch *)
Section Torch.
  (** a datapoint and the label in it; the elements of the dataset may depend on
      the access (random transforms): [td_item t i] is what the [t]-th access to
      the dataset returns if it is for index [i] *)
  Context {P L : Type} (label_of : P -> L).
  Record torch := { td_len : nat; td_item : nat -> nat -> P; td_targets : option (list L); td_labels : option (list L) }.
  (** successive accesses starting with number [t] *)
  Fixpoint access (d : torch) (t : nat) (idx : list nat) : list P :=
    match idx with [] => [] | i :: idx => td_item d t i :: access d (S t) idx end.
  (** [get_datapoints], _pytorch_handler.py:63-69 *)
  Definition to_datapoints (d : torch) (t : nat) : list P := access d t (seq 0 (td_len d)).
  (** [get_labels], lines 71-82 (the attribute as a list, or each element's
      second component) *)
  Definition to_labels (d : torch) (t : nat) : list L :=
    match td_targets d with
    | Some l => l
    | None => match td_labels d with Some l => l | None => map label_of (to_datapoints d t) end
    end.
  (** [split], lines 84-91: subsets that keep only the indices; reading element
      [k] of one reads the dataset at the [k]-th index
      ([torch.utils.data.Subset.__getitem__]) *)
  Definition to_split (d : torch) (ps : list (list pyindex)) : hout (list (list nat)) :=
    hbind (of_resolved (resolve_partitions (td_len d) ps)) (fun zs => HOk (map (map Z.to_nat) zs)).
  Definition subset_get (d : torch) (t : nat) (indices : list nat) (k : nat) : hout P :=
    match nth_error indices k with Some i => HOk (td_item d t i) | None => HIndexError end.
End Torch.
Arguments torch P L : clear implicits.

(** [DatasetHandler.get_labels], _dataset_handler.py:65-72, for handlers that do
    not override it *)
Definition default_labels {X Y} (points : list (X * Y)) : list Y := map snd points.
