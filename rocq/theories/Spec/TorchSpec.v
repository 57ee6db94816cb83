(** What a user expects of a cost that wraps a PyTorch model. *)
From Coq Require Import Reals List ZArith Permutation.
From Verif.Model Require Import Batch Vec TorchCost.
From Verif.Spec Require Import EmpiricalSpec.
Import ListNotations.
Open Scope R_scope.

Definition range (n : nat) : list Z := map Z.of_nat (seq 0 n).
(** [l] are indices Python accepts for a list of length [n] *)
Definition indexable (n : nat) (l : list Z) : Prop := forall i, In i l -> (- Z.of_nat n <= i < Z.of_nat n)%Z.
(** different samples of a dataset of [n] samples *)
Definition samples_of_size (n b : nat) (l : list Z) : Prop := NoDup l /\ length l = b /\ forall i, In i l -> (0 <= i < Z.of_nat n)%Z.

Section Model.
  Context {S : Type}.
  (** the loss on a batch is the mean of the losses of its samples, and so is its
      gradient, element by element; [shape] says that a list of parameters has
      the sizes of the model's parameters *)
  Definition mean_loss (loss : bool -> list (list R) -> list S -> R) : Prop :=
    forall mode ps B, B <> [] -> loss mode ps B = rmean (map (fun s => loss mode ps [s]) B).
  Definition mean_grads (shape : list (list R) -> Prop) (grads : bool -> list (list R) -> list S -> list (list R)) : Prop :=
    forall mode ps B, shape ps -> B <> [] -> shape (grads mode ps B) /\
      forall j, nth j (concat (grads mode ps B)) 0 = rmean (map (fun s => nth j (concat (grads mode ps [s])) 0) B).
End Model.

(** the tensors [ps] are the consecutive pieces of the flat vector [x] *)
Definition unflattened (sizes : list nat) (x : list R) (ps : list (list R)) : Prop := concat ps = x /\ map (@length R) ps = sizes.
Definition right_size (sizes : list nat) (x : list R) : Prop := length x = fold_right Nat.add 0%nat sizes.

(** [used] are the sample numbers that the argument [indices] asks for.  A list
    with as many entries as the dataset has samples stands for the whole dataset
    when it is held in memory ([load]). *)
Definition selects_list (n : nat) (load : bool) (l used : list Z) : Prop := used = l \/ (length l = n /\ load = true /\ used = range n).
Definition selects (n b : nat) (loader load : bool) (ix : indices) (used : list Z) : Prop :=
  match ix with
  | IxOne i => selects_list n load [i] used
  | IxMany l => selects_list n load l used
  | IxAll => used = range n
  | IxBatch => (b = n /\ used = range n) \/
               (b < n /\ exists k, samples_of_size n k used /\ (0 < k <= b) /\ (loader = false -> k = b))%nat
  | IxBadString => False
  end.
(** arguments for which there is a sample to evaluate *)
Definition valid (n : nat) (ix : indices) : Prop :=
  match ix with IxOne i => indexable n [i] | IxMany l => l <> [] /\ indexable n l | IxAll | IxBatch => True | IxBadString => False end.

(** the samples used by the successful calls of a history that asked for
    ["batch"], in order *)
Section Batches.
  Context {In Out : Type}.
  Definition batch_of (op : @top In) (o : @tobs Out) : list (list Z) :=
    match op, o with
    | PFunction _ IxBatch, OFunction (TOk _) used => [used]
    | PGradient _ IxBatch, OGradient (TOk _) used => [used]
    | PSamples _ IxBatch, OSamples (TOk _) used => [used]
    | _, _ => []
    end.
  Definition batches (ops : list top) (os : list tobs) : list (list Z) := concat (map (fun p => batch_of (fst p) (snd p)) (combine ops os)).
End Batches.

(** *** Local training *)
Section Training.
  Context {S Opt : Type}.
  Variables (sizes : list nat) (grads : bool -> list (list R) -> list S -> list (list R)) (opt_step : Opt -> list (list R) -> list (list R) -> list (list R) * Opt).
  (** [c] is [a + w b], element by element *)
  Definition combines (w : R) (a b c : list R) : Prop := length c = length a /\ length b = length a /\ forall j, nth j c 0 = nth j a 0 + w * nth j b 0.
  (** one step on the batch [B]: an optimizer step along the gradient of the loss
      plus the penalty, followed by the correction [x <- x - v] *)
  Definition penalized (g extra g' : list (list R)) : Prop := map (@length R) g' = sizes /\ combines 1 (concat g) (concat extra) (concat g').
  Definition corrected (v : list R) (ps ps' : list (list R)) : Prop :=
    if (length v =? 1)%nat then ps' = ps else map (@length R) ps' = sizes /\ combines (-1) (concat ps) v (concat ps').
  Definition training_step (r : reg) (B : list S) (ps : list (list R)) (o : Opt) (ps' : list (list R)) (o' : Opt) : Prop :=
    let g := grads true ps B in
    match r with
    | RNone => opt_step o ps g = (ps', o')
    | RScalarFun dr => exists g', penalized g (dr (concat ps)) g' /\ opt_step o ps g' = (ps', o')
    | RTensor v => exists ps1, opt_step o ps g = (ps1, o') /\ corrected v ps1 ps'
    | RVectorFun f => exists ps1, opt_step o ps g = (ps1, o') /\ corrected (f (concat ps)) ps1 ps'
    | RNotATensor => False
    end.
  Inductive trained (r : reg) : list (list S) -> list (list R) -> Opt -> list (list R) -> Opt -> Prop :=
  | trained_nil ps o : trained r [] ps o ps o
  | trained_cons B Bs ps o ps1 o1 ps' o' : training_step r B ps o ps1 o1 -> trained r Bs ps1 o1 ps' o' -> trained r (B :: Bs) ps o ps' o'.
  (** regularizations that the documentation allows *)
  Definition allowed (r : reg) : Prop :=
    match r with
    | RNone => True
    | RTensor v => length v = 1%nat \/ right_size sizes v
    | RVectorFun f => forall p, length (f p) = 1%nat \/ right_size sizes (f p)
    | RScalarFun dr => forall p, map (@length R) (dr p) = sizes
    | RNotATensor => False
    end.
End Training.
