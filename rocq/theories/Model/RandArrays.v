(** Model of the random array functions of
    /repo/decent_bench/utils/interoperability/_rng.py: [normal] 259-299, [uniform]
    302-344, [uniform_like] 347-378, [normal_like] 381-413 and [choice] 416-453.

    Simplifications: an array is its rows (entries along the first axis), or a
    number for an array without axes; what the libraries' own generators return is
    a parameter, and the properties assume of it what the libraries document; the
    exceptions of the libraries are not told apart; sizes below PyTorch's limit of
    2^24 categories; arithmetic in reals; a TensorFlow array to choose from has at
    least one row when drawing with replacement. *)
From Coq Require Import List Bool Arith ZArith Reals.
From Verif.Model Require Import Interop Rng.
Import ListNotations.

(** ** choice *)
Section Choice.
  Variables (G A V : Type).
  (** [rng_numpy().choice] on positions, [torch.Tensor.multinomial] of ones,
      TensorFlow's [uniform] for integers and for scores, [jax.random.choice] on
      positions: number of rows, number of draws, with replacement or not *)
  Variables (np_draw torch_draw jax_draw : nat -> nat -> bool -> G -> list nat * G) (tf_ints : nat -> nat -> G -> list nat * G) (tf_scores : nat -> G -> list V * G).
  Variable leb : V -> V -> bool.
  (** an array without axes holds a number, here with its value if it is an integer *)
  Inductive value := Number (z : option Z) | RowsOf (l : list A).
  Inductive picked := Numbers (l : list Z) | Picked (l : list A).

  (** [tf.math.top_k(scores, k).indices]: largest first, of equal ones the lower
      position first *)
  Fixpoint insert_score (s : nat -> V) (i : nat) (l : list nat) : list nat :=
    match l with [] => [i] | j :: l' => if leb (s j) (s i) then i :: l else j :: insert_score s i l' end.
  Definition by_score (s : nat -> V) (n : nat) : list nat := fold_right (insert_score s) [] (seq 0 n).
  Definition top_k (d : V) (scores : list V) (k : nat) : list nat := firstn k (by_score (fun i => nth i scores d) (length scores)).

  (** [value[indices]], [tf.gather] *)
  Definition rows_at (l : list A) (idx : list nat) : list A := flat_map (fun i => match nth_error l i with Some a => [a] | None => [] end) idx.
  (** NumPy's [Generator.choice(a, size, replace)] on [n] positions *)
  Definition np_choice (n size : Z) (replace : bool) (g : G) : out (list nat * G) :=
    if (size <? 0)%Z then Raise EValue
    else if (n <=? 0)%Z && negb (size =? 0)%Z then Raise EValue
    else if negb replace && (n <? size)%Z then Raise EValue
    else Ret (np_draw (Z.to_nat n) (Z.to_nat size) replace g).
  Definition rows_of (v : value) : out (list A) := match v with Number _ => Raise EOther | RowsOf l => Ret l end.
  (** [choice], _rng.py:432-453. [d]: filler of the score list (never used). *)
  Definition choice (d : V) (fw : framework) (v : value) (size : Z) (replace : bool) (g : G) : out (picked * G) :=
    match fw with
    | NumPy =>
        match v with
        | Number None => Raise EValue
        | Number (Some z) => obind (np_choice z size replace g) (fun p => Ret (Numbers (map Z.of_nat (fst p)), snd p))
        | RowsOf l => obind (np_choice (Z.of_nat (length l)) size replace g) (fun p => Ret (Picked (rows_at l (fst p)), snd p))
        end
    | PyTorch =>
        obind (rows_of v) (fun l =>
        if (size <=? 0)%Z || (length l =? 0) || negb replace && (Z.of_nat (length l) <? size)%Z then Raise EOther
        else let p := torch_draw (length l) (Z.to_nat size) replace g in Ret (Picked (rows_at l (fst p)), snd p))
    | TensorFlow =>
        obind (rows_of v) (fun l =>
        if (size <? 0)%Z then Raise EOther
        else if replace then let p := tf_ints (length l) (Z.to_nat size) g in Ret (Picked (rows_at l (fst p)), snd p)
        else let p := tf_scores (length l) g in
             if (Z.of_nat (length l) <? size)%Z then Raise EOther
             else Ret (Picked (rows_at l (top_k d (fst p) (Z.to_nat size))), snd p))
    | JAX =>
        obind (rows_of v) (fun l =>
        if (size <? 0)%Z then Raise EOther
        else if (length l =? 0) && negb (size =? 0)%Z || negb replace && (Z.of_nat (length l) <? size)%Z then Raise EValue
        else let p := jax_draw (length l) (Z.to_nat size) replace g in Ret (Picked (rows_at l (fst p)), snd p))
    end.
End Choice.
Arguments Number {A}. Arguments RowsOf {A}. Arguments Numbers {A}. Arguments Picked {A}.
Arguments insert_score {V}. Arguments by_score {V}. Arguments top_k {V}. Arguments rows_at {A}. Arguments np_choice {G}. Arguments rows_of {A}. Arguments choice {G A V}.

(** ** uniform, normal *)
Inductive dtype := F32 | F64 | I64.
Section Like.
  Local Open Scope R_scope.
  (** one entry of each framework's standard generators: [low, high) from its
      uniform, mean and deviation from its normal; torch.rand and
      jax.random.normal take no parameters *)
  Variables (np_uniform tf_uniform jax_uniform : R -> R -> R) (torch_rand : R) (np_normal torch_normal tf_normal : R -> R -> R) (jax_normal : R).
  (** an entry of [uniform] and [uniform_like], _rng.py:330-344, 367-378 *)
  Definition uniform_entry (fw : framework) (low high : R) : R :=
    match fw with
    | NumPy => np_uniform low high
    | PyTorch => (high - low) * torch_rand + low
    | TensorFlow => tf_uniform low high
    | JAX => jax_uniform low high
    end.
  (** an entry of [normal] and [normal_like], _rng.py:287-299, 401-413 *)
  Definition normal_entry (fw : framework) (mean std : R) : R :=
    match fw with
    | NumPy => np_normal mean std
    | PyTorch => torch_normal mean std
    | TensorFlow => tf_normal mean std
    | JAX => mean + std * jax_normal
    end.
End Like.
(** the element type of the result, [None]: the library refuses; _rng.py:365-378,
    399-413. NumPy's generator returns float64, TensorFlow's uniform float32
    unless told otherwise; the others draw floats only. *)
Definition uniform_like_dtype (fw : framework) (t : dtype) : option dtype :=
  match fw with
  | NumPy => Some F64
  | TensorFlow => Some F32
  | PyTorch | JAX => match t with I64 => None | _ => Some t end
  end.
Definition normal_like_dtype (fw : framework) (t : dtype) : option dtype :=
  match fw with
  | NumPy => Some F64
  | PyTorch | TensorFlow | JAX => match t with I64 => None | _ => Some t end
  end.
