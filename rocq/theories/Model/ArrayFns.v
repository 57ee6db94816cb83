(** Array functions of /repo/decent_bench/utils/interoperability/_functions.py:
    [argmax] 406-445, [argmin] 448-488, [transpose] 696-727 and
    [norm] 871-912.  These are the ones in which the frameworks are not called alike.

    An array is a shape and an entry for every index.  Simplifications: what a
    framework's own function does is written out from its documentation, with
    ties going to the first position; entries are elements of an ordered type
    ([leb]), real numbers for [norm]; exceptions are not told apart. *)
From Coq Require Import List Bool Arith ZArith.
From Verif.Model Require Import Interop.
Import ListNotations.

Record arr (V : Type) := mkArr { shape : list nat; at_ : list nat -> V }.
Arguments mkArr {V}. Arguments shape {V}. Arguments at_ {V}.
(** [value.ndim] *)
Definition rank {V} (x : arr V) : nat := length (shape x).
Definition size (s : list nat) : nat := fold_right Nat.mul 1 s.

(** lists with a position put in, taken out *)
Fixpoint insert_at {A} (a : nat) (j : A) (l : list A) : list A :=
  match a, l with S a', x :: l' => x :: insert_at a' j l' | _, _ => j :: l end.
Fixpoint remove_at {A} (a : nat) (l : list A) : list A :=
  match a, l with S a', x :: l' => x :: remove_at a' l' | O, _ :: l' => l' | _, [] => [] end.
(** the index of the [k]-th entry in row-major order *)
Fixpoint unravel (s : list nat) (k : nat) : list nat :=
  match s with [] => [] | n :: s' => (k / size s') :: unravel s' (k mod size s') end.

(** how every framework reads an axis of an array of rank [r] *)
Definition axis (r : nat) (d : Z) : option nat :=
  if (0 <=? d)%Z && (d <? Z.of_nat r)%Z then Some (Z.to_nat d)
  else if (- Z.of_nat r <=? d)%Z && (d <? 0)%Z then Some (Z.to_nat (d + Z.of_nat r))
  else None.

Section Arg.
  Context {V : Type}.
  Variable leb : V -> V -> bool.
  (** the first of the positions [0 .. n-1] with the largest entry *)
  Fixpoint best (f : nat -> V) (n : nat) : nat :=
    match n with
    | O => O
    | S m => if Nat.eqb m 0 then 0 else let b := best f m in if leb (f m) (f b) then b else m
    end.

  (** [np.argmax], [torch.argmax], [jnp.argmax] with [axis] and [keepdims] *)
  Definition np_arg (x : arr V) (dim : option Z) (keep : bool) : out (arr nat) :=
    match dim with
    | None =>
        if Nat.eqb (size (shape x)) 0 then Raise EValue
        else let b := best (fun k => at_ x (unravel (shape x) k)) (size (shape x)) in
             Ret (mkArr (if keep then repeat 1 (rank x) else []) (fun _ => b))
    | Some d =>
        match axis (rank x) d with
        | None => Raise EValue
        | Some a =>
            let n := nth a (shape x) 0 in
            if Nat.eqb n 0 then Raise EValue
            else Ret (mkArr (if keep then insert_at a 1 (remove_at a (shape x)) else remove_at a (shape x))
                        (fun i => let p := if keep then remove_at a i else i in best (fun j => at_ x (insert_at a j p)) n))
        end
    end.

  (** [tf.math.argmax], without [keepdims] *)
  Definition tf_math_arg (x : arr V) (d : Z) : out (arr nat) :=
    match axis (rank x) d with
    | None => Raise EValue
    | Some a =>
        let n := nth a (shape x) 0 in
        if Nat.eqb n 0 then Raise EValue
        else Ret (mkArr (remove_at a (shape x)) (fun i => best (fun j => at_ x (insert_at a j i)) n))
    end.
  (** [tf.reshape(value, [-1])] *)
  Definition tf_flat (x : arr V) : arr V :=
    mkArr [size (shape x)] (fun i => at_ x (unravel (shape x) (hd 0 i))).
  (** [tf.reshape(amax, [1] * dims)] of a scalar *)
  Definition tf_ones (x : arr nat) (dims : nat) : arr nat := mkArr (repeat 1 dims) (fun _ => at_ x []).
  (** [tf.expand_dims(x, axis=d)]: a new axis among [rank x + 1] *)
  Definition tf_expand_dims (x : arr nat) (d : Z) : out (arr nat) :=
    match axis (S (rank x)) d with
    | None => Raise EValue
    | Some a => Ret (mkArr (insert_at a 1 (shape x)) (fun i => at_ x (remove_at a i)))
    end.

  (** [argmax] and, with the order reversed, [argmin] *)
  Definition arg_function (f : framework) (x : arr V) (dim : option Z) (keep : bool) : out (arr nat) :=
    match f with
    | NumPy | PyTorch | Jax => np_arg x dim keep
    | TensorFlow =>
        match dim with
        | None =>
            obind (tf_math_arg (tf_flat x) 0) (fun amax =>
              Ret (if negb keep then amax else tf_ones amax (rank x)))
        | Some d =>
            if negb keep then tf_math_arg x d
            else obind (tf_math_arg x d) (fun m => tf_expand_dims m d)
        end
    end.
End Arg.
Definition argmax {V} (leb : V -> V -> bool) := arg_function leb.
Definition argmin {V} (leb : V -> V -> bool) := arg_function (fun a b => leb b a).

(** the frameworks' [transpose]/[permute] with a list of axes: entry [i] of the
    result is the entry of the source whose [dims_k]-th coordinate is [i_k] *)
Fixpoint find_pos (a : nat) (l : list nat) : nat :=
  match l with [] => 0 | x :: l' => if Nat.eqb x a then 0 else S (find_pos a l') end.
Definition is_perm (r : nat) (l : list nat) : bool :=
  Nat.eqb (length l) r && forallb (fun a => existsb (Nat.eqb a) l) (seq 0 r).
Definition permute {V} (x : arr V) (dims : list nat) : out (arr V) :=
  if is_perm (rank x) dims
  then Ret (mkArr (map (fun a => nth a (shape x) 0) dims) (fun i => at_ x (map (fun a => nth (find_pos a dims) i 0) (seq 0 (rank x)))))
  else Raise EValue.
(** [transpose], 711-727: only PyTorch needs the axes, and there an empty tuple
    counts as none *)
Definition transpose {V} (f : framework) (x : arr V) (dim : option (list nat)) : out (arr V) :=
  let reversed := permute x (rev (seq 0 (rank x))) in
  match f, dim with
  | PyTorch, Some (a :: l) => permute x (a :: l)
  | PyTorch, _ => reversed
  | _, None => reversed
  | _, Some l => permute x l
  end.

(** [norm] with [p] = 2 and no [dim], 894-912: over which axes the frameworks take it.
    NumPy, PyTorch and JAX take the matrix norm of a matrix and refuse other ranks
    than 1 and 2; TensorFlow flattens, except that the code asks for the matrix
    norm of a matrix *)
Inductive norm_kind := Flattened | OfMatrix.
Definition norm_all {V} (f : framework) (x : arr V) : out norm_kind :=
  match f with
  | NumPy | PyTorch | Jax =>
      match rank x with 1 => Ret Flattened | 2 => Ret OfMatrix | _ => Raise EValue end
  | TensorFlow => if Nat.eqb (rank x) 2 then Ret OfMatrix else Ret Flattened
  end.
