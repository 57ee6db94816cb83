(** Model of reading arrays: [Array.__getitem__] (/repo/decent_bench/utils/array.py:258-275),
    [__len__] (305-315), [__iter__] (317-327) and [get_item]
    (/repo/decent_bench/utils/interoperability/_functions.py:825-839).

    Simplifications: what a framework's own indexing does is written out from its
    documentation, as in [ArrayFns]; keys are an integer, or a slice [start:stop]
    without step on the first axis; [EOther] stands for IndexError and TensorFlow's
    InvalidArgumentError; [_return_array] gives the value back. *)
From Coq Require Import List Bool Arith ZArith.
From Verif.Model Require Import Interop ArrayFns.
Import ListNotations.

(** what an [Array] wraps: a Python number ([np.float64] is one), or an array of a
    framework *)
Inductive wrapped (V : Type) := Scalar (v : V) | Tensor (f : framework) (x : arr V).
Arguments Scalar {V}. Arguments Tensor {V}.
Inductive key := At (k : Z) | Slice (start stop : option Z).

(** [x[k]] for [k] in the first axis *)
Definition part {V} (x : arr V) (k : nat) : arr V := mkArr (tl (shape x)) (fun i => at_ x (k :: i)).
(** a bound of a slice of [n] entries: counted from the end if negative, cut to the axis *)
Definition bound (n : nat) (b : Z) : nat := Z.to_nat (Z.max 0 (Z.min (Z.of_nat n) (if (b <? 0)%Z then b + Z.of_nat n else b)%Z)).
Definition slice {V} (x : arr V) (n : nat) (start stop : option Z) : arr V :=
  let a := match start with None => 0 | Some s => bound n s end in
  let b := match stop with None => n | Some s => bound n s end in
  mkArr ((b - a) :: tl (shape x)) (fun i => at_ x ((a + hd 0 i) :: tl i)).
(** JAX moves an index outside the axis to its nearest entry, if there is one *)
Definition clamp (n : nat) (k : Z) : nat := Z.to_nat (Z.max 0 (Z.min (Z.of_nat n - 1) (if (k <? 0)%Z then k + Z.of_nat n else k)%Z)).
(** the value's own [value[key]], _functions.py:839 *)
Definition index {V} (f : framework) (x : arr V) (k : key) : out (arr V) :=
  match shape x with
  | [] => Raise EOther
  | n :: _ =>
    match k with
    | At k => match axis n k with
              | Some a => Ret (part x a)
              | None => match f, n with Jax, S _ => Ret (part x (clamp n k)) | _, _ => Raise EOther end
              end
    | Slice a b => Ret (slice x n a b)
    end
  end.
(** [__getitem__], array.py:272-275 *)
Definition getitem {V} (w : wrapped V) (k : key) : out (wrapped V) :=
  match w with
  | Scalar _ => Raise EType
  | Tensor f x => match index f x k with Ret y => Ret (Tensor f y) | Raise e => Raise e end
  end.
(** [__len__], array.py:313-315; the frameworks' TypeError without axes *)
Definition len {V} (w : wrapped V) : out nat :=
  match w with Scalar _ => Raise EType | Tensor _ x => match shape x with [] => Raise EType | n :: _ => Ret n end end.
(** [__iter__], array.py:325-327: the framework's arrays, not wrapped *)
Definition iter {V} (w : wrapped V) : out (list (arr V)) :=
  match w with Scalar _ => Raise EType | Tensor _ x => match shape x with [] => Raise EType | n :: _ => Ret (map (part x) (seq 0 n)) end end.
