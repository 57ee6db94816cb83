(** Model of more array functions of
    /repo/decent_bench/utils/interoperability/_functions.py: [sum] 266-298, [mean]
    301-333, [min] 336-368 and [max] 371-403 along one axis, [stack] 515-546,
    [eye_like] 635-661, [set_item] 790-822, [squeeze] 915-944 and [diag] 947-987.

    Simplifications: as in [ArrayFns]: what a framework's own function does is
    written out from its documentation, its exceptions are not told apart;
    [sum], [mean], [min] and [max] are one function here, with the operation on the
    entries along the axis as a parameter, and without the reduction of several
    axes; the arrays given to [stack] are of one framework; TensorFlow runs eagerly,
    so that the rank is known in [diag]; element types are left out. *)
From Coq Require Import List Bool Arith ZArith.
From Verif.Model Require Import Interop ArrayFns.
Import ListNotations.

(** ** squeeze *)
(** (for 931-944) [l] without the marked places; an index of the smaller array as one of the
    larger, 0 in the marked places *)
Fixpoint unmarked {A} (gone : list bool) (l : list A) : list A :=
  match gone, l with
  | g :: gone', x :: l' => if g then unmarked gone' l' else x :: unmarked gone' l'
  | _, _ => []
  end.
Fixpoint refill (gone : list bool) (i : list nat) : list nat :=
  match gone with
  | [] => []
  | true :: gone' => 0 :: refill gone' i
  | false :: gone' => hd 0 i :: refill gone' (tl i)
  end.
Definition take_out {V} (x : arr V) (gone : list bool) : arr V := mkArr (unmarked gone (shape x)) (fun i => at_ x (refill gone i)).
(** [dim], _functions.py:915: [None], a number, a tuple *)
Inductive dims := AllDims | OneDim (d : Z) | DimTuple (l : list Z).
Fixpoint axes_of (ax : Z -> option nat) (l : list Z) : option (list nat) :=
  match l with
  | [] => Some []
  | d :: l' => match ax d, axes_of ax l' with Some a, Some m => Some (a :: m) | _, _ => None end
  end.
Definition isin (a : nat) (l : list nat) : bool := existsb (Nat.eqb a) l.
Fixpoint nodupb (l : list nat) : bool := match l with [] => true | a :: m => negb (isin a m) && nodupb m end.
Definition ones (s : list nat) : list bool := map (Nat.eqb 1) s.
(** the places of [l] among all [r] *)
Definition marks (r : nat) (l : list nat) : list bool := map (fun a => isin a l) (seq 0 r).
Definition all_one (s : list nat) (l : list nat) : bool := forallb (fun a => Nat.eqb (nth a s 0) 1) l.
(** [squeeze], _functions.py:931-944. NumPy and JAX want different axes of size 1; TensorFlow axes of
    size 1, and takes an empty tuple for [None]; PyTorch wants different axes, leaves
    those of other sizes alone, and lets a number have one axis *)
Definition squeeze {V} (f : framework) (x : arr V) (dim : dims) : out (arr V) :=
  let s := shape x in
  let list_of := match dim with AllDims => None | OneDim d => Some [d] | DimTuple l => Some l end in
  match f, list_of with
  | TensorFlow, Some [] => Ret (take_out x (ones s))
  | _, None => Ret (take_out x (ones s))
  | PyTorch, Some l =>
      match axes_of (axis (Nat.max 1 (rank x))) l with
      | None => Raise EValue
      | Some m => if nodupb m then Ret (take_out x (map (fun a => isin a m && Nat.eqb (nth a s 0) 1) (seq 0 (rank x)))) else Raise EValue
      end
  | TensorFlow, Some l =>
      match axes_of (axis (rank x)) l with
      | None => Raise EValue
      | Some m => if all_one s m then Ret (take_out x (marks (rank x) m)) else Raise EValue
      end
  | _, Some l =>
      match axes_of (axis (rank x)) l with
      | None => Raise EValue
      | Some m => if nodupb m && all_one s m then Ret (take_out x (marks (rank x) m)) else Raise EValue
      end
  end.

(** ** diag, eye_like *)
(** [np.diag], [torch.diag], [jnp.diag]; the TensorFlow branches;
    _functions.py:963-985: [tf.linalg.diag],
    [tf.linalg.diag_part] *)
Definition diag_matrix {V} (zero : V) (x : arr V) (n : nat) : arr V :=
  mkArr [n; n] (fun i => if Nat.eqb (nth 0 i 0) (nth 1 i 0) then at_ x [nth 0 i 0] else zero).
Definition diag_part {V} (x : arr V) (n m : nat) : arr V := mkArr [Nat.min n m] (fun i => at_ x [nth 0 i 0; nth 0 i 0]).
Definition diag {V} (zero : V) (f : framework) (x : arr V) : out (arr V) :=
  match f with
  | TensorFlow =>
      if Nat.eqb (rank x) 1 then Ret (diag_matrix zero x (nth 0 (shape x) 0))
      else if Nat.eqb (rank x) 2 then Ret (diag_part x (nth 0 (shape x) 0) (nth 1 (shape x) 0))
      else Raise EValue
  | _ => match shape x with [n] => Ret (diag_matrix zero x n) | [n; m] => Ret (diag_part x n m) | _ => Raise EValue end
  end.
(** [value.shape[-2:]], _functions.py:652 *)
Definition last_two (s : list nat) : list nat := skipn (length s - 2) s.
(** [eye_like], _functions.py:649-661: the frameworks' [eye] with one or two sizes *)
Definition eye_like {V} (zero one : V) (f : framework) (x : arr V) : out (arr V) :=
  let delta := fun i => if Nat.eqb (nth 0 i 0) (nth 1 i 0) then one else zero in
  match last_two (shape x) with
  | [] => Raise EType
  | n :: [] => Ret (mkArr [n; n] delta)
  | n :: m :: _ => Ret (mkArr [n; m] delta)
  end.

(** ** stack, sum, mean, min, max *)
Definition shape_eqb (s t : list nat) : bool := if list_eq_dec Nat.eq_dec s t then true else false.
(** [stack], _functions.py:532-546 *)
Definition stack {V} (f : framework) (xs : list (arr V)) (dim : Z) : out (arr V) :=
  match xs with
  | [] => Raise EValue
  | x :: _ =>
      if forallb (fun y => shape_eqb (shape y) (shape x)) xs then
        match axis (S (rank x)) dim with
        | None => Raise EValue
        | Some a => Ret (mkArr (insert_at a (length xs) (shape x)) (fun i => at_ (nth (nth a i 0) xs x) (remove_at a i)))
        end
      else Raise EValue
  end.
(** [sum], [mean], [min], [max] along one axis, _functions.py:287-298,
    322-333, 357-368, 392-403.
    [red]: the operation; [empty_ok]: whether it accepts no entries (a sum does) *)
Definition reduce {V} (red : list V -> V) (empty_ok : bool) (f : framework) (x : arr V) (dim : Z) (keep : bool) : out (arr V) :=
  match axis (rank x) dim with
  | None => Raise EValue
  | Some a =>
      let n := nth a (shape x) 0 in
      if Nat.eqb n 0 && negb empty_ok then Raise EValue
      else Ret (mkArr (if keep then insert_at a 1 (remove_at a (shape x)) else remove_at a (shape x))
                  (fun i => red (map (fun j => at_ x (insert_at a j (if keep then remove_at a i else i))) (seq 0 n))))
  end.

(** ** set_item *)
Inductive written (A : Type) := Wrote (a : A) | OutOfRange | NotImplemented | WrongType.
Arguments Wrote {A}. Arguments OutOfRange {A}. Arguments NotImplemented {A}. Arguments WrongType {A}.
(** [array_value[key] = value_value] at one index counted from the front,
    _functions.py:807-822: in
    place where arrays can be changed; [ok]: the value is one of the framework's
    types or a number *)
Definition set_item {V} (f : framework) (ok : bool) (x : arr V) (key : list nat) (v : V) : written (arr V) :=
  let inside := Nat.eqb (length key) (rank x) && forallb (fun p => Nat.ltb (fst p) (snd p)) (combine key (shape x)) in
  let write := if inside then Wrote (mkArr (shape x) (fun i => if shape_eqb i key then v else at_ x i)) else OutOfRange in
  match f with
  | NumPy => write
  | PyTorch => if ok then write else WrongType
  | TensorFlow | Jax => if ok then NotImplemented else WrongType
  end.
