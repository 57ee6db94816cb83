(** What the array functions are documented to return. *)
From Coq Require Import List Bool Arith ZArith Reals.
From Verif.Model Require Import Vec Interop ArrayFns.
Import ListNotations.
Open Scope nat_scope.

(** an index of an array of shape [s] *)
Definition valid (s i : list nat) : Prop := Forall2 lt i s.
(** its place in row-major order *)
Definition place (s i : list nat) : nat := fold_left (fun k p => k * snd p + fst p) (combine i s) 0.
(** equal as arrays: shape and entries *)
Definition same {V} (x y : arr V) : Prop := shape x = shape y /\ forall i, valid (shape x) i -> at_ x i = at_ y i.

Definition total_order {V} (leb : V -> V -> bool) : Prop :=
  (forall a b, leb a b = true \/ leb b a = true) /\ (forall a b c, leb a b = true -> leb b c = true -> leb a c = true).
(** [k] is the first position of the largest of [f 0 .. f (n-1)] *)
Definition first_largest {V} (leb : V -> V -> bool) (f : nat -> V) (n k : nat) : Prop :=
  k < n /\ (forall j, j < n -> leb (f j) (f k) = true) /\ forall j, j < k -> leb (f k) (f j) = false.
(** [k] is the row-major place of the largest entry of [x], the first one *)
Definition first_largest_entry {V} (leb : V -> V -> bool) (x : arr V) (k : nat) : Prop :=
  exists i, valid (shape x) i /\ place (shape x) i = k /\
    forall j, valid (shape x) j -> leb (at_ x j) (at_ x i) = true /\ (place (shape x) j < k -> leb (at_ x i) (at_ x j) = false).

(** [d] names axis [a] of an array of rank [r], counting from either end *)
Definition names_axis (r : nat) (d : Z) (a : nat) : Prop :=
  a < r /\ (d = Z.of_nat a \/ d = Z.of_nat a - Z.of_nat r)%Z.

(** [r] is [x] with its axes in the order [dims]: coordinate [dims_k] of the source is
    coordinate [k] of the result *)
Definition transposed {V} (x : arr V) (dims : list nat) (r : arr V) : Prop :=
  shape r = map (fun a => nth a (shape x) 0) dims /\
  forall i j, valid (shape r) i -> valid (shape x) j -> (forall k, k < length dims -> nth k i 0 = nth (nth k dims 0) j 0) -> at_ r i = at_ x j.
Definition every_axis_once (r : nat) (dims : list nat) : Prop := length dims = r /\ forall a, a < r -> In a dims.

(** Euclidean norm of all entries *)
Definition flat_norm (x : arr R) : R := sqrt (nrm2 (size (shape x)) (fun k => at_ x (unravel (shape x) k))).
(** spectral norm of a matrix: the least factor by which it stretches vectors *)
Definition stretches (n m : nat) (A : mat) (s : R) : Prop :=
  (0 <= s /\ forall v, sqrt (nrm2 n (mulv m A v)) <= s * sqrt (nrm2 m v))%R.
Definition spectral (n m : nat) (A : mat) (s : R) : Prop := stretches n m A s /\ forall t, stretches n m A t -> (s <= t)%R.
(** the value meant by a kind of norm *)
Definition has_norm (k : norm_kind) (x : arr R) (s : R) : Prop :=
  match k with
  | Flattened => s = flat_norm x
  | OfMatrix => exists n m, shape x = [n; m] /\ spectral n m (fun i j => at_ x [i; j]) s
  end.
(** [iop.norm(x)] is [s] *)
Definition norm_is (f : framework) (x : arr R) (s : R) : Prop := exists k, norm_all f x = Ret k /\ has_norm k x s.
