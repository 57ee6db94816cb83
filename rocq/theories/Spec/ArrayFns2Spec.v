(** What squeeze, diag, eye_like, stack and set_item are documented to return. *)
From Coq Require Import List Bool Arith ZArith Sorted.
From Verif.Model Require Import Interop ArrayFns.
From Verif.Spec Require Import ArrayFnsSpec.
Import ListNotations.

(** [r] is [x] without the axes for which [gone] holds: the others in their order,
    and each entry of [x] at its coordinates along them *)
Definition without_axes {V} (x r : arr V) (gone : nat -> Prop) : Prop :=
  exists ks, StronglySorted lt ks /\ (forall a, In a ks <-> a < length (shape x) /\ ~ gone a) /\
    shape r = map (fun a => nth a (shape x) 0) ks /\
    forall i, valid (shape x) i -> at_ r (map (fun a => nth a i 0) ks) = at_ x i.
(** the same entries when both are read in row-major order *)
Definition same_entries {V} (x r : arr V) : Prop :=
  size (shape r) = size (shape x) /\ forall i j, valid (shape x) i -> valid (shape r) j -> place (shape x) i = place (shape r) j -> at_ r j = at_ x i.
(** [r] is the matrix with [d] on its diagonal and [zero] elsewhere *)
Definition diagonal_matrix {V} (zero : V) (n m : nat) (d : nat -> V) (r : arr V) : Prop :=
  shape r = [n; m] /\ forall i j, i < n -> j < m -> at_ r [i; j] = if Nat.eqb i j then d i else zero.
(** [i] with coordinate [k] put in before position [a] *)
Definition with_coordinate (a k : nat) (i : list nat) : list nat := firstn a i ++ k :: skipn a i.
