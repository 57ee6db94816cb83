(** Real vectors and matrices as index functions: the arithmetic of
    [decent_bench.utils.array.Array] (array.py:41-171) on 1-D and 2-D arrays,
    over the real numbers instead of floats.  Only the entries below the
    dimension [n] mean anything; the elementwise operations act on all. *)
From Coq Require Import Reals List.
Import ListNotations.
Open Scope R_scope.

Definition vec := nat -> R.
Definition mat := nat -> nat -> R.
Definition vzero : vec := fun _ => 0.
Definition vadd (x y : vec) : vec := fun i => x i + y i.
Definition vsub (x y : vec) : vec := fun i => x i - y i.
Definition vscal (a : R) (x : vec) : vec := fun i => a * x i.
Definition mzero : mat := fun _ _ => 0.
Definition madd (A B : mat) : mat := fun i j => A i j + B i j.
Definition mscal (a : R) (A : mat) : mat := fun i j => a * A i j.
Definition mtr (A : mat) : mat := fun i j => A j i.
Definition meye : mat := fun i j => if Nat.eqb i j then 1 else 0.

(** sum of [f 0 .. f (n-1)] *)
Fixpoint sumn (n : nat) (f : nat -> R) : R :=
  match n with O => 0 | S k => sumn k f + f k end.
Definition dot (n : nat) (x y : vec) : R := sumn n (fun i => x i * y i).
Definition mulv (n : nat) (A : mat) (x : vec) : vec := fun i => sumn n (fun j => A i j * x j).
(** squared Euclidean norm *)
Definition nrm2 (n : nat) (x : vec) : R := dot n x x.

(** Python's [sum(list)] and [iop.sum(iop.stack(list), dim=0)] *)
Definition rsum (l : list R) : R := fold_left Rplus l 0.
Definition vsum (l : list vec) : vec := fold_left vadd l vzero.
Definition msum (l : list mat) : mat := fold_left madd l mzero.
