From Coq Require Import List Bool Arith ZArith QArith Reals Permutation.
From Verif.Model Require Import Compression.
Import ListNotations.
Open Scope R_scope.

(** contract of numpy's [argpartition(a, -k)]: a permutation of the positions
    whose last [k] entries are at least as large as all others *)
Definition is_argpartition (a : list R) (k : nat) (part : list nat) : Prop :=
  Permutation part (seq 0 (length a)) /\
  forall i j, In i (firstn (length a - k) part) -> In j (skipn (length a - k) part) -> nth i a 0 <= nth j a 0.

Definition same_sign (a b : R) : Prop := 0 <= a * b.
Definition multiple_of (step q : R) : Prop := exists z : Z, q = step * IZR z.
Definition valid_k (k : kparam) : Prop := match k with KInt k => (1 <= k)%Z | KFrac f => (0 < f)%Q /\ (f <= 1)%Q end.
(** squared distance to the zero message, and to another one *)
Definition sqsum (l : list R) : R := fold_right (fun v s => v * v + s) 0 l.
Definition sqdist (a b : list R) : R := sqsum (map (fun p => fst p - snd p) (combine a b)).
