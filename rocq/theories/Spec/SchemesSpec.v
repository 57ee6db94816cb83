From Coq Require Import List Bool Arith ZArith QArith Permutation.
From Verif.Model Require Import Schemes.
Import ListNotations.
Open Scope nat_scope.

(** number of iterations in [k, k+len) at which a predicate holds *)
Fixpoint count_active (f : Z -> option bool) (k : Z) (len : nat) : nat :=
  match len with
  | 0 => 0
  | S m => (match f k with Some true => 1 | _ => 0 end) + count_active f (k + 1)%Z m
  end.

Fixpoint sum_to (d : nat -> nat) (j : nat) : nat := match j with 0 => d 0 | S i => sum_to d i + d (S i) end.

(** a draw of [random()] *)
Definition unit_draw (u : Q) : Prop := (0 <= u)%Q /\ (u < 1)%Q.

(** what the generator promises for a pool of [n] clients: an enumeration of
    positions without repetition, data-less clients never among the first [k],
    and a permutation of the ties *)
Definition good_draw (pool : list nat) (k : nat) (sch : scheme) (d : draw) : Prop :=
  Permutation (dr_order d) (seq 0 (length pool)) /\ Permutation (dr_ties d) (seq 0 (length pool)) /\
  (sch = DataSize -> k <= length (filter (fun c => match dr_size d c with Some (S _) => true | _ => false end) pool) ->
   forall i, In i (firstn k (dr_order d)) -> exists m, dr_size d (nth i pool 0) = Some (S m)).

(** the number of clients to select, as documented *)
Inductive wanted : size -> nat -> nat -> Prop :=
| w_count m n : wanted (Count m) n (Nat.min (Z.to_nat m) n)
| w_frac f n j : (inject_Z (Z.of_nat j) <= f * inject_Z (Z.of_nat n))%Q -> (f * inject_Z (Z.of_nat n) < inject_Z (Z.of_nat (S j)))%Q ->
    wanted (Fraction f) n (Nat.min (Nat.max 1 j) n).

Definition valid_size (sz : size) : Prop := match sz with Count m => (0 < m)%Z | Fraction f => (0 < f)%Q /\ (f <= 1)%Q end.

(** [a] comes before [b] in the list *)
Definition before (l : list nat) (a b : nat) : Prop := exists l1 l2 l3, l = l1 ++ a :: l2 ++ b :: l3.

Definition total_count (c : nat -> nat) (l : list nat) : nat := list_sum (map c l).
