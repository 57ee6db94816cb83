(** Statistics, as mathematics. *)
From Coq Require Import Reals List Arith Permutation Sorted.
From Verif.Model Require Import Vec Metrics.
Local Open Scope R_scope.

Definition mean (l : list R) : R := rsum l / INR (length l).
(** population variance for [d = 0], sample variance for [d = 1] *)
Definition variance (d : nat) (l : list R) : R := rsum (map (fun x => (x - mean l) ^ 2) l) / INR (length l - d).
Definition is_min (l : list R) (m : R) : Prop := In m l /\ forall x, In x l -> m <= x.
Definition is_max (l : list R) (m : R) : Prop := In m l /\ forall x, In x l -> x <= m.
(** middle of the values in order, or the mean of the two middle ones *)
Definition is_median (l : list R) (m : R) : Prop := exists s, Permutation l s /\ Sorted Rle s /\
  (forall k, length l = (2 * k + 1)%nat -> m = nth k s 0) /\
  (forall k, length l = (2 * k + 2)%nat -> m = (nth k s 0 + nth (k + 1) s 0) / 2).

(** ** Statistics by name *)
From Coq Require Import String.
Definition is_statistic (ddof : nat) (name : string) (l : list R) (r : R) : Prop :=
  (name = "mean" /\ r = mean l \/ name = "std" /\ r = sqrt (variance ddof l) \/ name = "max" /\ is_max l r \/
   name = "min" /\ is_min l r \/ name = "median" /\ is_median l r)%string.
Definition valid_statistic (name : string) : Prop :=
  (name = "mean" \/ name = "std" \/ name = "max" \/ name = "min" \/ name = "median")%string.
(** the documented other names *)
Inductive stands_for : string -> string -> Prop :=
| sf_same name : valid_statistic name -> stands_for name name
| sf_average : stands_for "average" "mean" | sf_avg : stands_for "avg" "mean"
| sf_maximum : stands_for "maximum" "max" | sf_minimum : stands_for "minimum" "min" | sf_mdn : stands_for "mdn" "median".
(** the statistics a table shows for the names a user passes *)
Definition shown (names : option (list string)) (name : string) : Prop :=
  match names with
  | None => (name = "mean" \/ name = "std")%string
  | Some l => (exists s, In s l /\ stands_for s name) \/
              ((forall s n, In s l -> ~ stands_for s n) /\ (name = "mean" \/ name = "std")%string)
  end.
