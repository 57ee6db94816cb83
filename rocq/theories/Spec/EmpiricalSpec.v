(** What an empirical risk should be: means of per-sample losses. *)
From Coq Require Import Reals List ZArith.
From Verif.Model Require Import Vec.
Import ListNotations.
Open Scope R_scope.

Definition rmean (l : list R) : R := rsum l / INR (length l).
Definition vmean (l : list vec) : vec := fun i => rmean (map (fun v => v i) l).
Definition mmean (l : list mat) : mat := fun i j => rmean (map (fun A => A i j) l).

(** [ps] are the samples that the Python indices [l] name *)
Definition names {S} (D : list S) (l : list Z) (ps : list S) : Prop :=
  Forall2 (fun i p => (- Z.of_nat (length D) <= i < Z.of_nat (length D))%Z /\
                      nth_error D (Z.to_nat (i mod Z.of_nat (length D))) = Some p) l ps.

(** least squares: loss, gradient and hessian of one sample *)
Definition sq_loss (d : nat) (x : vec) (p : vec * R) : R := 1/2 * (dot d (fst p) x - snd p) ^ 2.
Definition sq_grad (d : nat) (x : vec) (p : vec * R) : vec := fun i => (dot d (fst p) x - snd p) * fst p i.
Definition sq_hess (p : vec * R) : mat := fun i j => fst p i * fst p j.

(** logistic: [pos y] says that the label [y] is the class predicted by
    positive scores *)
Definition sigma (z : R) : R := / (1 + exp (- z)).
Definition log_loss (d : nat) (pos : R -> bool) (x : vec) (p : vec * R) : R :=
  if pos (snd p) then - ln (sigma (dot d (fst p) x)) else - ln (1 - sigma (dot d (fst p) x)).
Definition log_grad (d : nat) (pos : R -> bool) (x : vec) (p : vec * R) : vec :=
  fun i => (sigma (dot d (fst p) x) - (if pos (snd p) then 1 else 0)) * fst p i.
Definition log_hess (d : nat) (x : vec) (p : vec * R) : mat :=
  fun i j => sigma (dot d (fst p) x) * (1 - sigma (dot d (fst p) x)) * (fst p i * fst p j).
