(** What the centralised solvers should guarantee. *)
From Coq Require Import Reals List ZArith.
From Verif.Model Require Import Vec Solvers.
Import ListNotations.
Open Scope R_scope.

(** [x] minimises [F] *)
Definition is_min (F : vec -> R) (x : vec) : Prop := forall z, F x <= F z.
(** the gradient [g] vanishes *)
Definition vanishes (n : nat) (g : vec) : Prop := forall i, (i < n)%nat -> g i = 0.

Section Iterates.
  Context (n : nat) {X St : Type} (step : nat -> sst X St -> sres (sst X St)).
  (** [after s k m]: [m] is the solver after [k] iterations from [s], each
      preceded by recording the previous iterate *)
  Inductive after (s : sst X St) : nat -> sst X St -> Prop :=
  | after_0 : after s 0 s
  | after_S : forall k m s', after s k m -> step k (mark m) = SRet s' -> after s (S k) s'.
  (** squared distance of two successive iterates *)
  Definition moved (m s' : sst X St) : R := nrm2 n (vsub (s_x s') (s_x m)).
  (** Iteration [k] ([0 <= k < max_iter]), from solver [m] to solver [s'], is
      the one after which the solver stops: no earlier iteration that is checked
      satisfied the criterion, and it is the last one or satisfies it. *)
  Definition stops_after (max_iter : Z) (stop_tol : option R) (check_every : Z) (s : sst X St) (k : nat) (m s' : sst X St) : Prop :=
    (Z.of_nat k < max_iter)%Z /\ after s k m /\ step k (mark m) = SRet s' /\
    (forall tol j m1 s1, stop_tol = Some tol -> (j < k)%nat -> (Z.of_nat j mod check_every = 0)%Z ->
       after s j m1 -> step j (mark m1) = SRet s1 -> tol < moved m1 s1) /\
    ((Z.of_nat k = max_iter - 1)%Z \/
     exists tol, stop_tol = Some tol /\ (Z.of_nat k mod check_every = 0)%Z /\ moved m s' <= tol).
  (** a step may not touch the recorded previous iterate *)
  Definition keeps_old : Prop := forall k s s', step k s = SRet s' -> s_old s' = s_old s.
End Iterates.

(** admissible arguments of [run] *)
Definition good_args (max_iter : Z) (stop_tol max_tol : option R) (freq : R) : Prop :=
  (1 <= max_iter)%Z /\ (forall t, stop_tol = Some t -> 0 < t) /\ (forall t, max_tol = Some t -> 0 < t) /\ 0 < freq <= 1.
