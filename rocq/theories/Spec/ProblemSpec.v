(** What a user expects of the out-of-the-box problems. *)
From Coq Require Import Reals List ZArith.
From Verif.Model Require Import Vec Costs Batch EmpiricalRisk.
From Verif.Spec Require Import CostSpec.
Import ListNotations.
Open Scope R_scope.

(** the value at [z] of the sum of the functions [Fs] *)
Definition total (Fs : list (vec -> R)) (z : vec) : R := rsum (map (fun F => F z) Fs).
(** [F] is strongly convex with constant [m] and smooth with constant [L], with
    gradient [G] *)
Definition well_conditioned (n : nat) (F : vec -> R) (m L : R) : Prop :=
  exists G : vec -> vec, forall x h, m / 2 * nrm2 n h <= F (vadd x h) - F x - dot n (G x) h <= L / 2 * nrm2 n h.
(** [np.linalg.solve] solves nonsingular systems *)
Definition solves_nonsingular (n : nat) (lsolve : mat -> vec -> option vec) : Prop :=
  forall M b, (forall h, solves n M vzero h -> forall i, (i < n)%nat -> h i = 0) -> exists x, lsolve M b = Some x.
(** a batch size that ten samples admit *)
Definition batch_fits (bs : bsize) : Prop := match bs with BsAll => True | BsInt z => (1 <= z <= 10)%Z | BsOtherString => False end.
(** both classes occur *)
Definition two_classes (D : dataset) : Prop := (exists p, In p D /\ snd p = 0) /\ (exists p, In p D /\ snd p = 1).
