(** Vocabulary for the theorems about convergence. *)
From Coq Require Import Reals List.
From Verif.Model Require Import PyDict History Messages Network Vec.
From Verif.Spec Require Import P2PSpec.
Import ListNotations.
Open Scope R_scope.

(** Every agent can be reached from every other one along edges. *)
Inductive walk (t : topo) : agent_id -> agent_id -> Prop :=
| walk_refl i : In i (t_nodes t) -> walk t i i
| walk_step i j k : walk t i j -> In k (t_adj t j) -> walk t i k.
Definition connected (t : topo) : Prop := forall i j, In i (t_nodes t) -> In j (t_nodes t) -> walk t i j.

(** Mixing weights: symmetric, not negative, rows sum to one, positive exactly
    along edges (and possibly on the diagonal). *)
Definition mixing (t : topo) (W : agent_id -> agent_id -> R) : Prop :=
  (forall i j, W i j = W j i) /\ (forall i j, 0 <= W i j) /\ row_stochastic t W /\ sparse t W /\
  (forall i j, In j (t_adj t i) -> 0 < W i j).

(** [F] is strongly convex with constant [m] and has an [L]-Lipschitz gradient
    [G]: it lies between two paraboloids touching it at any point. *)
Definition smooth_strongly_convex (n : nat) (F : vec -> R) (G : vec -> vec) (m L : R) : Prop :=
  forall x h, m / 2 * nrm2 n h <= F (vadd x h) - F x - dot n (G x) h <= L / 2 * nrm2 n h.
(** The gradients that agents get are those of their costs. *)
Definition exact_gradients (grad : nat -> agent_id -> vec -> vec) (G : agent_id -> vec -> vec) : Prop :=
  forall n i x, grad n i x = G i x.
(** [xs] minimises the sum of the costs of the agents [l]. *)
Definition minimises (l : list agent_id) (F : agent_id -> vec -> R) (xs : vec) : Prop :=
  forall z, rsum (map (fun i => F i xs) l) <= rsum (map (fun i => F i z) l).
(** Sum of the squared distances of the agents' states to [xs]. *)
Definition sq_error (l : list agent_id) (n : nat) (X : agent_id -> vec) (xs : vec) : R :=
  rsum (map (fun i => nrm2 n (vsub (X i) xs)) l).

(** The mean of [f] over [N] independent flips of a coin that shows [true] with
    probability [p]. *)
Fixpoint expect (p : R) (N : nat) (f : list bool -> R) : R :=
  match N with
  | O => f []
  | S N => p * expect p N (fun l => f (true :: l)) + (1 - p) * expect p N (fun l => f (false :: l))
  end.
(** The flip of iteration [k]. *)
Definition flips (l : list bool) (k : nat) : bool := nth k l false.
