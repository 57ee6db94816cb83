From Coq Require Import List Bool Arith ZArith.
From Verif.Model Require Import PyDict Construct.
Import ListNotations.
Open Scope nat_scope.

(** Connectivity of a graph on positions 0..n-1, as existence of paths. *)
Inductive path (g : graph) : nat -> nat -> Prop :=
| path_refl i : i < gr_n g -> path g i i
| path_step i j k : path g i j -> k < gr_n g -> (In (j, k) (gr_edges g) \/ In (k, j) (gr_edges g)) -> path g i k.
Definition connected (g : graph) : Prop := forall i j, i < gr_n g -> j < gr_n g -> path g i j.
Definition edges_in_range (g : graph) : Prop := forall i j, In (i, j) (gr_edges g) -> i < gr_n g /\ j < gr_n g.

(** A usable scheme argument for agents with the given ids. *)
Definition scheme_ok (ids : list nat) (a : scharg) : Prop :=
  match a with SNone | SOne _ => True | SDict d => forall i, In i ids -> In i (map fst d) | SBad => False end.
(** The scheme agent [i] must end up with. *)
Definition scheme_for (a : scharg) (i : nat) (x : scheme) : Prop :=
  match a with
  | SNone => x = Default
  | SOne y => x = Copied y
  | SDict d => exists y, dget Nat.eqb d i = Some y /\ x = Own y
  | SBad => False
  end.
