(** Vocabulary for federated averaging with several local steps. *)
From Coq Require Import Reals List.
From Verif.Model Require Import PyDict History Messages Network Vec.
From Verif.Spec Require Import P2PSpec FedSpec.
Open Scope R_scope.

(** [K] gradient steps of size [a] from [x] *)
Fixpoint gradient_steps (G : vec -> vec) (a : R) (K : nat) (x : vec) : vec :=
  match K with O => x | S K => gradient_steps G a K (vsub x (vscal a (G x))) end.
(** the average of what the clients [l] make of [x] with [K] steps each is [x] *)
Definition balanced (n : nat) (l : list agent_id) (G : agent_id -> vec -> vec) (a : R) (K : nat) (x : vec) : Prop :=
  forall c, (c < n)%nat -> mean_over l (fun i => gradient_steps (G i) a K x) c = x c.
