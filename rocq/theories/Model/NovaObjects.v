(** FedNova's local steps with array objects, /repo/decent_bench/algorithms/federated/
    _fed_nova.py:195-234 ([_compute_local_update]).

    Model/Fed.v takes the array that [cost.gradient(local_x)] returns to be a new
    one.  [L2RegularizerCost.gradient] returns its argument itself
    (costs/_base/_regularizer_costs.py:252-253), so that
    [grad += penalty * (local_x - reference_x)] (line 215) changes [local_x].
    [alias] tells whether the returned array is [local_x].  All other arrays of
    the loop are new ones: [local_x] is a copy of the broadcast (line 205), the
    momentum (line 218) and [local_step_update] (line 223) are results of
    arithmetic, and [cumulative_gradient] is updated in place but shared with
    nothing. *)
From Coq Require Import Reals List.
From Verif.Model Require Import Vec P2P Fed.
Open Scope R_scope.

(** one pass through the loop, lines 213-232: the new local_x and momentum *)
Definition nova_pass (a : R) (beta mu : option R) (ref : vec) (alias : bool) (g : vec) (s : vec * vec) : vec * vec :=
  let (x, mom) := s in
  let grad := match mu with Some mu => vadd g (vscal mu (vsub x ref)) | None => g end in
  let x := match mu with Some _ => if alias then grad else x | None => x end in
  let mom := match beta with Some be => vadd (vscal be mom) grad | None => mom end in
  let dir := match beta with Some _ => mom | None => grad end in
  (vsub x (vscal a dir), mom).
(** the loop with a deterministic gradient, from the broadcast [ref] *)
Fixpoint nova_loop (n : nat) (a : R) (beta mu : option R) (ref : vec) (alias : bool) (grad : vec -> vec) (s : vec * vec) : vec * vec :=
  match n with
  | O => s
  | S m => nova_loop m a beta mu ref alias grad (nova_pass a beta mu ref alias (grad (fst s)) s)
  end.
Definition nova_local (n : nat) (a : R) (beta mu : option R) (alias : bool) (grad : vec -> vec) (ref : vec) : vec :=
  fst (nova_loop n a beta mu ref alias grad (ref, vzero)).
(** [L2RegularizerCost.gradient]: the array given *)
Definition l2_gradient (x : vec) : vec := x.
