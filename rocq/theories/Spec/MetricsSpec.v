(** Specification of the metrics, in terms of what the agents recorded. *)
From Coq Require Import List ZArith Reals Sorted.
From Verif.Model Require Import PyDict History Messages Network Counting Vec Metrics.
From Verif.Spec Require Import HistorySpec CostSpec.
Import ListNotations.
Local Open Scope R_scope.

(** [a] recorded the value [x] at the greatest recorded iteration not after
    [it]; the agent's history is the result of the writes [log]. *)
Definition state_at (it : Z) (a : aview) (x : vec) : Prop :=
  exists log k, v_hist a = h_run log /\ nearest_preceding log it k /\ last_write log k x.
(** the last state [a] recorded *)
Definition final_state (a : aview) (x : vec) : Prop :=
  exists log k, v_hist a = h_run log /\ latest log k /\ last_write log k x.
(** the history of [a] was made by writes *)
Definition recorded (a : aview) : Prop := exists log, v_hist a = h_run log.
(** [a] recorded something at [k] *)
Definition has_iteration (a : aview) (k : Z) : Prop := exists log, v_hist a = h_run log /\ written log k.

(** coordinatewise arithmetic mean *)
Definition average (xs : list vec) : vec := fun i => rsum (map (fun x => x i) xs) / INR (length xs).
(** equality of arrays of dimension [n] *)
Definition same (n : nat) (x y : vec) : Prop := forall i, (i < n)%nat -> x i = y i.
Definition total_cost (l : list aview) (z : vec) : R := rsum (map (fun a => c_fun (v_cost a) z) l).
Definition minimises (l : list aview) (x : vec) : Prop := forall z, total_cost l x <= total_cost l z.
(** the gradient inequality of convex functions *)
Definition convex_cost (n : nat) (c : mcost) : Prop :=
  forall x y, c_fun c x + dot n (c_grad c x) (vsub y x) <= c_fun c y.

(** two views of the same trial that may differ in the oracle counters only *)
Definition same_view (a b : aview) : Prop :=
  v_id a = v_id b /\ v_cost a = v_cost b /\ v_hist a = v_hist b /\ v_nx a = v_nx b /\
  v_sent a = v_sent b /\ v_recv a = v_recv b /\ v_drop a = v_drop b /\ v_nsel a = v_nsel b.
Definition same_nview (x y : nview) : Prop :=
  Forall2 same_view (nv_nodes x) (nv_nodes y) /\ nv_server x = nv_server y.
(** a metric that does not report oracle calls *)
Definition insensitive (m : metric) : Prop :=
  forall x y it, same_nview x y -> m_compute m x it = m_compute m y it.
