(** Specification of the history in terms of the log of writes only. *)
From Coq Require Import List ZArith.
Import ListNotations.
Open Scope Z_scope.

Section S.
  Variable V : Type.
  (** [k] was written (negative writes are rejected by the API). *)
  Definition written (log : list (Z * V)) (k : Z) : Prop :=
    0 <= k /\ exists v, In (k, v) log.

  (** [v] is the value of the last write at [k]. *)
  Definition last_write (log : list (Z * V)) (k : Z) (v : V) : Prop :=
    0 <= k /\ exists l1 l2, log = l1 ++ (k, v) :: l2 /\ forall v', ~ In (k, v') l2.

  (** [k] is the greatest written iteration not after [q]. *)
  Definition nearest_preceding (log : list (Z * V)) (q k : Z) : Prop :=
    written log k /\ k <= q /\ forall k', written log k' -> k' <= q -> k' <= k.

  (** [k] is the greatest written iteration. *)
  Definition latest (log : list (Z * V)) (k : Z) : Prop :=
    written log k /\ forall k', written log k' -> k' <= k.
  Definition earliest (log : list (Z * V)) (k : Z) : Prop :=
    written log k /\ forall k', written log k' -> k <= k'.
End S.
Arguments written {V}. Arguments last_write {V}. Arguments nearest_preceding {V}.
Arguments latest {V}. Arguments earliest {V}.
