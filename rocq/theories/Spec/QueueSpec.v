(** Messages of several senders in one queue. *)
From Coq Require Import List.
Import ListNotations.
(** [q] contains the messages of all senders, those of each sender in order *)
Inductive merge {A} : list (list A) -> list A -> Prop :=
| merge_nil ls : (forall l, In l ls -> l = []) -> merge ls []
| merge_take l1 x l l2 q : merge (l1 ++ l :: l2) q -> merge (l1 ++ (x :: l) :: l2) (x :: q).
