(** Specification of the message store from the log of operations only. *)
From Coq Require Import String List.
From Verif.Model Require Import Messages.
Import ListNotations.

Section S.
  Variable V : Type.
  (** the operation overwrites or removes entry (sender, channel) *)
  Definition touches (s : agent_id) (c : channel) (o : sop V) : Prop :=
    match o with
    | OpPut s' _ c' => s' = s /\ c' = c
    | OpClear ss cc =>
        (match ss with None => True | Some l => In s l end) /\
        (match cc with None => True | Some c' => c' = c end)
    end.
  (** [v] was put for (s,c) and nothing has touched the entry since *)
  Definition current (log : list (sop V)) (s : agent_id) (c : channel) (v : V) : Prop :=
    exists l1 l2, log = l1 ++ OpPut s v c :: l2 /\ forall o, In o l2 -> ~ touches s c o.
End S.
Arguments touches {V}. Arguments current {V}.
