(** What it means that recorded states and messages do not change, in terms of
    the operations of a client program. *)
From Coq Require Import List ZArith.
From Verif.Model Require Import PyDict History Heap.
Import ListNotations.

Section Spec.
  Context {V : Type}.
  (** the operation starts a new history of agent [a] or records its iteration
      [k] again *)
  Definition rerecords (a : nat) (k : Z) (o : op V) : Prop :=
    match o with
    | OInit b _ _ => b = a
    | OSnapshot b it _ => b = a /\ it = k
    | _ => False
    end.
  (** the operation gives agent [a] another x, or hands out a reference to its x *)
  Definition touches_x (a : nat) (o : op V) : Prop :=
    match o with OInit b _ _ => b = a | OSetX b _ => b = a | OGetX b => b = a | _ => False end.
  (** the operation removes or replaces the message of [s] on channel [ch] in
      [r]'s inbox *)
  Definition replaces_message (r ch s : nat) (o : op V) : Prop :=
    match o with
    | OInit b _ _ => b = r
    | OSend s' ch' _ _ rs _ => s' = s /\ ch' = ch /\ In r rs
    | OStep => True
    | _ => False
    end.
  (** the operation hands out a reference to the message in [r]'s inbox *)
  Definition reads_message (r ch s : nat) (o : op V) : Prop :=
    match o with OGetMsg r' ch' s' => r' = r /\ ch' = ch /\ s' = s | _ => False end.

  (** what the [i]-th receiver gets when an array with content [v] is sent *)
  Definition transmitted (vadd : V -> V -> V) (c : compression V) (v : V) (noise : option (list V)) (i : nat) : option V :=
    let w := match c with Same => v | Fresh f => f v end in
    match noise with None => Some w | Some ns => option_map (vadd w) (nth_error ns i) end.
End Spec.
