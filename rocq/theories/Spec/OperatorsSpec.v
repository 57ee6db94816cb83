(** What the operators on arrays should do. *)
From Coq Require Import List Bool Arith.
From Verif.Model Require Import Interop Operators.
Import ListNotations.

(** the framework of a value; a Python number has none *)
Definition framework_of (k : kind) : option framework :=
  match k with
  | KNdarray | KNpFloat64 | KNpGeneric => Some NumPy
  | KTorch => Some PyTorch
  | KTensorFlow => Some TensorFlow
  | KJax => Some Jax
  | KNumber => None
  end.
(** operands of one framework [f]: two arrays, or an array and a number *)
Definition of_framework (f : framework) (k1 k2 : kind) : Prop :=
  (framework_of k1 = Some f /\ (framework_of k2 = Some f \/ k2 = KNumber)) \/ (k1 = KNumber /\ framework_of k2 = Some f).
(** arrays of different frameworks *)
Definition different_frameworks (k1 k2 : kind) : Prop :=
  exists f1 f2, framework_of k1 = Some f1 /\ framework_of k2 = Some f2 /\ f1 <> f2.
(** array objects that can be changed *)
Definition mutable (k : kind) : Prop := k = KNdarray \/ k = KTorch.

Section Spec.
  Context {content : Type}.
  Notation heap := (@heap content).
  (** the objects that exist are as before *)
  Definition unchanged (h h' : heap) : Prop := forall l, l < h_next h -> h_obj h' l = h_obj h l.
  Definition unchanged_but (x : loc) (h h' : heap) : Prop := forall l, l < h_next h -> l <> x -> h_obj h' l = h_obj h l.
  (** a new array of framework [f] with the given content, nothing else changed *)
  Definition new_array (f : framework) (c : content) (h : heap) (r : out (pyobj * heap)) : Prop :=
    exists o h', r = Ret (o, h') /\ framework_of (kind_at h' (unbox o)) = Some f /\ content_at h' (unbox o) = c /\
      h_next h <= unbox o /\ unchanged h h'.
End Spec.
