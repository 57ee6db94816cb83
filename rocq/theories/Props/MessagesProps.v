(** C03: the received-message store is a (channel, sender) map. *)
From Coq Require Import String List Bool Arith.
From Verif.Model Require Import PyDict History Messages.
From Verif.Spec Require Import MessagesSpec.
From Verif.Proofs Require Import PyDictProofs MessagesProofs.
Import ListNotations.

Theorem C03_message_lookup : forall (V : Type) (ops : list (sop V)) s c,
  (forall v, s_get (s_run ops) s c = Ok v <-> current ops s c v) /\
  (s_get (s_run ops) s c = KeyError <-> forall v, ~ current ops s c v) /\
  (s_has (s_run ops) s c = true <-> exists v, current ops s c v) /\
  s_get (s_run ops) s c <> ValueError.
Proof.
  intros V ops s c. destruct (run_spec V ops) as (I & L). specialize (L s c).
  rewrite s_get_look, s_has_look.
  destruct (look V (s_run ops) c s) as [w|]; (split; [|split; [|split; [|discriminate]]]).
  - intro v. rewrite <- L. split; congruence.
  - split; [discriminate|]. intro H. exfalso. apply (H w). now apply L.
  - split; auto. intros _. exists w. now apply L.
  - intro v. rewrite <- L. split; discriminate.
  - split; auto. intros _ v C. apply L in C. discriminate.
  - split; [discriminate|]. intros (v & C). apply L in C. discriminate.
Qed.

Theorem C03_messages_by_channel : forall (V : Type) (ops : list (sop V)) c,
  NoDup (map fst (s_by_channel (s_run ops) c)) /\
  forall s v, In (s, v) (s_by_channel (s_run ops) c) <-> current ops s c v.
Proof.
  intros V ops c. destruct (run_spec V ops) as ((N & B) & L).
  assert (ND : NoDup (dkeys (s_by_channel (s_run ops) c))).
  { unfold s_by_channel. destruct (dget String.eqb (s_run ops) c) eqn:E.
    - now apply (B _ _ E).
    - constructor. }
  split; auto. intros s v. rewrite <- L, <- s_by_channel_look. split.
  - now apply (dget_NoDup _ _ _ Nat.eqb_spec).
  - apply (dget_In _ _ _ Nat.eqb_spec).
Qed.

Example C03_nonvacuous :
  let ops := [OpPut 1 10 "x"; OpPut 2 20 "x"; OpPut 1 11 "y"; OpPut 2 21 "x";
              OpClear (Some [1]) (Some "x"); OpClear (Some [3;1]) None]%string in
  s_get (s_run ops) 2 "x"%string = Ok 21 /\ s_get (s_run ops) 1 "x"%string = KeyError /\
  s_by_channel (s_run ops) "x"%string = [(2, 21)] /\ s_has (s_run ops) 1 "y"%string = false.
Proof. vm_compute. auto. Qed.

Print Assumptions C03_message_lookup.
