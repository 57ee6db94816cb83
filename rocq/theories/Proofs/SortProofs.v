(** Facts about the stable sort of Model/Schemes.v. *)
From Coq Require Import List Bool Arith Permutation Sorted Lia.
From Verif.Model Require Import Schemes.
Import ListNotations.

Section S.
  Context {A : Type} (le : A -> A -> bool).
  Hypothesis le_total : forall a b, le a b = true \/ le b a = true.
  Hypothesis le_trans : forall a b c, le a b = true -> le b c = true -> le a c = true.

  Lemma insert_perm x l : Permutation (insert le x l) (x :: l).
  Proof.
    induction l as [|y t IH]; simpl; auto. destruct (le x y); auto.
    rewrite IH. apply perm_swap.
  Qed.
  Lemma sorted_perm l : Permutation (sorted le l) l.
  Proof. induction l; simpl; auto. rewrite insert_perm. auto. Qed.
  Lemma sorted_length l : length (sorted le l) = length l.
  Proof. apply Permutation_length, sorted_perm. Qed.

  (** order of the result: smaller key, or equal keys and earlier position *)
  Definition beforeA (l : list A) (a b : A) : Prop := exists l1 l2 l3, l = l1 ++ a :: l2 ++ b :: l3.
  Definition ranked (l : list A) (a b : A) : Prop := le a b = true /\ (le b a = false \/ beforeA l a b).

  Lemma beforeA_cons x l a b : beforeA l a b -> beforeA (x :: l) a b.
  Proof. intros (l1 & l2 & l3 & ->). exists (x :: l1), l2, l3. reflexivity. Qed.
  Lemma beforeA_head x l b : In b l -> beforeA (x :: l) x b.
  Proof. intro H. apply in_split in H. destruct H as (l1 & l2 & ->). exists [], l1, l2. reflexivity. Qed.

  Lemma insert_ranked x l s : (forall y, In y s -> In y l) -> StronglySorted (ranked l) s ->
    StronglySorted (ranked (x :: l)) (insert le x s).
  Proof.
    intros I H. induction H as [|y t HS IH HF]; simpl.
    - repeat constructor.
    - assert (HS' : StronglySorted (ranked (x :: l)) t /\ Forall (ranked (x :: l) y) t).
      { split.
        - clear -HS. induction HS as [|z t HS IH HF]; constructor; auto.
          eapply Forall_impl; [|exact HF]. intros a (P & [Q|Q]); split; auto. right. now apply beforeA_cons.
        - eapply Forall_impl; [|exact HF]. intros a (P & [Q|Q]); split; auto. right. now apply beforeA_cons. }
      destruct HS' as (HS' & HF').
      destruct (le x y) eqn:E.
      + constructor; [constructor; auto|]. constructor.
        * split; auto. right. apply beforeA_head. apply I. left; auto.
        * rewrite Forall_forall in *. intros z Hz. split.
          { apply le_trans with y; auto. apply HF; auto. }
          right. apply beforeA_head. apply I. right; auto.
      + constructor.
        * apply IH. intros z Hz. apply I. right; auto.
        * rewrite Forall_forall in *. intros z Hz.
          apply (Permutation_in _ (insert_perm x t)) in Hz. destruct Hz as [<-|Hz]; auto.
          split; [|left; auto]. destruct (le_total x y); congruence.
  Qed.
  Lemma sorted_ranked l : StronglySorted (ranked l) (sorted le l).
  Proof.
    induction l as [|x l IH]; simpl; [constructor|]. apply insert_ranked; auto.
    intros y. apply Permutation_in, sorted_perm.
  Qed.
  Lemma ss_split {R : A -> A -> Prop} k l a b : StronglySorted R l -> In a (firstn k l) -> In b (skipn k l) -> R a b.
  Proof.
    intro H. revert k. induction H as [|x l HS IH HF]; intros k Ha Hb; destruct k; simpl in *; try tauto.
    destruct Ha as [<-|Ha].
    - rewrite Forall_forall in HF. apply HF. rewrite <- (firstn_skipn k l). apply in_or_app. auto.
    - eapply IH; eauto.
  Qed.
End S.

Lemma NoDup_firstn {A} k (l : list A) : NoDup l -> NoDup (firstn k l).
Proof.
  intro H. revert k. induction H as [|x l N H IH]; intros [|k]; simpl; constructor; auto.
  intro I. apply N. rewrite <- (firstn_skipn k l). apply in_or_app; auto.
Qed.
Lemma in_firstn {A} k (l : list A) x : In x (firstn k l) -> In x l.
Proof. intro H. rewrite <- (firstn_skipn k l). apply in_or_app; auto. Qed.
Lemma firstn_or_skipn {A} k (l : list A) x : In x l -> In x (firstn k l) \/ In x (skipn k l).
Proof. intro H. rewrite <- (firstn_skipn k l) in H. now apply in_app_or. Qed.
Lemma NoDup_firstn_skipn {A} k (l : list A) x : NoDup l -> In x (firstn k l) -> In x (skipn k l) -> False.
Proof.
  intros H A1 B. rewrite <- (firstn_skipn k l) in H. induction (firstn k l) as [|y t IH]; simpl in *; [tauto|].
  inversion H; subst. destruct A1 as [->|A1]; auto. apply H2. apply in_or_app; auto.
Qed.
