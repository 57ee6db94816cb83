(** C25: mini-batches are epoch sampling without replacement. *)
From Coq Require Import List Bool Arith ZArith Permutation Lia.
From Verif.Model Require Import Batch.
From Verif.Spec Require Import BatchSpec.
From Verif.Proofs Require Import BatchProofs.
Import ListNotations.
Open Scope nat_scope.

Section C25.
  Variable perm : nat -> list nat -> list nat.
  Variables (n b : nat).
  Hypothesis Hperm : permutes perm.
  Hypothesis Hb : 0 < b <= n.

  (** all answers to "batch" in a history of calls on a new cost object *)
  Definition answers (ixs : list indices) : list (list Z) := batch_answers ixs (fst (calls perm n b ixs sp_new)).

  Lemma new_fresh : fresh n b sp_new.
  Proof. split; [split; [constructor|intros i []]|simpl; lia]. Qed.
  Lemma zs_in z l : In z (zs l) <-> exists i, In i l /\ z = Z.of_nat i.
  Proof. unfold zs. rewrite in_map_iff. split; intros (i & A & B); exists i; auto. Qed.
  Lemma zs_nodup l : NoDup l -> NoDup (zs l).
  Proof.
    induction 1; simpl; constructor; auto. rewrite zs_in. intros (i & I & E). apply H. replace x with i by lia. auto.
  Qed.
  Lemma window_map from count xs : window from count (map zs xs) = zs (window from count xs).
  Proof. unfold window, zs. rewrite concat_map, <- firstn_map, <- skipn_map. reflexivity. Qed.
  Lemma window_full_nodup : forall ixs m, b = n -> NoDup (window m 1 (answers ixs)).
  Proof.
    intros ixs m E. unfold window. destruct (skipn m (answers ixs)) as [|x t] eqn:S; simpl; [constructor|].
    rewrite app_nil_r. assert (I : In x (answers ixs)).
    { rewrite <- (firstn_skipn m (answers ixs)), S. apply in_or_app. simpl. auto. }
    apply answers_full in I; auto. subst x. apply zs_nodup, seq_NoDup.
  Qed.

  (** Every batch has [batch_size] different valid sample numbers. *)
  Theorem C25_batches_are_distinct_samples : forall ixs x, In x (answers ixs) -> distinct_samples n b x.
  Proof.
    intros ixs x I. destruct (Nat.eq_dec b n) as [E|E].
    - apply answers_full in I; auto. subst x. split; [apply zs_nodup, seq_NoDup|]. split; [unfold zs; rewrite map_length, seq_length; auto|].
      intros z H. apply zs_in in H. destruct H as (i & H & ->). apply in_seq in H. lia.
    - unfold answers in I. rewrite (answers_stream perm n b) with (s' := sp_new) in I; [|lia|split; reflexivity].
      apply in_map_iff in I. destruct I as (y & <- & I). destruct (stream_each perm n b Hperm Hb sp_new _ y new_fresh I) as (A & B & C).
      split; [now apply zs_nodup|]. split; [unfold zs; now rewrite map_length|].
      intros z H. apply zs_in in H. destruct H as (i & H & ->). apply C in H. lia.
  Qed.
  (** The batches come in epochs of [n / b]: within an epoch no sample is used
      twice, ... *)
  Theorem C25_no_repetition_within_epoch : forall ixs j, NoDup (window (j * (n / b)) (n / b) (answers ixs)).
  Proof.
    intros ixs j. destruct (Nat.eq_dec b n) as [E|E].
    - rewrite E, Nat.div_same by lia. now apply window_full_nodup.
    - unfold answers. rewrite (answers_stream perm n b) with (s' := sp_new); [|lia|split; reflexivity].
      rewrite window_map. apply zs_nodup, (stream_epoch_nodup perm n b Hperm Hb). apply new_fresh.
  Qed.
  (** ... and an epoch together with the first batch of the next covers the
      whole dataset; ... *)
  Theorem C25_epoch_covers_dataset : forall ixs j, j * (n / b) + n / b + 1 <= length (answers ixs) ->
    forall i, i < n -> In (Z.of_nat i) (window (j * (n / b)) (n / b + 1) (answers ixs)).
  Proof.
    intros ixs j H i Hi. destruct (Nat.eq_dec b n) as [E|E].
    - assert (A : forall x, In x (answers ixs) -> x = zs (seq 0 n)) by (intros x I; eapply answers_full; eauto).
      destruct (skipn (j * (n / b)) (answers ixs)) as [|x t] eqn:S.
      + exfalso. apply (f_equal (@length _)) in S. rewrite skipn_length in S. simpl in S. lia.
      + unfold window. rewrite S. rewrite Nat.add_1_r. simpl. apply in_or_app. left.
        rewrite (A x); [apply zs_in; exists i; split; auto; apply in_seq; lia|].
        rewrite <- (firstn_skipn (j * (n / b)) (answers ixs)), S. apply in_or_app. simpl. auto.
    - unfold answers in *. rewrite (answers_stream perm n b) with (s' := sp_new) in *; try (split; reflexivity); try lia.
      rewrite window_map. apply zs_in. exists i. split; auto. apply (stream_covers perm n b Hperm Hb); auto; [apply new_fresh|].
      rewrite map_length, stream_length in H. lia.
  Qed.
  (** ... if the batch size divides the dataset, each epoch covers it exactly once. *)
  Theorem C25_epoch_exact_when_divisible : forall ixs j, n mod b = 0 -> j * (n / b) + n / b <= length (answers ixs) ->
    Permutation (window (j * (n / b)) (n / b) (answers ixs)) (map Z.of_nat (seq 0 n)).
  Proof.
    intros ixs j D H. apply NoDup_Permutation; [apply C25_no_repetition_within_epoch|apply (zs_nodup), seq_NoDup|].
    intro z. split.
    - intro I. unfold window in I. apply in_concat in I. destruct I as (x & I & J).
      assert (I' : In x (answers ixs)).
      { rewrite <- (firstn_skipn (j * (n / b)) (answers ixs)). apply in_or_app. right.
        rewrite <- (firstn_skipn (n / b) (skipn _ _)). apply in_or_app. auto. }
      apply C25_batches_are_distinct_samples in I'. destruct I' as (_ & _ & R). apply R in J.
      apply in_map_iff. exists (Z.to_nat z). split; [lia|apply in_seq; lia].
    - intro I. apply in_map_iff in I. destruct I as (i & <- & I). apply in_seq in I. destruct (Nat.eq_dec b n) as [E|E].
      + assert (A : forall x, In x (answers ixs) -> x = zs (seq 0 n)) by (intros x J; eapply answers_full; eauto).
        assert (Q1 : n / b = 1) by (rewrite E; apply Nat.div_same; lia).
        destruct (skipn (j * (n / b)) (answers ixs)) as [|x t] eqn:S.
        * exfalso. apply (f_equal (@length _)) in S. rewrite skipn_length in S. simpl in S. lia.
        * unfold window. rewrite S, Q1. simpl. apply in_or_app. left.
          rewrite (A x); [apply zs_in; exists i; split; auto; apply in_seq; lia|].
          rewrite <- (firstn_skipn (j * (n / b)) (answers ixs)), S. apply in_or_app. simpl. auto.
      + unfold answers in *. rewrite (answers_stream perm n b) with (s' := sp_new) in *; try (split; reflexivity); try lia.
        rewrite window_map. apply zs_in. exists i. split; auto. apply (stream_covers_div perm n b Hperm Hb); auto; [apply new_fresh| |lia].
        rewrite map_length, stream_length in H. lia.
  Qed.
  (** No sample starves: any [2 * (n / b)] consecutive batches contain every sample. *)
  Theorem C25_no_starvation : forall ixs from, from + 2 * (n / b) <= length (answers ixs) ->
    forall i, i < n -> In (Z.of_nat i) (window from (2 * (n / b)) (answers ixs)).
  Proof.
    intros ixs from H i Hi. assert (QP : 0 < n / b) by (apply Nat.div_str_pos; auto). set (q := n / b) in *.
    set (j := (from + q - 1) / q). assert (J : from <= j * q < from + q).
    { pose proof (Nat.div_mod_eq (from + q - 1) q). pose proof (Nat.mod_upper_bound (from + q - 1) q ltac:(lia)). unfold j. nia. }
    assert (I : In (Z.of_nat i) (window (j * q) (q + 1) (answers ixs))) by (apply C25_epoch_covers_dataset; auto; fold q; lia).
    unfold window in *. apply in_concat in I. destruct I as (x & I & M). apply in_concat. exists x. split; auto.
    replace (j * q) with (from + (j * q - from)) in I by lia. 
    assert (SK : forall A a c (l : list A), skipn (a + c) l = skipn c (skipn a l)).
    { clear. intros A a c l. revert l. induction a; intro l; simpl; auto. destruct l; simpl; auto. now rewrite skipn_nil. }
    rewrite SK in I. set (l := skipn from (answers ixs)) in *.
    replace (2 * q) with ((j * q - from) + (2 * q - (j * q - from))) by lia.
    assert (FA : forall A a c (l : list A), firstn (a + c) l = firstn a l ++ firstn c (skipn a l)).
    { clear. intros A a c l. revert l. induction a; intro l; simpl; auto. destruct l; simpl; [now rewrite firstn_nil|]. now f_equal. }
    rewrite FA. apply in_or_app. right.
    replace (2 * q - (j * q - from)) with ((q + 1) + (2 * q - (j * q - from) - (q + 1))) by lia. rewrite FA. apply in_or_app. auto.
  Qed.

  (** Explicit requests are answered literally and [batch_used] always gives
      the last answer. *)
  Theorem C25_explicit_requests : forall s,
    (forall i, fst (sample_batch_indices perm n b (IxOne i) s) = BOk [i]) /\
    (forall l, fst (sample_batch_indices perm n b (IxMany l) s) = BOk l) /\
    fst (sample_batch_indices perm n b IxAll s) = BOk (map Z.of_nat (seq 0 n)) /\
    sample_batch_indices perm n b IxBadString s = (BValueError, s) /\
    (forall ix l, fst (sample_batch_indices perm n b ix s) = BOk l -> batch_used (snd (sample_batch_indices perm n b ix s)) = BOk l).
  Proof.
    intro s. repeat split. intros ix l H. destruct ix; simpl in *; try (now rewrite <- H); try discriminate.
    destruct (b <? n); simpl in *; [destruct (draw_batch perm n b s)|]; simpl in *; now rewrite <- H.
  Qed.
  (** Explicit requests do not disturb the epochs. *)
  Theorem C25_explicit_requests_keep_epochs : forall ixs,
    answers ixs = answers (filter (fun ix => match ix with IxBatch => true | _ => false end) ixs).
  Proof.
    intro ixs. unfold answers. destruct (Nat.eq_dec b n) as [E|E].
    - generalize sp_new at 1. generalize sp_new. induction ixs as [|ix ixs IH]; intros s s'; simpl; auto.
      destruct ix; simpl; try (match goal with |- context [calls perm n b ixs ?t] => rewrite <- (IH s t); destruct (calls perm n b ixs t); reflexivity end).
      replace (b <? n) with false by (symmetry; apply Nat.ltb_ge; lia).
      specialize (IH (with_last (zs (seq 0 n)) s) (with_last (zs (seq 0 n)) s')).
      destruct (calls perm n b ixs (with_last (zs (seq 0 n)) s')). destruct (calls perm n b (filter _ ixs) (with_last (zs (seq 0 n)) s)).
      simpl in *. now f_equal.
    - rewrite !(answers_stream perm n b) with (s' := sp_new); try (split; reflexivity); try lia. do 3 f_equal.
      clear. induction ixs as [|ix ixs IH]; simpl; auto. destruct ix; simpl; auto.
  Qed.
End C25.

(** Concrete: 5 samples, batches of 2, reversing shuffles, an explicit request
    in between: epochs of two batches; sample 0 left over from the first epoch
    opens the second. *)
Definition rev_perm (_ : nat) (l : list nat) : list nat := rev l.
Lemma rev_permutes : permutes rev_perm.
Proof. intros t l. symmetry. apply Permutation_rev. Qed.
Example C25_example : answers rev_perm 5 2 [IxBatch; IxMany [7%Z]; IxBatch; IxBatch; IxAll; IxBatch; IxBatch] =
  [[4; 3]; [2; 1]; [0; 4]; [3; 2]; [1; 4]]%Z.
Proof. reflexivity. Qed.

Print Assumptions C25_batches_are_distinct_samples.
Print Assumptions C25_no_repetition_within_epoch.
Print Assumptions C25_epoch_covers_dataset.
Print Assumptions C25_epoch_exact_when_divisible.
Print Assumptions C25_no_starvation.
Print Assumptions C25_explicit_requests.
Print Assumptions C25_explicit_requests_keep_epochs.
