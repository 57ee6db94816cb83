From Coq Require Import List Bool Arith ZArith Permutation Lia.
From Verif.Model Require Import Batch.
From Verif.Spec Require Import BatchSpec.
Import ListNotations.
Open Scope nat_scope.

Lemma NoDup_app_remove_l {A} (a c : list A) : NoDup (a ++ c) -> NoDup c.
Proof. induction a; simpl; auto. intro H. inversion H; auto. Qed.
Lemma NoDup_app_remove_r {A} (a c : list A) : NoDup (a ++ c) -> NoDup a.
Proof.
  induction a; simpl; intro H; [constructor|]. inversion H; subst. constructor; auto. intro I. apply H2. apply in_or_app. auto.
Qed.
Section B.
  Variable perm : nat -> list nat -> list nat.
  Variables (n b : nat).
  Hypothesis Hperm : permutes perm.
  Hypothesis Hb : 0 < b <= n.

  (** successive draws *)
  Fixpoint stream (k : nat) (s : sampler) : list (list nat) * sampler :=
    match k with
    | 0 => ([], s)
    | S k => let '(x, s) := draw_batch perm n b s in let '(xs, s) := stream k s in (x :: xs, s)
    end.
  Lemma stream_app k m s : stream (k + m) s =
    (fst (stream k s) ++ fst (stream m (snd (stream k s))), snd (stream m (snd (stream k s)))).
  Proof.
    revert s. induction k; intro s; simpl.
    - destruct (stream m s); reflexivity.
    - destruct (draw_batch perm n b s) as [x s1]. rewrite IHk. destruct (stream k s1) as [xs s2]. simpl. reflexivity.
  Qed.
  Lemma stream_length k s : length (fst (stream k s)) = k.
  Proof.
    revert s. induction k; intro s; simpl; auto. destruct (draw_batch perm n b s) as [x s1]. specialize (IHk s1).
    destruct (stream k s1). simpl in *. congruence.
  Qed.

  Definition rem_ok (s : sampler) : Prop := NoDup (sp_remaining s) /\ forall i, In i (sp_remaining s) -> i < n.
  (** start of an epoch *)
  Definition fresh (s : sampler) : Prop := rem_ok s /\ length (sp_remaining s) < b.

  Lemma nmem_spec i l : nmem i l = true <-> In i l.
  Proof. unfold nmem. rewrite existsb_exists. split; [intros (x & I & E); apply Nat.eqb_eq in E; now subst|intro I; exists i; split; auto; apply Nat.eqb_refl]. Qed.
  Lemma complement l : NoDup l -> (forall i, In i l -> i < n) -> Permutation (l ++ filter (fun i => negb (nmem i l)) (seq 0 n)) (seq 0 n).
  Proof.
    intros N R. apply NoDup_Permutation.
    - assert (G : forall m, NoDup m -> NoDup (l ++ filter (fun i => negb (nmem i l)) m)).
      { intros m Nm. induction m as [|x m IH]; simpl; [now rewrite app_nil_r|]. inversion Nm; subst. destruct (nmem x l) eqn:E; simpl; auto.
        apply (Permutation_NoDup (l := x :: (l ++ filter (fun i => negb (nmem i l)) m))); [apply Permutation_middle|].
        constructor; auto. intro I. apply in_app_or in I. destruct I as [I|I].
        - apply nmem_spec in I. congruence.
        - apply filter_In in I. tauto. }
      apply G, seq_NoDup.
    - apply seq_NoDup.
    - intro x. rewrite in_app_iff, filter_In, in_seq. split.
      + intros [I|I]; [|lia]. apply R in I. lia.
      + intro I. destruct (nmem x l) eqn:E; [left; now apply nmem_spec|right; split; auto].
  Qed.

  Lemma draw_fresh s : fresh s -> let '(x, s') := draw_batch perm n b s in
    Permutation (x ++ sp_remaining s') (seq 0 n) /\ incl (sp_remaining s) x /\ length x = b.
  Proof.
    intros [[N R] L]. unfold draw_batch. destruct (sp_remaining s) as [|r0 r] eqn:E.
    - assert (LP : length (perm (sp_draws s) (seq 0 n)) = n) by (rewrite (Permutation_length (Hperm _ _)), seq_length; auto).
      replace (b <=? length _) with true by (symmetry; apply Nat.leb_le; lia). simpl. rewrite firstn_skipn.
      split; [apply Hperm|]. split; [intros i []|]. rewrite firstn_length. lia.
    - replace (b <=? length (r0 :: r)) with false by (symmetry; apply Nat.leb_gt; auto).
      pose proof (complement (r0 :: r) N R) as C. set (cs := filter _ _) in *. cbn [sp_remaining].
      assert (LC : length (r0 :: r) + length cs = n) by (apply Permutation_length in C; rewrite app_length, seq_length in C; auto).
      assert (LP : length (perm (sp_draws s) cs) = length cs) by (apply Permutation_length, Hperm).
      split; [|split].
      + rewrite <- app_assoc, firstn_skipn. rewrite (Hperm _ cs). exact C.
      + apply incl_appl, incl_refl.
      + rewrite app_length, firstn_length. lia.
  Qed.
  Lemma draw_rest s : b <= length (sp_remaining s) -> let '(x, s') := draw_batch perm n b s in
    x ++ sp_remaining s' = sp_remaining s /\ length x = b.
  Proof.
    intros L. unfold draw_batch. destruct (sp_remaining s) as [|r0 r] eqn:E; [simpl in L; lia|].
    replace (b <=? length (r0 :: r)) with true by (symmetry; apply Nat.leb_le; auto). cbn [sp_remaining].
    rewrite firstn_skipn. split; auto. rewrite firstn_length. lia.
  Qed.
  (** the middle of an epoch: [m] more batches fit *)
  Lemma stream_rest m : forall s, m * b <= length (sp_remaining s) ->
    concat (fst (stream m s)) ++ sp_remaining (snd (stream m s)) = sp_remaining s /\ Forall (fun x => length x = b) (fst (stream m s)).
  Proof.
    induction m; intros s L; simpl.
    - auto.
    - pose proof (draw_rest s ltac:(lia)) as D. destruct (draw_batch perm n b s) as [x s1]. destruct D as [D1 D2].
      assert (L1 : m * b <= length (sp_remaining s1)) by (rewrite <- D1, app_length in L; lia).
      specialize (IHm s1 L1). destruct (stream m s1) as [xs s2]. simpl in *. destruct IHm as [I1 I2].
      split; [now rewrite <- app_assoc, I1|constructor; auto].
  Qed.
  Lemma concat_len {A} (xs : list (list A)) m : Forall (fun x => length x = m) xs -> length (concat xs) = length xs * m.
  Proof. induction 1; simpl; auto. rewrite app_length. lia. Qed.
  (** one epoch *)
  Let q := n / b.
  Lemma q_pos : 0 < q.
  Proof. apply Nat.div_str_pos. auto. Qed.
  Lemma epoch s k : fresh s -> k <= q -> 0 < k -> let xs := fst (stream k s) in let s' := snd (stream k s) in
    Permutation (concat xs ++ sp_remaining s') (seq 0 n) /\ Forall (fun x => length x = b) xs /\
    incl (sp_remaining s) (nth 0 xs []) /\ (k = q -> fresh s').
  Proof.
    intros F K P. destruct k as [|k]; [lia|]. simpl. pose proof (draw_fresh s F) as D. destruct (draw_batch perm n b s) as [x s1]. destruct D as (D1 & D2 & D3).
    assert (L1 : length (sp_remaining s1) = n - b) by (apply Permutation_length in D1; rewrite app_length, seq_length in D1; lia).
    pose proof (Nat.div_mod_eq n b) as DM. fold q in DM. pose proof (Nat.mod_upper_bound n b ltac:(lia)) as MB.
    assert (L2 : k * b <= length (sp_remaining s1)) by nia.
    pose proof (stream_rest k s1 L2) as [R1 R2]. destruct (stream k s1) as [xs s2] eqn:E. simpl in *.
    rewrite <- app_assoc, R1. split; auto. split; [constructor; auto|]. split; auto.
    intro KQ. assert (PP : Permutation (x ++ concat xs ++ sp_remaining s2) (seq 0 n)) by (rewrite R1; auto).
    assert (LX : length (concat xs) = k * b).
    { rewrite (concat_len _ b R2). f_equal. pose proof (stream_length k s1). rewrite E in H. auto. }
    split.
    - split.
      + apply (NoDup_app_remove_l (x ++ concat xs)). rewrite <- app_assoc. eapply Permutation_NoDup; [symmetry; exact PP|apply seq_NoDup].
      + intros i I. assert (J : In i (seq 0 n)) by (apply (Permutation_in _ PP); rewrite !in_app_iff; auto). apply in_seq in J. lia.
    - apply Permutation_length in PP. rewrite !app_length, seq_length in PP. nia.
  Qed.
  Lemma epochs j s : fresh s -> fresh (snd (stream (j * q) s)).
  Proof.
    intros F. induction j; simpl; auto. rewrite Nat.add_comm, stream_app. simpl.
    apply (epoch _ q IHj); auto. apply q_pos.
  Qed.
  (** a window of the first [k] batches of an epoch *)
  Lemma window_stream s k from count : from + count <= k ->
    window from count (fst (stream k s)) = concat (fst (stream count (snd (stream from s)))).
  Proof.
    intro H. unfold window. f_equal. replace k with (from + (count + (k - from - count))) by lia.
    rewrite !stream_app. cbn [fst snd]. rewrite skipn_app, skipn_all2 by (rewrite stream_length; lia).
    rewrite stream_length, Nat.sub_diag. simpl. rewrite firstn_app, firstn_all2 by (rewrite stream_length; lia).
    rewrite stream_length, Nat.sub_diag. simpl. apply app_nil_r.
  Qed.
  Lemma window_clip {A} (bs : list (list A)) from count : window from count bs = window from (min count (length bs - from)) bs.
  Proof.
    unfold window. destruct (Nat.le_ge_cases count (length bs - from)) as [H|H]; [now rewrite Nat.min_l|].
    rewrite Nat.min_r by auto. rewrite !firstn_all2; auto; rewrite skipn_length; lia.
  Qed.
  Lemma stream_epoch_nodup s k j : fresh s -> NoDup (window (j * q) q (fst (stream k s))).
  Proof.
    intro F. rewrite window_clip. set (c := min q _). destruct (Nat.eq_dec c 0) as [->|C]; [unfold window; simpl; constructor|].
    rewrite window_stream by (unfold c in *; rewrite stream_length in *; lia).
    pose proof (epochs j s F) as F'. destruct (epoch _ c F' ltac:(unfold c; lia) ltac:(lia)) as (P & _).
    apply (NoDup_app_remove_r _ (sp_remaining (snd (stream c (snd (stream (j * q) s)))))).
    eapply Permutation_NoDup; [symmetry; exact P|apply seq_NoDup].
  Qed.
  Lemma stream_covers s k j i : fresh s -> j * q + q + 1 <= k -> i < n -> In i (window (j * q) (q + 1) (fst (stream k s))).
  Proof.
    intros F H Hi. rewrite window_stream by lia. rewrite stream_app. cbn [fst]. rewrite concat_app.
    pose proof (epochs j s F) as F'. set (s1 := snd (stream (j * q) s)) in *.
    destruct (epoch s1 q F' ltac:(lia) q_pos) as (P & _ & _ & F2). specialize (F2 eq_refl).
    set (s2 := snd (stream q s1)) in *. destruct (epoch s2 1 F2 q_pos ltac:(lia)) as (_ & _ & I & _).
    assert (J : In i (seq 0 n)) by (apply in_seq; lia). apply (Permutation_in _ (Permutation_sym P)) in J.
    apply in_app_or in J. apply in_or_app. destruct J as [J|J]; auto. right.
    apply I in J. simpl in *. destruct (draw_batch perm n b s2). simpl in *. apply in_or_app. auto.
  Qed.
  Lemma stream_covers_div s k j i : fresh s -> n mod b = 0 -> j * q + q <= k -> i < n -> In i (window (j * q) q (fst (stream k s))).
  Proof.
    intros F D H Hi. rewrite window_stream by lia.
    pose proof (epochs j s F) as F'. set (s1 := snd (stream (j * q) s)) in *.
    destruct (epoch s1 q F' ltac:(lia) q_pos) as (P & FL & _ & _).
    assert (J : In i (seq 0 n)) by (apply in_seq; lia). apply (Permutation_in _ (Permutation_sym P)) in J.
    apply in_app_or in J. destruct J as [J|J]; auto. exfalso.
    apply Permutation_length in P. rewrite app_length, seq_length, (concat_len _ b FL), stream_length in P.
    pose proof (Nat.div_mod_eq n b) as DM. fold q in DM. destruct (sp_remaining (snd (stream q s1))); [destruct J|simpl in P; nia].
  Qed.
  Lemma stream_each s k x : fresh s -> In x (fst (stream k s)) -> NoDup x /\ length x = b /\ forall i, In i x -> i < n.
  Proof.
    intros F I. apply In_nth with (d := []) in I. destruct I as (m & Hm & <-). rewrite stream_length in Hm.
    set (j := m / q). set (o := m mod q). pose proof (Nat.div_mod_eq m q) as DM. pose proof (Nat.mod_upper_bound m q ltac:(pose proof q_pos; lia)) as MB.
    assert (E : nth m (fst (stream k s)) [] = nth o (fst (stream (S o) (snd (stream (j * q) s)))) []).
    { replace k with (j * q + (S o + (k - j * q - S o))) by (unfold j, o in *; nia).
      rewrite !(stream_app (j * q)), stream_app. cbn [fst]. rewrite app_nth2 by (rewrite stream_length; unfold j; nia).
      rewrite stream_length. replace (m - j * q) with o by (unfold j, o in *; nia). rewrite app_nth1; auto. rewrite stream_length. lia. }
    rewrite E. pose proof (epochs j s F) as F'. set (s1 := snd (stream (j * q) s)) in *.
    destruct (epoch s1 (S o) F' ltac:(unfold o; lia) ltac:(lia)) as (P & FL & _ & _).
    set (xs := fst (stream (S o) s1)) in *. assert (IX : In (nth o xs []) xs) by (apply nth_In; unfold xs; rewrite stream_length; lia).
    split; [|split].
    - assert (N : NoDup (concat xs)).
      { apply (NoDup_app_remove_r _ (sp_remaining (snd (stream (S o) s1)))). eapply Permutation_NoDup; [symmetry; exact P|apply seq_NoDup]. }
      revert N IX. generalize (nth o xs []). clear. induction xs as [|y ys IH]; intros l N I; [destruct I|]. simpl in *.
      destruct I as [->|I]; [eapply NoDup_app_remove_r; eauto|]. apply IH; auto. eapply NoDup_app_remove_l; eauto.
    - rewrite Forall_forall in FL. auto.
    - intros i I. assert (J : In i (seq 0 n)) by (apply (Permutation_in _ P), in_or_app; left; apply in_concat; eauto). apply in_seq in J. lia.
  Qed.

  (** the batch answers of any history of calls are the stream *)
  Definition same (s s' : sampler) : Prop := sp_remaining s = sp_remaining s' /\ sp_draws s = sp_draws s'.
  Lemma draw_same s s' : same s s' -> fst (draw_batch perm n b s) = fst (draw_batch perm n b s') /\ same (snd (draw_batch perm n b s)) (snd (draw_batch perm n b s')).
  Proof. intros [A B]. unfold draw_batch, same. rewrite A, B. destruct (sp_remaining s'); destruct (b <=? _); simpl; auto. Qed.
  Lemma answers_stream : b < n -> forall ixs s s', same s s' ->
    batch_answers ixs (fst (calls perm n b ixs s)) = map zs (fst (stream (length (filter (fun ix => match ix with IxBatch => true | _ => false end) ixs)) s')).
  Proof.
    intro BN. induction ixs as [|ix ixs IH]; intros s s' S; simpl; auto.
    destruct ix; simpl;
      try (match goal with |- context [calls perm n b ixs ?t] => specialize (IH t s' S); destruct (calls perm n b ixs t); exact IH end).
    replace (b <? n) with true by (symmetry; apply Nat.ltb_lt; auto).
    destruct (draw_same s s' S) as [D1 D2]. destruct (draw_batch perm n b s) as [x s1]. destruct (draw_batch perm n b s') as [x' s1'].
    simpl in D1, D2. subst x'. specialize (IH (with_last (zs x) s1) s1' D2).
    destruct (calls perm n b ixs (with_last (zs x) s1)). destruct (stream _ s1'). simpl in *. now f_equal.
  Qed.
  Lemma answers_full : b = n -> forall ixs s x, In x (batch_answers ixs (fst (calls perm n b ixs s))) -> x = zs (seq 0 n).
  Proof.
    intros BN. induction ixs as [|ix ixs IH]; intros s x I; simpl in I; [destruct I|].
    destruct ix; simpl in I; try (match type of I with context [calls perm n b ixs ?t] => specialize (IH t x); destruct (calls perm n b ixs t); simpl in *; auto end).
    replace (b <? n) with false in I by (symmetry; apply Nat.ltb_ge; lia).
    specialize (IH (with_last (zs (seq 0 n)) s) x). destruct (calls perm n b ixs (with_last (zs (seq 0 n)) s)). simpl in *. destruct I; auto.
  Qed.
End B.
