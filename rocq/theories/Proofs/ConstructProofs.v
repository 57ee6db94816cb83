From Coq Require Import List Bool Arith ZArith Lia.
From Verif.Model Require Import PyDict Construct.
From Verif.Spec Require Import ConstructSpec.
From Verif.Proofs Require Import PyDictProofs.
Import ListNotations.
Open Scope nat_scope.

Lemma existsb_eqb j l : existsb (Nat.eqb j) l = true <-> In j l.
Proof. rewrite existsb_exists. split; [intros (x & I & E); apply Nat.eqb_eq in E; now subst|]. intro I. exists j. split; auto. apply Nat.eqb_refl. Qed.

Lemma adjacent_spec g i j : adjacent g i j = true <-> In (i, j) (gr_edges g) \/ In (j, i) (gr_edges g).
Proof.
  unfold adjacent. rewrite existsb_exists. split.
  - intros ([a b] & I & E). simpl in E. apply orb_true_iff in E. rewrite !andb_true_iff, !Nat.eqb_eq in E.
    destruct E as [(-> & ->)|(-> & ->)]; auto.
  - intros [I|I]; [exists (i, j)|exists (j, i)]; split; auto; simpl; rewrite !Nat.eqb_refl; auto. apply orb_true_r.
Qed.

Section G.
  Variable g : graph.
  Notation n := (gr_n g).
  Lemma round_spec seen j : In j (bfs_round g seen) <-> j < n /\ (In j seen \/ exists i, In i seen /\ adjacent g i j = true).
  Proof.
    unfold bfs_round. rewrite filter_In, in_seq, orb_true_iff, existsb_eqb, existsb_exists. intuition lia.
  Qed.
  Lemma round_nodup seen : NoDup (bfs_round g seen).
  Proof. apply NoDup_filter, seq_NoDup. Qed.

  Definition reach (m : nat) : list nat := Nat.iter m (bfs_round g) [0].
  Lemma reach_range m : 0 < n -> forall j, In j (reach m) -> j < n.
  Proof. intro P. destruct m; simpl; intros j H; [destruct H as [<-|[]]; auto|]. now apply round_spec in H. Qed.
  Lemma reach_nodup m : NoDup (reach m).
  Proof. destruct m; simpl; [repeat constructor; intros []|apply round_nodup]. Qed.
  Lemma reach_mono m : 0 < n -> incl (reach m) (reach (S m)).
  Proof. intros P j H. simpl. apply round_spec. split; [now apply (reach_range m P)|]. left. exact H. Qed.
  Lemma reach_path m : 0 < n -> forall j, In j (reach m) -> path g 0 j.
  Proof.
    intro P. induction m as [|m IH]; intros j H.
    - destruct H as [<-|[]]. now constructor.
    - simpl in H. apply round_spec in H. destruct H as (Hj & [H|(i & H & A)]); [now apply IH|].
      apply path_step with i; auto. now apply adjacent_spec.
  Qed.
  Lemma reach_len_mono m : 0 < n -> length (reach m) <= length (reach (S m)).
  Proof. intro P. apply NoDup_incl_length; [apply reach_nodup|now apply reach_mono]. Qed.
  (** no growth in one round means closure *)
  Lemma stable_step m : 0 < n -> length (reach (S m)) = length (reach m) -> incl (reach (S m)) (reach m).
  Proof. intros P E. apply NoDup_length_incl; [apply reach_nodup|lia|now apply reach_mono]. Qed.
  Lemma stable_all m : 0 < n -> incl (reach (S m)) (reach m) -> forall j, path g 0 j -> In j (reach m).
  Proof.
    intros P ST j H. remember 0 as z. induction H as [i Hi|i j k H IH Hk E].
    - subst i. clear -P. induction m; [left; auto|]. apply (reach_mono m P). auto.
    - apply ST. simpl. apply round_spec. split; auto. right. exists j. split; auto. now apply adjacent_spec.
  Qed.
  Lemma growth m : 0 < n -> (forall k, k < m -> length (reach (S k)) <> length (reach k)) -> m + 1 <= length (reach m).
  Proof.
    intros P. induction m as [|m IH]; intro H; [simpl; lia|].
    specialize (IH (fun k Hk => H k (Nat.lt_trans _ _ _ Hk (Nat.lt_succ_diag_r m)))).
    pose proof (H m (Nat.lt_succ_diag_r m)). pose proof (reach_len_mono m P). lia.
  Qed.
  Lemma reach_all j : 0 < n -> path g 0 j -> In j (reach n).
  Proof.
    intros P H.
    assert (D : (exists k, k < n /\ length (reach (S k)) = length (reach k)) \/ forall k, k < n -> length (reach (S k)) <> length (reach k)).
    { clear H. induction n as [|m IH]; [right; lia|]. destruct m; [|].
      - destruct (Nat.eq_dec (length (reach 1)) (length (reach 0))); [left; exists 0; split; auto|right]. intros k Hk. replace k with 0 by lia. auto.
      - destruct IH as [(k & A & B)|C]; [lia|left; exists k; split; auto|].
        destruct (Nat.eq_dec (length (reach (S (S m)))) (length (reach (S m)))); [left; exists (S m); split; auto|right].
        intros k Hk. destruct (Nat.eq_dec k (S m)); [now subst|]. apply C. lia. }
    destruct D as [(k & A & B)|C].
    - assert (I : In j (reach k)) by (apply stable_all; auto; now apply stable_step).
      assert (M : forall d, incl (reach k) (reach (k + d))).
      { induction d; [rewrite Nat.add_0_r; apply incl_refl|]. rewrite Nat.add_succ_r. eapply incl_tran; [exact IHd|now apply reach_mono]. }
      replace n with (k + (n - k)) by lia. now apply M.
    - exfalso. pose proof (growth n P C) as G1.
      assert (length (reach n) <= length (seq 0 n)).
      { apply NoDup_incl_length; [apply reach_nodup|]. intros x Hx. apply in_seq. pose proof (reach_range n P x Hx). lia. }
      rewrite seq_length in H0. lia.
  Qed.

  Lemma path_trans i j k : path g i j -> path g j k -> path g i k.
  Proof. intros A B. induction B as [|i' j k B IH Hk E]; auto. apply path_step with j; auto. Qed.
  Lemma path_range i j : path g i j -> i < n /\ j < n.
  Proof. induction 1; auto. destruct IHpath; auto. Qed.
  Lemma path_sym i j : path g i j -> path g j i.
  Proof.
    induction 1 as [|i j k H IH Hk E]; [now constructor|]. destruct (path_range _ _ H).
    apply path_trans with j; auto. apply path_step with k; auto; [now constructor|tauto].
  Qed.

  Lemma is_connected_spec : 0 < n -> (is_connected g = true <-> connected g).
  Proof.
    intro P. unfold is_connected. rewrite Nat.eqb_eq. change (bfs g) with (reach n). split.
    - intros E. assert (I : incl (seq 0 n) (reach n)).
      { apply NoDup_length_incl; [apply reach_nodup|rewrite seq_length; lia|].
        intros x Hx. apply in_seq. pose proof (reach_range n P x Hx). lia. }
      assert (A : forall j, j < n -> path g 0 j) by (intros j Hj; apply (reach_path n P), I, in_seq; lia).
      intros i j Hi Hj. apply path_trans with 0; [apply path_sym|]; auto.
    - intro C. apply Nat.le_antisymm.
      + rewrite <- (seq_length n 0) at 2. apply NoDup_incl_length; [apply reach_nodup|].
        intros x Hx. apply in_seq. pose proof (reach_range n P x Hx). lia.
      + rewrite <- (seq_length n 0) at 1. apply NoDup_incl_length; [apply seq_NoDup|].
        intros x Hx. apply in_seq in Hx. apply reach_all; auto. apply C; lia.
  Qed.
End G.

Lemma star_connected m : is_connected (star (S m)) = true.
Proof.
  apply is_connected_spec; [simpl; lia|].
  assert (H : forall j, j < S m -> path (star (S m)) 0 j).
  { intros j Hj. destruct j; [constructor; simpl; lia|]. apply path_step with 0; [constructor; simpl; lia|simpl; lia|].
    left. simpl. rewrite Nat.sub_0_r. apply in_map_iff. exists (S j). split; auto. apply in_seq. lia. }
  intros i j Hi Hj. simpl in Hi, Hj. apply path_trans with 0; [apply path_sym|]; auto.
Qed.

Lemma init_schemes_spec ids a : (init_schemes ids a <> None <-> scheme_ok ids a) /\
  forall m, init_schemes ids a = Some m -> map fst m = ids /\ forall i x, In (i, x) m -> scheme_for a i x.
Proof.
  destruct a as [|y|d|]; simpl.
  - split; [split; [auto|discriminate]|]. intros m [= <-]. split; [rewrite map_map; apply map_id|].
    intros i x I. apply in_map_iff in I. destruct I as (? & [= <- <-] & _). auto.
  - split; [split; [auto|discriminate]|]. intros m [= <-]. split; [rewrite map_map; apply map_id|].
    intros i x I. apply in_map_iff in I. destruct I as (? & [= <- <-] & _). auto.
  - assert (E : forallb (fun i => dmem Nat.eqb d i) ids = true <-> forall i, In i ids -> In i (map fst d)).
    { rewrite forallb_forall. split; intros H i I; specialize (H i I); now apply (dmem_In _ _ _ Nat.eqb_spec). }
    destruct (forallb _ ids).
    + split; [split; [intros _; now apply E|discriminate]|]. intros m [= <-]. split; [rewrite map_map; apply map_id|].
      intros i x I. apply in_map_iff in I. destruct I as (j & [= <- <-] & J). assert (M := proj1 E eq_refl j J).
      apply (dmem_In _ _ _ Nat.eqb_spec) in M. unfold dmem in M. destruct (dget Nat.eqb d j); [eauto|discriminate].
    + split; [split; [congruence|intro H; apply E in H; discriminate]|discriminate].
  - split; [split; [congruence|tauto]|discriminate].
Qed.

Lemma assign_other hs : forall s i k, ~ In k hs -> assign s hs i k = s k.
Proof.
  induction hs as [|h t IH]; intros s i k H; simpl; auto. rewrite IH by (simpl in H; tauto).
  unfold set_index. destruct (Nat.eqb_spec k h); auto. subst. exfalso. apply H. left; auto.
Qed.
Lemma assign_nth hs : forall s i j d, NoDup hs -> j < length hs ->
  g_index (assign s hs i (nth j hs d)) = Z.of_nat (i + j).
Proof.
  induction hs as [|h t IH]; intros s i j d ND H; simpl in *; [lia|]. inversion ND; subst.
  destruct j.
  - rewrite assign_other by auto. unfold set_index. rewrite Nat.eqb_refl. simpl. f_equal. lia.
  - rewrite IH by (auto; lia). f_equal. lia.
Qed.
Lemma assign_frame hs : forall s i k, g_id (assign s hs i k) = g_id (s k) /\ g_sig (assign s hs i k) = g_sig (s k) /\
  g_server (assign s hs i k) = g_server (s k) /\ g_always (assign s hs i k) = g_always (s k) /\ g_period (assign s hs i k) = g_period (s k).
Proof.
  induction hs as [|h t IH]; intros s i k; simpl; auto. destruct (IH (set_index s h (Z.of_nat i)) (S i) k) as (A & B & C & D & E).
  rewrite A, B, C, D, E. unfold set_index. destruct (Nat.eqb k h); auto.
Qed.

Lemma compatible_spec s hs : compatible s hs = true <-> forall h k, In h hs -> In k hs -> g_sig (s h) = g_sig (s k).
Proof.
  destruct hs as [|h t]; simpl; [split; [intros _ ? ? []|auto]|].
  rewrite forallb_forall. split.
  - intros H. assert (X : forall k, In k (h :: t) -> g_sig (s k) = g_sig (s h)).
    { intros k [<-|I]; auto. apply Nat.eqb_eq. now apply H. }
    intros a b A B. now rewrite (X a A), (X b B).
  - intros H k I. apply Nat.eqb_eq. apply H; auto.
Qed.
Lemma validate_spec s hs : validate_ids s hs = true <->
  NoDup (map (fun h => g_id (s h)) hs) /\ forall h, In h hs -> g_index (s h) = (-1)%Z.
Proof.
  unfold validate_ids. rewrite andb_true_iff, Nat.eqb_eq, forallb_forall.
  assert (E : length (nodup Nat.eq_dec (map (fun h => g_id (s h)) hs)) = length hs <-> NoDup (map (fun h => g_id (s h)) hs)).
  { rewrite <- (map_length (fun h => g_id (s h)) hs). generalize (map (fun h => g_id (s h)) hs). clear. intro l. split.
    - induction l as [|a l IH]; simpl; [constructor|]. destruct (in_dec Nat.eq_dec a l).
      + intro H. exfalso. pose proof (NoDup_incl_length (NoDup_nodup Nat.eq_dec l) (fun x h => proj1 (nodup_In Nat.eq_dec l x) h)).
        simpl in H. lia.
      + simpl. intro H. constructor; auto.
    - intro ND. now rewrite nodup_fixed_point. }
  rewrite E. split; intros (A & B); split; auto; intros h H; specialize (B h H); now apply Z.eqb_eq.
Qed.
