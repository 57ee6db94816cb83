From Coq Require Import List Bool Arith ZArith QArith Qround Reals Permutation Lia Lra.
From Flocq Require Import Core.Raux Core.Generic_fmt Core.Round_NE.
From Verif.Model Require Import Schemes Compression.
From Verif.Spec Require Import CompressionSpec.
From Verif.Proofs Require Import SchemesProofs SortProofs.
Import ListNotations.
Open Scope R_scope.

Lemma quant_err step v : 0 < step -> Rabs (step * IZR (ZnearestE (v / step)) - v) <= step / 2.
Proof.
  intro P. pose proof (Znearest_half (fun x => negb (Z.even x)) (v / step)) as H.
  replace (step * IZR (ZnearestE (v / step)) - v) with (- (step * (v / step - IZR (ZnearestE (v / step))))) by (field; lra).
  rewrite Rabs_Ropp, Rabs_mult, (Rabs_pos_eq step) by lra.
  apply Rmult_le_compat_l with (r := step) in H; [|lra]. unfold Rdiv at 2. exact H.
Qed.
Lemma quant_fix step z : 0 < step -> step * IZR (ZnearestE (step * IZR z / step)) = step * IZR z.
Proof.
  intro P. replace (step * IZR z / step) with (IZR z) by (field; lra).
  assert (E : ZnearestE (IZR z) = z) by (apply (@Zrnd_IZR ZnearestE _ z)). now rewrite E.
Qed.

(** the nearest multiple *)
Lemma quant_nearest step v z : 0 < step -> Rabs (step * IZR (ZnearestE (v / step)) - v) <= Rabs (step * IZR z - v).
Proof.
  intro P. set (q := ZnearestE (v / step)).
  destruct (Z.eq_dec z q) as [->|N]; [lra|]. pose proof (quant_err step v P) as E. fold q in E.
  assert (D : step <= Rabs (step * IZR z - step * IZR q)).
  { rewrite <- Rmult_minus_distr_l, <- minus_IZR, Rabs_mult, (Rabs_pos_eq step) by lra.
    rewrite <- (Rmult_1_r step) at 1. apply Rmult_le_compat_l; [lra|]. rewrite <- abs_IZR. apply IZR_le. lia. }
  assert (T : Rabs (step * IZR z - step * IZR q) <= Rabs (step * IZR z - v) + Rabs (step * IZR q - v)).
  { replace (step * IZR z - step * IZR q) with ((step * IZR z - v) + - (step * IZR q - v)) by ring.
    eapply Rle_trans; [apply Rabs_triang|]. rewrite Rabs_Ropp. lra. }
  lra.
Qed.

Lemma sqsum_nonneg l : 0 <= sqsum l.
Proof. induction l; simpl; [lra|]. pose proof (Rle_0_sqr a). unfold Rsqr in H. lra. Qed.
Lemma norm_entry l v : In v l -> Rabs v <= norm2 l.
Proof.
  intro H. unfold norm2. fold (sqsum l). rewrite <- sqrt_Rsqr_abs. apply sqrt_le_1; [apply Rle_0_sqr|apply sqsum_nonneg|].
  induction l as [|x l IH]; [destruct H|]. simpl. fold (sqsum l). unfold Rsqr in *. destruct H as [->|H].
  - pose proof (sqsum_nonneg l). lra.
  - specialize (IH H). pose proof (Rle_0_sqr x). unfold Rsqr in *. lra.
Qed.
Lemma norm_nonneg l : 0 <= norm2 l. Proof. apply sqrt_pos. Qed.
Lemma norm_zero l : norm2 l = 0 -> forall v, In v l -> v = 0.
Proof.
  intros H v I. pose proof (norm_entry l v I) as E. rewrite H in E. pose proof (Rabs_pos v).
  destruct (Req_dec v 0); auto. apply Rabs_no_R0 in H1. lra.
Qed.

Lemma sgn_abs v : sgn v * Rabs v = v.
Proof.
  unfold sgn. destruct (Rlt_dec v 0); [rewrite Rabs_left by lra; ring|].
  destruct (Rlt_dec 0 v); [rewrite Rabs_right by lra; ring|]. replace v with 0 by lra. rewrite Rabs_R0. ring.
Qed.

Section SQ.
  Variables (s : Z) (norm v : R).
  Hypotheses (Hs : (0 < s)%Z) (Hn : 0 < norm) (Hv : Rabs v <= norm).
  Notation a := (IZR s * Rabs v / norm).
  Lemma s_pos : 0 < IZR s. Proof. now apply IZR_lt. Qed.
  Lemma a_range : 0 <= a <= IZR s.
  Proof.
    pose proof s_pos. pose proof (Rabs_pos v). split.
    - apply Rmult_le_pos; [apply Rmult_le_pos; lra|]. left. now apply Rinv_0_lt_compat.
    - apply Rmult_le_reg_r with norm; auto. unfold Rdiv. rewrite Rmult_assoc, Rinv_l, Rmult_1_r by lra.
      apply Rmult_le_compat_l; lra.
  Qed.
  Lemma level_spec u : 0 <= u < 1 ->
    let l := sq_level s norm v u in
    (l = Zfloor a \/ l = Zfloor a + 1)%Z /\ (0 <= l <= s)%Z /\ Rabs (IZR l - a) < 1 /\
    (l = (Zfloor a + 1)%Z <-> u < a - IZR (Zfloor a)).
  Proof.
    intros Hu l. pose proof a_range as (A0 & A1).
    pose proof (Zfloor_lb a) as L. pose proof (Zfloor_ub a) as U.
    assert (F0 : (0 <= Zfloor a)%Z) by (apply Zfloor_lub; simpl; lra).
    unfold l, sq_level. cbv zeta. destruct (Rlt_dec u (a - IZR (Zfloor a))) as [C|C].
    - split; [auto|]. rewrite plus_IZR. split; [split; [lia|]|].
      + assert (IZR (Zfloor a) < IZR s) by lra. apply lt_IZR in H. lia.
      + split; [|tauto]. apply Rabs_def1; lra.
    - rewrite Z.add_0_r. split; [auto|]. split; [split; [lia|apply le_IZR; lra]|]. split.
      + apply Rabs_def1; lra.
      + split; [lia|tauto].
  Qed.
  Lemma entry_err u : 0 <= u < 1 -> Rabs (sq_entry s norm v u - v) <= norm / IZR s.
  Proof.
    intro Hu. pose proof s_pos. destruct (level_spec u Hu) as (_ & _ & E & _). unfold sq_entry.
    set (l := sq_level s norm v u) in *.
    replace (norm * sgn v * IZR l / IZR s - v) with (sgn v * ((norm / IZR s) * (IZR l - a))).
    2:{ transitivity (norm * sgn v * IZR l / IZR s - sgn v * Rabs v); [field; split; lra|now rewrite sgn_abs]. }
    rewrite !Rabs_mult. rewrite (Rabs_pos_eq (norm / IZR s)).
    2:{ apply Rmult_le_pos; [lra|]. left. now apply Rinv_0_lt_compat. }
    assert (S : Rabs (sgn v) <= 1).
    { unfold sgn. destruct (Rlt_dec v 0); [rewrite Rabs_left; lra|]. destruct (Rlt_dec 0 v); [rewrite Rabs_right; lra|rewrite Rabs_R0; lra]. }
    assert (Q : 0 <= norm / IZR s) by (apply Rmult_le_pos; [lra|left; now apply Rinv_0_lt_compat]).
    rewrite <- (Rmult_1_l (norm / IZR s)) at 2. apply Rmult_le_compat; auto using Rabs_pos.
    - apply Rmult_le_pos; auto using Rabs_pos.
    - rewrite <- (Rmult_1_r (norm / IZR s)) at 2. apply Rmult_le_compat_l; lra.
  Qed.
End SQ.

Lemma keep_length idx msg : length (keep idx msg) = length msg.
Proof. unfold keep. now rewrite map_length, seq_length. Qed.
Lemma keep_nth idx msg i : (i < length msg)%nat -> nth i (keep idx msg) 0 = if existsb (Nat.eqb i) idx then nth i msg 0 else 0.
Proof.
  intro H. unfold keep. set (f := fun i => _).
  rewrite nth_indep with (d' := f 0%nat) by (rewrite map_length, seq_length; auto). rewrite map_nth, seq_nth by auto. reflexivity.
Qed.
Lemma k_count_range k n : valid_k k -> (1 <= n)%nat -> (1 <= k_count k n <= n)%nat.
Proof.
  intros V H. destruct k as [k|f]; cbn [k_count valid_k] in *; [lia|]. destruct V as (V1 & V2).
  split; [lia|]. assert (Qceiling (f * inject_Z (Z.of_nat n)) <= Z.of_nat n)%Z; [|lia].
  assert (N : (0 <= inject_Z (Z.of_nat n))%Q) by (unfold Qle; simpl; lia).
  assert (X : (f * inject_Z (Z.of_nat n) <= inject_Z (Z.of_nat n))%Q).
  { apply Qle_trans with (1 * inject_Z (Z.of_nat n))%Q; [apply Qmult_le_compat_r; auto|]. rewrite Qmult_1_l. apply Qle_refl. }
  apply Qceiling_resp_le in X. now rewrite Qceiling_Z in X.
Qed.
Lemma k_ceil_pos f n : (0 < f)%Q -> (1 <= n)%nat -> (1 <= Qceiling (f * inject_Z (Z.of_nat n)))%Z.
Proof.
  intros F H. assert (P : (0 < f * inject_Z (Z.of_nat n))%Q).
  { apply Qmult_lt_0_compat; auto. unfold Qlt; simpl; lia. }
  pose proof (Qle_ceiling (f * inject_Z (Z.of_nat n))) as L.
  assert (Q : (0 < inject_Z (Qceiling (f * inject_Z (Z.of_nat n))))%Q) by (eapply Qlt_le_trans; eauto).
  unfold Qlt in Q. cbn [Qnum Qden inject_Z] in Q. lia.
Qed.
Lemma k_init_valid k k' : k_init k = Some k' -> k' = k /\ valid_k k.
Proof.
  unfold k_init. destruct k as [k|f].
  - destruct (Z.ltb_spec k 1); [discriminate|]. intros [= <-]. split; auto.
  - destruct (Qle_bool f 0) eqn:E1; [discriminate|]. destruct (Qltb 1 f) eqn:E2; [discriminate|]. intros [= <-]. split; auto.
    split; [|now apply Qltb_false]. apply Qltb_spec. unfold Qltb. now rewrite E1.
Qed.
Lemma existsb_eqb_in i l : existsb (Nat.eqb i) l = true <-> In i l.
Proof. apply inb_spec. Qed.
Lemma in_skipn {A} k (l : list A) x : In x (skipn k l) -> In x l.
Proof. intro H. rewrite <- (firstn_skipn k l). apply in_or_app; auto. Qed.
Lemma NoDup_skipn {A} k (l : list A) : NoDup l -> NoDup (skipn k l).
Proof. intro H. revert k. induction H as [|x l N H IH]; intros [|k]; simpl; auto; constructor; auto. Qed.
Lemma some_inv {A} (a b : A) : Some a = Some b -> a = b.
Proof. intro H. injection H as ->. auto. Qed.
