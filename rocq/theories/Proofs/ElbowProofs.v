(** Least-squares fit of an elbow curve. *)
From Coq Require Import Reals List Bool Arith ZArith Lia Lra.
From Verif.Model Require Import History Vec Metrics Elbow.
From Verif.Spec Require Import CostSpec ElbowSpec.
From Verif.Proofs Require Import VecProofs CostProofs EmpiricalProofs MetricsProofs.
Import ListNotations.
Local Open Scope R_scope.

(** ** Sums *)
Lemma rsum_app l l' : rsum (l ++ l') = rsum l + rsum l'.
Proof. induction l as [|a l IH]; cbn [app]; rewrite ?rsum_cons, ?rsum_nil; [lra|]. rewrite IH. lra. Qed.
Lemma sumn_shift f : forall n, sumn (S n) f = f 0%nat + sumn n (fun j => f (S j)).
Proof. induction n as [|n IH]; [cbn; lra|]. cbn [sumn] in *. rewrite IH. lra. Qed.
Lemma rsum_rows (g : (R * R) * R -> R) (d : nat -> R * R) : forall y k,
  rsum (map g (combine (map d (seq k (length y))) y)) = sumn (length y) (fun j => g (d (k + j)%nat, nth j y 0)).
Proof.
  induction y as [|v y IH]; intro k; [reflexivity|]. cbn [length seq map combine]. rewrite rsum_cons, IH, sumn_shift.
  cbn [nth]. rewrite Nat.add_0_r. f_equal. apply sumn_ext. intros j _. now rewrite Nat.add_succ_r.
Qed.
Lemma map_min_rows b : forall k n, map (fun j => (INR (Nat.min j b), 1)) (seq (b + S k) n) = repeat (INR b, 1) n.
Proof.
  intros k n. revert k. induction n as [|n IH]; intro k; [reflexivity|]. cbn [seq map repeat].
  rewrite Nat.min_r by lia. f_equal. rewrite <- Nat.add_succ_r. apply IH.
Qed.
Lemma design_rows m b : (b + 1 <= m)%nat -> design m b = map (fun j => (INR (Nat.min j b), 1)) (seq 0 m).
Proof.
  intro H. unfold design. replace m with ((b + 1) + (m - b - 1))%nat at 2 by lia. rewrite (seq_app (b + 1) (m - b - 1) 0), (map_app _ (seq 0 (b + 1))). f_equal.
  - apply map_ext_in. intros j I. apply in_seq in I. rewrite Nat.min_l by lia. reflexivity.
  - symmetry. rewrite <- (map_min_rows b 0 (m - b - 1)). reflexivity.
Qed.
Lemma elbow_min s y0 b x : elbow s y0 b x = s * INR (Nat.min x b) + y0.
Proof. unfold elbow. destruct (Nat.leb_spec x b); [now rewrite Nat.min_l by lia|now rewrite Nat.min_r by lia]. Qed.

(** ** The normal equations *)
Lemma s01_sum m b : (b + 1 <= m)%nat -> s01 m b = sumn m (fun j => INR (Nat.min j b)).
Proof.
  intro H. replace m with ((b + 1) + (m - b - 1))%nat by lia. generalize (m - b - 1)%nat as r. clear H m.
  assert (A : forall b', (b' <= b)%nat -> INR b' * (INR b' + 1) / 2 = sumn (b' + 1) (fun j => INR (Nat.min j b))).
  { induction b' as [|b' IH]; intro L; [cbn; lra|]. replace (S b' + 1)%nat with (S (b' + 1)) by lia. cbn [sumn]. rewrite <- IH by lia.
    rewrite Nat.min_l by lia. rewrite Nat.add_1_r, S_INR. field. }
  induction r as [|r IH].
  - rewrite Nat.add_0_r. unfold s01. rewrite <- A by lia. rewrite plus_INR. cbn [INR]. ring.
  - rewrite Nat.add_succ_r. cbn [sumn]. rewrite <- IH, Nat.min_r by lia. unfold s01. rewrite S_INR. ring.
Qed.
Lemma s00_sum m b : (b + 1 <= m)%nat -> s00 m b = sumn m (fun j => INR (Nat.min j b) * INR (Nat.min j b)).
Proof.
  intro H. replace m with ((b + 1) + (m - b - 1))%nat by lia. generalize (m - b - 1)%nat as r. clear H m.
  assert (A : forall b', (b' <= b)%nat -> INR b' * (INR b' + 1) * (2 * INR b' + 1) / 6 = sumn (b' + 1) (fun j => INR (Nat.min j b) * INR (Nat.min j b))).
  { induction b' as [|b' IH]; intro L; [cbn; lra|]. replace (S b' + 1)%nat with (S (b' + 1)) by lia. cbn [sumn]. rewrite <- IH by lia.
    rewrite Nat.min_l by lia. rewrite Nat.add_1_r, S_INR. field. }
  induction r as [|r IH].
  - rewrite Nat.add_0_r. unfold s00. rewrite <- A by lia. rewrite plus_INR. cbn [INR]. ring.
  - rewrite Nat.add_succ_r. cbn [sumn]. rewrite <- IH, Nat.min_r by lia. unfold s00. rewrite S_INR. ring.
Qed.
Lemma sdet_pos m b : (1 <= b)%nat -> (b + 1 <= m)%nat -> 0 < sdet m b.
Proof.
  intros B H. unfold sdet, s11. replace m with (b + 1 + (m - b - 1))%nat by lia. generalize (m - b - 1)%nat as r. intro r. clear H.
  unfold s00, s01. rewrite !plus_INR. cbn [INR]. pose proof (pos_INR r). apply le_INR in B. cbn [INR] in B.
  set (x := INR b) in *. set (z := INR r) in *.
  replace (_ - _) with (x * (x + 1) * (x + 1) * (x + 2) / 12 + z * (x * (x + 1) * (2 * x + 1) / 6)) by field.
  assert (0 < x * (x + 1) * (x + 1) * (x + 2)) by (repeat apply Rmult_lt_0_compat; lra).
  assert (0 <= z * (x * (x + 1) * (2 * x + 1) / 6)).
  { apply Rmult_le_pos; [lra|]. unfold Rdiv. apply Rmult_le_pos; [|lra]. apply Rmult_le_pos; [apply Rmult_le_pos|]; lra. }
  lra.
Qed.

(** What [fit_given] returns, in terms of sums over the data points. *)
Section Fit.
  Variables (y : list R) (b : nat).
  Hypothesis B : (1 <= b < length y)%nat.
  Let m := length y.
  Let r (j : nat) : R := INR (Nat.min j b).
  Let v (j : nat) : R := nth j y 0.

  Lemma sse_eq s y0 : sse y s y0 b = sumn m (fun j => (r j * s + y0 - v j) * (r j * s + y0 - v j)).
  Proof. unfold sse. apply sumn_ext. intros j _. rewrite elbow_min. unfold r, v. ring. Qed.

  Lemma fit_given_ok : exists s y0, fit_given y b = Ok (s, y0, sqrt (sse y s y0 b)) /\
    sumn m (fun j => r j * (r j * s + y0 - v j)) = 0 /\ sumn m (fun j => r j * s + y0 - v j) = 0.
  Proof.
    unfold fit_given. destruct (Nat.ltb_spec (length y) (b + 1)) as [H|H]; [lia|].
    rewrite design_rows by exact H. rewrite !map_map, !rsum_rows. cbn [fst snd Nat.add].
    fold m. set (s := _ / _ * _ + _) at 1. set (y0 := (- s01 m b / _ * _ + s00 m b / _ * _)).
    exists s, y0. split; [|].
    { unfold s at 1, y0 at 1. fold y0. repeat f_equal. rewrite sse_eq. apply sumn_ext. intros j _. unfold r, v. fold m s y0. ring. }
    pose proof (sdet_pos m b ltac:(lia) ltac:(unfold m; lia)) as D.
    assert (E0 : s00 m b = sumn m (fun j => r j * r j)) by (apply s00_sum; unfold m; lia).
    assert (E1 : s01 m b = sumn m r) by (apply s01_sum; unfold m; lia).
    set (P := sumn m (fun j => r j * v j)). set (Q := sumn m v).
    assert (Es : s = (s11 m b * P - s01 m b * Q) / sdet m b).
    { unfold s. rewrite (sumn_ext m _ (fun j => r j * v j)) by reflexivity. rewrite (sumn_ext m (fun j => 1 * nth j y 0) v) by (intros; unfold v; ring).
      change (sumn m (fun j => r j * v j)) with P. change (sumn m v) with Q. field. lra. }
    assert (Ey : y0 = (s00 m b * Q - s01 m b * P) / sdet m b).
    { unfold y0. rewrite (sumn_ext m (fun x => INR (Nat.min x b) * nth x y 0) (fun j => r j * v j)) by reflexivity. rewrite (sumn_ext m (fun j => 1 * nth j y 0) v) by (intros; unfold v; ring).
      change (sumn m (fun j => r j * v j)) with P. change (sumn m v) with Q. field. lra. }
    assert (N0 : sumn m (fun j => r j * (r j * s + y0 - v j)) = s00 m b * s + s01 m b * y0 - P).
    { rewrite (sumn_ext m _ (fun j => s * (r j * r j) + (y0 * r j + (-1) * (r j * v j)))) by (intros; ring).
      rewrite !sumn_plus, !sumn_scal. change (sumn m (fun j => r j)) with (sumn m r). change (sumn m (fun j => r j * v j)) with P. rewrite <- E0, <- E1. ring. }
    assert (N1 : sumn m (fun j => r j * s + y0 - v j) = s01 m b * s + s11 m b * y0 - Q).
    { rewrite (sumn_ext m _ (fun j => s * r j + (y0 * 1 + (-1) * v j))) by (intros; ring).
      rewrite !sumn_plus, !sumn_scal. change (sumn m (fun j => r j)) with (sumn m r). rewrite <- E1. unfold s11.
      assert (C : forall k, sumn k (fun _ => 1) = INR k). { induction k; [reflexivity|]. cbn [sumn]. rewrite IHk, S_INR. ring. }
      rewrite C.
 change (sumn m v) with Q. ring. }
    rewrite N0, N1, Es, Ey. unfold sdet in *. split; field; lra.
  Qed.

  (** Distance to any other curve with the same breakpoint. *)
  Lemma fit_gap s y0 : sumn m (fun j => r j * (r j * s + y0 - v j)) = 0 -> sumn m (fun j => r j * s + y0 - v j) = 0 ->
    forall s' y0', sse y s' y0' b = sse y s y0 b + sumn m (fun j => (elbow s' y0' b j - elbow s y0 b j) ^ 2).
  Proof.
    intros N0 N1 s' y0'. rewrite !sse_eq.
    rewrite (sumn_ext m (fun j => (r j * s' + y0' - v j) * (r j * s' + y0' - v j))
      (fun j => (r j * s + y0 - v j) * (r j * s + y0 - v j) + ((elbow s' y0' b j - elbow s y0 b j) ^ 2 +
        (2 * (s' - s) * (r j * (r j * s + y0 - v j)) + 2 * (y0' - y0) * (r j * s + y0 - v j))))).
    - rewrite !sumn_plus, !sumn_scal, N0, N1. ring.
    - intros j _. rewrite !elbow_min. fold (r j). ring.
  Qed.
  Lemma elbow_gap s y0 s' y0' : sumn m (fun j => (elbow s' y0' b j - elbow s y0 b j) ^ 2) <= 0 -> s' = s /\ y0' = y0.
  Proof.
    intro Z. assert (S : forall j, (j < m)%nat -> (elbow s' y0' b j - elbow s y0 b j) ^ 2 = 0).
    { apply (sumn_zero_inv m (fun j => (elbow s' y0' b j - elbow s y0 b j) ^ 2)); [|exact Z]. intros j _. apply pow2_ge_0. }
    assert (S0 := S 0%nat ltac:(unfold m; lia)). assert (S1 := S 1%nat ltac:(unfold m; lia)).
    rewrite !elbow_min in S0, S1. rewrite Nat.min_l in S0 by lia. rewrite Nat.min_l in S1 by lia. cbn [INR] in S0, S1.
    assert (Q : forall z : R, z ^ 2 = 0 -> z = 0). { intros z Hz. destruct (Req_dec z 0); auto. exfalso. apply (pow_nonzero z 2); auto. }
    apply Q in S0. apply Q in S1. lra.
  Qed.

  Lemma sse_nonneg s y0 b' : 0 <= sse y s y0 b'.
  Proof. apply sumn_nonneg. intros; apply pow2_ge_0. Qed.

  Lemma fit_given_least : exists s y0, fit_given y b = Ok (s, y0, sqrt (sse y s y0 b)) /\ least_squares y s y0 b /\
    (forall s' y0', sse y s' y0' b <= sse y s y0 b -> s' = s /\ y0' = y0).
  Proof.
    destruct fit_given_ok as (s & y0 & E & N0 & N1). exists s, y0. split; [exact E|]. split.
    - intros s' y0'. rewrite (fit_gap s y0 N0 N1 s' y0').
      assert (0 <= sumn m (fun j => (elbow s' y0' b j - elbow s y0 b j) ^ 2)) by (apply sumn_nonneg; intros; apply pow2_ge_0). lra.
    - intros s' y0' L. rewrite (fit_gap s y0 N0 N1 s' y0') in L. apply elbow_gap. lra.
  Qed.
End Fit.

(** ** Data on an elbow curve *)
Lemma sse_zero y s y0 b : sse y s y0 b <= 0 -> forall x, (x < length y)%nat -> nth x y 0 = elbow s y0 b x.
Proof.
  intros Z x Hx. assert (Q : (elbow s y0 b x - nth x y 0) ^ 2 = 0).
  { revert x Hx. apply (sumn_zero_inv (length y) (fun x => (elbow s y0 b x - nth x y 0) ^ 2)); [|exact Z]. intros; apply pow2_ge_0. }
  destruct (Req_dec (elbow s y0 b x - nth x y 0) 0) as [|N]; [lra|]. exfalso. exact (pow_nonzero _ 2 N Q).
Qed.
Lemma on_elbow_sse y s y0 b : on_elbow y s y0 b -> sse y s y0 b = 0.
Proof.
  intros (_ & E). unfold sse. rewrite (sumn_ext (length y) _ (fun _ => 0)); [apply sumn_zero|]. intros x Hx. rewrite E by exact Hx. ring.
Qed.
Lemma on_elbow_unique y s y0 b s' y0' b' : on_elbow y s y0 b -> on_elbow y s' y0' b' ->
  s' = s /\ y0' = y0 /\ (s <> 0 -> b' = b).
Proof.
  intros (B & E) (B' & E').
  assert (X : forall x, (x < length y)%nat -> s * INR (Nat.min x b) + y0 = s' * INR (Nat.min x b') + y0').
  { intros x Hx. rewrite <- !elbow_min, <- E, <- E' by exact Hx. reflexivity. }
  assert (X0 := X 0%nat ltac:(lia)). assert (X1 := X 1%nat ltac:(lia)). rewrite !Nat.min_l in X0 by lia. rewrite !Nat.min_l in X1 by lia.
  cbn [INR] in X0, X1. assert (y0' = y0) by lra. assert (s' = s) by lra. subst. split; [reflexivity|]. split; [reflexivity|].
  intro N. assert (XM := X (Nat.max b b') ltac:(lia)). assert (XM' : s * (INR (Nat.min (Nat.max b b') b) - INR (Nat.min (Nat.max b b') b')) = 0) by lra.
  apply Rmult_integral in XM'. destruct XM' as [|Y]; [contradiction|]. assert (Z : INR (Nat.min (Nat.max b b') b) = INR (Nat.min (Nat.max b b') b')) by lra.
  apply INR_eq in Z. lia.
Qed.
