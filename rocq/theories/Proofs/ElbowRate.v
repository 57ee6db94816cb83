(** Covering grids, exact data, monotone data and rescaling. *)
From Coq Require Import Reals List Bool Arith ZArith Lia Lra.
From Verif.Model Require Import History Vec Metrics Elbow.
From Verif.Spec Require Import CostSpec ElbowSpec.
From Verif.Proofs Require Import VecProofs CostProofs EmpiricalProofs MetricsProofs ElbowProofs ElbowSearch.
Import ListNotations.
Local Open Scope R_scope.

Definition ranged (y : list R) (b1 b2 : nat) : Prop := (1 <= b1 <= b2)%nat /\ (b2 < length y)%nat.

Section Runs.
  Variables (y : list R) (num : nat) (tol : R) (trials : nat).
  Hypotheses (N : (2 <= num)%nat) (M : (2 <= length y)%nat) (T : (1 <= trials)%nat).
  Let out := search y num tol trials 1 (length y - 1) None.

  Lemma run_least : exists s y0 b, out = Ok (y0, s, (b - 1)%nat) /\ (1 <= b < length y)%nat /\ least_squares y s y0 b.
  Proof.
    destruct (search_inv y num tol N (ranged y)) with (trials := trials) (b1 := 1%nat) (b2 := (length y - 1)%nat) (best := @None R)
      as (s & y0 & b1' & b2' & i & E & R & BA); [auto| |exact T|unfold ranged; lia|].
    - intros b1 b2 i s y0 (R1 & R2) g (I & _). unfold g in I. rewrite grid_len in I. pose proof (step_range y num N b1 b2 i R1 R2 I) as X. cbn zeta in X. unfold ranged. fold g in X. lia.
    - cbn zeta in *. exists s, y0, (nth i (linspace_int b1' b2' num) 0%nat). split; [exact E|]. destruct BA as (I & LS & _). rewrite grid_len in I.
      split; [|exact LS]. assert (X := grid_range b1' b2' num ltac:(unfold ranged in R; lia) N _ (grid_in b1' b2' num i I)). unfold ranged in R. lia.
  Qed.

  Lemma run_cover : (length y <= num + 1)%nat -> exists s y0 b, out = Ok (y0, s, (b - 1)%nat) /\ best_elbow y s y0 b.
  Proof.
    intro C.
    set (P := fun b1 b2 => ranged y b1 b2 /\ (b2 - b1 <= num - 1)%nat /\
      forall b' s' y0', (1 <= b' < length y)%nat -> exists b s y0, (b1 <= b <= b2)%nat /\ sse y s y0 b <= sse y s' y0' b').
    assert (PS : forall b1 b2 i s y0, P b1 b2 -> best_at y (linspace_int b1 b2 num) i s y0 -> best_elbow y s y0 (nth i (linspace_int b1 b2 num) 0%nat)).
    { intros b1 b2 i s y0 (R & W & A) (I & LS & BA). rewrite grid_len in I. destruct R as (R1 & R2).
      assert (X := grid_range b1 b2 num ltac:(lia) N _ (grid_in b1 b2 num i I)). split; [lia|]. intros s' y0' b' B'.
      destruct (A b' s' y0' B') as (b & s1 & y1 & Hb & L). apply Rle_trans with (2 := L). apply BA. apply grid_all; [lia|exact N|exact W|exact Hb]. }
    destruct (search_inv y num tol N P) with (trials := trials) (b1 := 1%nat) (b2 := (length y - 1)%nat) (best := @None R)
      as (s & y0 & b1' & b2' & i & E & R & BA).
    - intros b1 b2 (R & _). exact R.
    - intros b1 b2 i s y0 HP g BA. pose proof (PS _ _ _ _ _ HP BA) as (B & BE). destruct HP as ((R1 & R2) & W & A). destruct BA as (I & _).
      unfold g in I. rewrite grid_len in I. pose proof (step_range y num N b1 b2 i R1 R2 I) as X. cbn zeta in X. fold g in X, B, BE.
      assert (Y1 := grid_range b1 b2 num ltac:(lia) N _ (grid_in b1 b2 num (i - 1) ltac:(lia))).
      assert (Y2 := grid_range b1 b2 num ltac:(lia) N _ (grid_in b1 b2 num (Nat.min (num - 1) (i + 1)) ltac:(lia))). fold g in Y1, Y2.
      unfold P, ranged. split; [lia|]. split; [lia|]. intros b' s' y0' B'. exists (nth i g 0%nat), s, y0. split; [lia|]. now apply BE.
    - exact T.
    - unfold P, ranged. split; [lia|]. split; [lia|]. intros b' s' y0' B'. exists b', s', y0'. split; [lia|lra].
    - cbn zeta in *. exists s, y0, (nth i (linspace_int b1' b2' num) 0%nat). split; [exact E|]. eapply PS; eauto.
  Qed.

  (** Exact data: the slope is found whenever the breakpoint is the last index. *)
  Lemma run_straight s0 i0 : on_elbow y s0 i0 (length y - 1) -> exists b, out = Ok (i0, s0, b).
  Proof.
    intro OE. destruct (Req_dec s0 0) as [Z|NZ].
    - subst s0. destruct run_least as (s & y0 & b & E & B & LS). exists (b - 1)%nat. rewrite E.
      assert (OB : on_elbow y 0 i0 b). { split; [exact B|]. intros x Hx. rewrite (proj2 OE x Hx), !elbow_min. ring. }
      assert (OB' : on_elbow y s y0 b). { split; [exact B|]. intros x Hx. apply sse_zero; [|exact Hx]. apply Rle_trans with (1 := LS 0 i0). rewrite (on_elbow_sse _ _ _ _ OB). lra. }
      destruct (on_elbow_unique _ _ _ _ _ _ _ OB OB') as (-> & -> & _). reflexivity.
    - set (P := fun b1 b2 => ranged y b1 b2 /\ b2 = (length y - 1)%nat).
      assert (PS : forall b1 b2 i s y0, P b1 b2 -> best_at y (linspace_int b1 b2 num) i s y0 ->
        s = s0 /\ y0 = i0 /\ nth i (linspace_int b1 b2 num) 0%nat = (length y - 1)%nat).
      { intros b1 b2 i s y0 ((R1 & R2) & EB) (I & LS & BA). rewrite grid_len in I.
        assert (X := grid_range b1 b2 num ltac:(lia) N _ (grid_in b1 b2 num i I)).
        assert (OB : on_elbow y s y0 (nth i (linspace_int b1 b2 num) 0%nat)).
        { split; [lia|]. intros x Hx. apply sse_zero; [|exact Hx]. apply Rle_trans with (1 := BA (length y - 1)%nat s0 i0 ltac:(rewrite <- EB, <- (grid_last b1 b2 num) at 1 by lia; apply grid_in; lia)).
          rewrite (on_elbow_sse _ _ _ _ OE). lra. }
        destruct (on_elbow_unique _ _ _ _ _ _ _ OE OB) as (-> & -> & U). auto. }
      destruct (search_inv y num tol N P) with (trials := trials) (b1 := 1%nat) (b2 := (length y - 1)%nat) (best := @None R)
        as (s & y0 & b1' & b2' & i & E & R & BA).
      + intros b1 b2 (R & _). exact R.
      + intros b1 b2 i s y0 HP g BA. destruct (PS _ _ _ _ _ HP BA) as (_ & _ & E). destruct HP as ((R1 & R2) & EB). destruct BA as (I & _).
        unfold g in I. rewrite grid_len in I. pose proof (step_range y num N b1 b2 i R1 R2 I) as X. cbn zeta in X. fold g in X, E. unfold P, ranged. lia.
      + exact T.
      + unfold P, ranged. lia.
      + cbn zeta in *. destruct (PS _ _ _ _ _ R BA) as (-> & -> & _). eexists. exact E.
  Qed.
End Runs.

(** Two passes: a perfect fit found by the first grid is given up when the
    second grid does not contain its breakpoint. *)
Lemma run_lost y num tol k s0 i0 b : (2 <= num)%nat -> 0 < tol -> on_elbow y s0 i0 b -> s0 <> 0 ->
  In b (linspace_int 1 (length y - 1) num) ->
  (forall i, (i < num)%nat -> nth i (linspace_int 1 (length y - 1) num) 0%nat = b ->
     let g := linspace_int 1 (length y - 1) num in
     ~ In b (linspace_int (nth (i - 1) g 0%nat) (nth (Nat.min (num - 1) (i + 1)) g 0%nat) num)) ->
  exists s y0 b', search y num tol (S (S k)) 1 (length y - 1) None = Ok (y0, s, (b' - 1)%nat) /\
    (1 <= b' < length y)%nat /\ b' <> b /\ 0 < sse y s y0 b'.
Proof.
  intros N T OE NZ IN OUT. destruct OE as (B & EB). assert (OE : on_elbow y s0 i0 b) by (split; auto).
  set (g := linspace_int 1 (length y - 1) num) in *.
  assert (G : forall b', In b' g -> (1 <= b' < length y)%nat). { intros b' I. apply grid_range in I; lia. }
  assert (NG : forall b1 b2, linspace_int b1 b2 num <> []). { intros b1 b2 Z. pose proof (grid_len b1 b2 num) as L. rewrite Z in L. cbn in L. lia. }
  destruct (pass y g (NG _ _) G) as (fits & E & R & BA). cbn zeta in R, BA.
  cbn [search]. fold g. rewrite E. cbn [rbind]. set (i := argmin (map snd fits)) in *. set (f := nth i fits (0, 0, 0)) in *.
  assert (I : (i < num)%nat). { destruct BA as (I & _). unfold g in I. now rewrite grid_len in I. }
  assert (Z : sse y (fst (fst f)) (snd (fst f)) (nth i g 0%nat) = 0).
  { apply Rle_antisym; [|apply sse_nonneg]. destruct BA as (_ & _ & BA). apply Rle_trans with (1 := BA b s0 i0 IN). rewrite (on_elbow_sse _ _ _ _ OE). lra. }
  assert (OI : on_elbow y (fst (fst f)) (snd (fst f)) (nth i g 0%nat)).
  { split; [apply G; apply nth_In; unfold g; now rewrite grid_len|]. apply sse_zero. lra. }
  destruct (on_elbow_unique _ _ _ _ _ _ _ OE OI) as (_ & _ & U). specialize (U NZ). rewrite R, Z, sqrt_0.
  cbn [Nat.max]. specialize (OUT i I U). cbn zeta in OUT.
  set (b1' := nth (i - 1) g 0%nat) in *. set (b2' := nth (Nat.min (num - 1) (i + 1)) g 0%nat) in *. set (g2 := linspace_int b1' b2' num) in *.
  pose proof (step_range y num N 1 (length y - 1) i ltac:(lia) ltac:(lia) I) as X. cbn zeta in X. fold g in X. fold b1' b2' in X.
  assert (G2 : forall b', In b' g2 -> (1 <= b' < length y)%nat). { intros b' I'. apply grid_range in I'; lia. }
  destruct (pass y g2 (NG _ _) G2) as (fits2 & E2 & R2 & BA2). cbn zeta in R2, BA2. rewrite E2. cbn [rbind].
  set (i2 := argmin (map snd fits2)) in *. set (f2 := nth i2 fits2 (0, 0, 0)) in *.
  destruct (Rlt_dec (0 - snd f2) tol) as [L|L].
  - exists (fst (fst f2)), (snd (fst f2)), (nth i2 g2 0%nat). assert (I2 : In (nth i2 g2 0%nat) g2) by (apply nth_In, BA2).
    split; [reflexivity|]. split; [apply G2, I2|]. split; [intro Q; rewrite Q in I2; contradiction|].
    destruct (sse_nonneg y (fst (fst f2)) (snd (fst f2)) (nth i2 g2 0%nat)) as [P|P]; [exact P|]. exfalso.
    assert (O2 : on_elbow y (fst (fst f2)) (snd (fst f2)) (nth i2 g2 0%nat)) by (split; [apply G2, I2|apply sse_zero; lra]).
    destruct (on_elbow_unique _ _ _ _ _ _ _ OE O2) as (_ & _ & U2). rewrite (U2 NZ) in I2. contradiction.
  - exfalso. apply L. rewrite R2. pose proof (sqrt_pos (sse y (fst (fst f2)) (snd (fst f2)) (nth i2 g2 0%nat))). lra.
Qed.

(** Monotone data have a slope of the same sign. *)
Section Mono.
  Variables (y : list R) (b : nat) (s y0 : R).
  Hypotheses (B : (1 <= b < length y)%nat) (LS : least_squares y s y0 b).
  Let m := length y.
  Let r (j : nat) : R := INR (Nat.min j b).
  Let e (j : nat) : R := r j * s + y0 - nth j y 0.
  Lemma normal : sumn m (fun j => r j * e j) = 0 /\ sumn m e = 0.
  Proof.
    destruct (fit_given_ok y b B) as (s1 & y1 & E & N0 & N1). destruct (fit_given_least y b B) as (s2 & y2 & E2 & LS2 & U).
    rewrite E in E2. injection E2 as <- <- _. destruct (U s y0 (LS s1 y1)) as (Es & Ey). unfold e, r. rewrite Es, Ey. split; [exact N0|exact N1].
  Qed.
  Lemma cross_zero : sumn m (fun i => sumn m (fun j => (r i - r j) * (e i - e j))) = 0.
  Proof.
    destruct normal as (N0 & N1).
    rewrite (sumn_ext m _ (fun i => (INR m * (r i * e i) + (- sumn m r) * e i))).
    - rewrite sumn_plus, !sumn_scal, N0. change (sumn m (fun i => e i)) with (sumn m e). rewrite N1. ring.
    - intros i _. rewrite (sumn_ext m _ (fun j => (r i * e i) * 1 + ((- r i) * e j + ((- e i) * r j + r j * e j)))) by (intros; ring).
      rewrite !sumn_plus, !sumn_scal, N0. change (sumn m (fun j => e j)) with (sumn m e). rewrite N1. change (sumn m (fun j => r j)) with (sumn m r).
      assert (C : forall k, sumn k (fun _ => 1) = INR k). { induction k; [reflexivity|]. cbn [sumn]. rewrite IHk, S_INR. ring. }
      rewrite C. ring.
  Qed.
  Lemma r_mono i j : (i <= j)%nat -> r i <= r j.
  Proof. intro. apply le_INR. lia. Qed.
  Lemma no_mono_err (sg : R) : (forall i j, (i < j < m)%nat -> sg * e i < sg * e j) -> False.
  Proof.
    intro H. assert (Z : sumn m (fun i => sumn m (fun j => sg * ((r i - r j) * (e i - e j)))) <= 0).
    { rewrite (sumn_ext m _ (fun i => sg * sumn m (fun j => (r i - r j) * (e i - e j)))) by (intros; apply sumn_scal).
      rewrite sumn_scal, cross_zero. lra. }
    assert (P : forall i j, (i < m)%nat -> (j < m)%nat -> 0 <= sg * ((r i - r j) * (e i - e j))).
    { intros i j Hi Hj. destruct (lt_eq_lt_dec i j) as [[L|L]|L].
      - pose proof (r_mono i j ltac:(lia)). pose proof (H i j ltac:(lia)). nra.
      - subst. right. ring.
      - pose proof (r_mono j i ltac:(lia)). pose proof (H j i ltac:(lia)). nra. }
    assert (Z1 := sumn_zero_inv m _ (fun i Hi => sumn_nonneg m _ (fun j Hj => P i j Hi Hj)) Z 1%nat ltac:(unfold m; lia)).
    assert (Z2 := sumn_zero_inv m _ (fun j Hj => P 1%nat j ltac:(unfold m; lia) Hj) (Req_le _ _ Z1) 0%nat ltac:(unfold m; lia)).
    cbn beta in Z2. pose proof (H 0%nat 1%nat ltac:(unfold m; lia)) as H01. unfold r in Z2 at 1 2. rewrite !Nat.min_l in Z2 by lia. cbn [INR] in Z2. lra.
  Qed.
  Lemma slope_neg : (forall i j, (i < j < length y)%nat -> nth j y 0 < nth i y 0) -> s < 0.
  Proof.
    intro H. destruct (Rlt_le_dec s 0) as [|Q]; [assumption|]. exfalso. apply (no_mono_err 1). intros i j L. unfold e.
    pose proof (H i j L). pose proof (r_mono i j ltac:(lia)). assert (r i * s <= r j * s) by (apply Rmult_le_compat_r; auto). lra.
  Qed.
  Lemma slope_pos : (forall i j, (i < j < length y)%nat -> nth i y 0 < nth j y 0) -> 0 < s.
  Proof.
    intro H. destruct (Rlt_le_dec 0 s) as [|Q]; [assumption|]. exfalso. apply (no_mono_err (-1)). intros i j L. unfold e.
    pose proof (H i j L). pose proof (r_mono i j ltac:(lia)). assert (r i * - s <= r j * - s) by (apply Rmult_le_compat_r; lra). lra.
  Qed.
End Mono.

(** Adding a constant to the data moves the intercept only. *)
Section Shift.
  Variables (d : R).
  Lemma sse_shift y s y0 b : sse (map (Rplus d) y) s (d + y0) b = sse y s y0 b.
  Proof.
    unfold sse. rewrite map_length. apply sumn_ext. intros x Hx.
    assert (E : nth x (map (Rplus d) y) 0 = d + nth x y 0).
    { rewrite (nth_indep _ _ (d + 0)) by now rewrite map_length. apply (map_nth (Rplus d)). }
    rewrite E. rewrite !elbow_min. ring.
  Qed.
  Lemma fit_shift y b : (1 <= b)%nat -> fit_given (map (Rplus d) y) b =
    rbind (fit_given y b) (fun f => Ok (fst (fst f), d + snd (fst f), snd f)).
  Proof.
    intro B. destruct (le_lt_dec (length y) b) as [L|L].
    - unfold fit_given. rewrite map_length. destruct (Nat.ltb_spec (length y) (b + 1)); [reflexivity|lia].
    - destruct (fit_given_least y b ltac:(lia)) as (s & y0 & E & LS & U). rewrite E. cbn [rbind fst snd].
      destruct (fit_given_least (map (Rplus d) y) b ltac:(rewrite map_length; lia)) as (s' & y0' & E' & LS' & U'). rewrite E'.
      destruct (U' s (d + y0)) as (<- & <-).
      + replace y0' with (d + (y0' - d)) by ring. rewrite !sse_shift. apply LS.
      + now rewrite sse_shift.
  Qed.
  Lemma fits_shift y : forall g, (forall b, In b g -> (1 <= b)%nat) -> mapR (fit_given (map (Rplus d) y)) g =
    rbind (mapR (fit_given y) g) (fun fs => Ok (map (fun f => (fst (fst f), d + snd (fst f), snd f)) fs)).
  Proof.
    induction g as [|b g IH]; intro H; [reflexivity|]. cbn [mapR]. rewrite fit_shift by (apply H; now left). rewrite IH by (intros; apply H; now right).
    destruct (fit_given y b); cbn [rbind]; [|reflexivity|reflexivity]. destruct (mapR (fit_given y) g); reflexivity.
  Qed.
  Lemma search_shift y num tol : (2 <= num)%nat -> (2 <= length y)%nat -> forall trials b1 b2 best, ranged y b1 b2 ->
    search (map (Rplus d) y) num tol trials b1 b2 best =
    rbind (search y num tol trials b1 b2 best) (fun r => Ok (d + fst (fst r), snd (fst r), snd r)).
  Proof.
    intros N M. induction trials as [|k IH]; intros b1 b2 best R; [reflexivity|]. cbn [search]. destruct R as (R1 & R2).
    assert (G : forall b, In b (linspace_int b1 b2 num) -> (1 <= b < length y)%nat) by (intros b I; apply grid_range in I; lia).
    rewrite fits_shift by (intros b I; apply G in I; lia).
    destruct (pass y (linspace_int b1 b2 num)) as (fits & E & _ & BA); [|exact G|].
    { intro Z. pose proof (grid_len b1 b2 num) as L. rewrite Z in L. cbn in L. lia. }
    cbn zeta in BA. rewrite E. cbn [rbind]. rewrite map_map. cbn [snd].
    change (map (fun x : R * R * R => snd x) fits) with (map snd fits). set (i := argmin (map snd fits)) in *.
    assert (I : (i < num)%nat). { destruct BA as (I & _). now rewrite grid_len in I. }
    assert (LF : length fits = num).
    { apply mapR_ok in E. clear - E. pose proof (F2_len _ _ _ E) as L. rewrite grid_len in L. auto. }
    rewrite (nth_indep (map _ fits) _ ((fun f => (fst (fst f), d + snd (fst f), snd f)) (0, 0, 0))) by (rewrite map_length, LF; exact I).
    rewrite (map_nth (fun f : R * R * R => (fst (fst f), d + snd (fst f), snd f))). cbn [fst snd].
    destruct (match best with None => false | Some r => _ end); [reflexivity|]. destruct k as [|k]; [reflexivity|]. apply IH.
    pose proof (step_range y num N b1 b2 i R1 R2 I) as X. cbn zeta in X. cbn [Nat.max]. unfold ranged. lia.
  Qed.
End Shift.
