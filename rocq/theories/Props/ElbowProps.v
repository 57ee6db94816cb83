(** C51, C64: the elbow fit and the convergence rate. *)
From Coq Require Import Reals List Bool Arith ZArith Lia Lra.
From Verif.Model Require Import History Vec Metrics Elbow.
From Verif.Spec Require Import CostSpec ElbowSpec.
From Verif.Proofs Require Import VecProofs CostProofs EmpiricalProofs MetricsProofs ElbowProofs ElbowSearch ElbowRate.
Import ListNotations.
Local Open Scope R_scope.

(** ** C51 *)
(** Fixed breakpoint: slope and intercept minimise the residual, uniquely, and
    the residual returned is theirs. *)
Theorem C51_fixed_breakpoint y b : (1 <= b < length y)%nat -> exists s y0 r, fit_given y b = Ok (s, y0, r) /\
  r = sqrt (sse y s y0 b) /\ least_squares y s y0 b /\
  (forall s' y0', sse y s' y0' b <= sse y s y0 b -> s' = s /\ y0' = y0).
Proof. intro B. destruct (fit_given_least y b B) as (s & y0 & E & LS & U). exists s, y0, (sqrt (sse y s y0 b)). auto. Qed.

Theorem C51_breakpoint_past_the_end y b : (length y <= b)%nat -> fit_given y b = ValueError.
Proof. intro H. unfold fit_given. destruct (Nat.ltb_spec (length y) (b + 1)); [reflexivity|lia]. Qed.

Lemma curve_search y trials tol num : (2 <= length y)%nat -> (1 <= trials)%nat -> 0 <= tol -> (2 <= num)%nat ->
  fit_elbow_curve y trials tol num = search (finite_part y) num tol trials 1 (length (finite_part y) - 1) None.
Proof.
  intros L T TL N. unfold fit_elbow_curve. destruct (Nat.ltb_spec (length y) 2); [lia|]. destruct (Nat.ltb_spec trials 1); [lia|].
  destruct (Rlt_dec tol 0); [lra|]. destruct (Nat.ltb_spec num 2); [lia|]. reflexivity.
Qed.
Lemma finite_len y : (length (finite_part y) <= length y)%nat.
Proof. induction y as [|v y IH]; [cbn; lia|]. unfold finite_part in *. cbn [flat_map]. destruct v; cbn [app length]; lia. Qed.

(** The whole search, with any data and parameters: the slope and intercept
    returned are the least-squares ones of the (finite) data for the breakpoint
    chosen, which is one more than the one returned. *)
Theorem C51_fit_is_least_squares y trials tol num : (2 <= length (finite_part y))%nat -> (1 <= trials)%nat -> 0 <= tol -> (2 <= num)%nat ->
  exists s y0 bp, fit_elbow_curve y trials tol num = Ok (y0, s, bp) /\
    (1 <= bp + 1 < length (finite_part y))%nat /\ least_squares (finite_part y) s y0 (bp + 1).
Proof.
  intros M T TL N. pose proof (finite_len y) as L. rewrite curve_search by (auto; lia).
  destruct (run_least (finite_part y) num tol trials N M T) as (s & y0 & b & E & B & LS).
  exists s, y0, (b - 1)%nat. split; [exact E|]. replace (b - 1 + 1)%nat with b by lia. auto.
Qed.
Theorem C51_invalid_arguments y trials tol num :
  (length y < 2)%nat \/ (trials < 1)%nat \/ tol < 0 \/ (num < 2)%nat \/ (length (finite_part y) < 2)%nat ->
  fit_elbow_curve y trials tol num = ValueError.
Proof.
  intro H. unfold fit_elbow_curve. destruct (Nat.ltb_spec (length y) 2); [reflexivity|]. destruct (Nat.ltb_spec trials 1); [reflexivity|].
  destruct (Rlt_dec tol 0); [reflexivity|]. destruct (Nat.ltb_spec num 2); [reflexivity|].
  assert (F : (length (finite_part y) < 2)%nat) by (destruct H as [?|[?|[?|[?|?]]]]; [lia|lia|contradiction|lia|assumption]).
  destruct trials as [|k]; [lia|]. cbn [search]. set (yf := finite_part y) in *. unfold linspace_int.
  destruct num as [|num]; [lia|]. cbn [seq map mapR]. rewrite Nat.mul_0_l, Nat.div_0_l by lia.
  rewrite C51_breakpoint_past_the_end by lia. reflexivity.
Qed.

(** With at most [num_grid_points + 1] finite data points (11 by default) every
    breakpoint is tried and the result is best over all elbow curves. *)
Theorem C51_globally_best_partial y trials tol num : (2 <= length (finite_part y) <= num + 1)%nat -> (1 <= trials)%nat -> 0 <= tol -> (2 <= num)%nat ->
  exists s y0 bp, fit_elbow_curve y trials tol num = Ok (y0, s, bp) /\ best_elbow (finite_part y) s y0 (bp + 1).
Proof.
  intros M T TL N. pose proof (finite_len y) as L. rewrite curve_search by (auto; lia).
  destruct (run_cover (finite_part y) num tol trials N ltac:(lia) T ltac:(lia)) as (s & y0 & b & E & BE).
  exists s, y0, (b - 1)%nat. split; [exact E|]. replace (b - 1 + 1)%nat with b; [exact BE|]. destruct BE; lia.
Qed.
(** Data on an elbow curve are then recovered, with breakpoint [b - 1]. *)
Theorem C51_exact_recovery y trials tol num s y0 b :
  (length (finite_part y) <= num + 1)%nat -> (1 <= trials)%nat -> 0 <= tol -> (2 <= num)%nat ->
  on_elbow (finite_part y) s y0 b -> s <> 0 -> fit_elbow_curve y trials tol num = Ok (y0, s, (b - 1)%nat).
Proof.
  intros M T TL N OE NZ. destruct OE as (B & EB). assert (OE : on_elbow (finite_part y) s y0 b) by (split; auto).
  destruct (C51_globally_best_partial y trials tol num ltac:(lia) T TL N) as (s' & y0' & bp & E & (B' & BE)). rewrite E.
  assert (O' : on_elbow (finite_part y) s' y0' (bp + 1)).
  { split; [exact B'|]. apply sse_zero. apply Rle_trans with (1 := BE s y0 b B). rewrite (on_elbow_sse _ _ _ _ OE). lra. }
  destruct (on_elbow_unique _ _ _ _ _ _ _ OE O') as (-> & -> & U). rewrite <- (U NZ). replace (bp + 1 - 1)%nat with bp by lia. reflexivity.
Qed.
(** So the breakpoint is not the [b] of the documented curve. *)
Definition three : list fval := [Fin 0; Fin 1; Fin 2; Fin 2].
Lemma three_elbow : on_elbow (finite_part three) 1 0 2.
Proof. split; [cbn; lia|]. intros [|[|[|[|x]]]] H; cbn in *; try lra; lia. Qed.
Theorem C51_documented_breakpoint_refuted : ~ (forall y s y0 b bp s' y0', (length (finite_part y) <= 11)%nat ->
  on_elbow (finite_part y) s y0 b -> s <> 0 -> fit_elbow_curve y 10 (1 / 100000) 10 = Ok (y0', s', bp) -> bp = b).
Proof.
  intro H. assert (E : fit_elbow_curve three 10 (1 / 100000) 10 = Ok (0, 1, 1%nat)).
  { apply (C51_exact_recovery three 10 (1 / 100000) 10 1 0 2); [cbn; lia|lia|lra|lia|apply three_elbow|lra]. }
  pose proof (H three 1 0 2%nat _ _ _ ltac:(cbn; lia) three_elbow ltac:(lra) E). discriminate.
Qed.
(** For more points the search can give up a perfect fit it has found: 83 points
    on an elbow with breakpoint 10 and the default parameters. *)
Definition long : list fval := map (fun x => Fin (elbow 1 0 10 x)) (seq 0 83).
Lemma long_finite : finite_part long = map (fun x => elbow 1 0 10 x) (seq 0 83).
Proof.
  unfold long, finite_part. induction (seq 0 83) as [|x l IH]; [reflexivity|]. cbn [map flat_map app]. now rewrite IH.
Qed.
Lemma long_elbow : on_elbow (finite_part long) 1 0 10.
Proof.
  rewrite long_finite. split; [rewrite map_length, seq_length; lia|]. intros x H. rewrite map_length, seq_length in H.
  rewrite (nth_indep _ _ (elbow 1 0 10 0)) by (rewrite map_length, seq_length; exact H).
  rewrite (map_nth (elbow 1 0 10)), seq_nth by exact H. reflexivity.
Qed.
Lemma long_len : length (finite_part long) = 83%nat.
Proof. now rewrite long_finite, map_length, seq_length. Qed.
Lemma long_fit : exists s y0 bp, fit_elbow_curve long 10 (1 / 100000) 10 = Ok (y0, s, bp) /\ (bp + 1 <> 10)%nat /\ 0 < sse (finite_part long) s y0 (bp + 1).
Proof.
  rewrite curve_search; [|unfold long; rewrite map_length, seq_length; lia|lia|lra|lia].
  destruct (run_lost (finite_part long) 10 (1 / 100000) 8 1 0 10) as (s & y0 & b' & E & B & NE & P); [lia|lra|apply long_elbow|lra| | |].
  - rewrite long_len. cbn. auto.
  - rewrite long_len. intros i I Ei. assert (i = 1)%nat as ->.
    { do 10 (destruct i as [|i]; [cbn in Ei; first [reflexivity|discriminate]|]). lia. }
    cbn. intros X. repeat (destruct X as [X|X]; [discriminate|]). exact X.
  - exists s, y0, (b' - 1)%nat. replace (b' - 1 + 1)%nat with b' by lia. auto.
Qed.
Theorem C51_search_loses_fit_refuted : ~ (forall y s y0 bp, (2 <= length (finite_part y))%nat ->
  fit_elbow_curve y 10 (1 / 100000) 10 = Ok (y0, s, bp) -> best_elbow (finite_part y) s y0 (bp + 1)).
Proof.
  intro H. destruct long_fit as (s & y0 & bp & E & _ & P). destruct (H long s y0 bp ltac:(rewrite long_len; lia) E) as (_ & BE).
  specialize (BE 1 0 10%nat ltac:(rewrite long_len; lia)). rewrite (on_elbow_sse _ _ _ _ long_elbow) in BE. lra.
Qed.
Example C51_case : (2 <= length (finite_part three) <= 10 + 1)%nat /\ fit_elbow_curve three 10 (1 / 100000) 10 = Ok (0, 1, 1%nat).
Proof. split; [cbn; lia|]. apply (C51_exact_recovery three 10 (1 / 100000) 10 1 0 2); [cbn; lia|lia|lra|lia|apply three_elbow|lra]. Qed.

(** ** C64: the convergence rate *)
Definition err (v : fval) (r : R) : Prop := v = Fin r /\ 0 < r.
Lemma ln10_pos : 0 < ln 10. Proof. rewrite <- ln_1. apply ln_increasing; lra. Qed.
Lemma log_finite y r : err y r -> log10f y = Fin (ln r / ln 10).
Proof. intros (-> & P). cbn. destruct (Rlt_dec 0 r); [reflexivity|lra]. Qed.
Lemma logs_finite : forall y rs, Forall2 err y rs -> finite_part (map log10f y) = map (fun r => ln r / ln 10) rs.
Proof. induction 1 as [|v r y rs E F IH]; [reflexivity|]. cbn [map]. rewrite (log_finite v r E). cbn [finite_part flat_map app]. unfold finite_part in IH. now rewrite IH. Qed.
Lemma finite_app a b : finite_part (a ++ b) = finite_part a ++ finite_part b.
Proof. unfold finite_part. apply flat_map_app. Qed.
Lemma power_log r : 0 < r -> Rpower 10 (ln r / ln 10) = r.
Proof. intro P. unfold Rpower. replace (ln r / ln 10 * ln 10) with (ln r) by (field; pose proof ln10_pos; lra). now apply exp_ln. Qed.
(** entries without a logarithm: zero, negative, infinite, NaN *)
Definition no_log (v : fval) : Prop := match v with Fin r => r <= 0 | _ => True end.
Lemma no_log_dropped : forall l, Forall no_log l -> finite_part (map log10f l) = [].
Proof.
  induction 1 as [|v l H F IH]; [reflexivity|]. cbn [map]. unfold finite_part in *. cbn [flat_map]. rewrite IH.
  destruct v; cbn in *; auto. destruct (Rlt_dec 0 r); [lra|]. destruct (Req_EM_T r 0); reflexivity.
Qed.
Lemma pow_log c rho k : 0 < c -> 0 < rho -> ln (c * rho ^ k) / ln 10 = ln rho / ln 10 * INR k + ln c / ln 10.
Proof.
  intros C P. rewrite ln_mult by (auto; apply pow_lt; auto). replace (ln (rho ^ k)) with (INR k * ln rho); [field; pose proof ln10_pos; lra|].
  induction k as [|k IH]; [cbn; rewrite ln_1; ring|]. rewrite S_INR. cbn [pow]. rewrite ln_mult by (auto; apply pow_lt; auto). rewrite <- IH. ring.
Qed.
Lemma logs_nth (f : nat -> R) : forall m k, (k < m)%nat -> nth k (map (fun r => ln r / ln 10) (map f (seq 0 m))) 0 = ln (f k) / ln 10.
Proof.
  intros m k H. rewrite map_map. rewrite (nth_indep _ _ (ln (f 0%nat) / ln 10)) by (rewrite map_length, seq_length; exact H).
  rewrite (map_nth (fun x => ln (f x) / ln 10)), seq_nth by exact H. reflexivity.
Qed.
Lemma err_map (f : nat -> R) : (forall k, 0 < f k) -> forall l, Forall2 err (map (fun k => Fin (f k)) l) (map f l).
Proof. intros P l. induction l as [|k l IH]; constructor; [split; auto|exact IH]. Qed.

(** A geometric error [c rho^k] of any length at least two has rate [rho],
    whether it converges, stalls or diverges, also when it ends in values that
    have no logarithm (exact zeros, overflow, NaN). *)
Theorem C64_geometric c rho m tail : 0 < c -> 0 < rho -> (2 <= m)%nat -> Forall no_log tail ->
  linear_convergence_rate (map (fun k => Fin (c * rho ^ k)) (seq 0 m) ++ tail) = Ok rho.
Proof.
  intros C P M NT. unfold linear_convergence_rate. set (y := map _ _ ++ tail).
  assert (F : finite_part (map log10f y) = map (fun r => ln r / ln 10) (map (fun k => c * rho ^ k) (seq 0 m))).
  { unfold y. rewrite map_app, finite_app, (no_log_dropped tail NT), app_nil_r. apply logs_finite. apply (err_map (fun k => c * rho ^ k)).
    intro k. apply Rmult_lt_0_compat; [exact C|apply pow_lt; exact P]. }
  assert (L : length (finite_part (map log10f y)) = m) by (rewrite F, !map_length, seq_length; reflexivity).
  rewrite curve_search; [|pose proof (finite_len (map log10f y)); lia|lia|lra|lia].
  destruct (run_straight (finite_part (map log10f y)) 10 (1 / 100000) 10 ltac:(lia) ltac:(lia) ltac:(lia) (ln rho / ln 10) (ln c / ln 10)) as (b & E).
  - split; [lia|]. rewrite L. intros x H. rewrite F, (logs_nth (fun k => c * rho ^ k)) by exact H. rewrite pow_log by assumption.
    rewrite elbow_min. rewrite Nat.min_l by lia. reflexivity.
  - rewrite E. cbn [rbind fst snd]. rewrite power_log by exact P. reflexivity.
Qed.
(** With a plateau after [b], for at most 11 values. *)
Theorem C64_plateau c rho b m : 0 < c -> 0 < rho -> (1 <= b < m)%nat -> (m <= 11)%nat ->
  linear_convergence_rate (map (fun k => Fin (c * rho ^ Nat.min k b)) (seq 0 m)) = Ok rho.
Proof.
  intros C P B M. unfold linear_convergence_rate. set (y := map _ (seq 0 m)).
  assert (F : finite_part (map log10f y) = map (fun r => ln r / ln 10) (map (fun k => c * rho ^ Nat.min k b) (seq 0 m))).
  { apply logs_finite. apply (err_map (fun k => c * rho ^ Nat.min k b)).
    intro k. apply Rmult_lt_0_compat; [exact C|apply pow_lt; exact P]. }
  assert (L : length (finite_part (map log10f y)) = m) by (rewrite F, !map_length, seq_length; reflexivity).
  assert (OE : on_elbow (finite_part (map log10f y)) (ln rho / ln 10) (ln c / ln 10) b).
  { split; [lia|]. rewrite L. intros x H. rewrite F, (logs_nth (fun k => c * rho ^ Nat.min k b)) by exact H. rewrite pow_log by assumption. now rewrite elbow_min. }
  destruct (C51_globally_best_partial (map log10f y) 10 (1 / 100000) 10 ltac:(lia) ltac:(lia) ltac:(lra) ltac:(lia)) as (s & y0 & bp & E & B' & BE).
  rewrite E. cbn [rbind fst snd].
  assert (O' : on_elbow (finite_part (map log10f y)) s y0 (bp + 1)).
  { split; [exact B'|]. apply sse_zero. apply Rle_trans with (1 := BE (ln rho / ln 10) (ln c / ln 10) b ltac:(lia)). rewrite (on_elbow_sse _ _ _ _ OE). lra. }
  destruct (on_elbow_unique _ _ _ _ _ _ _ OE O') as (-> & _ & _). now rewrite power_log.
Qed.
(** "Below 1 indicates convergence, above 1 divergence": strictly decreasing
    errors have a rate below 1, strictly increasing ones above. *)
Lemma rate_slope y rs : Forall2 err y rs -> (2 <= length rs)%nat -> exists s y0 b, (1 <= b < length rs)%nat /\
  linear_convergence_rate y = Ok (Rpower 10 s) /\ least_squares (map (fun r => ln r / ln 10) rs) s y0 b.
Proof.
  intros F M. pose proof (logs_finite y rs F) as L.
  destruct (C51_fit_is_least_squares (map log10f y) 10 (1 / 100000) 10) as (s & y0 & bp & E & B & LS); [rewrite L, map_length; exact M|lia|lra|lia|].
  rewrite L in B, LS. rewrite map_length in B. exists s, y0, (bp + 1)%nat. split; [exact B|]. split; [|exact LS].
  unfold linear_convergence_rate. rewrite E. reflexivity.
Qed.
Lemma log_nth rs k : (k < length rs)%nat -> nth k (map (fun r => ln r / ln 10) rs) 0 = ln (nth k rs 1) / ln 10.
Proof. intro H. rewrite (nth_indep _ _ (ln 1 / ln 10)) by now rewrite map_length. apply (map_nth (fun r => ln r / ln 10)). Qed.
Lemma err_pos y rs k : Forall2 err y rs -> 0 < nth k rs 1.
Proof. intro F. revert k. induction F as [|v r y rs (_ & P) F IH]; intros [|k]; cbn; try lra; auto. Qed.
Theorem C64_sign y rs : Forall2 err y rs -> (2 <= length rs)%nat -> exists rate, linear_convergence_rate y = Ok rate /\ 0 < rate /\
  ((forall i j, (i < j < length rs)%nat -> nth j rs 1 < nth i rs 1) -> rate < 1) /\
  ((forall i j, (i < j < length rs)%nat -> nth i rs 1 < nth j rs 1) -> 1 < rate).
Proof.
  intros F M. destruct (rate_slope y rs F M) as (s & y0 & b & B & E & LS). exists (Rpower 10 s). split; [exact E|].
  assert (P1 : Rpower 10 0 = 1) by (apply Rpower_O; lra). pose proof ln10_pos as LP.
  assert (MON : forall i j, (i < length rs)%nat -> (j < length rs)%nat -> nth i rs 1 < nth j rs 1 ->
    nth i (map (fun r => ln r / ln 10) rs) 0 < nth j (map (fun r => ln r / ln 10) rs) 0).
  { intros i j Hi Hj L. rewrite !log_nth by assumption. unfold Rdiv. apply Rmult_lt_compat_r; [now apply Rinv_0_lt_compat|].
    apply ln_increasing; [eapply err_pos; eauto|exact L]. }
  split; [apply exp_pos|]. split; intro H; rewrite <- P1; apply Rpower_lt; try lra.
  - apply (slope_neg (map (fun r => ln r / ln 10) rs) b s y0); [now rewrite map_length|exact LS|]. intros i j L. rewrite map_length in L. apply MON; [lia|lia|now apply H].
  - apply (slope_pos (map (fun r => ln r / ln 10) rs) b s y0); [now rewrite map_length|exact LS|]. intros i j L. rewrite map_length in L. apply MON; [lia|lia|now apply H].
Qed.
(** Measuring the error in other units does not change the rate: multiplying
    every value by a positive constant. *)
Definition scale (c : R) (v : fval) : fval := match v with Fin r => Fin (c * r) | _ => v end.
Lemma log_scale c : 0 < c -> forall y, finite_part (map log10f (map (scale c) y)) = map (Rplus (ln c / ln 10)) (finite_part (map log10f y)).
Proof.
  intros C y. induction y as [|v y IH]; [reflexivity|]. unfold finite_part in *. cbn [map flat_map]. rewrite IH, map_app. f_equal.
  destruct v as [r| | |]; try reflexivity. cbn [scale log10f]. destruct (Rlt_dec 0 r) as [P|P].
  - destruct (Rlt_dec 0 (c * r)) as [Q|Q]; [|exfalso; apply Q; now apply Rmult_lt_0_compat]. cbn. f_equal. rewrite ln_mult by assumption. field. pose proof ln10_pos; lra.
  - destruct (Rlt_dec 0 (c * r)) as [Q|Q]; [exfalso; nra|]. destruct (Req_EM_T r 0) as [Z|Z].
    + destruct (Req_EM_T (c * r) 0) as [_|Z']; [reflexivity|]. exfalso. apply Z'. rewrite Z. ring.
    + destruct (Req_EM_T (c * r) 0) as [Z'|_]; [|reflexivity]. exfalso. apply Rmult_integral in Z'. lra.
Qed.
Theorem C64_unit_invariant c y : 0 < c -> linear_convergence_rate (map (scale c) y) = linear_convergence_rate y.
Proof.
  intro C. unfold linear_convergence_rate. destruct (le_lt_dec 2 (length (finite_part (map log10f y)))) as [M|M].
  - assert (M' : (2 <= length (finite_part (map log10f (map (scale c) y))))%nat) by (rewrite log_scale, map_length by exact C; exact M).
    rewrite (curve_search (map log10f y)) by (try lra; try lia; pose proof (finite_len (map log10f y)); lia).
    rewrite (curve_search (map log10f (map (scale c) y))) by (try lra; try lia; pose proof (finite_len (map log10f (map (scale c) y))); lia).
    rewrite log_scale by exact C. rewrite map_length, search_shift; [|lia|exact M|unfold ranged; lia].
    destruct (search (finite_part (map log10f y)) 10 (1 / 100000) 10 1 _ None); reflexivity.
  - rewrite !C51_invalid_arguments; [reflexivity| |]; do 4 right; [exact M|rewrite log_scale, map_length by exact C; exact M].
Qed.
(** A value without logarithm inside the trajectory is dropped and later values
    move forward: the rate is then not the one of the remaining points. *)
Definition holed : list fval := [Fin 1; Fin 0; Fin (1/4)].
Theorem C64_hole_refuted : ~ (forall rho y, 0 < rho -> (2 <= length (finite_part (map log10f y)))%nat ->
  (forall k, (k < length y)%nat -> no_log (nth k y NaN) \/ nth k y NaN = Fin (rho ^ k)) -> linear_convergence_rate y = Ok rho).
Proof.
  intro H. assert (E : linear_convergence_rate holed = Ok (1/2)).
  { apply H; [lra| |].
    - unfold holed. cbn [map log10f]. destruct (Rlt_dec 0 1); [|lra]. destruct (Rlt_dec 0 0); [lra|]. destruct (Req_EM_T 0 0); [|lra].
      destruct (Rlt_dec 0 (1/4)); [|lra]. cbn. lia.
    - intros [|[|[|k]]] L; cbn in *; [right; reflexivity|left; lra|right; f_equal; field|lia]. }
  assert (E2 : linear_convergence_rate holed = Ok (1/4)).
  { assert (X := C64_geometric 1 (1/4) 2 [Fin 0] ltac:(lra) ltac:(lra) ltac:(lia) ltac:(constructor; [cbn; lra|constructor])).
    rewrite <- X. unfold linear_convergence_rate. rewrite !curve_search by (first [lra|lia|(cbn [length map holed app seq]; lia)]).
    assert (F : finite_part (map log10f holed) = finite_part (map log10f (map (fun k => Fin (1 * (1/4) ^ k)) (seq 0 2) ++ [Fin 0]))); [|now rewrite F].
    unfold holed. cbn [seq map app pow]. rewrite !Rmult_1_l, Rmult_1_r. cbn [log10f finite_part flat_map].
    destruct (Rlt_dec 0 0); [lra|]. destruct (Req_EM_T 0 0); [|lra]. cbn [flat_map finite_part app map].
    destruct (Rlt_dec 0 1); [|lra]. destruct (Rlt_dec 0 (1/4)); [|lra]. reflexivity. }
  rewrite E in E2. injection E2 as E2. lra.
Qed.
Example C64_case : linear_convergence_rate (map (fun k => Fin (3 * (9/10) ^ k)) (seq 0 100) ++ [Fin 0; NaN]) = Ok (9/10).
Proof. apply C64_geometric; [lra|lra|lia|]. constructor; [cbn; lra|]. constructor; [exact I|constructor]. Qed.
Example C64_sign_case : exists rate, linear_convergence_rate [Fin 3; Fin 2; Fin (1/2)] = Ok rate /\ rate < 1.
Proof.
  destruct (C64_sign [Fin 3; Fin 2; Fin (1/2)] [3; 2; 1/2]) as (r & E & _ & D & _); [repeat constructor; lra|cbn; lia|].
  exists r. split; [exact E|]. apply D. cbn [length]. intros [|[|[|i]]] [|[|[|j]]] L; cbn; try lia; lra.
Qed.

Print Assumptions C51_fixed_breakpoint.
Print Assumptions C51_fit_is_least_squares.
Print Assumptions C51_invalid_arguments.
Print Assumptions C51_globally_best_partial.
Print Assumptions C51_exact_recovery.
Print Assumptions C51_documented_breakpoint_refuted.
Print Assumptions C51_search_loses_fit_refuted.
Print Assumptions C64_geometric.
Print Assumptions C64_plateau.
Print Assumptions C64_sign.
Print Assumptions C64_unit_invariant.
Print Assumptions C64_hole_refuted.
