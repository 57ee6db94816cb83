(** The system (I - W)/2 q = b is solvable if b sums to zero. *)
From Coq Require Import Reals List Lra Lia Arith FunctionalExtensionality.
From Coquelicot Require Import Coquelicot.
From Verif.Model Require Import PyDict History Messages Network Vec.
From Verif.Spec Require Import CostSpec P2PSpec ConvSpec.
From Verif.Proofs Require Import CostProofs VecProofs EmpiricalProofs P2PRuns P2PFixed ConvStack.
Import ListNotations.
Open Scope R_scope.

Section Solve.
  Variables (t : topo) (n : nat) (W : agent_id -> agent_id -> R).
  Hypothesis ND : NoDup (t_nodes t).
  Hypothesis MX : mixing t W.
  Hypothesis CN : connected t.
  Hypothesis EDG : forall i j, In j (t_adj t i) -> In i (t_nodes t) /\ In j (t_nodes t).
  Notation nodes := (t_nodes t).
  Notation ip := (ip nodes n).
  Notation A := (Ah t W).

  Variable b : stk.
  Hypothesis BZ : forall c, (c < n)%nat -> rsum (map (fun i => b i c) nodes) = 0.
  Fixpoint res_ (s : nat) : stk := match s with O => b | S k => ssub (res_ k) (A (res_ k)) end.

  Lemma res_zero s c : (c < n)%nat -> rsum (map (fun i => res_ s i c) nodes) = 0.
  Proof.
    intro C. induction s as [|s IH]; [now apply BZ|]. cbn [res_]. unfold ssub, vsub. rewrite rsum_map_sub, IH, (Ah_total t W ND MX). lra.
  Qed.
  Lemma res_bound : exists q, 0 <= q < 1 /\ forall s, ip (res_ s) (res_ s) <= ip b b * (q * q) ^ s.
  Proof.
    destruct (gap t n W ND MX CN EDG) as (lam & (L0 & L1) & _ & G). exists (sqrt (1 - lam)).
    assert (S1 : sqrt (1 - lam) * sqrt (1 - lam) = 1 - lam) by (apply sqrt_sqrt; lra).
    split. { split; [apply sqrt_pos|]. apply Rlt_le_trans with (sqrt 1); [apply sqrt_lt_1|rewrite sqrt_1]; lra. }
    rewrite S1. induction s as [|s IH]; [cbn; lra|]. cbn [res_]. set (r := res_ s) in *.
    rewrite ip_sub_l, !ip_sub_r, (ip_sym _ _ (A r) r).
    pose proof (Ah_sq t n W ND MX r) as H1. pose proof (G r (fun c C => res_zero s c C)) as H2. cbn [pow].
    assert (0 <= (1 - lam) * (ip b b * (1 - lam) ^ s - ip r r)) by (apply Rmult_le_pos; lra). lra.
  Qed.
  Lemma coord_ip X i c : In i nodes -> (c < n)%nat -> X i c * X i c <= ip X X.
  Proof.
    intros I C. eapply Rle_trans; [|apply (rs_in (fun i => dot n (X i) (X i)) nodes i I)]; [|intros; apply nrm2_nonneg].
    pose proof (coord_le n (X i) c C) as H. change (dot n (X i) (X i)) with (nrm2 n (X i)). rewrite <- (norm_sq n (X i)).
    pose proof (Rabs_pos (X i c)). rewrite <- (Rabs_right (X i c * X i c)) by (apply Rle_ge, Rle_0_sqr). rewrite Rabs_mult. apply Rmult_le_compat; auto.
  Qed.
  Lemma res_ex_series i c : In i nodes -> (c < n)%nat -> ex_series (fun s => res_ s i c).
  Proof.
    intros I C. destruct res_bound as (q & Q & H).
    apply (ex_series_le (fun s => res_ s i c) (fun s => sqrt (ip b b) * q ^ s)).
    - intro s. change (Rabs (res_ s i c) <= sqrt (ip b b) * q ^ s). pose proof (coord_ip (res_ s) i c I C) as K. specialize (H s).
      pose proof (ip_pos nodes n b) as B. assert (P : 0 <= sqrt (ip b b) * q ^ s) by (apply Rmult_le_pos; [apply sqrt_pos|apply pow_le; lra]).
      rewrite <- (Rabs_right (sqrt (ip b b) * q ^ s)) by now apply Rle_ge. apply Rsqr_le_abs_0. unfold Rsqr.
      replace (sqrt (ip b b) * q ^ s * (sqrt (ip b b) * q ^ s)) with (sqrt (ip b b) * sqrt (ip b b) * (q ^ s * q ^ s)) by ring.
      rewrite sqrt_sqrt, <- Rpow_mult_distr by auto. lra.
    - apply (ex_series_scal (sqrt (ip b b)) (fun s => q ^ s)). apply ex_series_geom. rewrite Rabs_right; lra.
  Qed.
  Definition sol : stk := fun i c => Series (fun s => res_ s i c).
  Lemma Series_rsum (M : agent_id -> R) c l : (forall j, In j l -> In j nodes) -> (c < n)%nat ->
    ex_series (fun s => rsum (map (fun j => M j * res_ s j c) l)) /\
    Series (fun s => rsum (map (fun j => M j * res_ s j c) l)) = rsum (map (fun j => M j * sol j c) l).
  Proof.
    intros IN C. induction l as [|j l IH].
    - cbn [map]. split.
      + exists 0. apply (filterlim_ext (fun _ => 0)); [|apply filterlim_const]. intro k. rewrite sum_n_const. unfold rsum. cbn. lra.
      + unfold Series. rewrite (Lim_seq_ext _ (fun _ => 0)); [rewrite Lim_seq_const; reflexivity|]. intro k. rewrite sum_n_const. unfold rsum. cbn. lra.
    - destruct IH as (E & V); [intros; apply IN; now right|].
      assert (EJ : ex_series (fun s => M j * res_ s j c)) by (apply (ex_series_scal (M j) (fun s => res_ s j c)); apply res_ex_series; auto; apply IN; now left).
      cbn [map]. rewrite rsum_cons. split.
      + apply (ex_series_ext (fun s => plus (M j * res_ s j c) (rsum (map (fun j => M j * res_ s j c) l)))).
        * intro s. rewrite rsum_cons. reflexivity.
        * now apply (@ex_series_plus R_AbsRing R_NormedModule).
      + rewrite (Series_ext _ (fun s => M j * res_ s j c + rsum (map (fun j => M j * res_ s j c) l))) by (intro; apply rsum_cons).
        rewrite Series_plus by auto. rewrite V. f_equal. apply Series_scal_l.
  Qed.
  Lemma sol_ok i c : In i nodes -> (c < n)%nat -> A sol i c = b i c.
  Proof.
    intros I C. unfold Ah, row_of. destruct (Series_rsum (half_minus W i) c nodes (fun _ H => H) C) as (E & V). rewrite <- V.
    change (Series (fun s => A (res_ s) i c) = b i c).
    rewrite (Series_ext _ (fun s => res_ s i c - res_ (S s) i c)) by (intro; cbn [res_]; unfold ssub, vsub; lra).
    assert (EX := res_ex_series i c I C). rewrite Series_minus; auto; [|now apply (ex_series_incr_1 (fun s => res_ s i c))].
    rewrite (Series_incr_1 (fun s => res_ s i c)) by auto. cbn [res_]. lra.
  Qed.
End Solve.

(** ** Strongly convex costs with Lipschitz gradients *)
Section Convex.
  Variables (n : nat) (F : vec -> R) (G : vec -> vec) (m L : R).
  Hypothesis SC : smooth_strongly_convex n F G m L.
  Hypothesis ML : 0 <= m.
  Hypothesis LP : 0 < L.
  Lemma lower x y : F x + dot n (G x) (vsub y x) + m / 2 * nrm2 n (vsub y x) <= F y.
  Proof.
    destruct (SC x (vsub y x)) as (H & _). replace (vadd x (vsub y x)) with y in H; [lra|].
    apply functional_extensionality. intro. unfold vadd, vsub. lra.
  Qed.
  Lemma strongly_monotone x y : m * nrm2 n (vsub x y) <= dot n (vsub (G x) (G y)) (vsub x y).
  Proof.
    pose proof (lower x y) as H1. pose proof (lower y x) as H2. rewrite dot_sub_l.
    assert (E : nrm2 n (vsub y x) = nrm2 n (vsub x y)) by (rewrite !nrm2_sub, (dot_sym n y x); lra).
    assert (E' : dot n (G x) (vsub y x) = - dot n (G x) (vsub x y)) by (rewrite !dot_sub_r; lra). rewrite E, E' in H1. lra.
  Qed.
  Lemma half_coercive x y : / (2 * L) * nrm2 n (vsub (G y) (G x)) <= F y - F x - dot n (G x) (vsub y x).
  Proof.
    set (d := vsub (G y) (G x)). destruct (SC y (vscal (- / L) d)) as (_ & U). pose proof (lower x (vadd y (vscal (- / L) d))) as Lw.
    set (z := vadd y (vscal (- / L) d)) in *. assert (0 <= m / 2 * nrm2 n (vsub z x)) by (apply Rmult_le_pos; [lra|apply nrm2_nonneg]).
    assert (E1 : dot n (G x) (vsub z x) = dot n (G x) (vsub y x) - / L * dot n (G x) d).
    { unfold z. rewrite !dot_sub_r, dot_add_r, dot_scal_r. lra. }
    rewrite nrm2_scal in U. rewrite dot_scal_r in U.
    assert (E2 : dot n (G y) d = dot n (G x) d + nrm2 n d).
    { assert (nrm2 n d = dot n (G y) d - dot n (G x) d) by (unfold nrm2, d at 1; rewrite dot_sub_l; reflexivity). lra. }
    rewrite E2 in U. rewrite E1 in Lw.
    assert (E3 : L / 2 * (- / L * - / L * nrm2 n d) = / (2 * L) * nrm2 n d) by (field; lra).
    assert (E4 : / L * nrm2 n d = 2 * (/ (2 * L) * nrm2 n d)) by (field; lra). lra.
  Qed.
  Lemma coercive x y : nrm2 n (vsub (G x) (G y)) <= L * dot n (vsub (G x) (G y)) (vsub x y).
  Proof.
    pose proof (half_coercive x y) as H1. pose proof (half_coercive y x) as H2.
    assert (E : nrm2 n (vsub (G y) (G x)) = nrm2 n (vsub (G x) (G y))) by (rewrite !nrm2_sub, (dot_sym n (G y) (G x)); lra).
    assert (E' : dot n (G x) (vsub y x) = - dot n (G x) (vsub x y)) by (rewrite !dot_sub_r; lra).
    rewrite E in H1. rewrite dot_sub_l. apply Rmult_le_reg_l with (/ L); [now apply Rinv_0_lt_compat|]. rewrite <- Rmult_assoc, Rinv_l, Rmult_1_l by lra.
    assert (E4 : / L * nrm2 n (vsub (G x) (G y)) = 2 * (/ (2 * L) * nrm2 n (vsub (G x) (G y)))) by (field; lra). lra.
  Qed.
  (** a gradient step is a contraction *)
  Lemma step_contracts a x y : 0 <= a -> a * L <= 2 ->
    nrm2 n (vsub (vsub x (vscal a (G x))) (vsub y (vscal a (G y)))) <= (1 - a * m * (2 - a * L)) * nrm2 n (vsub x y).
  Proof.
    intros A0 AL. pose proof (coercive x y) as C. pose proof (strongly_monotone x y) as S.
    rewrite (nrm2_ext n _ (vsub (vsub x y) (vscal a (vsub (G x) (G y))))) by (intros; unfold vsub, vscal; lra).
    rewrite nrm2_sub, nrm2_scal, dot_scal_r, (dot_sym n (vsub x y)). set (D := dot n (vsub (G x) (G y)) (vsub x y)) in *. set (N := nrm2 n (vsub x y)) in *.
    assert (a * a * nrm2 n (vsub (G x) (G y)) <= a * a * (L * D)) by (apply Rmult_le_compat_l; auto; apply Rle_0_sqr).
    assert (0 <= a * (2 - a * L) * (D - m * N)) by (apply Rmult_le_pos; [apply Rmult_le_pos; lra|lra]). lra.
  Qed.
End Convex.

(** At a minimiser of the sum the gradients cancel. *)
Lemma stationary n (l : list agent_id) (F : agent_id -> vec -> R) (G : agent_id -> vec -> vec) L xs : 0 < L ->
  (forall i, In i l -> exists m, smooth_strongly_convex n (F i) (G i) m L) -> minimises l F xs ->
  forall c, (c < n)%nat -> rsum (map (fun i => G i xs c) l) = 0.
Proof.
  intros LP SC MIN. set (g := (fun c => rsum (map (fun i => G i xs c) l)) : vec).
  assert (U : forall h, rsum (map (fun i => F i (vadd xs h)) l) - rsum (map (fun i => F i xs) l) <= dot n g h + INR (length l) * (L / 2 * nrm2 n h)).
  { intro h. rewrite <- rsum_map_sub, <- (rs_const (L / 2 * nrm2 n h) l).
    assert (E : dot n g h = rsum (map (fun i => dot n (G i xs) h) l)).
    { rewrite (rsum_map_ext _ (fun i => 1 * dot n (G i xs) h)) by (intros; lra). rewrite <- (dot_rsum n (fun i => G i xs) (fun _ => 1)).
      apply dot_ext; auto. intros c _. unfold g. apply rsum_map_ext. intros; lra. }
    rewrite E, <- rsum_map_add. apply rs_le. intros i I. destruct (SC i I) as (m & H). specialize (H xs h). lra. }
  set (N := INR (length l) + 1). assert (NP : 0 < N) by (unfold N; pose proof (pos_INR (length l)); lra).
  set (s := / (N * L)). assert (SP : 0 < s) by (apply Rinv_0_lt_compat, Rmult_lt_0_compat; lra).
  specialize (U (vscal (- s) g)). specialize (MIN (vadd xs (vscal (- s) g))). rewrite dot_scal_r, nrm2_scal in U. fold (nrm2 n g) in U.
  pose proof (nrm2_nonneg n g) as P.
  assert (E : N * (L / 2 * (- s * - s * nrm2 n g)) = s / 2 * nrm2 n g) by (unfold s; field; lra).
  assert (Q : 0 <= L / 2 * (- s * - s * nrm2 n g)).
  { apply Rmult_le_pos; [lra|]. apply Rmult_le_pos; auto. replace (- s * - s) with (s * s) by ring. apply Rle_0_sqr. }
  assert (K : s / 2 * nrm2 n g <= 0). { replace (INR (length l)) with (N - 1) in U by (unfold N; lra). lra. }
  intros c C. apply (nrm2_zero_inv n g); auto. apply Rmult_le_reg_l with (s / 2); lra.
Qed.
