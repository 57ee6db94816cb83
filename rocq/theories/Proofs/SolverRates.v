(** Convergence of gradient descent and of the accelerated method. *)
From Coq Require Import Reals List Bool Arith ZArith FunctionalExtensionality Lia Lra Psatz.
From Verif.Model Require Import Vec Costs Solvers.
From Verif.Spec Require Import CostSpec SolverSpec.
From Verif.Proofs Require Import CostProofs VecProofs CostAnalysis CostBuiltin SolverRun.
Import ListNotations.
Open Scope R_scope.

Ltac dots := unfold nrm2 in *; rewrite ?dot_add_l, ?dot_add_r, ?dot_sub_l, ?dot_sub_r, ?dot_scal_l, ?dot_scal_r in *.
Ltac dotsg := unfold nrm2; repeat rewrite ?dot_add_l, ?dot_add_r, ?dot_sub_l, ?dot_sub_r, ?dot_scal_l, ?dot_scal_r.

Section Smooth.
  Variables (n : nat) (F : vec -> R) (G : vec -> vec) (L m : R).
  Hypothesis Hc : convex_with n F G m.
  Hypothesis Hl : lipschitz n G L.

  Lemma cvx0 : forall x y, F y + dot n (G y) (vsub x y) <= F x.
  Proof. intros x y. destruct Hc as [Hm H]. specialize (H x y). pose proof (nrm2_nonneg n (vsub x y)). nra. Qed.
  Lemma lip_dot : forall x t h, 0 <= t -> dot n (G (vadd x (vscal t h))) h <= dot n (G x) h + L * t * nrm2 n h.
  Proof.
    intros x t h Ht. pose proof (proj2 (proj1 (lip_norm n G L) Hl) (vadd x (vscal t h)) x) as Hb. pose proof (proj1 Hl) as HL.
    assert (E : norm n (vsub (vadd x (vscal t h)) x) = t * norm n h).
    { rewrite <- (Rabs_pos_eq t Ht) at 2. rewrite <- norm_scal. apply norm_ext. intros i _. unfold vsub, vadd, vscal. ring. }
    rewrite E in Hb. pose proof (dot_norm n (vsub (G (vadd x (vscal t h))) (G x)) h) as Hd. rewrite dot_sub_l in Hd.
    apply Rabs_le_inv in Hd. rewrite <- norm_sq. pose proof (norm_nonneg n h). nra.
  Qed.
  Lemma pieces : forall x h e, 0 < e -> forall j, F (vadd x (vscal (INR j * e) h)) <= F x + INR j * e * dot n (G x) h + L * nrm2 n h * (INR j * (INR j + 1) / 2 * (e * e)).
  Proof.
    intros x h e He j. induction j as [|j IH].
    - cbn [INR]. replace (vadd x (vscal (0 * e) h)) with x by (vext; unfold vadd, vscal; ring). lra.
    - rewrite S_INR. set (p := vadd x (vscal (INR j * e) h)) in *. set (q := vadd x (vscal ((INR j + 1) * e) h)).
      pose proof (cvx0 p q) as H. assert (E : dot n (G q) (vsub p q) = - e * dot n (G q) h).
      { rewrite <- dot_scal_r. apply dot_ext; [reflexivity|]. intros i _. unfold p, q, vsub, vadd, vscal. ring. }
      rewrite E in H. pose proof (pos_INR j). assert (Ht : 0 <= (INR j + 1) * e) by nra.
      pose proof (lip_dot x ((INR j + 1) * e) h Ht) as Hd. fold q in Hd.
      assert (e * dot n (G q) h <= e * (dot n (G x) h + L * ((INR j + 1) * e) * nrm2 n h)) by (apply Rmult_le_compat_l; lra).
      replace ((INR j + 1) * (INR j + 1 + 1) / 2 * (e * e)) with (INR j * (INR j + 1) / 2 * (e * e) + (INR j + 1) * (e * e)) by field. lra.
  Qed.
  Lemma descent : forall x h, F (vadd x h) <= F x + dot n (G x) h + L / 2 * nrm2 n h.
  Proof.
    intros x h. set (C := L * nrm2 n h). assert (HC : 0 <= C) by (apply Rmult_le_pos; [apply Hl|apply nrm2_nonneg]).
    assert (B : forall N, (0 < N)%nat -> F (vadd x h) <= F x + dot n (G x) h + C / 2 + C / 2 * / INR N).
    { intros N HN. assert (HI : 0 < INR N) by now apply lt_0_INR. pose proof (pieces x h (/ INR N) (Rinv_0_lt_compat _ HI) N) as P.
      rewrite Rinv_r in P by lra. replace (vscal 1 h) with h in P by (vext; unfold vscal; ring).
      fold C in P. replace (INR N * (INR N + 1) / 2 * (/ INR N * / INR N)) with (1/2 + 1/2 * / INR N) in P by (field; lra). lra. }
    destruct (Rle_dec (F (vadd x h)) (F x + dot n (G x) h + L / 2 * nrm2 n h)) as [|H]; [assumption|]. exfalso.
    replace (L / 2 * nrm2 n h) with (C / 2) in H by (unfold C; field). set (D := F (vadd x h) - (F x + dot n (G x) h + C / 2)). assert (HD : 0 < D) by (unfold D; lra).
    destruct (archimed_cor1 (D / (C + 1))) as (N & HN & HN0); [apply Rdiv_lt_0_compat; lra|].
    specialize (B N HN0). assert (C / 2 * / INR N < D); [|unfold D in *; lra].
    assert (0 < / INR N) by (apply Rinv_0_lt_compat, lt_0_INR; lia).
    apply Rmult_lt_compat_l with (r := C + 1) in HN; [|lra]. replace ((C + 1) * (D / (C + 1))) with D in HN by (field; lra). nra.
  Qed.
  (** the gradient step from [y] compared with any point [z] *)
  Lemma three_point : 0 < L -> forall y z, F (vsub y (vscal (1 / L) (G y))) <= F z + dot n (G y) (vsub y z) - m / 2 * nrm2 n (vsub z y) - / (2 * L) * nrm2 n (G y).
  Proof.
    intros HL y z. pose proof (descent y (vscal (- (1 / L)) (G y))) as D. pose proof (proj2 Hc z y) as C.
    replace (vadd y (vscal (- (1 / L)) (G y))) with (vsub y (vscal (1 / L) (G y))) in D by (vext; unfold vsub, vadd, vscal; ring).
    rewrite dot_scal_r, nrm2_scal in D. rewrite dot_sub_r in C. rewrite dot_sub_r. fold (nrm2 n (G y)) in D.
    set (g2 := nrm2 n (G y)) in *. replace (- (1 / L) * g2) with (- / L * g2) in D by (field; lra).
    replace (L / 2 * (- (1 / L) * - (1 / L) * g2)) with (/ (2 * L) * g2) in D by (field; lra).
    replace (/ L * g2) with (2 * (/ (2 * L) * g2)) in D by (field; lra). replace (- / L * g2) with (- (2 * (/ (2 * L) * g2))) in D by (field; lra). lra.
  Qed.
  Lemma grad_mono : forall x y, m * nrm2 n (vsub x y) <= dot n (vsub (G x) (G y)) (vsub x y) <= L * nrm2 n (vsub x y).
  Proof.
    intros x y. split.
    - pose proof (proj2 Hc x y) as A. pose proof (proj2 Hc y x) as B. repeat rewrite ?nrm2_sub, ?dot_sub_l, ?dot_sub_r in *. rewrite (dot_sym n y x) in *. unfold nrm2 in *. lra.
    - pose proof (dot_norm n (vsub (G x) (G y)) (vsub x y)) as D. apply Rabs_le_inv in D. pose proof (proj2 (proj1 (lip_norm n G L) Hl) x y). pose proof (norm_nonneg n (vsub x y)). rewrite <- norm_sq. nra.
  Qed.
  Lemma m_le_L : (0 < n)%nat -> m <= L.
  Proof.
    intros Hn. pose proof (grad_mono (fun _ => 1) (fun _ => 0)) as [A B]. assert (P : 0 < nrm2 n (vsub (fun _ => 1) (fun _ => 0))).
    { destruct (Rle_lt_or_eq_dec 0 _ (nrm2_nonneg n (vsub (fun _ => 1) (fun _ => 0)))) as [|E]; [assumption|].
      assert (Z : vsub (fun _ => 1) (fun _ => 0) 0%nat = 0) by (apply (nrm2_zero_inv n); [lra|lia]). unfold vsub in Z. lra. }
    apply Rmult_le_reg_r with (1 := P). lra.
  Qed.
  (** *** gradient descent with step 1/L *)
  Lemma gd_one : 0 < L -> forall x z, let x' := vsub x (vscal (1 / L) (G x)) in
    F x' - F z <= L / 2 * (nrm2 n (vsub x z) - nrm2 n (vsub x' z)) /\ F x' <= F x.
  Proof.
    intros HL x z x'. pose proof (three_point HL x z) as T. pose proof (three_point HL x x) as T0. fold x' in T, T0.
    pose proof (nrm2_nonneg n (G x)) as Hg. assert (0 < / (2 * L)) by (apply Rinv_0_lt_compat; lra).
    assert (Ex : nrm2 n (vsub x' z) = nrm2 n (vsub x z) - 2 / L * dot n (G x) (vsub x z) + / (L * L) * nrm2 n (G x)).
    { replace (vsub x' z) with (vsub (vsub x z) (vscal (1 / L) (G x))) by (vext; unfold x', vsub, vscal; ring).
      rewrite nrm2_sub, nrm2_scal, dot_scal_r, (dot_sym n (vsub x z) (G x)). field. lra. }
    pose proof (proj1 Hc) as Hm. pose proof (nrm2_nonneg n (vsub z x)). pose proof (nrm2_nonneg n (vsub x x)).
    assert (Z : dot n (G x) (vsub x x) = 0). { rewrite dot_sub_r. lra. }
    split.
    - rewrite Ex. replace (L / 2 * (nrm2 n (vsub x z) - (nrm2 n (vsub x z) - 2 / L * dot n (G x) (vsub x z) + / (L * L) * nrm2 n (G x))))
        with (dot n (G x) (vsub x z) - / (2 * L) * nrm2 n (G x)) by (field; lra). nra.
    - rewrite Z in T0. nra.
  Qed.
  (** *** gradient descent with step 2/(L+m) *)
  Lemma gd_contract : 0 < m -> forall x z, vanishes n (G z) ->
    nrm2 n (vsub (vsub x (vscal (2 / (L + m)) (G x))) z) <= ((L - m) / (L + m)) ^ 2 * nrm2 n (vsub x z).
  Proof.
    intros Hm x z Hz. destruct (Nat.eq_dec n 0) as [->|Hn]; [unfold nrm2, dot; cbn; lra|].
    assert (HLm : m <= L) by (apply m_le_L; lia).
    set (dl := vsub x z). set (d := vsub (vsub (G x) (G z)) (vscal m dl)).
    assert (Co : nrm2 n d <= (L - m) * dot n d dl).
    { destruct (Rle_lt_or_eq_dec m L HLm) as [Hlt|Heq].
      - (* the function with its quadratic part removed *)
        assert (Q : forall p q, F p - m / 2 * nrm2 n p + dot n (vsub (G p) (vscal m p)) (vsub q p) + / (2 * (L - m)) * nrm2 n (vsub (vsub (G q) (vscal m q)) (vsub (G p) (vscal m p))) <= F q - m / 2 * nrm2 n q).
        { intros p q. set (e := vsub (vsub (G q) (vscal m q)) (vsub (G p) (vscal m p))). set (w := vadd q (vscal (- / (L - m)) e)).
          pose proof (descent q (vscal (- / (L - m)) e)) as D. fold w in D. pose proof (proj2 Hc w p) as C.
          assert (Ew : vsub w p = vadd (vsub q p) (vscal (- / (L - m)) e)) by (vext; unfold w, vsub, vadd, vscal; ring).
          rewrite Ew in C. rewrite dot_scal_r, nrm2_scal in D. rewrite dot_add_r, dot_scal_r, nrm2_add, nrm2_scal, dot_scal_r in C.
          assert (Ee : nrm2 n e = dot n (G q) e - m * dot n q e - dot n (G p) e + m * dot n p e) by (unfold nrm2; unfold e at 1; dotsg; ring).
          assert (E1 : nrm2 n (vsub q p) = nrm2 n q - 2 * dot n q p + nrm2 n p) by apply nrm2_sub.
          rewrite E1 in C. rewrite dot_sub_l, dot_scal_l, (dot_sub_r n q p p), (dot_sym n p q). fold (nrm2 n p).
          rewrite (dot_sub_l n q p e) in C. set (r := / (L - m)) in *. assert (Hr : (L - m) * r = 1) by (unfold r; field; lra).
          replace (/ (2 * (L - m))) with (r / 2) by (unfold r; field; lra).
          set (gq := dot n (G q) e) in *. set (gp := dot n (G p) e) in *. set (qe := dot n q e) in *. set (pe := dot n p e) in *. set (ee := nrm2 n e) in *.
          assert (L / 2 * (- r * - r * ee) - m / 2 * (- r * - r * ee) = r / 2 * ee) by (replace (L / 2 * (- r * - r * ee) - m / 2 * (- r * - r * ee)) with ((L - m) * r * r / 2 * ee) by field; rewrite Hr; field).
          assert (- r * gq + r * gp + m * r * (qe - pe) = - r * ee) by (rewrite Ee; ring). nra. }
        pose proof (Q x z) as A. pose proof (Q z x) as B.
        assert (Ed : nrm2 n (vsub (vsub (G z) (vscal m z)) (vsub (G x) (vscal m x))) = nrm2 n d).
        { unfold d, dl. replace (vsub (vsub (G z) (vscal m z)) (vsub (G x) (vscal m x))) with (vscal (-1) (vsub (vsub (G x) (G z)) (vscal m (vsub x z)))) by (vext; unfold vsub, vscal; ring). rewrite nrm2_scal. ring. }
        assert (Ed' : nrm2 n (vsub (vsub (G x) (vscal m x)) (vsub (G z) (vscal m z))) = nrm2 n d).
        { apply nrm2_ext. intros i _. unfold d, dl, vsub, vscal. ring. }
        rewrite Ed in A. rewrite Ed' in B.
        assert (Es : dot n d dl = - dot n (vsub (G x) (vscal m x)) (vsub z x) - dot n (vsub (G z) (vscal m z)) (vsub x z)) by (unfold d, dl; dotsg; ring).
        assert (H2 : 2 * (/ (2 * (L - m)) * nrm2 n d) <= dot n d dl) by lra.
        apply Rmult_le_compat_l with (r := L - m) in H2; [|lra]. replace ((L - m) * (2 * (/ (2 * (L - m)) * nrm2 n d))) with (nrm2 n d) in H2 by (field; lra). exact H2.
      - pose proof (grad_mono x z) as [A _]. pose proof (proj2 Hl x z) as B. fold dl in A, B. unfold d. rewrite nrm2_sub, nrm2_scal, dot_scal_r. subst L. unfold nrm2 in *. nra. }
    assert (E : nrm2 n (vsub (vsub x (vscal (2 / (L + m)) (G x))) z) = nrm2 n (vsub (vscal ((L - m) / (L + m)) dl) (vscal (2 / (L + m)) d))).
    { apply nrm2_ext. intros i Hi. pose proof (Hz i Hi) as Zi. unfold d, dl, vsub, vscal. rewrite Zi. field. lra. }
    rewrite E, nrm2_sub, !nrm2_scal, dot_scal_l, dot_scal_r, (dot_sym n dl d).
    assert (0 < L + m) by lra. set (r := / (L + m)). assert (Hr : (L + m) * r = 1) by (unfold r; field; lra).
    replace ((L - m) / (L + m)) with ((L - m) * r) by reflexivity. replace (2 / (L + m)) with (2 * r) by reflexivity.
    assert (0 <= r * r) by (assert (0 < r) by (unfold r; apply Rinv_0_lt_compat; lra); nra).
    assert (4 * (r * r) * nrm2 n d <= 4 * (r * r) * ((L - m) * dot n d dl)) by (apply Rmult_le_compat_l; [lra|exact Co]). lra.
  Qed.
  (** *** the accelerated method, convex case: weights [t = (k+2)/2] *)
  Lemma agd_one : 0 < L -> forall t x y z, 1 <= t ->
    let x' := vsub y (vscal (1 / L) (G y)) in let v := vsub (vscal t y) (vscal (t - 1) x) in let v' := vadd x (vscal t (vsub x' x)) in
    t * t * (F x' - F z) + L / 2 * nrm2 n (vsub v' z) <= (t * t - t) * (F x - F z) + L / 2 * nrm2 n (vsub v z).
  Proof.
    intros HL t x y z Ht x' v v'. pose proof (three_point HL y z) as Tz. pose proof (three_point HL y x) as Tx. fold x' in Tz, Tx.
    pose proof (proj1 Hc) as Hm.
    assert (Tz' : F x' <= F z + dot n (G y) (vsub y z) - / (2 * L) * nrm2 n (G y)) by (pose proof (nrm2_nonneg n (vsub z y)); nra).
    assert (Tx' : F x' <= F x + dot n (G y) (vsub y x) - / (2 * L) * nrm2 n (G y)) by (pose proof (nrm2_nonneg n (vsub x y)); nra). clear Tz Tx.
    assert (Ev : vsub v' z = vsub (vsub v z) (vscal (t / L) (G y))).
    { vext. unfold v', v, x', vsub, vadd, vscal. field. lra. }
    rewrite Ev, nrm2_sub, nrm2_scal, dot_scal_r, (dot_sym n (vsub v z) (G y)).
    assert (Ed : dot n (G y) (vsub v z) = (t - 1) * dot n (G y) (vsub y x) + dot n (G y) (vsub y z)) by (unfold v; dotsg; ring).
    rewrite Ed. set (a := dot n (G y) (vsub y x)) in *. set (b := dot n (G y) (vsub y z)) in *. set (g := nrm2 n (G y)) in *.
    replace (L / 2 * (nrm2 n (vsub v z) - 2 * (t / L * ((t - 1) * a + b)) + t / L * (t / L) * g)) with (L / 2 * nrm2 n (vsub v z) - t * ((t - 1) * a + b) + t * t * (/ (2 * L) * g)) by (field; lra).
    set (r := / (2 * L) * g) in *. assert (t * (t - 1) * F x' <= t * (t - 1) * (F x + a - r)) by (apply Rmult_le_compat_l; [nra|exact Tx']).
    assert (t * F x' <= t * (F z + b - r)) by (apply Rmult_le_compat_l; [lra|exact Tz']). lra.
  Qed.
  (** *** the accelerated method, strongly convex case, [th = sqrt (m / L)] *)
  Lemma agd_strong : 0 < m -> forall th x y z, 0 < th <= 1 -> th * th * L = m ->
    let x' := vsub y (vscal (1 / L) (G y)) in let v := vadd y (vscal (/ th) (vsub y x)) in let v' := vadd x (vscal (/ th) (vsub x' x)) in
    F x' - F z + m / 2 * nrm2 n (vsub v' z) <= (1 - th) * (F x - F z + m / 2 * nrm2 n (vsub v z)).
  Proof.
    intros Hm th x y z Hth Hq x' v v'. assert (HL : 0 < L) by (destruct (Rlt_dec 0 L) as [|Hn]; [assumption|]; assert (0 < th * th) by nra; nra).
    pose proof (three_point HL y z) as Tz. pose proof (three_point HL y x) as Tx. fold x' in Tz, Tx.
    assert (Tx' : F x' <= F x + dot n (G y) (vsub y x) - / (2 * L) * nrm2 n (G y)) by (pose proof (nrm2_nonneg n (vsub x y)); nra). clear Tx.
    replace (nrm2 n (vsub z y)) with (nrm2 n (vsub y z)) in Tz by (rewrite !nrm2_sub, (dot_sym n z y); ring).
    set (a := vsub v z). set (b := vsub y z). fold b in Tz.
    assert (Ev : vsub v' z = vsub (vadd (vscal (1 - th) a) (vscal th b)) (vscal (th / m) (G y))).
    { vext. unfold v', a, b, v, x', vsub, vadd, vscal. rewrite <- Hq. field. split; lra. }
    assert (Ey : vsub y x = vscal th (vsub a b)). { vext. unfold a, b, v, vsub, vadd, vscal. field. lra. }
    rewrite Ey, dot_scal_r, dot_sub_r in Tx'. set (g2 := nrm2 n (G y)) in *.
    rewrite Ev, nrm2_sub, nrm2_scal, dot_scal_r, nrm2_add, !nrm2_scal, dot_add_l, !dot_scal_l, dot_scal_r. rewrite (dot_sym n a (G y)), (dot_sym n b (G y)). fold g2.
    assert (AB : 2 * dot n a b <= nrm2 n a + nrm2 n b) by (pose proof (nrm2_nonneg n (vsub a b)) as N; rewrite nrm2_sub in N; lra).
    set (ga := dot n (G y) a) in *. set (gb := dot n (G y) b) in *. set (ab := dot n a b) in *. set (aa := nrm2 n a) in *. set (bb := nrm2 n b) in *.
    replace (m / 2 * ((1 - th) * (1 - th) * aa + 2 * ((1 - th) * (th * ab)) + th * th * bb - 2 * (th / m * ((1 - th) * ga + th * gb)) + th / m * (th / m) * g2))
      with (m / 2 * ((1 - th) * (1 - th) * aa + (1 - th) * th * (2 * ab) + th * th * bb) - th * ((1 - th) * ga + th * gb) + / (2 * L) * g2)
      by (rewrite <- Hq; field; split; lra).
    set (r := / (2 * L) * g2) in *.
    assert (X1 : (1 - th) * F x' <= (1 - th) * (F x + th * (ga - gb) - r)) by (apply Rmult_le_compat_l; [lra|exact Tx']).
    assert (X2 : th * F x' <= th * (F z + gb - m / 2 * bb - r)) by (apply Rmult_le_compat_l; [lra|exact Tz]).
    assert (X3 : (1 - th) * th * (2 * ab) <= (1 - th) * th * (aa + bb)) by (apply Rmult_le_compat_l; [nra|exact AB]).
    assert (X4 : m / 2 * ((1 - th) * (1 - th) * aa + (1 - th) * th * (2 * ab) + th * th * bb) <= m / 2 * ((1 - th) * aa + th * bb)) by (apply Rmult_le_compat_l; lra).
    lra.
  Qed.
End Smooth.
