(** The built-in costs: derivatives, constants, proximal operators. *)
From Coq Require Import Reals List Bool Arith Lra Lia Psatz FunctionalExtensionality.
From Verif.Model Require Import Vec Costs.
From Verif.Spec Require Import CostSpec.
From Verif.Proofs Require Import CostProofs VecProofs CostAnalysis.
Import ListNotations.
Open Scope R_scope.

Lemma Rabs_le_inv : forall a b, Rabs a <= b -> - b <= a <= b.
Proof. intros a b H. unfold Rabs in H. destruct (Rcase_abs a); lra. Qed.

Section B.
  Variable n : nat.
  (** ** Quadratic *)
  Lemma quad_taylor : forall A b c x h,
    quad_f n A b c (vadd x h) - quad_f n A b c x - dot n (quad_g n A b x) h = 1/2 * dot n h (mulv n A h).
  Proof.
    intros. unfold quad_f, quad_g. rewrite <- !(quad_sym n A), mulv_add, dot_add_l, !dot_add_r, !dot_add_l.
    rewrite (sym_symm n A x h), (dot_sym n h (mulv n (sym A) x)). field.
  Qed.
  Definition msize (A : mat) : R := sumn n (fun i => sumn n (fun j => Rabs (A i j))).
  Lemma msize_nonneg : forall A, 0 <= msize A.
  Proof. intros. apply sumn_nonneg. intros. apply sumn_nonneg. intros. apply Rabs_pos. Qed.
  Lemma quad_bound : forall A h, Rabs (dot n h (mulv n A h)) <= msize A * nrm2 n h.
  Proof.
    intros A h. unfold dot at 1, mulv, msize. eapply Rle_trans; [apply sumn_abs|].
    rewrite Rmult_comm, <- sumn_scal. apply sumn_le. intros i Hi. rewrite Rabs_mult.
    eapply Rle_trans; [apply Rmult_le_compat_l; [apply Rabs_pos|apply sumn_abs]|].
    rewrite <- !sumn_scal. apply sumn_le. intros j Hj. rewrite Rabs_mult, <- norm_sq.
    pose proof (coord_le n h i Hi). pose proof (coord_le n h j Hj). pose proof (Rabs_pos (h i)). pose proof (Rabs_pos (h j)).
    pose proof (Rabs_pos (A i j)).
    replace (Rabs (h i) * (Rabs (A i j) * Rabs (h j))) with (Rabs (h i) * Rabs (h j) * Rabs (A i j)) by ring.
    apply Rmult_le_compat_r; [assumption|]. now apply Rmult_le_compat.
  Qed.
  Lemma quad_grad : forall A b c x, grad_at n (quad_f n A b c) x (quad_g n A b x).
  Proof.
    intros. apply grad_of_bound with (C := msize A); [apply msize_nonneg|]. intros h. rewrite quad_taylor, Rabs_mult.
    pose proof (quad_bound A h). pose proof (Rabs_pos (dot n h (mulv n A h))). rewrite (Rabs_right (1/2)) by lra. lra.
  Qed.
  Lemma quad_jac : forall A b x, jac_at n (quad_g n A b) x (sym A).
  Proof.
    intros. apply jac_of_bound with (C := 0); [lra|]. intros h. rewrite Rmult_0_l. apply norm_le; [lra|].
    rewrite (nrm2_ext n _ vzero); [rewrite nrm2_zero; lra|]. intros i _.
    unfold quad_g. rewrite mulv_add. unfold vsub, vadd, vzero. ring.
  Qed.
  Lemma quad_lip : forall eig_max A b, eig_max_right n eig_max (sym A) -> lipschitz n (quad_g n A b) (eig_max (sym A)).
  Proof.
    intros eig_max A b [H0 H]. split; [exact H0|]. intros x y. unfold quad_g.
    replace (vsub (vadd (mulv n (sym A) x) b) (vadd (mulv n (sym A) y) b)) with (mulv n (sym A) (vsub x y)).
    - apply H.
    - rewrite mulv_sub. vext. unfold vsub, vadd. ring.
  Qed.
  Lemma vadd_sub : forall x y : vec, vadd y (vsub x y) = x.
  Proof. intros. vext. unfold vadd, vsub. ring. Qed.
  Lemma quad_convex : forall A b c m, 0 <= m -> (forall h, m * nrm2 n h <= dot n h (mulv n A h)) -> convex_with n (quad_f n A b c) (quad_g n A b) m.
  Proof.
    intros A b c m Hm H. split; [exact Hm|]. intros x y. pose proof (quad_taylor A b c y (vsub x y)) as T.
    rewrite vadd_sub in T. specialize (H (vsub x y)). lra.
  Qed.
  Lemma quad_cvx_ok : forall eig_min A b c m, eig_min_right n eig_min (sym A) -> 0 <= eig_min (sym A) -> quad_cvx eig_min A = Fin m ->
    convex_with n (quad_f n A b c) (quad_g n A b) m.
  Proof.
    intros eig_min A b c m H H0 E. unfold quad_cvx in E.
    assert (Hm : 0 <= m <= eig_min (sym A)).
    { destruct (Rlt_dec tol (eig_min (sym A))); [injection E as <-; lra|].
      destruct (Rle_dec (Rabs (eig_min (sym A))) tol); [injection E as <-; lra|discriminate]. }
    apply quad_convex; [tauto|]. intros h. specialize (H h). rewrite quad_sym in H. pose proof (nrm2_nonneg n h). nra.
  Qed.

  Lemma quad_cvx_slack : forall eig_min A b c m, eig_min_right n eig_min (sym A) -> quad_cvx eig_min A = Fin m ->
    0 <= m /\ forall x y, quad_f n A b c y + dot n (quad_g n A b y) (vsub x y) + (m - tol) / 2 * nrm2 n (vsub x y) <= quad_f n A b c x.
  Proof.
    intros eig_min A b c m H E. unfold quad_cvx in E.
    assert (Ht : 0 < tol) by (unfold tol; apply Rinv_0_lt_compat; apply pow_lt; lra).
    assert (Hm : 0 <= m /\ m - tol <= eig_min (sym A)).
    { destruct (Rlt_dec tol (eig_min (sym A))); [injection E as <-; lra|].
      destruct (Rle_dec (Rabs (eig_min (sym A))) tol) as [L|]; [injection E as <-; apply Rabs_le_inv in L; lra|discriminate]. }
    split; [tauto|]. intros x y. pose proof (quad_taylor A b c y (vsub x y)) as T. rewrite vadd_sub in T.
    specialize (H (vsub x y)). rewrite quad_sym in H. pose proof (nrm2_nonneg n (vsub x y)). nra.
  Qed.

  (** ** L2 *)
  Lemma l2_taylor : forall x h, 1/2 * dot n (vadd x h) (vadd x h) - 1/2 * dot n x x - dot n x h = 1/2 * nrm2 n h.
  Proof. intros. change (dot n (vadd x h) (vadd x h)) with (nrm2 n (vadd x h)). rewrite nrm2_add. unfold nrm2. field. Qed.
  Lemma l2_grad : forall m x, grad_at n (rl_f (l2_reg n m)) x (rl_g (l2_reg n m) x).
  Proof.
    intros. apply grad_of_bound with (C := 1/2); [lra|]. intros h. cbn [rl_f rl_g l2_reg]. rewrite l2_taylor.
    rewrite Rabs_right; [lra|]. pose proof (nrm2_nonneg n h). lra.
  Qed.
  Lemma l2_jac : forall m x, jac_at n (rl_g (l2_reg n m)) x (rl_h (l2_reg n m) x).
  Proof.
    intros. apply jac_of_bound with (C := 0); [lra|]. intros h. rewrite Rmult_0_l. apply norm_le; [lra|].
    rewrite (nrm2_ext n _ vzero); [rewrite nrm2_zero; lra|]. intros i Hi. cbn. unfold vsub. rewrite mulv_eye by exact Hi.
    unfold vadd, vzero. ring.
  Qed.
  Lemma l2_lip : forall m, lipschitz n (rl_g (l2_reg n m)) 1.
  Proof. intros. split; [lra|]. intros. cbn. lra. Qed.
  Lemma l2_cvx : forall m, convex_with n (rl_f (l2_reg n m)) (rl_g (l2_reg n m)) 1.
  Proof. intros. split; [lra|]. intros x y. cbn [rl_f rl_g l2_reg]. pose proof (l2_taylor y (vsub x y)) as T. rewrite vadd_sub in T. lra. Qed.

  (** ** L1 *)
  Lemma sgn_abs : forall a, sgn a * a = Rabs a.
  Proof.
    intros. unfold sgn. destruct (Rlt_dec 0 a); [rewrite Rabs_right; lra|].
    destruct (Rlt_dec a 0); [rewrite Rabs_left; lra|]. assert (a = 0) as -> by lra. rewrite Rabs_R0. ring.
  Qed.
  Lemma sgn_le : forall a b, sgn a * b <= Rabs b.
  Proof.
    intros. pose proof (Rle_abs b). pose proof (Rle_abs (- b)). rewrite Rabs_Ropp in *. pose proof (Rabs_pos b).
    unfold sgn. destruct (Rlt_dec 0 a); [lra|]. destruct (Rlt_dec a 0); lra.
  Qed.
  Lemma l1_cvx : forall m, convex_with n (rl_f (l1_reg n m)) (rl_g (l1_reg n m)) 0.
  Proof.
    intros. split; [lra|]. intros x y. cbn [rl_f rl_g l1_reg]. unfold dot, vsub.
    replace (0 / 2 * nrm2 n (fun i => x i - y i)) with 0 by (unfold Rdiv; ring). rewrite Rplus_0_r, <- sumn_plus. apply sumn_le. intros i _.
    pose proof (sgn_abs (y i)). pose proof (sgn_le (y i) (x i)). lra.
  Qed.
  Lemma pos_min : forall x : vec, (forall i, (i < n)%nat -> x i <> 0) -> exists d, 0 < d /\ forall i, (i < n)%nat -> d <= Rabs (x i).
  Proof.
    induction n as [|m IH]; intros x H; [exists 1; split; [lra|intros; lia]|].
    destruct (IH x) as (d & Hd & B); [auto|]. exists (Rmin d (Rabs (x m))).
    split; [apply Rmin_pos; [exact Hd|apply Rabs_pos_lt; apply H; lia]|]. intros i Hi.
    destruct (Nat.eq_dec i m) as [->|]; [apply Rmin_r|]. eapply Rle_trans; [apply Rmin_l|]. apply B. lia.
  Qed.
  Lemma sgn_near : forall a h, Rabs h < Rabs a -> sgn (a + h) = sgn a.
  Proof.
    intros a h H. unfold sgn. unfold Rabs in H.
    destruct (Rcase_abs h), (Rcase_abs a), (Rlt_dec 0 (a + h)), (Rlt_dec 0 a), (Rlt_dec (a + h) 0), (Rlt_dec a 0); lra.
  Qed.
  Lemma l1_grad : forall m x, (forall i, (i < n)%nat -> x i <> 0) -> grad_at n (rl_f (l1_reg n m)) x (rl_g (l1_reg n m) x).
  Proof.
    intros m x Hx eps He. destruct (pos_min x Hx) as (d & Hd & B). exists d. split; [exact Hd|]. intros h Hh. cbn [rl_f rl_g l1_reg].
    rewrite (sumn_ext n (fun i => Rabs (vadd x h i)) (fun i => Rabs (x i) + sgn (x i) * h i)).
    - rewrite sumn_plus. unfold dot. replace (sumn n (fun i => Rabs (x i)) + sumn n (fun i => sgn (x i) * h i) - sumn n (fun i => Rabs (x i)) - sumn n (fun i => sgn (x i) * h i)) with 0 by ring.
      rewrite Rabs_R0. apply Rmult_le_pos; [lra|apply norm_nonneg].
    - intros i Hi. unfold vadd. rewrite <- (sgn_abs (x i + h i)), sgn_near; [rewrite <- (sgn_abs (x i)); ring|].
      eapply Rle_lt_trans; [exact (coord_le n h i Hi)|]. eapply Rlt_le_trans; [exact Hh|]. now apply B.
  Qed.
  Lemma l1_jac : forall m x, (forall i, (i < n)%nat -> x i <> 0) -> jac_at n (rl_g (l1_reg n m)) x (rl_h (l1_reg n m) x).
  Proof.
    intros m x Hx eps He. destruct (pos_min x Hx) as (d & Hd & B). exists d. split; [exact Hd|]. intros h Hh. cbn [rl_h rl_g l1_reg].
    rewrite (norm_ext n _ vzero); [rewrite norm_zero; apply Rmult_le_pos; [lra|apply norm_nonneg]|].
    intros i Hi. unfold vsub, vadd, vzero, mulv, mzero. rewrite (sumn_ext n _ (fun _ => 0)) by (intros; ring). rewrite sumn_zero.
    rewrite sgn_near; [ring|]. eapply Rle_lt_trans; [exact (coord_le n h i Hi)|]. eapply Rlt_le_trans; [exact Hh|]. now apply B.
  Qed.

  (** ** Fractional quadratic *)
  Lemma onesq : forall a, 1 + a * a <> 0.
  Proof. intros a H. pose proof (Rle_0_sqr a). unfold Rsqr in *. lra. Qed.
  Lemma frac_taylor : forall x h, (x + h) * (x + h) / (1 + (x + h) * (x + h)) - x * x / (1 + x * x) - frac_d x * h
    = h * h * ((1 - x * x - 2 * x * (x + h)) / ((1 + x * x) ^ 2 * (1 + (x + h) * (x + h)))).
  Proof. intros. unfold frac_d. field. split; apply onesq. Qed.
  Lemma frac_q : forall x y, Rabs ((1 - x * x - 2 * x * y) / ((1 + x * x) ^ 2 * (1 + y * y))) <= 1.
  Proof.
    intros. assert (P : 0 < (1 + x * x) ^ 2 * (1 + y * y)) by (apply Rmult_lt_0_compat; [apply pow_lt|]; nra).
    unfold Rdiv. rewrite Rabs_mult, Rabs_inv, (Rabs_right ((1 + x * x) ^ 2 * (1 + y * y))) by lra.
    apply (Rmult_le_reg_r ((1 + x * x) ^ 2 * (1 + y * y))); [exact P|]. rewrite Rmult_assoc, Rinv_l, Rmult_1_r, Rmult_1_l by lra.
    assert (Q : 1 + 2 * (x * x) + y * y <= (1 + x * x) ^ 2 * (1 + y * y)).
    { replace ((1 + x * x) ^ 2 * (1 + y * y)) with (1 + 2 * (x * x) + y * y + ((x * x) * (x * x) + 2 * ((x * x) * (y * y)) + (x * x) * (x * x) * (y * y))) by ring.
      pose proof (Rle_0_sqr x). pose proof (Rle_0_sqr y). unfold Rsqr in *.
      assert (0 <= x * x * (x * x)) by now apply Rmult_le_pos. assert (0 <= x * x * (y * y)) by now apply Rmult_le_pos.
      assert (0 <= x * x * (x * x) * (y * y)) by now apply Rmult_le_pos. lra. }
    apply Rabs_le. pose proof (Rle_0_sqr (x - y)). pose proof (Rle_0_sqr (x + y)). pose proof (Rle_0_sqr x). unfold Rsqr in *. split; nra.
  Qed.
  Lemma frac_grad : forall m mi t x, grad_at n (rl_f (frac_reg n m mi t)) x (rl_g (frac_reg n m mi t) x).
  Proof.
    intros. apply grad_of_bound with (C := 1); [lra|]. intros h. cbn [rl_f rl_g frac_reg]. unfold dot at 1. rewrite <- !sumn_minus.
    eapply Rle_trans; [apply sumn_abs|]. rewrite Rmult_1_l. unfold nrm2, dot. apply sumn_le. intros i _. unfold vadd.
    rewrite frac_taylor, Rabs_mult. rewrite (Rabs_right (h i * h i)) by nra. pose proof (frac_q (x i) (x i + h i)). nra.
  Qed.
  Lemma frac_taylor2 : forall x h, let y := x + h in
    frac_d y - frac_d x - 2 * (1 - 3 * (x * x)) / (1 + x * x) ^ 3 * h
    = h * h * ((-2 * y ^ 3 + 6 * x ^ 2 * y ^ 3 + 4 * x ^ 3 * y ^ 2 - 4 * x * y ^ 2 - 4 * y + 6 * x ^ 2 * y + 2 * x ^ 4 * y - 8 * x)
               / ((1 + x * x) ^ 3 * (1 + y * y) ^ 2)).
  Proof. intros. unfold y, frac_d. field. split; apply onesq. Qed.
  Lemma monom : forall x y i j, (i <= 6)%nat -> (j <= 4)%nat -> Rabs (x ^ i * y ^ j) <= (1 + x * x) ^ 3 * (1 + y * y) ^ 2.
  Proof.
    assert (A : forall x k, (k <= 2)%nat -> Rabs (x ^ k) <= 1 + x * x).
    { intros x k Hk. rewrite <- RPow_abs. pose proof (Rabs_pos x). pose proof (Rsqr_abs x) as E. unfold Rsqr in E. rewrite E.
      destruct k as [|[|[|k]]]; [| | |lia]; cbn; nra. }
    assert (One : forall x, 1 <= 1 + x * x) by (intros; nra).
    assert (Bnd : forall x m k, (k <= 2 * m)%nat -> Rabs (x ^ k) <= (1 + x * x) ^ m).
    { intros x. induction m as [|m IH]; intros k Hk.
      - assert (k = 0)%nat as -> by lia. cbn. rewrite Rabs_R1. lra.
      - destruct (le_lt_dec k 2) as [Hs|Hs].
        + eapply Rle_trans; [now apply A|]. rewrite <- (Rmult_1_r (1 + x * x)) at 1. change ((1 + x * x) ^ S m) with ((1 + x * x) * (1 + x * x) ^ m). apply Rmult_le_compat_l; [specialize (One x); lra|].
          apply pow_R1_Rle. apply One.
        + replace k with (2 + (k - 2))%nat by lia. rewrite pow_add, Rabs_mult. change ((1 + x * x) ^ S m) with ((1 + x * x) * (1 + x * x) ^ m).
          apply Rmult_le_compat; try apply Rabs_pos; [apply (A x 2%nat); lia|apply IH; lia]. }
    intros x y i j Hi Hj. rewrite Rabs_mult. apply Rmult_le_compat; try apply Rabs_pos; apply Bnd; lia.
  Qed.
  Lemma frac_q2 : forall x y,
    Rabs ((-2 * y ^ 3 + 6 * x ^ 2 * y ^ 3 + 4 * x ^ 3 * y ^ 2 - 4 * x * y ^ 2 - 4 * y + 6 * x ^ 2 * y + 2 * x ^ 4 * y - 8 * x)
               / ((1 + x * x) ^ 3 * (1 + y * y) ^ 2)) <= 36.
  Proof.
    intros. set (D := (1 + x * x) ^ 3 * (1 + y * y) ^ 2).
    assert (P : 0 < D) by (unfold D; apply Rmult_lt_0_compat; apply pow_lt; nra).
    unfold Rdiv. rewrite Rabs_mult, Rabs_inv, (Rabs_right D) by lra.
    apply (Rmult_le_reg_r D); [exact P|]. rewrite Rmult_assoc, Rinv_l, Rmult_1_r by lra.
    assert (M : forall i j, (i <= 6)%nat -> (j <= 4)%nat -> - D <= x ^ i * y ^ j <= D).
    { intros i j Hi Hj. pose proof (monom x y i j Hi Hj) as B. apply Rabs_le_inv in B. exact B. }
    pose proof (M 0%nat 3%nat ltac:(lia) ltac:(lia)) as M1. pose proof (M 2%nat 3%nat ltac:(lia) ltac:(lia)) as M2.
    pose proof (M 3%nat 2%nat ltac:(lia) ltac:(lia)) as M3. pose proof (M 1%nat 2%nat ltac:(lia) ltac:(lia)) as M4.
    pose proof (M 0%nat 1%nat ltac:(lia) ltac:(lia)) as M5. pose proof (M 2%nat 1%nat ltac:(lia) ltac:(lia)) as M6.
    pose proof (M 4%nat 1%nat ltac:(lia) ltac:(lia)) as M7. pose proof (M 1%nat 0%nat ltac:(lia) ltac:(lia)) as M8.
    clear M. rewrite ?pow_O, ?pow_1, ?Rmult_1_l, ?Rmult_1_r in *. apply Rabs_le. split; lra.
  Qed.
  Lemma sumn_sq_le : forall m f, (forall i, (i < m)%nat -> 0 <= f i) -> sumn m (fun i => f i * f i) <= sumn m f * sumn m f.
  Proof.
    induction m; intros f H; cbn; [lra|]. specialize (IHm f). assert (0 <= sumn m f) by (apply sumn_nonneg; auto).
    assert (0 <= f m) by auto. assert (sumn m (fun i => f i * f i) <= sumn m f * sumn m f) by (apply IHm; auto). nra.
  Qed.
  Lemma mulv_diag : forall (d : vec) (x : vec) i, (i < n)%nat -> mulv n (fun i j => if Nat.eqb i j then d i else 0) x i = d i * x i.
  Proof.
    intros d x i Hi. unfold mulv. rewrite (sumn_ext n _ (fun j => d i * (meye i j * x j))).
    - rewrite sumn_scal. f_equal. now apply mulv_eye.
    - intros j _. unfold meye. destruct (Nat.eqb i j); ring.
  Qed.
  Lemma frac_jac : forall m mi t x, jac_at n (rl_g (frac_reg n m mi t)) x (rl_h (frac_reg n m mi t) x).
  Proof.
    intros. apply jac_of_bound with (C := 36); [lra|]. intros h. apply norm_le; [pose proof (nrm2_nonneg n h); lra|].
    cbn [rl_g rl_h frac_reg].
    rewrite (nrm2_ext n _ (fun i => frac_d (x i + h i) - frac_d (x i) - 2 * (1 - 3 * (x i * x i)) / (1 + x i * x i) ^ 3 * h i)).
    - apply Rle_trans with (sumn n (fun i => 36 * 36 * ((h i * h i) * (h i * h i)))).
      + unfold nrm2, dot. apply sumn_le. intros i _. rewrite (frac_taylor2 (x i) (h i)).
        set (q := _ / _). assert (Q : Rabs q <= 36) by apply frac_q2. apply Rabs_le_inv in Q.
        replace (h i * h i * q * (h i * h i * q)) with (q * q * ((h i * h i) * (h i * h i))) by ring.
        apply Rmult_le_compat_r; [nra|nra].
      + rewrite sumn_scal.
        replace (36 * nrm2 n h * (36 * nrm2 n h)) with (36 * 36 * (nrm2 n h * nrm2 n h)) by ring. apply Rmult_le_compat_l; [lra|].
        unfold nrm2, dot. apply (sumn_sq_le n (fun i => h i * h i)). intros. nra.
    - intros i Hi. unfold vsub. rewrite (mulv_diag (fun i => 2 * (1 - 3 * (x i * x i)) / (1 + x i * x i) ^ 3)) by exact Hi. reflexivity.
  Qed.
  Lemma frac_d_lip : forall x y, Rabs (frac_d x - frac_d y) <= 2 * Rabs (x - y).
  Proof.
    intros. set (p := x * y). set (s := x * x + y * y).
    assert (Hs : 2 * Rabs p <= s).
    { unfold p, s. assert (H1 := Rle_0_sqr (x - y)). assert (H2 := Rle_0_sqr (x + y)). unfold Rsqr in *.
      unfold Rabs. destruct (Rcase_abs (x * y)); lra. }
    assert (E : frac_d x - frac_d y = 2 * (x - y) * ((1 - 2 * p - p * s - p * p) / (1 + s + p * p) ^ 2)).
    { unfold frac_d, p, s.
      assert (Q : 1 + (x * x + y * y) + x * y * (x * y) <> 0).
      { replace (1 + (x * x + y * y) + x * y * (x * y)) with ((1 + x * x) * (1 + y * y)) by ring. apply Rmult_integral_contrapositive_currified; apply onesq. }
      field. repeat split; auto using onesq. }
    assert (P : 0 < (1 + s + p * p) ^ 2) by (apply pow_lt; unfold s; nra).
    assert (Q : Rabs ((1 - 2 * p - p * s - p * p) / (1 + s + p * p) ^ 2) <= 1).
    { unfold Rdiv. rewrite Rabs_mult, Rabs_inv, (Rabs_right ((1 + s + p * p) ^ 2)) by lra.
      apply (Rmult_le_reg_r ((1 + s + p * p) ^ 2)); [exact P|]. rewrite Rmult_assoc, Rinv_l, Rmult_1_r, Rmult_1_l by lra.
      assert (0 <= s) by (unfold s; nra). assert (0 <= p * p) by nra.
      pose proof (Rle_abs p). pose proof (Rle_abs (- p)). rewrite Rabs_Ropp in *.
      assert (0 <= s * (p * p)) by now apply Rmult_le_pos.
      replace ((1 + s + p * p) ^ 2) with (1 + 2 * s + 2 * (p * p) + s * s + 2 * (s * (p * p)) + (p * p) * (p * p)) by ring.
      assert (0 <= (p * p) * (p * p)) by nra.
      assert (p * s <= s * s / 2 /\ - (p * s) <= s * s / 2) by (split; nra).
      assert (0 <= s * s) by nra. apply Rabs_le. split; lra. }
    rewrite E, !Rabs_mult, (Rabs_right 2) by lra. rewrite Rmult_assoc. pose proof (Rabs_pos (x - y)). nra.
  Qed.
  Lemma frac_lip : forall m mi t, lipschitz n (rl_g (frac_reg n m mi t)) 2.
  Proof.
    intros. split; [lra|]. intros x y. cbn [rl_g frac_reg]. unfold nrm2, dot, vsub. rewrite <- sumn_scal. apply sumn_le. intros i _.
    pose proof (frac_d_lip (x i) (y i)) as B. assert (S : Rsqr (frac_d (x i) - frac_d (y i)) <= Rsqr (2 * (x i - y i))).
    { apply Rsqr_le_abs_1. rewrite Rabs_mult, (Rabs_right 2) by lra. exact B. }
    unfold Rsqr in S. lra.
  Qed.

  (** ** Proximal operators *)
  Lemma prox_shift : forall x p z, nrm2 n (vsub z x) = nrm2 n (vsub p x) + 2 * dot n (vsub p x) (vsub z p) + nrm2 n (vsub z p).
  Proof. intros. rewrite <- nrm2_add. apply nrm2_ext. intros. unfold vsub, vadd. ring. Qed.
  (** a subgradient condition suffices *)
  Lemma prox_of_subgrad : forall F rho x p, 0 < rho ->
    (forall z, F p + dot n (vsub x p) (vsub z p) / rho <= F z) -> is_prox n F rho x p.
  Proof.
    intros F rho x p Hr H z. specialize (H z).
    assert (E : nrm2 n (vsub z x) / (2 * rho) = nrm2 n (vsub p x) / (2 * rho) - dot n (vsub x p) (vsub z p) / rho + nrm2 n (vsub z p) / (2 * rho)).
    { rewrite (prox_shift x p z).
      replace (dot n (vsub p x) (vsub z p)) with (- dot n (vsub x p) (vsub z p)); [field; lra|].
      replace (vsub p x) with (vscal (-1) (vsub x p)) by (vext; unfold vscal, vsub; ring). rewrite dot_scal_l. ring. }
    pose proof (nrm2_nonneg n (vsub z p)) as N. assert (0 <= nrm2 n (vsub z p) / (2 * rho)) by (apply Rmult_le_pos; [exact N|left; apply Rinv_0_lt_compat; lra]).
    split; [lra|]. intros Le i Hi.
    assert (Z : nrm2 n (vsub z p) / (2 * rho) <= 0) by lra.
    assert (Z' : nrm2 n (vsub z p) <= 0).
    { apply (Rmult_le_reg_r (/ (2 * rho))); [apply Rinv_0_lt_compat; lra|]. rewrite Rmult_0_l. exact Z. }
    pose proof (nrm2_zero_inv n _ Z' i Hi) as D. unfold vsub in D. lra.
  Qed.
  Lemma prox_zero : forall rho x, 0 < rho -> is_prox n (fun _ => 0) rho x x.
  Proof.
    intros. apply prox_of_subgrad; [assumption|]. intros z.
    replace (vsub x x) with vzero by (vext; unfold vsub, vzero; ring). rewrite dot_zero_l. unfold Rdiv. lra.
  Qed.
  Lemma prox_l2 : forall m rho x p, rl_prox (l2_reg n m) x rho = Ok p -> 0 < rho /\ is_prox n (rl_f (l2_reg n m)) rho x p.
  Proof.
    intros m rho x p E. cbn in E. destruct (Rle_dec rho 0) as [|N]; [discriminate|]. injection E as <-.
    assert (Hr : 0 < rho) by lra. split; [exact Hr|]. apply prox_of_subgrad; [exact Hr|]. intros z.
    set (p := fun i => x i / (1 + rho)). destruct (l2_cvx m) as [_ C]. specialize (C z p). cbn [rl_g l2_reg] in C.
    replace (vsub x p) with (vscal rho p); [|vext; unfold vscal, vsub, p; field; lra].
    rewrite dot_scal_l. replace (rho * dot n p (vsub z p) / rho) with (dot n p (vsub z p)) by (field; lra).
    pose proof (nrm2_nonneg n (vsub z p)). lra.
  Qed.
  Lemma prox_l1 : forall m rho x p, rl_prox (l1_reg n m) x rho = Ok p -> 0 < rho /\ is_prox n (rl_f (l1_reg n m)) rho x p.
  Proof.
    intros m rho x p E. cbn in E. destruct (Rle_dec rho 0) as [|N]; [discriminate|]. injection E as <-.
    assert (Hr : 0 < rho) by lra. split; [exact Hr|]. apply prox_of_subgrad; [exact Hr|]. intros z.
    cbn [rl_f l1_reg]. unfold dot, vsub. unfold Rdiv. rewrite (Rmult_comm (sumn n _) (/ rho)), <- sumn_scal, <- sumn_plus. apply sumn_le.
    intros i _. set (a := x i). set (b := z i). apply (Rmult_le_reg_l rho); [exact Hr|]. rewrite Rmult_plus_distr_l.
    rewrite <- (Rmult_assoc rho (/ rho)), Rinv_r, Rmult_1_l by lra.
    clearbody a b. pose proof (Rabs_pos b) as Pb.
    unfold sgn. destruct (Rlt_dec 0 a) as [Ha|Ha].
    - rewrite (Rabs_right a) by lra. unfold Rmax. destruct (Rle_dec (a - rho) 0) as [Hl|Hl].
      + rewrite Rmult_0_r, Rabs_R0. pose proof (Rle_abs b). nra.
      + rewrite Rmult_1_l, (Rabs_right (a - rho)) by lra. pose proof (Rle_abs b). nra.
    - destruct (Rlt_dec a 0) as [Hb|Hb].
      + rewrite (Rabs_left a) by lra. unfold Rmax. destruct (Rle_dec (- a - rho) 0) as [Hl|Hl].
        * rewrite Rmult_0_r, Rabs_R0. pose proof (Rle_abs (- b)). rewrite Rabs_Ropp in *. nra.
        * replace (-1 * (- a - rho)) with (a + rho) by ring. rewrite (Rabs_left (a + rho)) by lra.
          pose proof (Rle_abs (- b)). rewrite Rabs_Ropp in *. nra.
      + assert (a = 0) as -> by lra. rewrite Rmult_0_l, Rabs_R0. pose proof (Rabs_pos b). nra.
  Qed.
  Lemma nz_dec : forall h : vec, (exists i, (i < n)%nat /\ h i <> 0) \/ forall i, (i < n)%nat -> h i = 0.
  Proof.
    intros h. induction n as [|m IH]; [right; intros; lia|]. destruct IH as [(i & Hi & N)|Z]; [left; exists i; split; [lia|exact N]|].
    destruct (Req_dec (h m) 0) as [E|N]; [right|left; exists m; split; [lia|exact N]].
    intros i Hi. destruct (Nat.eq_dec i m) as [->|]; [exact E|apply Z; lia].
  Qed.
  (** quadratic: [rho A_sym + I] positive definite *)
  Lemma prox_quad : forall A b c rho x p, 0 < rho -> (forall h, (exists i, (i < n)%nat /\ h i <> 0) -> 0 < rho * dot n h (mulv n A h) + nrm2 n h) ->
    solves n (madd (mscal rho (sym A)) meye) (vsub x (vscal rho b)) p -> is_prox n (quad_f n A b c) rho x p.
  Proof.
    intros A b c rho x p Hr PD S z.
    set (h := vsub z p). pose proof (quad_taylor A b c p h) as T. assert (Ez : vadd p h = z) by (unfold h; apply vadd_sub). rewrite Ez in T.
    assert (G : rho * dot n (quad_g n A b p) h = - dot n (vsub p x) h).
    { rewrite <- dot_scal_l.
      replace (- dot n (vsub p x) h) with (dot n (vsub x p) h).
      - apply dot_ext; auto. intros i Hi. specialize (S i Hi). rewrite mulv_add_m, mulv_scal_m in S. unfold vadd in S. rewrite mulv_eye in S by exact Hi.
        unfold quad_g, vscal, vsub, vadd in *. lra.
      - rewrite !dot_sub_l. ring. }
    assert (E : nrm2 n (vsub z x) = nrm2 n (vsub p x) + 2 * dot n (vsub p x) h + nrm2 n h) by apply prox_shift.
    assert (D : (quad_f n A b c z + nrm2 n (vsub z x) / (2 * rho)) - (quad_f n A b c p + nrm2 n (vsub p x) / (2 * rho))
                = (rho * dot n h (mulv n A h) + nrm2 n h) / (2 * rho)).
    { rewrite E. apply (Rmult_eq_reg_r (2 * rho)); [|lra].
      replace ((rho * dot n h (mulv n A h) + nrm2 n h) / (2 * rho) * (2 * rho)) with (rho * dot n h (mulv n A h) + nrm2 n h) by (field; lra).
      replace (quad_f n A b c z) with (quad_f n A b c p + dot n (quad_g n A b p) h + 1/2 * dot n h (mulv n A h)) by lra.
      transitivity (2 * (rho * dot n (quad_g n A b p) h) + rho * dot n h (mulv n A h) + 2 * dot n (vsub p x) h + nrm2 n h); [field; lra|].
      rewrite G. ring. }
    assert (Inv : 0 < / (2 * rho)) by (apply Rinv_0_lt_compat; lra).
    destruct (Req_dec (nrm2 n h) 0) as [Z|Z].
    - assert (Hz : forall i, (i < n)%nat -> z i = p i).
      { intros i Hi. assert (Hh : h i = 0) by (apply (nrm2_zero_inv n); [lra|exact Hi]). unfold h, vsub in Hh. lra. }
      assert (Q : dot n h (mulv n A h) = 0).
      { rewrite (dot_ext n h vzero (mulv n A h) (mulv n A h)); auto; [apply dot_zero_l|].
        intros i Hi. apply (nrm2_zero_inv n); [lra|exact Hi]. }
      rewrite Q, Z in D. replace ((rho * 0 + 0) / (2 * rho)) with 0 in D by (field; lra). split; [lra|auto].
    - assert (0 < rho * dot n h (mulv n A h) + nrm2 n h).
      { apply PD. destruct (Nat.eq_dec n 0) as [E0|N0].
        - exfalso. apply Z. rewrite E0. reflexivity.
        - destruct (nz_dec h) as [W|W]; [exact W|]. exfalso. apply Z. rewrite (nrm2_ext n h vzero); [apply nrm2_zero|exact W]. }
      assert (0 < (rho * dot n h (mulv n A h) + nrm2 n h) / (2 * rho)) by (now apply Rmult_lt_0_compat).
      split; [lra|]. intros Le. lra.
  Qed.
  Lemma prox_scale : forall F a rho x p, 0 < a -> 0 < rho -> is_prox n F (rho * a) x p -> is_prox n (fun x => a * F x) rho x p.
  Proof.
    intros F a rho x p Ha Hr H z. destruct (H z) as [H1 H2].
    assert (E : forall w, a * F w + nrm2 n (vsub w x) / (2 * rho) = a * (F w + nrm2 n (vsub w x) / (2 * (rho * a)))) by (intros; field; lra).
    rewrite !E. split; [apply Rmult_le_compat_l; lra|]. intros Le. apply H2. apply (Rmult_le_reg_l a); assumption.
  Qed.

  Lemma pd_nonsingular : forall A rho, (forall h, (exists i, (i < n)%nat /\ h i <> 0) -> 0 < rho * dot n h (mulv n A h) + nrm2 n h) ->
    forall h, (forall i, (i < n)%nat -> mulv n (madd (mscal rho (sym A)) meye) h i = 0) -> forall i, (i < n)%nat -> h i = 0.
  Proof.
    intros A rho PD h Z. destruct (nz_dec h) as [W|W]; [|exact W]. exfalso. specialize (PD h W).
    assert (E : dot n h (mulv n (madd (mscal rho (sym A)) meye) h) = 0).
    { rewrite (dot_ext n h h _ vzero); auto. rewrite dot_sym. apply dot_zero_l. }
    rewrite mulv_add_m, mulv_scal_m, dot_add_r, dot_scal_r, quad_sym in E.
    rewrite (dot_ext n h h (mulv n meye h) h) in E; auto; [fold (nrm2 n h) in E; lra|]. intros i Hi. now apply mulv_eye.
  Qed.
  Lemma prox_quad_solve : forall solve A b c rho x, solve_ok n solve -> 0 < rho ->
    (forall h, (exists i, (i < n)%nat /\ h i <> 0) -> 0 < rho * dot n h (mulv n A h) + nrm2 n h) ->
    is_prox n (quad_f n A b c) rho x (quad_prox solve A b x rho).
  Proof. intros solve A b c rho x HS Hr PD. apply prox_quad; auto. apply HS. now apply pd_nonsingular. Qed.
  Lemma psd_pd : forall A, (forall h, 0 <= dot n h (mulv n A h)) -> forall rho, 0 < rho ->
    forall h, (exists i, (i < n)%nat /\ h i <> 0) -> 0 < rho * dot n h (mulv n A h) + nrm2 n h.
  Proof.
    intros A PSD rho Hr h (i & Hi & Ni). specialize (PSD h).
    assert (0 < nrm2 n h).
    { destruct (Rle_lt_or_eq_dec 0 (nrm2 n h) (nrm2_nonneg n h)) as [L|E]; [exact L|]. exfalso. apply Ni.
      apply (nrm2_zero_inv n); [lra|exact Hi]. }
    assert (0 <= rho * dot n h (mulv n A h)) by (apply Rmult_le_pos; lra). lra.
  Qed.

  Section Tree.
    Context {K St : Type} (kw_none : K -> bool) (k : K) (solve : mat -> vec -> vec) (prox_solver : cost K St -> vec -> R -> res vec).
    Hypothesis HS : solve_ok n solve.
    Definition proxed (F : vec -> R) (pr : vec -> R -> res vec) : Prop := forall x rho p, 0 < rho -> pr x rho = Ok p -> is_prox n F rho x p.
    Lemma scaled_proxed : forall a F pr, proxed F pr -> proxed (fun x => a * F x) (scaled_prox a pr).
    Proof.
      intros a F pr H x rho p Hr E. unfold scaled_prox in E. destruct (Rle_dec rho 0); [discriminate|].
      destruct (Rlt_dec a 0); [discriminate|]. destruct (Req_EM_T a 0) as [->|N].
      - injection E as <-. replace (fun x => 0 * F x) with (fun _ : vec => 0) by (vext; ring). now apply prox_zero.
      - assert (Ha : 0 < a) by lra. apply prox_scale; auto. apply H; auto. now apply Rmult_lt_0_compat.
    Qed.
    Lemma true_good : forall c : cost K St, (forall a, In a (atoms c) -> exists F G H, atom_is n kw_none k a F G H /\ atom_prox_right n a F) ->
      exists F G H, cost_is n kw_none k c F G H.
    Proof.
      intros c Hg. destruct (cost_good (St:=St) n kw_none (fun _ => 0) (fun _ => 0) k (fun _ _ _ _ _ => True)) with (c := c) as (F & G & H & HC & _); auto.
      - intros a Ha. destruct (Hg a Ha) as (F & G & H & HA & _). exists F, G, H. auto.
      - exists F, G, H. exact HC.
    Qed.
    Lemma reg_proxed : forall r, (forall a : atom K St, In a (reg_atoms r) -> exists F G H, atom_is n kw_none k a F G H /\ atom_prox_right n a F) ->
      proxed (reg_f r) (reg_prox r).
    Proof.
      intros [l|m ts] Hg x rho p Hr E; cbn in *.
      - destruct (Hg (AReg l)) as (F & G & H & (-> & _) & HP); auto.
      - destruct (Rle_dec rho 0); [discriminate|]. destruct ts as [|[l w] [|t ts]]; try discriminate.
        destruct (Rlt_dec 0 w) as [Hw|]; [|discriminate].
        destruct (Hg (AReg l)) as (F & G & H & (-> & _) & HP); [left; reflexivity|]. cbn in HP.
        assert (Q : is_prox n (fun x => w * rl_f l x) rho x p) by (apply prox_scale; auto; apply HP; auto; now apply Rmult_lt_0_compat).
        replace (reg_f (RComp m [(l, w)])) with (fun x => w * rl_f l x) by (vext; unfold reg_f, rsum; cbn; ring). exact Q.
    Qed.
    Lemma emp_proxed : forall e : emp K St, (forall a, In a (emp_atoms e) -> exists F G H, atom_is n kw_none k a F G H /\ atom_prox_right n a F) ->
      exists F G H, cost_is n kw_none k (CEmp e) F G H /\ proxed F (emp_prox e).
    Proof.
      induction e as [l|e IH a|e IH r]; intros Hg; cbn in Hg.
      - destruct (Hg (AUser l)) as (F & G & H & HA & HP); auto. exists F, G, H. split; auto.
      - destruct (IH Hg) as (F & G & H & (HF & HG & HH) & HP). exists (fun x => a * F x), (fun x => vscal a (G x)), (fun x => mscal a (H x)).
        split; [|now apply scaled_proxed].
        repeat split; intros x s; cbn in *; unfold emap; [destruct (HF x s) as [s' E]|destruct (HG x s) as [s' E]|destruct (HH x s) as [s' E]]; exists s'; now rewrite E.
      - destruct (true_good (CEmp (EReg e r)) Hg) as (F & G & H & HC). exists F, G, H. split; [exact HC|].
        intros x rho p _ E. discriminate.
    Qed.
    Lemma cost_proxed : forall c : cost K St, (forall a, In a (atoms c) -> exists F G H, atom_is n kw_none k a F G H /\ atom_prox_right n a F) -> no_sum c ->
      exists F G H, cost_is n kw_none k c F G H /\ proxed F (cost_prox solve prox_solver c).
    Proof.
      induction c as [l|m|m A b q|r|e|c IH a|cs]; intros Hg NS; cbn in NS; try contradiction.
      - destruct (Hg (AUser l)) as (F & G & H & HA & HP); [left; reflexivity|]. exists F, G, H. split; auto.
      - exists (fun _ => 0), (fun _ => vzero), (fun _ => mzero). split; [repeat split; intros x s; now exists s|]. intros x rho p Hr E. cbn in E.
        destruct (Rle_dec rho 0); [discriminate|]. injection E as <-. now apply prox_zero.
      - destruct (Hg (AQuad A b q)) as (F & G & H & (HK & -> & -> & ->) & HP); [left; reflexivity|].
        do 3 eexists. split; [repeat split; intros x s; cbn; unfold pure_nokw; rewrite HK; now exists s|].
        intros x rho p Hr E. cbn in E. injection E as <-. apply prox_quad_solve; auto. now apply psd_pd.
      - do 3 eexists. split; [repeat split; intros x s; now exists s|]. now apply reg_proxed.
      - exact (emp_proxed e Hg).
      - destruct (IH Hg NS) as (F & G & H & (HF & HG & HH) & HP). exists (fun x => a * F x), (fun x => vscal a (G x)), (fun x => mscal a (H x)).
        split; [|now apply scaled_proxed].
        repeat split; intros x s; cbn in *; unfold emap; [destruct (HF x s) as [s' E]|destruct (HG x s) as [s' E]|destruct (HH x s) as [s' E]]; exists s'; now rewrite E.
    Qed.
  End Tree.

  (** ** The fractional regularizer's iteration decreases the objective *)
  Lemma frac_step : forall rho a c, 0 < rho -> let s := 1 / (2 + 1 / rho) in
    let y := c - s * (frac_d c + (c - a) / rho) in
    y * y / (1 + y * y) + (y - a) * (y - a) / (2 * rho) <= c * c / (1 + c * c) + (c - a) * (c - a) / (2 * rho).
  Proof.
    intros rho a c Hr s y. set (g := frac_d c + (c - a) / rho) in *. set (h := - s * g).
    assert (Ey : y = c + h) by (unfold y, h; ring).
    assert (Ir : 0 < 1 / rho) by (apply Rdiv_lt_0_compat; lra).
    assert (Hs : 0 < s) by (unfold s; apply Rdiv_lt_0_compat; lra).
    pose proof (frac_taylor c h) as T. rewrite <- Ey in T. set (q := (1 - c * c - 2 * c * y) / ((1 + c * c) ^ 2 * (1 + y * y))) in T.
    assert (Q : q <= 1) by (pose proof (frac_q c y) as B; fold q in B; apply Rabs_le_inv in B; lra).
    assert (E2 : (y - a) * (y - a) / (2 * rho) = (c - a) * (c - a) / (2 * rho) + (c - a) / rho * h + h * h * (1 / rho) / 2) by (rewrite Ey; field; lra).
    assert (Es : s * (2 + 1 / rho) = 1) by (unfold s; field; split; lra).
    assert (D : y * y / (1 + y * y) + (y - a) * (y - a) / (2 * rho) - (c * c / (1 + c * c) + (c - a) * (c - a) / (2 * rho))
                = g * h + h * h * (q + 1 / rho / 2)).
    { rewrite E2. unfold g. replace (y * y / (1 + y * y)) with (c * c / (1 + c * c) + frac_d c * h + h * h * q) by lra. unfold Rdiv. ring. }
    assert (Hh : h * h * (q + 1 / rho / 2) <= h * h * ((2 + 1 / rho) / 2)) by (apply Rmult_le_compat_l; [nra|lra]).
    assert (F : g * h + h * h * ((2 + 1 / rho) / 2) = - (s * (g * g)) / 2).
    { unfold h. replace (- s * g * (- s * g) * ((2 + 1 / rho) / 2)) with (s * g * g * (s * (2 + 1 / rho)) / 2) by (unfold Rdiv; ring). rewrite Es. field. }
    assert (0 <= s * (g * g)) by (apply Rmult_le_pos; nra). lra.
  Qed.
  Lemma frac_obj : forall m mi t rho x z, prox_obj n (rl_f (frac_reg n m mi t)) rho x z
    = sumn n (fun i => z i * z i / (1 + z i * z i) + (z i - x i) * (z i - x i) / (2 * rho)).
  Proof. intros. unfold prox_obj. cbn [rl_f frac_reg]. rewrite sumn_plus. f_equal. unfold nrm2, dot, vsub, Rdiv.
    rewrite Rmult_comm, <- sumn_scal. apply sumn_ext. intros. ring. Qed.
  Lemma frac_iter_descends : forall m mi0 t0 iters t rho x cur, 0 < rho ->
    prox_obj n (rl_f (frac_reg n m mi0 t0)) rho x (frac_iter n iters t x rho cur) <= prox_obj n (rl_f (frac_reg n m mi0 t0)) rho x cur.
  Proof.
    intros m mi0 t0. induction iters as [|iters IH]; intros t rho x cur Hr; cbn [frac_iter]; [lra|].
    set (next := fun i => cur i - 1 / (2 + 1 / rho) * (frac_d (cur i) + (cur i - x i) / rho)).
    assert (S : prox_obj n (rl_f (frac_reg n m mi0 t0)) rho x next <= prox_obj n (rl_f (frac_reg n m mi0 t0)) rho x cur).
    { rewrite !frac_obj. apply sumn_le. intros i _. unfold next. now apply frac_step. }
    destruct t as [t|]; [|eapply Rle_trans; [now apply IH|exact S]].
    destruct (Rle_dec _ t); [exact S|]. eapply Rle_trans; [now apply IH|exact S].
  Qed.
End B.
