(** Elementary facts about vectors. *)
From Coq Require Import Reals List Bool Arith Lra Lia FunctionalExtensionality.
From Verif.Model Require Import Vec Costs.
From Verif.Spec Require Import CostSpec.
From Verif.Proofs Require Import CostProofs.
Import ListNotations.
Open Scope R_scope.

Lemma sumn_le : forall n f g, (forall i, (i < n)%nat -> f i <= g i) -> sumn n f <= sumn n g.
Proof. induction n; intros f g H; cbn; [lra|]. apply Rplus_le_compat; auto. Qed.
Lemma sumn_nonneg : forall n f, (forall i, (i < n)%nat -> 0 <= f i) -> 0 <= sumn n f.
Proof. intros. rewrite <- (sumn_zero n). now apply sumn_le. Qed.
Lemma sumn_minus : forall n f g, sumn n (fun i => f i - g i) = sumn n f - sumn n g.
Proof. induction n; intros; cbn; [ring|]. rewrite IHn. ring. Qed.
Lemma sumn_zero_inv : forall n f, (forall i, (i < n)%nat -> 0 <= f i) -> sumn n f <= 0 -> forall i, (i < n)%nat -> f i = 0.
Proof.
  induction n; intros f H S i Hi; [lia|]. cbn in S.
  assert (0 <= sumn n f) by (apply sumn_nonneg; auto). assert (0 <= f n) by auto.
  destruct (Nat.eq_dec i n) as [->|]; [lra|]. apply IHn; auto; lra || lia.
Qed.
Lemma sumn_swap : forall n m f, sumn n (fun i => sumn m (f i)) = sumn m (fun j => sumn n (fun i => f i j)).
Proof.
  induction n; intros; cbn; [now rewrite sumn_zero|]. rewrite IHn, <- sumn_plus. reflexivity.
Qed.
Lemma sumn_abs : forall n f, Rabs (sumn n f) <= sumn n (fun i => Rabs (f i)).
Proof. induction n; intros; cbn; [rewrite Rabs_R0; lra|]. eapply Rle_trans; [apply Rabs_triang|]. specialize (IHn f). lra. Qed.

Section V.
  Variable n : nat.
  Lemma dot_sym : forall x y, dot n x y = dot n y x.
  Proof. intros. apply sumn_ext. intros. ring. Qed.
  Lemma dot_add_l : forall x y z, dot n (vadd x y) z = dot n x z + dot n y z.
  Proof. intros. unfold dot, vadd. rewrite <- sumn_plus. apply sumn_ext. intros. ring. Qed.
  Lemma dot_add_r : forall x y z, dot n z (vadd x y) = dot n z x + dot n z y.
  Proof. intros. rewrite dot_sym, dot_add_l. rewrite (dot_sym x), (dot_sym y). reflexivity. Qed.
  Lemma dot_sub_l : forall x y z, dot n (vsub x y) z = dot n x z - dot n y z.
  Proof. intros. unfold dot, vsub. rewrite <- sumn_minus. apply sumn_ext. intros. ring. Qed.
  Lemma dot_sub_r : forall x y z, dot n z (vsub x y) = dot n z x - dot n z y.
  Proof. intros. rewrite dot_sym, dot_sub_l. rewrite (dot_sym x), (dot_sym y). reflexivity. Qed.
  Lemma dot_scal_l : forall a x y, dot n (vscal a x) y = a * dot n x y.
  Proof. intros. unfold dot, vscal. rewrite <- sumn_scal. apply sumn_ext. intros. ring. Qed.
  Lemma dot_scal_r : forall a x y, dot n x (vscal a y) = a * dot n x y.
  Proof. intros. now rewrite dot_sym, dot_scal_l, dot_sym. Qed.
  Lemma dot_zero_l : forall x, dot n vzero x = 0.
  Proof. intros. unfold dot, vzero. rewrite (sumn_ext n _ (fun _ => 0)) by (intros; ring). apply sumn_zero. Qed.
  Lemma dot_ext : forall x x' y y', (forall i, (i < n)%nat -> x i = x' i) -> (forall i, (i < n)%nat -> y i = y' i) -> dot n x y = dot n x' y'.
  Proof. intros. apply sumn_ext. intros i Hi. now rewrite H, H0. Qed.
  Lemma nrm2_nonneg : forall x, 0 <= nrm2 n x.
  Proof. intros. apply sumn_nonneg. intros. nra. Qed.
  Lemma nrm2_zero_inv : forall x, nrm2 n x <= 0 -> forall i, (i < n)%nat -> x i = 0.
  Proof.
    intros x H i Hi. assert (x i * x i = 0); [|nra].
    apply (sumn_zero_inv n (fun i => x i * x i)); auto. intros. nra.
  Qed.
  Lemma nrm2_scal : forall a x, nrm2 n (vscal a x) = a * a * nrm2 n x.
  Proof. intros. unfold nrm2. rewrite dot_scal_l, dot_scal_r. ring. Qed.
  Lemma nrm2_add : forall x y, nrm2 n (vadd x y) = nrm2 n x + 2 * dot n x y + nrm2 n y.
  Proof. intros. unfold nrm2. rewrite dot_add_l, !dot_add_r, (dot_sym y x). ring. Qed.
  Lemma nrm2_sub : forall x y, nrm2 n (vsub x y) = nrm2 n x - 2 * dot n x y + nrm2 n y.
  Proof. intros. unfold nrm2. rewrite dot_sub_l, !dot_sub_r, (dot_sym y x). ring. Qed.
  Lemma nrm2_ext : forall x y, (forall i, (i < n)%nat -> x i = y i) -> nrm2 n x = nrm2 n y.
  Proof. intros. now apply dot_ext. Qed.
  Lemma nrm2_zero : nrm2 n vzero = 0.
  Proof. apply dot_zero_l. Qed.
  Lemma cauchy_schwarz2 : forall x y, dot n x y * dot n x y <= nrm2 n x * nrm2 n y.
  Proof.
    intros x y. pose proof (nrm2_nonneg x) as Hx. pose proof (nrm2_nonneg y) as Hy.
    destruct (Req_dec (nrm2 n y) 0) as [E|N].
    - assert (D : dot n x y = 0).
      { rewrite dot_sym. rewrite (dot_ext y vzero x x); auto; [apply dot_zero_l|].
        intros i Hi. unfold vzero. apply (nrm2_zero_inv y); auto; lra. }
      rewrite D, E. lra.
    - set (t := dot n x y / nrm2 n y).
      pose proof (nrm2_nonneg (vsub x (vscal t y))) as P. rewrite nrm2_sub, dot_scal_r, nrm2_scal in P.
      assert (Q : t * nrm2 n y = dot n x y) by (unfold t; field; exact N).
      assert (t * dot n x y <= nrm2 n x).
      { replace (t * t * nrm2 n y) with (t * (t * nrm2 n y)) in P by ring. rewrite Q in P. lra. }
      replace (dot n x y * dot n x y) with (t * dot n x y * nrm2 n y) by (rewrite <- Q at 2; ring).
      apply Rmult_le_compat_r; lra.
  Qed.
  Lemma norm_nonneg : forall x, 0 <= norm n x.
  Proof. intros. apply sqrt_pos. Qed.
  Lemma norm_sq : forall x, norm n x * norm n x = nrm2 n x.
  Proof. intros. apply sqrt_sqrt, nrm2_nonneg. Qed.
  Lemma norm_le : forall x a, 0 <= a -> nrm2 n x <= a * a -> norm n x <= a.
  Proof. intros x a Ha H. unfold norm. rewrite <- (sqrt_square a) by exact Ha. now apply sqrt_le_1_alt. Qed.
  Lemma dot_norm : forall x y, Rabs (dot n x y) <= norm n x * norm n y.
  Proof.
    intros. apply Rsqr_incr_0_var; [|apply Rmult_le_pos; apply norm_nonneg].
    rewrite <- Rsqr_abs. unfold Rsqr.
    replace (norm n x * norm n y * (norm n x * norm n y)) with ((norm n x * norm n x) * (norm n y * norm n y)) by ring.
    rewrite !norm_sq. apply cauchy_schwarz2.
  Qed.
  Lemma norm_scal : forall a x, norm n (vscal a x) = Rabs a * norm n x.
  Proof.
    intros. unfold norm. rewrite nrm2_scal. replace (a * a) with (Rsqr a) by reflexivity.
    rewrite sqrt_mult; [|apply Rle_0_sqr|apply nrm2_nonneg]. now rewrite sqrt_Rsqr_abs.
  Qed.
  Lemma norm_add : forall x y, norm n (vadd x y) <= norm n x + norm n y.
  Proof.
    intros. apply norm_le.
    - pose proof (norm_nonneg x). pose proof (norm_nonneg y). lra.
    - rewrite nrm2_add, <- (norm_sq x), <- (norm_sq y). pose proof (dot_norm x y).
      pose proof (Rle_abs (dot n x y)). lra.
  Qed.
  Lemma norm_ext : forall x y, (forall i, (i < n)%nat -> x i = y i) -> norm n x = norm n y.
  Proof. intros. unfold norm. now rewrite (nrm2_ext x y). Qed.
  Lemma norm_zero : norm n vzero = 0.
  Proof. unfold norm. rewrite nrm2_zero. apply sqrt_0. Qed.
  Lemma coord_le : forall x i, (i < n)%nat -> Rabs (x i) <= norm n x.
  Proof.
    intros x i Hi. apply Rsqr_incr_0_var; [|apply norm_nonneg]. rewrite <- Rsqr_abs. unfold Rsqr. rewrite norm_sq.
    unfold nrm2, dot. clear -Hi. induction n as [|m IH]; [lia|]. cbn.
    assert (0 <= sumn m (fun i => x i * x i)) by (apply sumn_nonneg; intros; nra).
    destruct (Nat.eq_dec i m) as [->|]; [lra|]. assert (x i * x i <= sumn m (fun i => x i * x i)) by (apply IH; lia). nra.
  Qed.
  Lemma mulv_add_m : forall A B x, mulv n (madd A B) x = vadd (mulv n A x) (mulv n B x).
  Proof. intros. vext. unfold mulv, madd, vadd. rewrite <- sumn_plus. apply sumn_ext. intros. ring. Qed.
  Lemma mulv_scal_m : forall a A x, mulv n (mscal a A) x = vscal a (mulv n A x).
  Proof. intros. vext. unfold mulv, mscal, vscal. rewrite <- sumn_scal. apply sumn_ext. intros. ring. Qed.
  Lemma mulv_add : forall A x y, mulv n A (vadd x y) = vadd (mulv n A x) (mulv n A y).
  Proof. intros. vext. unfold mulv, vadd. rewrite <- sumn_plus. apply sumn_ext. intros. ring. Qed.
  Lemma mulv_sub : forall A x y, mulv n A (vsub x y) = vsub (mulv n A x) (mulv n A y).
  Proof. intros. vext. unfold mulv, vsub. rewrite <- sumn_minus. apply sumn_ext. intros. ring. Qed.
  Lemma mulv_scal : forall a A x, mulv n A (vscal a x) = vscal a (mulv n A x).
  Proof. intros. vext. unfold mulv, vscal. rewrite <- sumn_scal. apply sumn_ext. intros. ring. Qed.
  Lemma mulv_tr : forall A x y, dot n x (mulv n A y) = dot n (mulv n (mtr A) x) y.
  Proof.
    intros. unfold dot, mulv, mtr.
    rewrite (sumn_ext n _ (fun i => sumn n (fun j => x i * (A i j * y j)))) by (intros; now rewrite sumn_scal).
    rewrite sumn_swap. apply sumn_ext. intros j _.
    rewrite Rmult_comm, <- sumn_scal. apply sumn_ext. intros. ring.
  Qed.
  Lemma quad_sym : forall A x, dot n x (mulv n (sym A) x) = dot n x (mulv n A x).
  Proof.
    intros. unfold sym. rewrite mulv_scal_m, mulv_add_m, dot_scal_r, dot_add_r.
    rewrite (mulv_tr (mtr A)). change (mtr (mtr A)) with A. rewrite (dot_sym (mulv n A x)). field.
  Qed.
  Lemma sym_symm : forall A x y, dot n x (mulv n (sym A) y) = dot n (mulv n (sym A) x) y.
  Proof. intros. rewrite mulv_tr. apply dot_ext; auto. intros i _. apply sumn_ext. intros. unfold sym, mtr, mscal, madd. ring. Qed.
  Lemma mulv_eye : forall x i, (i < n)%nat -> mulv n meye x i = x i.
  Proof.
    intros x i Hi. unfold mulv, meye.
    assert (Aux : forall m, sumn m (fun j => (if Nat.eqb i j then 1 else 0) * x j) = if Nat.ltb i m then x i else 0).
    { induction m as [|m IH]; [reflexivity|]. cbn [sumn]. rewrite IH.
      destruct (Nat.eqb_spec i m) as [->|N].
      - rewrite Nat.ltb_irrefl. destruct (Nat.ltb_spec m (S m)); [ring|lia].
      - destruct (Nat.ltb_spec i m), (Nat.ltb_spec i (S m)); try lia; ring. }
    rewrite Aux. destruct (Nat.ltb_spec i n); [reflexivity|lia].
  Qed.
End V.
