(** From single steps to runs. *)
From Coq Require Import Reals List Bool Arith ZArith FunctionalExtensionality Lia Lra Psatz.
From Verif.Model Require Import Vec Costs Solvers.
From Verif.Spec Require Import CostSpec SolverSpec.
From Verif.Proofs Require Import CostProofs VecProofs CostAnalysis CostBuiltin SolverRun SolverRates.
Import ListNotations.
Open Scope R_scope.

Section Iter.
  Context (n : nat) {St : Type} (g : vec -> St -> option (vec * St)).
  Variables (F : vec -> R) (G : vec -> vec).
  Hypothesis pure : forall x s, exists s', g x s = Some (G x, s').

  Lemma gd_total : forall L mu p k s a, gd_size L mu p k = Some a ->
    exists s', gd_step g L mu p k s = SRet s' /\ s_x s' = vsub (s_x s) (vscal a (G (s_x s))) /\ (s_arg s' = None <-> s_arg s = None) /\ (forall v, s_arg s' = Some v -> v = s_x s').
  Proof.
    intros L mu p k s a E. unfold gd_step. rewrite E. destruct (pure (s_x s) (s_env s)) as [e Eg]. rewrite Eg.
    eexists. split; [reflexivity|]. cbn. split; [reflexivity|]. destruct (s_arg s); split; try split; congruence.
  Qed.
  Lemma gd_next : forall L mu p k s s' a, gd_size L mu p k = Some a -> gd_step g L mu p k (mark s) = SRet s' -> s_x s' = vsub (s_x s) (vscal a (G (s_x s))).
  Proof. intros L mu p k s s' a E H. destruct (gd_total L mu p k (mark s) a E) as (s2 & E2 & Ex & _). rewrite H in E2. injection E2 as <-. exact Ex. Qed.
  Lemma agd_total : forall L mu p pm k s a b, agd_size L p = Some a -> agd_momentum L mu pm k = Some b ->
    exists s', agd_step g L mu p pm k s = SRet s' /\ s_x s' = vsub (s_aux s) (vscal a (G (s_aux s))) /\
      s_aux s' = vadd (s_x s') (vscal b (vsub (s_x s') (s_old s))) /\ s_arg s' = s_arg s.
  Proof.
    intros L mu p pm k s a b E Em. unfold agd_step. rewrite E, Em. destruct (pure (s_aux s) (s_env s)) as [e Eg]. rewrite Eg.
    eexists. split; [reflexivity|]. cbn. auto.
  Qed.
  Lemma agd_next : forall L mu p pm k s s' a b, agd_size L p = Some a -> agd_momentum L mu pm k = Some b -> agd_step g L mu p pm k (mark s) = SRet s' ->
    s_x s' = vsub (s_aux s) (vscal a (G (s_aux s))) /\ s_aux s' = vadd (s_x s') (vscal b (vsub (s_x s') (s_x s))) /\ s_arg s' = s_arg s.
  Proof. intros L mu p pm k s s' a b E Em H. destruct (agd_total L mu p pm k (mark s) a b E Em) as (s2 & E2 & Ex & Ey & Ea). rewrite H in E2. injection E2 as <-. cbn in *. auto. Qed.

  Variables (l mu : R).
  Hypothesis Hc : convex_with n F G mu.
  Hypothesis Hl : lipschitz n G l.
  Hypothesis Hl0 : 0 < l.
  Lemma gd_size_convex : forall k, mu = 0 -> gd_size (Fin l) (Fin mu) PNone k = Some (1 / l).
  Proof. intros k ->. cbn. destruct (Rlt_dec 0 0); [lra|]. destruct (Req_EM_T l 0); [lra|reflexivity]. Qed.
  Lemma gd_size_strong : forall k, 0 < mu -> gd_size (Fin l) (Fin mu) PNone k = Some (2 / (l + mu)).
  Proof. intros k H. cbn. destruct (Rlt_dec 0 mu); [|lra]. cbn. destruct (Req_EM_T (l + mu) 0); [lra|reflexivity]. Qed.
  Lemma agd_size_some : agd_size (Fin l) PNone = Some (1 / l).
  Proof. cbn. destruct (Req_EM_T l 0); [lra|reflexivity]. Qed.
  Lemma agd_mom_convex : forall k, mu = 0 -> agd_momentum (Fin l) (Fin mu) PNone k = Some (INR k / (INR k + 3)).
  Proof. intros k ->. cbn. destruct (Rlt_dec 0 0); [lra|reflexivity]. Qed.
  Lemma agd_mom_strong : forall k, 0 < mu -> agd_momentum (Fin l) (Fin mu) PNone k = Some ((sqrt l - sqrt mu) / (sqrt l + sqrt mu)).
  Proof. intros k H. cbn. destruct (Rlt_dec 0 mu); [reflexivity|lra]. Qed.

  Lemma gd_convex : mu = 0 -> forall s k m z, after (gd_step g (Fin l) (Fin mu) PNone) s k m ->
    INR k * (F (s_x m) - F z) + l / 2 * nrm2 n (vsub (s_x m) z) <= l / 2 * nrm2 n (vsub (s_x s) z) /\ F (s_x m) <= F (s_x s).
  Proof.
    intros H0 s k m z A. induction A as [|k m s' A [IH IHm] E]; [cbn [INR]; split; [lra|apply Rle_refl]|].
    rewrite (gd_next _ _ _ _ _ _ _ (gd_size_convex k H0) E). destruct (gd_one n F G l mu Hc Hl Hl0 (s_x m) z) as [A1 A2].
    set (x' := vsub (s_x m) (vscal (1 / l) (G (s_x m)))) in *. rewrite S_INR. pose proof (pos_INR k). split; [|lra].
    assert (INR k * (F x' - F z) <= INR k * (F (s_x m) - F z)) by (apply Rmult_le_compat_l; lra). lra.
  Qed.
  Lemma gd_strong : 0 < mu -> forall s k m z, vanishes n (G z) -> after (gd_step g (Fin l) (Fin mu) PNone) s k m ->
    nrm2 n (vsub (s_x m) z) <= ((l - mu) / (l + mu)) ^ (2 * k) * nrm2 n (vsub (s_x s) z).
  Proof.
    intros H0 s k m z Hz A. induction A as [|k m s' A IH E]; [cbn; lra|].
    rewrite (gd_next _ _ _ _ _ _ _ (gd_size_strong k H0) E). eapply Rle_trans; [now apply (gd_contract n F G l mu Hc Hl H0)|].
    replace (2 * S k)%nat with (2 + 2 * k)%nat by lia. rewrite pow_add, Rmult_assoc. apply Rmult_le_compat_l; [|exact IH]. apply pow2_ge_0.
  Qed.
  Lemma agd_convex : mu = 0 -> forall s k m z, s_aux s = s_x s -> is_min F z -> after (agd_step g (Fin l) (Fin mu) PNone PNone) s k m ->
    let t := (INR k + 2) / 2 in
    (t * t - t) * (F (s_x m) - F z) + l / 2 * nrm2 n (vsub (vsub (vscal t (s_aux m)) (vscal (t - 1) (s_x m))) z) <= l / 2 * nrm2 n (vsub (s_x s) z) /\
    ((0 < k)%nat -> (INR k + 1) ^ 2 / 4 * (F (s_x m) - F z) <= l / 2 * nrm2 n (vsub (s_x s) z)).
  Proof.
    intros H0 s k m z Hy Hz A. induction A as [|k m s' A [IH _] E]; intros t.
    - split; [|lia]. unfold t. cbn [INR]. rewrite Hy. replace (vsub (vscal ((0 + 2) / 2) (s_x s)) (vscal ((0 + 2) / 2 - 1) (s_x s))) with (s_x s) by (vext; unfold vsub, vscal; field). lra.
    - destruct (agd_next _ _ _ _ _ _ _ _ _ agd_size_some (agd_mom_convex k H0) E) as (Ex & Ey & _).
      pose proof (pos_INR k) as Hk. set (tk := (INR k + 2) / 2) in *.
      pose proof (agd_one n F G l mu Hc Hl Hl0 tk (s_x m) (s_aux m) z) as O. cbv zeta in O. rewrite <- Ex in O. specialize (O ltac:(unfold tk; lra)).
      set (x := s_x m) in *. set (x' := s_x s') in *.
      assert (Ev : vsub (vscal t (s_aux s')) (vscal (t - 1) x') = vadd x (vscal tk (vsub x' x))).
      { rewrite Ey. vext. unfold t, tk, vsub, vadd, vscal. rewrite S_INR. field. lra. }
      rewrite Ev. specialize (Hz x') as Hz'. assert (Ht : t = tk + 1/2) by (unfold t, tk; rewrite S_INR; field).
      pose proof (nrm2_nonneg n (vsub (vadd x (vscal tk (vsub x' x))) z)). split.
      + assert ((t * t - t) * (F x' - F z) <= tk * tk * (F x' - F z)) by (apply Rmult_le_compat_r; [lra|rewrite Ht; unfold tk; nra]). lra.
      + intros _. replace ((INR (S k) + 1) ^ 2 / 4) with (tk * tk) by (rewrite S_INR; unfold tk; field). nra.
  Qed.
  Lemma agd_strong_run : (0 < n)%nat -> 0 < mu -> forall s k m z, s_aux s = s_x s -> after (agd_step g (Fin l) (Fin mu) PNone PNone) s k m ->
    F (s_x m) - F z <= (1 - sqrt (mu / l)) ^ k * (F (s_x s) - F z + mu / 2 * nrm2 n (vsub (s_x s) z)).
  Proof.
    intros Hn H0 s k m z Hy A. set (th := sqrt (mu / l)). pose proof (m_le_L n F G l mu Hc Hl Hn) as Hml.
    assert (Hsl : 0 < sqrt l) by now apply sqrt_lt_R0. assert (Hsm : 0 < sqrt mu) by now apply sqrt_lt_R0.
    assert (Eth : th = sqrt mu / sqrt l) by (unfold th; apply sqrt_div; lra).
    assert (Hth : 0 < th <= 1). { rewrite Eth. split; [now apply Rdiv_lt_0_compat|]. apply Rmult_le_reg_r with (sqrt l); [lra|]. unfold Rdiv. rewrite Rmult_assoc, Rinv_l by lra. pose proof (sqrt_le_1 mu l ltac:(lra) ltac:(lra) Hml). lra. }
    assert (Hq : th * th * l = mu). { unfold th. rewrite sqrt_sqrt by (apply Rlt_le, Rdiv_lt_0_compat; lra). field. lra. }
    assert (I : F (s_x m) - F z + mu / 2 * nrm2 n (vsub (vadd (s_aux m) (vscal (/ th) (vsub (s_aux m) (s_x m)))) z) <= (1 - th) ^ k * (F (s_x s) - F z + mu / 2 * nrm2 n (vsub (s_x s) z))).
    { induction A as [|k m s' A IH E].
      - cbn [pow]. rewrite Hy. replace (vadd (s_x s) (vscal (/ th) (vsub (s_x s) (s_x s)))) with (s_x s) by (vext; unfold vadd, vsub, vscal; ring). lra.
      - destruct (agd_next _ _ _ _ _ _ _ _ _ agd_size_some (agd_mom_strong k H0) E) as (Ex & Ey & _).
        pose proof (agd_strong n F G l mu Hc Hl H0 th (s_x m) (s_aux m) z Hth Hq) as O. cbv zeta in O. rewrite <- Ex in O.
        set (x := s_x m) in *. set (x' := s_x s') in *.
        assert (Ev : vadd (s_aux s') (vscal (/ th) (vsub (s_aux s') x')) = vadd x (vscal (/ th) (vsub x' x))).
        { rewrite Ey. assert (Eb : (sqrt l - sqrt mu) / (sqrt l + sqrt mu) = (1 - th) / (1 + th)) by (rewrite Eth; field; split; lra). rewrite Eb.
          vext. unfold vsub, vadd, vscal. field. split; lra. }
        rewrite Ev. eapply Rle_trans; [exact O|]. cbn [pow]. rewrite Rmult_assoc. apply Rmult_le_compat_l; [lra|exact IH]. }
    pose proof (nrm2_nonneg n (vsub (vadd (s_aux m) (vscal (/ th) (vsub (s_aux m) (s_x m)))) z)). nra.
  Qed.
End Iter.
