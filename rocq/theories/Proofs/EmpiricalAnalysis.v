From Coq Require Import Reals List Bool Arith ZArith Lia Lra Permutation FunctionalExtensionality.
From Verif.Model Require Import Vec Costs Batch EmpiricalRisk.
From Verif.Spec Require Import CostSpec BatchSpec EmpiricalSpec.
From Verif.Proofs Require Import CostProofs CostOk VecProofs CostAnalysis CostBuiltin BatchProofs EmpiricalProofs.
Import ListNotations.
Open Scope R_scope.

Section A.
  Variable d : nat.
  (** *** means of differentiable, Lipschitz, convex functions *)
  Section Means.
    Context {P : Type}.
    Lemma rsum_grad : forall (f : P -> vec -> R) (g : P -> vec -> vec) x ps, (forall p, In p ps -> grad_at d (f p) x (g p x)) ->
      grad_at d (fun x => rsum (map (fun p => f p x) ps)) x (fun i => rsum (map (fun p => g p x i) ps)).
    Proof.
      intros f g x. induction ps as [|p ps IH]; intros H.
      - exact (grad_zero d x).
      - replace (fun y => rsum (map (fun q => f q y) (p :: ps))) with (fun y => f p y + rsum (map (fun q => f q y) ps))
          by (vext; cbn [map]; now rewrite rsum_cons).
        replace (fun i => rsum (map (fun q => g q x i) (p :: ps))) with (vadd (g p x) (fun i => rsum (map (fun q => g q x i) ps)))
          by (vext; cbn [map]; rewrite rsum_cons; reflexivity).
        apply grad_add; [apply H; now left|apply IH; intros; apply H; now right].
    Qed.
    Lemma mean_grad : forall (f : P -> vec -> R) (g : P -> vec -> vec) x ps, (forall p, In p ps -> grad_at d (f p) x (g p x)) ->
      grad_at d (fun x => rmean (map (fun p => f p x) ps)) x (vmean (map (fun p => g p x) ps)).
    Proof.
      intros f g x ps H. apply (rsum_grad f g x ps) in H. apply (grad_scal d (/ INR (length ps))) in H.
      replace (fun y => rmean (map (fun p => f p y) ps)) with (fun y => / INR (length ps) * rsum (map (fun p => f p y) ps))
        by (vext; rewrite rmean_map; unfold Rdiv; ring).
      replace (vmean (map (fun p => g p x) ps)) with (vscal (/ INR (length ps)) (fun i => rsum (map (fun p => g p x i) ps)))
        by (vext; unfold vscal, vmean; rewrite map_map, rmean_map; unfold Rdiv; ring). exact H.
    Qed.
    Lemma rsum_jac : forall (g : P -> vec -> vec) (h : P -> vec -> mat) x ps, (forall p, In p ps -> jac_at d (g p) x (h p x)) ->
      jac_at d (fun x i => rsum (map (fun p => g p x i) ps)) x (fun i j => rsum (map (fun p => h p x i j) ps)).
    Proof.
      intros g h x. induction ps as [|p ps IH]; intros H.
      - exact (jac_zero d x).
      - replace (fun y i => rsum (map (fun q => g q y i) (p :: ps))) with (fun y => vadd (g p y) (fun i => rsum (map (fun q => g q y i) ps)))
          by (vext; cbn [map]; rewrite rsum_cons; reflexivity).
        replace (fun i j => rsum (map (fun q => h q x i j) (p :: ps))) with (madd (h p x) (fun i j => rsum (map (fun q => h q x i j) ps)))
          by (vext; cbn [map]; rewrite rsum_cons; reflexivity).
        apply jac_add; [apply H; now left|apply IH; intros; apply H; now right].
    Qed.
    Lemma mean_jac : forall (g : P -> vec -> vec) (h : P -> vec -> mat) x ps, (forall p, In p ps -> jac_at d (g p) x (h p x)) ->
      jac_at d (fun x => vmean (map (fun p => g p x) ps)) x (mmean (map (fun p => h p x) ps)).
    Proof.
      intros g h x ps H. apply (rsum_jac g h x ps) in H. apply (jac_scal d (/ INR (length ps))) in H.
      replace (fun y => vmean (map (fun p => g p y) ps)) with (fun y => vscal (/ INR (length ps)) (fun i => rsum (map (fun p => g p y i) ps)))
        by (vext; unfold vscal, vmean; rewrite map_map, rmean_map; unfold Rdiv; ring).
      replace (mmean (map (fun p => h p x) ps)) with (mscal (/ INR (length ps)) (fun i j => rsum (map (fun p => h p x i j) ps)))
        by (vext; unfold mscal, mmean; rewrite map_map, rmean_map; unfold Rdiv; ring). exact H.
    Qed.
    Lemma lip_le : forall G L L', L <= L' -> lipschitz d G L -> lipschitz d G L'.
    Proof.
      intros G L L' Hle H. apply lip_norm in H. apply lip_norm. destruct H as [H0 H]. split; [lra|].
      intros x y. eapply Rle_trans; [apply H|]. apply Rmult_le_compat_r; [apply norm_nonneg|exact Hle].
    Qed.
    Lemma mean_lip : forall (g : P -> vec -> vec) L ps, 0 <= L -> (forall p, In p ps -> lipschitz d (g p) L) ->
      lipschitz d (fun x => vmean (map (fun p => g p x) ps)) L.
    Proof.
      intros g L ps HL H.
      assert (S : lipschitz d (fun x i => rsum (map (fun p => g p x i) ps)) (INR (length ps) * L)).
      { induction ps as [|p ps IH].
        - cbn. rewrite Rmult_0_l. apply lip_zero. lra.
        - replace (fun y i => rsum (map (fun q => g q y i) (p :: ps))) with (fun y => vadd (g p y) (fun i => rsum (map (fun q => g q y i) ps)))
            by (vext; cbn [map]; rewrite rsum_cons; reflexivity).
          cbn [length]. rewrite S_INR. replace ((INR (length ps) + 1) * L) with (L + INR (length ps) * L) by ring.
          apply lip_add; [apply H; now left|apply IH; intros; apply H; now right]. }
      replace (fun y => vmean (map (fun p => g p y) ps)) with (fun y => vscal (/ INR (length ps)) (fun i => rsum (map (fun p => g p y i) ps)))
        by (vext; unfold vscal, vmean; rewrite map_map, rmean_map; unfold Rdiv; ring).
      apply (lip_scal d (/ INR (length ps))) in S. eapply lip_le; [|exact S].
      destruct ps as [|p ps].
      - cbn. rewrite Rmult_0_l, Rmult_0_r. exact HL.
      - assert (0 < INR (length (p :: ps))) by (apply lt_0_INR; cbn; lia).
        rewrite Rabs_pos_eq by (left; now apply Rinv_0_lt_compat). rewrite <- Rmult_assoc, Rinv_l by lra. lra.
    Qed.
    Lemma mean_cvx : forall (f : P -> vec -> R) (g : P -> vec -> vec) ps, (forall p, In p ps -> convex_with d (f p) (g p) 0) ->
      convex_with d (fun x => rmean (map (fun p => f p x) ps)) (fun x => vmean (map (fun p => g p x) ps)) 0.
    Proof.
      intros f g ps H.
      assert (S : convex_with d (fun x => rsum (map (fun p => f p x) ps)) (fun x i => rsum (map (fun p => g p x i) ps)) 0).
      { induction ps as [|p ps IH].
        - apply cvx_zero.
        - replace (fun y => rsum (map (fun q => f q y) (p :: ps))) with (fun y => f p y + rsum (map (fun q => f q y) ps))
            by (vext; cbn [map]; now rewrite rsum_cons).
          replace (fun y i => rsum (map (fun q => g q y i) (p :: ps))) with (fun y => vadd (g p y) (fun i => rsum (map (fun q => g q y i) ps)))
            by (vext; cbn [map]; rewrite rsum_cons; reflexivity).
          replace 0 with (0 + 0) by ring. apply cvx_add; [apply H; now left|apply IH; intros; apply H; now right]. }
      replace (fun y => rmean (map (fun p => f p y) ps)) with (fun y => / INR (length ps) * rsum (map (fun p => f p y) ps))
        by (vext; rewrite rmean_map; unfold Rdiv; ring).
      replace (fun y => vmean (map (fun p => g p y) ps)) with (fun y => vscal (/ INR (length ps)) (fun i => rsum (map (fun p => g p y i) ps)))
        by (vext; unfold vscal, vmean; rewrite map_map, rmean_map; unfold Rdiv; ring).
      replace 0 with (/ INR (length ps) * 0) by ring. apply cvx_scal; [|exact S].
      destruct ps; [cbn; rewrite Rinv_0; lra|]. left. apply Rinv_0_lt_compat, lt_0_INR. cbn; lia.
    Qed.
  End Means.

  (** *** least squares is a quadratic *)
  Definition lsA (ps : dataset) : mat := mscal (/ INR (length ps)) (gram (map fst ps)).
  Definition lsb (ps : dataset) : vec := vscal (- / INR (length ps)) (tmulv (map fst ps) (map snd ps)).
  Definition lsc (ps : dataset) : R := rmean (map (fun p => 1/2 * snd p ^ 2) ps).
  Lemma gram_form : forall rows x y, dot d x (mulv d (gram rows) y) = rsum (map (fun a => dot d a x * dot d a y) rows).
  Proof.
    intros rows x y. induction rows as [|a rows IH]; cbn [map].
    - rewrite rsum_nil. unfold dot at 1. rewrite (sumn_ext d _ (fun _ => 0)); [apply sumn_zero|].
      intros i _. rewrite gram_mulv. cbn [map]. rewrite rsum_nil. ring.
    - rewrite rsum_cons, <- IH.
      rewrite (dot_ext d x x _ (vadd (vscal (dot d a y) a) (mulv d (gram rows) y))); auto.
      + rewrite dot_add_r, dot_scal_r, (dot_sym d x a). ring.
      + intros i _. unfold vadd, vscal. rewrite !gram_mulv. cbn [map]. rewrite rsum_cons. ring.
  Qed.
  Lemma tmulv_dot : forall (ps : dataset) x, dot d (tmulv (map fst ps) (map snd ps)) x = rsum (map (fun p => snd p * dot d (fst p) x) ps).
  Proof.
    intros ps x. induction ps as [|p ps IH]; cbn [map].
    - rewrite rsum_nil. unfold dot. rewrite (sumn_ext d _ (fun _ => 0)); [apply sumn_zero|]. intros. unfold tmulv, rsum. cbn. ring.
    - rewrite rsum_cons, <- IH. rewrite (dot_ext d _ (vadd (vscal (snd p) (fst p)) (tmulv (map fst ps) (map snd ps))) x x); auto.
      + rewrite dot_add_l, dot_scal_l. reflexivity.
      + intros i _. unfold tmulv, vadd, vscal. cbn [combine map]. rewrite rsum_cons. cbn [fst snd]. ring.
  Qed.
  Lemma ls_quad_f : forall ps x, rmean (map (sq_loss d x) ps) = quad_f d (lsA ps) (lsb ps) (lsc ps) x.
  Proof.
    intros ps x. unfold quad_f, lsA, lsb, lsc. rewrite mulv_scal_m, dot_scal_r, dot_scal_l, gram_form, tmulv_dot, !rmean_map, map_map.
    unfold Rdiv. set (k := / INR (length ps)).
    transitivity (k * (1 * / 2 * rsum (map (fun p => dot d (fst p) x * dot d (fst p) x) ps) - rsum (map (fun p => snd p * dot d (fst p) x) ps) + rsum (map (fun p => 1 * / 2 * snd p ^ 2) ps))); [|ring].
    rewrite Rmult_comm. f_equal. rewrite <- !rsum_map_scal. rewrite <- (Ropp_involutive (rsum (map (fun p => snd p * _) ps))).
    replace (- rsum (map (fun p => snd p * dot d (fst p) x) ps)) with (rsum (map (fun p => -1 * (snd p * dot d (fst p) x)) ps)) by (rewrite rsum_map_scal; ring).
    unfold Rminus. rewrite Ropp_involutive, <- !rsum_map_add. apply rsum_map_ext. intros p _. unfold sq_loss. field.
  Qed.
  Lemma gram_sym : forall rows, mtr (gram rows) = gram rows.
  Proof. intros. vext. unfold mtr, gram. apply rsum_map_ext. intros. ring. Qed.
  Lemma lsA_sym : forall ps, sym (lsA ps) = lsA ps.
  Proof.
    intros. vext. unfold sym, lsA, mscal, madd, mtr. pose proof (f_equal (fun M => M x x0) (gram_sym (map fst ps))) as E.
    cbn in E. unfold mtr in E. rewrite E. lra.
  Qed.
  Lemma ls_quad_g : forall ps x, vmean (map (sq_grad d x) ps) = quad_g d (lsA ps) (lsb ps) x.
  Proof.
    intros. rewrite <- ls_grad. unfold quad_g. rewrite lsA_sym. unfold lsA, lsb. rewrite mulv_scal_m. vext. unfold vscal, vsub, vadd. ring.
  Qed.
  Lemma ls_psd : forall ps h, 0 <= dot d h (mulv d (lsA ps) h).
  Proof.
    intros. unfold lsA. rewrite mulv_scal_m, dot_scal_r, gram_form. apply Rmult_le_pos.
    - destruct ps; [cbn; rewrite Rinv_0; lra|]. left. apply Rinv_0_lt_compat, lt_0_INR. cbn; lia.
    - induction (map fst ps) as [|a l IH]; cbn [map]; rewrite ?rsum_nil, ?rsum_cons; [lra|].
      pose proof (Rle_0_sqr (dot d a h)). unfold Rsqr in *. lra.
  Qed.
  Lemma ls_deriv : forall ps x, grad_at d (fun x => rmean (map (sq_loss d x) ps)) x (vmean (map (sq_grad d x) ps)) /\
    jac_at d (fun x => vmean (map (sq_grad d x) ps)) x (mmean (map sq_hess ps)).
  Proof.
    intros. split.
    - rewrite ls_quad_g. replace (fun x => rmean _) with (quad_f d (lsA ps) (lsb ps) (lsc ps)) by (vext; now rewrite ls_quad_f). apply quad_grad.
    - rewrite <- ls_hess. fold (lsA ps). rewrite <- (lsA_sym ps).
      replace (fun x => vmean _) with (quad_g d (lsA ps) (lsb ps)) by (apply functional_extensionality; intros; now rewrite ls_quad_g). apply quad_jac.
  Qed.
  Lemma ls_lip : forall eig_max ps, ps <> [] -> eig_max_right d eig_max (gram (map fst ps)) ->
    lipschitz d (fun x => vmean (map (sq_grad d x) ps)) (eig_max (gram (map fst ps)) / INR (length ps)).
  Proof.
    intros eig_max ps Hne [H0 H]. assert (K : 0 < / INR (length ps)) by (apply Rinv_0_lt_compat, lt_0_INR; destruct ps; [congruence|cbn; lia]).
    split; [unfold Rdiv; apply Rmult_le_pos; lra|]. intros x y. rewrite !ls_quad_g.
    replace (vsub _ _) with (vscal (/ INR (length ps)) (mulv d (gram (map fst ps)) (vsub x y))).
    - rewrite nrm2_scal. unfold Rdiv. specialize (H (vsub x y)).
      replace (eig_max (gram (map fst ps)) * / INR (length ps) * (eig_max (gram (map fst ps)) * / INR (length ps)) * nrm2 d (vsub x y))
        with (/ INR (length ps) * / INR (length ps) * (eig_max (gram (map fst ps)) * eig_max (gram (map fst ps)) * nrm2 d (vsub x y))) by ring.
      apply Rmult_le_compat_l; [|exact H]. apply Rmult_le_pos; lra.
    - unfold quad_g. rewrite lsA_sym. unfold lsA. rewrite !mulv_scal_m, mulv_sub. vext. unfold vscal, vsub, vadd. ring.
  Qed.
  Lemma ls_cvx : forall eig_min ps m, ps <> [] -> eig_min_right d eig_min (gram (map fst ps)) -> 0 <= eig_min (gram (map fst ps)) ->
    lr_cvx ps eig_min = Fin m -> convex_with d (fun x => rmean (map (sq_loss d x) ps)) (fun x => vmean (map (sq_grad d x) ps)) m.
  Proof.
    intros eig_min ps m Hne H H0 E. assert (K : 0 < / INR (length ps)) by (apply Rinv_0_lt_compat, lt_0_INR; destruct ps; [congruence|cbn; lia]).
    replace (fun x => rmean _) with (quad_f d (lsA ps) (lsb ps) (lsc ps)) by (vext; now rewrite ls_quad_f).
    replace (fun x => vmean _) with (quad_g d (lsA ps) (lsb ps)) by (apply functional_extensionality; intros; now rewrite ls_quad_g).
    unfold lr_cvx in E. set (e := eig_min _) in *. assert (0 <= e / INR (length ps)) by (unfold Rdiv; apply Rmult_le_pos; lra).
    destruct (Rlt_dec tol (e / INR (length ps))) as [L|L].
    - injection E as <-. apply quad_convex; [lra|]. intros h. unfold lsA. rewrite mulv_scal_m, dot_scal_r. specialize (H h). fold e in H.
      unfold Rdiv. replace (e * / INR (length ps) * nrm2 d h) with (/ INR (length ps) * (e * nrm2 d h)) by ring.
      apply Rmult_le_compat_l; lra.
    - destruct (Rle_dec _ tol); [|discriminate]. injection E as <-. apply quad_convex; [lra|]. intros h.
      rewrite Rmult_0_l. apply ls_psd.
  Qed.
  Lemma ls_prox : forall solve D x rho p, solve_ok d solve -> 0 < rho -> lr_proximal D solve x rho = Ok p ->
    is_prox d (fun x => rmean (map (sq_loss d x) D)) rho x p.
  Proof.
    intros solve D x rho p HS Hr E.
    replace (fun x => rmean _) with (quad_f d (lsA D) (lsb D) (lsc D)) by (vext; now rewrite ls_quad_f).
    assert (E2 : p = quad_prox solve (lsA D) (lsb D) x rho).
    { unfold lr_proximal in E. unfold quad_prox. rewrite lsA_sym.
      assert (Hb : forall b, squeeze (map snd D) = T1 b -> b = map snd D) by (destruct D as [|q [|q' D']]; intros b [= <-]; reflexivity).
      destruct (squeeze (map snd D)) as [b|y]; [|discriminate]. rewrite (Hb b eq_refl) in E.
      assert (E1 : forall p q : vec, Ok p = Ok q -> q = p) by (intros ? ? [= ->]; reflexivity). apply E1 in E. rewrite E. f_equal.
      - vext. unfold madd, lsA, mscal. ring.
      - vext. unfold vadd, vsub, lsb, vscal. ring. }
    rewrite E2. apply prox_quad_solve; auto. apply psd_pd; auto. intros. apply ls_psd.
  Qed.
End A.
