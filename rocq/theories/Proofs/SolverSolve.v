(** Proofs about [solve] and [proximal_solver]. *)
From Coq Require Import Reals List Bool Arith ZArith FunctionalExtensionality Lia Lra Psatz.
From Verif.Model Require Import Vec Costs EmpiricalRisk Solvers.
From Verif.Spec Require Import CostSpec EmpiricalSpec SolverSpec.
From Verif.Proofs Require Import CostProofs VecProofs CostAnalysis CostBuiltin EmpiricalProofs EmpiricalAnalysis SolverRun SolverRates SolverIter.
Import ListNotations.
Open Scope R_scope.

Section Quad.
  Variable n : nat.
  Lemma quad_zero_min : forall A b c x, (forall h, 0 <= dot n h (mulv n A h)) -> vanishes n (quad_g n A b x) -> is_min (quad_f n A b c) x.
  Proof.
    intros A b c x H Hz z. pose proof (quad_taylor n A b c x (vsub z x)) as T. rewrite vadd_sub in T. specialize (H (vsub z x)).
    assert (E : dot n (quad_g n A b x) (vsub z x) = 0) by (rewrite (dot_ext n _ vzero _ (vsub z x)); [apply dot_zero_l|intros i Hi; now apply Hz|auto]). lra.
  Qed.
  Lemma quad_solved : forall A b x, solves n A (vscal (-1) b) x -> forall i, (i < n)%nat -> quad_g n A b x i = 1/2 * (mulv n (mtr A) x i - mulv n A x i).
  Proof.
    intros A b x H i Hi. unfold quad_g, sym. rewrite mulv_scal_m, mulv_add_m. unfold vadd, vscal. specialize (H i Hi). unfold vscal in H. lra.
  Qed.
End Quad.

(** *** sums of least squares *)
Section LR.
  Variable d : nat.
  Lemma vsum_cons : forall (v : vec) l, vsum (v :: l) = vadd v (vsum l).
  Proof.
    intros v l. unfold vsum. cbn [fold_left]. assert (E : forall l a, fold_left vadd l a = vadd a (fold_left vadd l vzero)).
    { clear. induction l as [|w l IH]; intros a; cbn [fold_left]; [vext; unfold vadd, vzero; ring|]. rewrite IH, (IH (vadd vzero w)). vext. unfold vadd, vzero. ring. }
    rewrite E. vext. unfold vadd, vzero. ring.
  Qed.
  Lemma msum_cons : forall (v : mat) l, msum (v :: l) = madd v (msum l).
  Proof.
    intros v l. unfold msum. cbn [fold_left]. assert (E : forall l a, fold_left madd l a = madd a (fold_left madd l mzero)).
    { clear. induction l as [|w l IH]; intros a; cbn [fold_left]; [vext; unfold madd, mzero; ring|]. rewrite IH, (IH (madd mzero w)). vext. unfold madd, mzero. ring. }
    rewrite E. vext. unfold madd, mzero. ring.
  Qed.
  Definition totA (Ds : list dataset) : mat := msum (map lsA Ds).
  Definition totb (Ds : list dataset) : vec := vsum (map lsb Ds).
  Lemma mulv_mzero : forall x, mulv d mzero x = vzero.
  Proof. intros. vext. unfold mulv, mzero. rewrite (sumn_ext d _ (fun _ => 0)); [apply sumn_zero|intros; ring]. Qed.
  Lemma tot_grad : forall Ds x i, vadd (mulv d (totA Ds) x) (totb Ds) i = rsum (map (fun D => vmean (map (sq_grad d x) D) i) Ds).
  Proof.
    intros Ds x i. unfold totA, totb. induction Ds as [|D Ds IH]; cbn [map].
    - change (msum []) with mzero. change (vsum []) with vzero. rewrite mulv_mzero. unfold vadd, vzero, rsum. cbn. ring.
    - rewrite msum_cons, vsum_cons, rsum_cons, <- IH, ls_quad_g. unfold quad_g. rewrite lsA_sym, mulv_add_m. unfold vadd. ring.
  Qed.
  Lemma tot_sym : forall Ds x y, dot d x (mulv d (totA Ds) y) = dot d (mulv d (totA Ds) x) y.
  Proof.
    intros Ds x y. unfold totA. induction Ds as [|D Ds IH]; cbn [map].
    - change (msum []) with mzero. rewrite !mulv_mzero, dot_zero_l. rewrite dot_sym. apply dot_zero_l.
    - rewrite msum_cons, !mulv_add_m, dot_add_r, dot_add_l, IH. f_equal. rewrite <- (lsA_sym D). apply sym_symm.
  Qed.
  Lemma ls_null : forall (D : dataset) e, dot d e (mulv d (lsA D) e) <= 0 -> dot d (lsb D) e = 0.
  Proof.
    intros D e H. unfold lsA in H. unfold lsb. rewrite mulv_scal_m, dot_scal_r, gram_form in H. rewrite dot_scal_l, tmulv_dot.
    destruct D as [|p D]; [cbn [map]; rewrite rsum_nil; ring|]. remember (p :: D) as D' eqn:ED.
    assert (K : 0 < / INR (length D')) by (apply Rinv_0_lt_compat, lt_0_INR; subst; cbn; lia). clear ED p D.
    assert (Z : rsum (map (fun a => dot d a e * dot d a e) (map fst D')) <= 0) by nra. clear H K.
    replace (rsum (map (fun p => snd p * dot d (fst p) e) D')) with 0; [ring|]. symmetry.
    assert (P : forall l : list vec, 0 <= rsum (map (fun a => dot d a e * dot d a e) l)).
    { induction l as [|a l IHl]; cbn [map]; rewrite ?rsum_nil, ?rsum_cons; [lra|]. pose proof (Rle_0_sqr (dot d a e)). unfold Rsqr in *. lra. }
    induction D' as [|p D IH]; cbn [map] in *; [apply rsum_nil|]. rewrite rsum_cons in *. pose proof (P (map fst D)). pose proof (Rle_0_sqr (dot d (fst p) e)) as S. unfold Rsqr in S.
    rewrite IH by lra. assert (dot d (fst p) e = 0) by nra. rewrite H0. ring.
  Qed.
  Lemma tot_null : forall Ds e, dot d e (mulv d (totA Ds) e) <= 0 -> dot d (totb Ds) e = 0.
  Proof.
    intros Ds e. unfold totA, totb.
    assert (P : forall Ds, 0 <= dot d e (mulv d (msum (map lsA Ds)) e)).
    { clear. induction Ds as [|D Ds IH]; cbn [map]; [change (msum []) with mzero; rewrite mulv_mzero, dot_sym, dot_zero_l; lra|].
      rewrite msum_cons, mulv_add_m, dot_add_r. pose proof (ls_psd d D e). lra. }
    induction Ds as [|D Ds IH]; cbn [map]; intros H; [apply dot_zero_l|].
    rewrite msum_cons, mulv_add_m, dot_add_r in H. rewrite vsum_cons, dot_add_l.
    pose proof (P Ds). pose proof (ls_psd d D e). rewrite ls_null, IH by lra. ring.
  Qed.
  (** any solution of the normal equations of [Q x = -r] solves [Q x = -r] *)
  Lemma tot_normal : forall Ds x, (forall i, (i < d)%nat -> mulv d (mtr (totA Ds)) (vsub (mulv d (totA Ds) x) (vscal (-1) (totb Ds))) i = 0) ->
    solves d (totA Ds) (vscal (-1) (totb Ds)) x.
  Proof.
    intros Ds x H. set (e := vsub (mulv d (totA Ds) x) (vscal (-1) (totb Ds))) in *.
    assert (S : forall y, dot d (mulv d (mtr (totA Ds)) e) y = 0). { intros y. rewrite (dot_ext d _ vzero y y); [apply dot_zero_l|exact H|auto]. }
    assert (Q0 : dot d e (mulv d (totA Ds) e) = 0) by (rewrite mulv_tr; apply S).
    assert (N : nrm2 d e <= 0).
    { unfold nrm2. unfold e at 2. rewrite dot_sub_r, dot_scal_r, mulv_tr, S, (dot_sym d e (totb Ds)), tot_null by lra. lra. }
    intros i Hi. pose proof (nrm2_zero_inv d e N i Hi) as E. unfold e, vsub in E. lra.
  Qed.
  Lemma rsum_min : forall (Ds : list dataset) x, vanishes d (vadd (mulv d (totA Ds) x) (totb Ds)) ->
    is_min (fun z => rsum (map (fun D => rmean (map (sq_loss d z) D)) Ds)) x.
  Proof.
    intros Ds x Hz z.
    assert (T : rsum (map (fun D => rmean (map (sq_loss d x) D)) Ds) + dot d (vadd (mulv d (totA Ds) x) (totb Ds)) (vsub z x) <= rsum (map (fun D => rmean (map (sq_loss d z) D)) Ds)).
    { clear Hz. unfold totA, totb. induction Ds as [|D Ds IH]; cbn [map].
      - change (msum []) with mzero. change (vsum []) with vzero. rewrite mulv_mzero, dot_add_l, !dot_zero_l, rsum_nil. lra.
      - rewrite !rsum_cons, msum_cons, vsum_cons, mulv_add_m. rewrite !dot_add_l in *.
        pose proof (quad_taylor d (lsA D) (lsb D) (lsc D) x (vsub z x)) as Q. rewrite vadd_sub in Q. pose proof (ls_psd d D (vsub z x)).
        rewrite !ls_quad_f. unfold quad_g in Q. rewrite lsA_sym, dot_add_l in Q. lra. }
    rewrite (dot_ext d _ vzero _ (vsub z x) Hz (fun _ _ => eq_refl)), dot_zero_l in T. lra.
  Qed.

  (** a sum of linear regression costs over the datasets [Ds] *)
  Context {K St : Type} (kall : K) (is_linreg : leaf K St -> bool).
  Definition regression (c : cost K St) (D : dataset) : Prop :=
    exists l, c = CEmp (ELeaf l) /\ is_linreg l = true /\
      pure_at kall (l_g l) (fun x => vmean (map (sq_grad d x) D)) /\ pure_at kall (l_h l) (fun _ => mmean (map sq_hess D)).
  Variables (kw_none : K -> bool) (lsolve : mat -> vec -> option vec) (lstsq : mat -> vec -> vec).
  Lemma regression_seq : forall cs Ds, Forall2 regression cs Ds -> forallb (is_lr is_linreg) cs = true /\
    (forall s, exists s', eseq (map (cost_h kw_none) cs) kall vzero s = Some (map lsA Ds, s')) /\
    (forall s, exists s', eseq (map (cost_g d kw_none) cs) kall vzero s = Some (map (fun D => vmean (map (sq_grad d vzero) D)) Ds, s')).
  Proof.
    induction 1 as [|c D cs Ds (l & -> & Hl & Hg & Hh) _ (I1 & I2 & I3)]; cbn [map forallb eseq].
    - repeat split; intros s; exists s; reflexivity.
    - split; [cbn; now rewrite Hl|]. split; intros s; unfold ebind2; cbn [cost_h cost_g emp_h emp_g].
      + destruct (Hh vzero s) as [s1 E1]. rewrite E1. destruct (I2 s1) as [s2 E2]. rewrite E2. exists s2. do 3 f_equal. rewrite <- ls_hess. reflexivity.
      + destruct (Hg vzero s) as [s1 E1]. rewrite E1. destruct (I3 s1) as [s2 E2]. rewrite E2. now exists s2.
  Qed.
  Lemma grads_zero : forall Ds, vsum (map (fun D => vmean (map (sq_grad d vzero) D)) Ds) = totb Ds.
  Proof.
    intros Ds. unfold totb. induction Ds as [|D Ds IH]; cbn [map]; [reflexivity|]. rewrite !vsum_cons, IH, ls_quad_g. f_equal. unfold quad_g.
    vext. unfold vadd, mulv, vzero. rewrite (sumn_ext d _ (fun _ => 0)), sumn_zero by (intros; ring). ring.
  Qed.
  Lemma solve_lr_spec : forall cs Ds env, Forall2 regression cs Ds ->
    exists x, solve_lr d kw_none kall lsolve lstsq cs env = SRet x /\
      x = match lsolve (totA Ds) (vscal (-1) (totb Ds)) with Some x => x | None => lstsq (totA Ds) (vscal (-1) (totb Ds)) end.
  Proof.
    intros cs Ds env H. destruct (regression_seq cs Ds H) as (_ & Hh & Hg). unfold solve_lr.
    destruct (Hh env) as [s1 E1]. rewrite E1. destruct (Hg s1) as [s2 E2]. rewrite E2, grads_zero. eexists. split; reflexivity.
  Qed.
End LR.
