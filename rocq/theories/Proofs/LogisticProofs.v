From Coq Require Import Reals List Bool Arith ZArith Lia Lra Permutation FunctionalExtensionality.
From Coquelicot Require Import Coquelicot.
From Verif.Model Require Import Vec Costs Batch EmpiricalRisk.
From Verif.Spec Require Import CostSpec BatchSpec EmpiricalSpec.
From Verif.Proofs Require Import CostProofs CostOk VecProofs CostAnalysis CostBuiltin BatchProofs EmpiricalProofs EmpiricalAnalysis.
Import ListNotations.
Open Scope R_scope.

(** *** the scalar functions *)
Lemma den_pos : forall z, 0 < 1 + exp (- z).
Proof. intros. pose proof (exp_pos (- z)). lra. Qed.
Lemma sigma_pos : forall z, 0 < sigma z.
Proof. intros. unfold sigma. apply Rinv_0_lt_compat, den_pos. Qed.
Lemma sigma_lt1 : forall z, sigma z < 1.
Proof. intros. unfold sigma. pose proof (exp_pos (- z)). rewrite <- Rinv_1 at 2. apply Rinv_lt_contravar; lra. Qed.
Lemma sigma_compl : forall z, 1 - sigma z = exp (- z) * sigma z.
Proof. intros. unfold sigma. pose proof (den_pos z). field. lra. Qed.
Lemma ln_sigma : forall z, - ln (sigma z) = ln (1 + exp (- z)).
Proof. intros. unfold sigma. rewrite ln_Rinv by apply den_pos. ring. Qed.
Lemma ln_compl : forall z, - ln (1 - sigma z) = z + ln (1 + exp (- z)).
Proof. intros. rewrite sigma_compl, ln_mult by (apply exp_pos || apply sigma_pos). rewrite ln_exp. pose proof (ln_sigma z). lra. Qed.
Lemma softplus_deriv : forall z, is_derive (fun z => ln (1 + exp (- z))) z (sigma z - 1).
Proof.
  intros z. pose proof (den_pos z). auto_derive; [exact H|]. unfold sigma. field. lra.
Qed.
Lemma sigma_deriv : forall z, is_derive sigma z (sigma z * (1 - sigma z)).
Proof.
  intros z. pose proof (den_pos z). unfold sigma. auto_derive; [lra|]. field. lra.
Qed.
Lemma mvt : forall f f', (forall z, is_derive f z (f' z)) -> forall a b, exists c, f b - f a = f' c * (b - a) /\ Rabs (c - a) <= Rabs (b - a) /\ Rmin a b <= c <= Rmax a b.
Proof.
  intros f f' H a b. destruct (MVT_gen f a b f') as (c & Hc & E).
  - intros. apply H.
  - intros. apply derivable_continuous_pt. exists (f' x). apply is_derive_Reals, H.
  - exists c. split; [exact E|]. split; [|exact Hc]. clear E. unfold Rmin, Rmax in Hc. destruct (Rle_dec a b); unfold Rabs; destruct (Rcase_abs (c - a)), (Rcase_abs (b - a)); lra.
Qed.
Lemma sigma_slope : forall z, 0 <= sigma z * (1 - sigma z) <= 1/4.
Proof. intros. pose proof (sigma_pos z). pose proof (sigma_lt1 z). split; [apply Rmult_le_pos; lra|].
  pose proof (Rle_0_sqr (sigma z - 1/2)) as Q. unfold Rsqr in Q. lra. Qed.
Lemma sigma_lip : forall a b, Rabs (sigma b - sigma a) <= 1/4 * Rabs (b - a).
Proof.
  intros a b. destruct (mvt sigma _ sigma_deriv a b) as (c & E & _). rewrite E, Rabs_mult.
  apply Rmult_le_compat_r; [apply Rabs_pos|]. pose proof (sigma_slope c). rewrite Rabs_pos_eq; lra.
Qed.
Lemma sigma_mono : forall a b, a <= b -> sigma a <= sigma b.
Proof.
  intros a b H. destruct (mvt sigma _ sigma_deriv a b) as (c & E & _). pose proof (sigma_slope c).
  assert (0 <= sigma c * (1 - sigma c) * (b - a)) by (apply Rmult_le_pos; lra). lra.
Qed.
(** loss of class [c] (0 or 1) as a function of the score *)
Definition phi (c z : R) : R := ln (1 + exp (- z)) + (1 - c) * z.
Lemma phi_deriv : forall c z, is_derive (phi c) z (sigma z - c).
Proof. intros. unfold phi. pose proof (den_pos z). auto_derive; [exact H|]. unfold sigma. field. lra. Qed.
Lemma phi_taylor : forall c z t, Rabs (phi c (z + t) - phi c z - (sigma z - c) * t) <= 1/4 * (t * t).
Proof.
  intros. destruct (mvt (phi c) _ (phi_deriv c) z (z + t)) as (u & E & Hu & _).
  replace (z + t - z) with t in * by ring. rewrite E.
  replace ((sigma u - c) * t - (sigma z - c) * t) with ((sigma u - sigma z) * t) by ring. rewrite Rabs_mult.
  pose proof (sigma_lip z u). pose proof (Rabs_pos t).
  assert (Rabs t * Rabs t = t * t) by (rewrite <- Rabs_mult; apply Rabs_pos_eq; apply Rle_0_sqr).
  assert (Rabs (sigma u - sigma z) <= 1/4 * Rabs t) by lra. nra.
Qed.
Lemma phi_convex : forall c z u, phi c z + (sigma z - c) * (u - z) <= phi c u.
Proof.
  intros. destruct (mvt (phi c) _ (phi_deriv c) z u) as (w & E & _ & Hw).
  assert (0 <= (sigma w - sigma z) * (u - z)); [|lra].
  unfold Rmin, Rmax in Hw. destruct (Rle_dec z u).
  - pose proof (sigma_mono z w ltac:(lra)). apply Rmult_le_pos; lra.
  - pose proof (sigma_mono w z ltac:(lra)). replace ((sigma w - sigma z) * (u - z)) with ((sigma z - sigma w) * (z - u)) by ring. apply Rmult_le_pos; lra.
Qed.
Lemma sigma_taylor : forall z t, Rabs (sigma (z + t) - sigma z - sigma z * (1 - sigma z) * t) <= 1/4 * (t * t).
Proof.
  intros. destruct (mvt sigma _ sigma_deriv z (z + t)) as (u & E & Hu & _).
  replace (z + t - z) with t in * by ring. rewrite E.
  replace (sigma u * (1 - sigma u) * t - sigma z * (1 - sigma z) * t) with ((sigma u - sigma z) * (1 - sigma u - sigma z) * t) by ring.
  rewrite !Rabs_mult. pose proof (sigma_lip z u). pose proof (Rabs_pos t). pose proof (Rabs_pos (sigma u - sigma z)).
  pose proof (sigma_pos u). pose proof (sigma_lt1 u). pose proof (sigma_pos z). pose proof (sigma_lt1 z).
  assert (Rabs (1 - sigma u - sigma z) <= 1) by (apply Rabs_le; lra).
  pose proof (Rabs_pos (1 - sigma u - sigma z)).
  assert (Rabs t * Rabs t = t * t) by (rewrite <- Rabs_mult; apply Rabs_pos_eq; apply Rle_0_sqr).
  assert (Rabs (sigma u - sigma z) * Rabs (1 - sigma u - sigma z) <= 1/4 * Rabs t) by nra. nra.
Qed.

Section L.
  Variable d : nat.
  Definition cls (pos : R -> bool) (y : R) : R := if pos y then 1 else 0.
  Lemma log_loss_phi : forall pos x p, log_loss d pos x p = phi (cls pos (snd p)) (dot d (fst p) x).
  Proof. intros. unfold log_loss, phi, cls. destruct (pos (snd p)); [rewrite ln_sigma|rewrite ln_compl]; ring. Qed.
  Lemma dot_sq : forall a h, dot d a h * dot d a h <= nrm2 d a * nrm2 d h.
  Proof. intros. apply cauchy_schwarz2. Qed.
  Lemma log_grad_at : forall pos p x, grad_at d (fun x => log_loss d pos x p) x (log_grad d pos x p).
  Proof.
    intros. apply grad_of_bound with (C := 1/4 * nrm2 d (fst p)); [pose proof (nrm2_nonneg d (fst p)); lra|].
    intros h. rewrite !log_loss_phi, dot_add_r.
    replace (dot d (log_grad d pos x p) h) with ((sigma (dot d (fst p) x) - cls pos (snd p)) * dot d (fst p) h).
    - eapply Rle_trans; [apply phi_taylor|]. pose proof (dot_sq (fst p) h). lra.
    - unfold log_grad. fold (cls pos (snd p)). change (fun i => ?a * fst p i) with (vscal a (fst p)). now rewrite dot_scal_l.
  Qed.
  Lemma log_hess_mulv : forall p x h i, mulv d (log_hess d x p) h i = sigma (dot d (fst p) x) * (1 - sigma (dot d (fst p) x)) * dot d (fst p) h * fst p i.
  Proof.
    intros. unfold mulv, log_hess. set (c := sigma _ * (1 - _)).
    rewrite (sumn_ext d _ (fun j => c * fst p i * (fst p j * h j))) by (intros; ring). rewrite sumn_scal. unfold dot. ring.
  Qed.
  Lemma log_jac_at : forall pos p x, jac_at d (fun x => log_grad d pos x p) x (log_hess d x p).
  Proof.
    intros. apply jac_of_bound with (C := 1/4 * nrm2 d (fst p) * norm d (fst p)).
    - apply Rmult_le_pos; [pose proof (nrm2_nonneg d (fst p)); lra|apply norm_nonneg].
    - intros h. set (z := dot d (fst p) x). set (t := dot d (fst p) h).
      rewrite (norm_ext d _ (vscal (sigma (z + t) - sigma z - sigma z * (1 - sigma z) * t) (fst p))).
      + rewrite norm_scal. pose proof (sigma_taylor z t). pose proof (dot_sq (fst p) h). fold t in H0.
        replace (1 / 4 * nrm2 d (fst p) * norm d (fst p) * nrm2 d h) with (1/4 * (nrm2 d (fst p) * nrm2 d h) * norm d (fst p)) by ring.
        apply Rmult_le_compat_r; [apply norm_nonneg|lra].
      + intros i _. unfold vsub, vscal. rewrite log_hess_mulv. unfold log_grad. rewrite dot_add_r. fold z t. ring.
  Qed.
  Lemma log_lip : forall pos p, lipschitz d (fun x => log_grad d pos x p) (nrm2 d (fst p) / 4).
  Proof.
    intros. pose proof (nrm2_nonneg d (fst p)). split; [lra|]. intros x y.
    replace (vsub _ _) with (vscal (sigma (dot d (fst p) x) - sigma (dot d (fst p) y)) (fst p)) by (vext; unfold vsub, vscal, log_grad; ring).
    rewrite nrm2_scal. pose proof (sigma_lip (dot d (fst p) y) (dot d (fst p) x)) as Hs. rewrite <- dot_sub_r in Hs.
    pose proof (dot_sq (fst p) (vsub x y)) as Hc. set (s := sigma _ - sigma _) in *. set (t := dot d (fst p) (vsub x y)) in *.
    assert (Hs2 : s * s <= 1/16 * (t * t)).
    { assert (Rabs s * Rabs s = s * s) by (rewrite <- Rabs_mult; apply Rabs_pos_eq, Rle_0_sqr).
      assert (Rabs t * Rabs t = t * t) by (rewrite <- Rabs_mult; apply Rabs_pos_eq, Rle_0_sqr).
      pose proof (Rabs_pos s). pose proof (Rabs_pos t). nra. }
    replace (nrm2 d (fst p) / 4 * (nrm2 d (fst p) / 4) * nrm2 d (vsub x y)) with (1/16 * (nrm2 d (fst p) * nrm2 d (vsub x y)) * nrm2 d (fst p)) by field.
    apply Rmult_le_compat_r; [assumption|]. lra.
  Qed.
  Lemma log_cvx : forall pos p, convex_with d (fun x => log_loss d pos x p) (fun x => log_grad d pos x p) 0.
  Proof.
    intros. split; [lra|]. intros x y. rewrite !log_loss_phi.
    pose proof (phi_convex (cls pos (snd p)) (dot d (fst p) y) (dot d (fst p) x)) as H. rewrite <- dot_sub_r in H.
    replace (dot d (log_grad d pos y p) (vsub x y)) with ((sigma (dot d (fst p) y) - cls pos (snd p)) * dot d (fst p) (vsub x y)); [lra|].
    unfold log_grad. fold (cls pos (snd p)). change (fun i => ?a * fst p i) with (vscal a (fst p)). now rewrite dot_scal_l.
  Qed.

  (** *** the code *)
  Section Code.
    Variables (perm : nat -> list nat -> list nat) (D : dataset) (b : nat) (l0 l1 : R).
    Hypothesis HL : lg_labels D l0 l1.
    Hypothesis H1 : l1 <> 0.
    Definition ispos (y : R) : bool := if Req_EM_T y l1 then true else false.
    Lemma relabel_ok : forall p, In p D -> relabel l0 l1 (snd p) = cls ispos (snd p).
    Proof.
      intros p Hp. destruct HL as (Hne & _ & _ & Hall). unfold relabel, cls, ispos. destruct (Hall p Hp) as [E|E]; rewrite E.
      - destruct (Req_EM_T l0 l0); [|congruence]. destruct (Req_EM_T 0 l1); [congruence|]. destruct (Req_EM_T l0 l1); congruence.
      - destruct (Req_EM_T l1 l0); [congruence|]. destruct (Req_EM_T l1 l1); congruence.
    Qed.
    Section Req.
      Variables (ix : indices) (s s' : sampler) (l : list Z) (ps : dataset).
      Hypothesis Hs : sample_batch_indices perm (length D) b ix s = (BOk l, s').
      Hypothesis Hn : names D l ps.
      Hypothesis Hl : l <> [].
      Lemma names_in : forall p, In p ps -> In p D.
      Proof.
        pose proof Hn as Hn'. clear - Hn'. unfold names in Hn'. induction Hn' as [|i p l' ps' H _ IH]; [intros q []|]. destruct H as [_ E].
        intros q [<-|Hq]; [eapply nth_error_In; eauto|exact (IH q Hq)].
      Qed.
      Lemma lg_data : exists qs, lg_batch_data perm D b l0 l1 ix s = (Some (map fst qs, map (fun p => cls ispos (snd p)) qs, length l), s') /\
        length qs = length l /\
        ((length l <> length D \/ ps = D) -> qs = ps) /\ ((length l <> length D \/ Permutation ps D) -> Permutation qs ps).
      Proof.
        unfold lg_batch_data. rewrite Hs. destruct (Nat.eqb_spec (length l) (length D)) as [E|E].
        - exists D. rewrite (map_ext_in _ _ D relabel_ok). repeat split; auto; intros [H|H]; try contradiction; auto using Permutation_sym.
        - pose proof Hn as Hn'. apply py_rows_names in Hn'. rewrite Hn'. exists ps.
          rewrite (map_ext_in _ _ ps (fun p Hp => relabel_ok p (names_in p Hp))). repeat split; auto. now apply names_length with D.
      Qed.
      Lemma fn_value : forall qs x, let Ax := mulrows d (map fst qs) x in let bs := map (fun p => cls ispos (snd p)) qs in
        ldot bs (map softplus_neg Ax) + ldot (map (fun y => 1 - y) bs) (map (fun p => fst p + snd p) (combine Ax (map softplus_neg Ax)))
        = rsum (map (log_loss d ispos x) qs).
      Proof.
        intros. unfold Ax, bs, ldot, mulrows. clear. induction qs as [|p qs IH]; cbn [map combine]; [rewrite !rsum_nil; lra|].
        rewrite !rsum_cons. cbn [fst snd]. rewrite <- IH, log_loss_phi. unfold phi, softplus_neg. ring.
      Qed.
      Lemma lg_value : (length l <> length D \/ Permutation ps D) -> forall x,
        lg_function d perm D b l0 l1 x ix s = (OVal (rmean (map (log_loss d ispos x) ps)), s') /\
        lg_gradient d perm D b l0 l1 x ix s = (OVal (vmean (map (log_grad d ispos x) ps)), s') /\
        lg_hessian d perm D b l0 l1 x ix s = (OVal (mmean (map (log_hess d x) ps)), s').
      Proof.
        intros Hc x. destruct lg_data as (qs & Hd & Hlen & _ & Hp). specialize (Hp Hc).
        unfold lg_function, lg_gradient, lg_hessian. rewrite Hd, (len_ne l Hl), <- Hlen. repeat split.
        - rewrite fn_value, <- (rmean_perm _ _ (Permutation_map (log_loss d ispos x) Hp)), rmean_map. reflexivity.
        - rewrite <- (vmean_perm _ _ _ Hp). do 2 f_equal. vext. unfold vscal, vmean. rewrite map_map, rmean_map. unfold Rdiv. rewrite Rmult_comm. f_equal.
          unfold tmulv, lsub, mulrows, log_grad. clear. induction qs as [|p qs IH]; cbn [map combine]; [reflexivity|].
          rewrite !rsum_cons. cbn [fst snd]. rewrite IH. unfold expit, sigma, cls. ring.
        - rewrite <- (mmean_perm _ _ _ Hp). do 2 f_equal. vext. unfold mscal, mmean. rewrite map_map, rmean_map. unfold Rdiv. rewrite Rmult_comm. f_equal.
          unfold mulrows, log_hess. clear. induction qs as [|p qs IH]; cbn [map combine]; [reflexivity|].
          rewrite !rsum_cons. cbn [fst snd]. rewrite IH. unfold expit, sigma. ring.
      Qed.
      Lemma lg_rows_value : (length l <> length D \/ ps = D) -> forall x,
        lg_rows d perm D b l0 l1 x ix s = (OVal (map (log_grad d ispos x) ps), s').
      Proof.
        intros Hc x. destruct lg_data as (qs & Hd & Hlen & Hq & _). specialize (Hq Hc). subst qs.
        unfold lg_rows. rewrite Hd. do 2 f_equal. unfold lsub, mulrows. clear. induction ps as [|p qs IH]; cbn [map combine]; [reflexivity|]. f_equal; auto.
      Qed.
    End Req.
  End Code.
  (** constants *)
  Lemma fold_Rmax : forall l a, (forall r, In r l -> r <= fold_left Rmax l a) /\ a <= fold_left Rmax l a.
  Proof.
    induction l as [|r l IH]; intros a; cbn; [split; [tauto|lra]|]. destruct (IH (Rmax a r)) as [IH1 IH2].
    pose proof (Rmax_l a r). pose proof (Rmax_r a r). split; [|lra]. intros q [<-|Hq]; [lra|auto].
  Qed.
  Lemma lg_constants : forall pos D,
    (forall L, lg_smooth d D = Fin L -> lipschitz d (fun x => vmean (map (log_grad d pos x) D)) L) /\
    (forall m, lg_cvx = Fin m -> convex_with d (fun x => rmean (map (log_loss d pos x) D)) (fun x => vmean (map (log_grad d pos x) D)) m).
  Proof.
    intros. split.
    - unfold lg_smooth. set (M := fold_left _ _ _). intros L [= <-]. destruct (fold_Rmax (map (nrm2 d) (map fst D)) 0) as [HM H0]. fold M in HM, H0.
      apply (mean_lip d (fun p x => log_grad d pos x p)); [lra|]. intros p Hp.
      eapply lip_le; [|apply log_lip]. specialize (HM (nrm2 d (fst p))). rewrite map_map in HM.
      assert (nrm2 d (fst p) <= M); [|lra]. apply HM. apply in_map_iff. eauto.
    - intros m [= <-]. apply (mean_cvx d (fun p x => log_loss d pos x p) (fun p x => log_grad d pos x p)). intros. apply log_cvx.
  Qed.
  Lemma lg_deriv : forall pos ps x, grad_at d (fun x => rmean (map (log_loss d pos x) ps)) x (vmean (map (log_grad d pos x) ps)) /\
    jac_at d (fun x => vmean (map (log_grad d pos x) ps)) x (mmean (map (log_hess d x) ps)).
  Proof.
    intros. split.
    - apply (mean_grad d (fun p x => log_loss d pos x p) (fun p x => log_grad d pos x p)). intros. apply log_grad_at.
    - apply (mean_jac d (fun p x => log_grad d pos x p) (fun p x => log_hess d x p)). intros. apply log_jac_at.
  Qed.
End L.
