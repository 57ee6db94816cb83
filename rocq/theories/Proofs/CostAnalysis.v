(** Constants and derivatives of composed costs (C56, C57). *)
From Coq Require Import Reals List Bool Arith Lra Lia FunctionalExtensionality.
From Verif.Model Require Import Vec Costs.
From Verif.Spec Require Import CostSpec.
From Verif.Proofs Require Import CostProofs VecProofs.
Import ListNotations.
Open Scope R_scope.

Lemma ext_sum_fold : forall l, ext_sum l = fold_right ext_add (Fin 0) l.
Proof.
  assert (NaNl : forall l, fold_left ext_add l NaN = NaN) by (induction l; cbn; auto).
  assert (A : forall l a, fold_left ext_add l a = ext_add a (fold_right ext_add (Fin 0) l)).
  { induction l as [|b l IH]; intros a; cbn.
    - destruct a; cbn; first [reflexivity | f_equal; ring].
    - rewrite IH. destruct a, b, (fold_right ext_add (Fin 0) l); cbn; first [reflexivity | f_equal; ring]. }
  intros l. unfold ext_sum. destruct (existsb is_nan l) eqn:E.
  - apply existsb_exists in E. destruct E as (e & He & Hn). destruct e; try discriminate.
    induction l as [|b l IH]; [contradiction|]. destruct He as [->|He]; [reflexivity|]. cbn. rewrite <- IH by exact He. now destruct b.
  - rewrite A. destruct (fold_right ext_add (Fin 0) l); cbn; first [reflexivity | f_equal; ring].
Qed.

Section CostInd.
  Context {K St : Type} (P : cost K St -> Prop).
  Hypothesis HU : forall l, P (CUser l).
  Hypothesis HZ : forall m, P (CZero m).
  Hypothesis HQ : forall m A b c, P (CQuad m A b c).
  Hypothesis HR : forall r, P (CReg r).
  Hypothesis HE : forall e, P (CEmp e).
  Hypothesis HS : forall c a, P c -> P (CScaled c a).
  Hypothesis HL : forall cs, Forall P cs -> P (CSum cs).
  Fixpoint cost_ind2 (c : cost K St) : P c :=
    match c with
    | CUser l => HU l
    | CZero m => HZ m
    | CQuad m A b c => HQ m A b c
    | CReg r => HR r
    | CEmp e => HE e
    | CScaled c a => HS c a (cost_ind2 c)
    | CSum cs => HL cs ((fix all cs : Forall P cs := match cs with [] => Forall_nil _ | c :: cs => Forall_cons _ (cost_ind2 c) (all cs) end) cs)
    end.
End CostInd.

(** A property of (function, gradient, hessian, smoothness, convexity) closed
    under the operations holds for every composed cost. *)
Section Closure.
  Context {K St : Type} (n : nat) (kw_none : K -> bool) (eig_max eig_min : mat -> R) (k : K).
  Variable P : (vec -> R) -> (vec -> vec) -> (vec -> mat) -> ext -> ext -> Prop.
  Hypothesis P0 : P (fun _ => 0) (fun _ => vzero) (fun _ => mzero) (Fin 0) (Fin 0).
  Hypothesis Padd : forall F G H s c F' G' H' s' c', P F G H s c -> P F' G' H' s' c' ->
    P (fun x => F x + F' x) (fun x => vadd (G x) (G' x)) (fun x => madd (H x) (H' x)) (ext_add s s') (ext_add c c').
  Hypothesis Pscal : forall a F G H s c, P F G H s c ->
    P (fun x => a * F x) (fun x => vscal a (G x)) (fun x => mscal a (H x)) (scaled_smooth a s) (scaled_cvx a c).
  Hypothesis Pwscal : forall a F G H s c, P F G H s c ->
    P (fun x => a * F x) (fun x => vscal a (G x)) (fun x => mscal a (H x)) (ext_mul (Rabs a) s) (if Rlt_dec a 0 then NaN else ext_mul a c).

  Definition atom_good (a : atom K St) : Prop :=
    exists F G H, atom_is n kw_none k a F G H /\ P F G H (atom_smooth eig_max a) (atom_cvx eig_min a).

  Lemma ext_add0 : forall e, ext_add e (Fin 0) = e.
  Proof. destruct e; cbn; first [reflexivity | f_equal; ring]. Qed.

  Lemma reg_good : forall r, (forall a, In a (reg_atoms r) -> atom_good a) -> P (reg_f r) (reg_g r) (reg_h r) (reg_smooth r) (reg_cvx r).
  Proof.
    intros [l|m ts] Hg; cbn in *.
    - destruct (Hg (AReg l)) as (F & G & H & (-> & -> & ->) & HP); auto.
    - assert (E : reg_cvx (RComp m ts) = ext_sum (map (fun t => if Rlt_dec (snd t) 0 then NaN else ext_mul (snd t) (rl_cvx (fst t))) ts)).
      { clear. cbn. rewrite !ext_sum_fold. destruct (existsb _ ts) eqn:E.
        - induction ts as [|[l w] ts IH]; cbn in *; [discriminate|]. destruct (Rlt_dec w 0); cbn in *; [reflexivity|].
          rewrite <- IH by exact E. now destruct (ext_mul w (rl_cvx l)).
        - induction ts as [|[l w] ts IH]; cbn in *; [reflexivity|]. destruct (Rlt_dec w 0); cbn in *; [discriminate|].
          now rewrite IH. }
      cbn in E. rewrite E, !ext_sum_fold. clear E.
      assert (E1 : forall x, rsum (map (fun t => snd t * rl_f (fst t) x) ts) = fold_right Rplus 0 (map (fun t => snd t * rl_f (fst t) x) ts)).
      { intros x. unfold rsum. apply fold_symmetric; intros; ring. }
      assert (E2 : forall x, vsum (map (fun t => vscal (snd t) (rl_g (fst t) x)) ts) = fold_right vadd vzero (map (fun t => vscal (snd t) (rl_g (fst t) x)) ts)).
      { intros x. unfold vsum. apply fold_symmetric; intros; vext; unfold vadd; ring. }
      assert (E3 : forall x, msum (map (fun t => mscal (snd t) (rl_h (fst t) x)) ts) = fold_right madd mzero (map (fun t => mscal (snd t) (rl_h (fst t) x)) ts)).
      { intros x. unfold msum. apply fold_symmetric; intros; vext; unfold madd; ring. }
      apply functional_extensionality in E1, E2, E3. unfold reg_f, reg_g, reg_h. rewrite E1, E2, E3. clear E1 E2 E3.
      induction ts as [|[l w] ts IH]; cbn in *; [exact P0|].
      apply Padd; [|apply IH; auto].
      destruct (Hg (AReg l)) as (F & G & H & (-> & -> & ->) & HP); auto.
  Qed.

  Lemma emp_good : forall e, (forall a, In a (emp_atoms e) -> atom_good a) ->
    exists F G H, pure_at k (emp_f e) F /\ pure_at k (emp_g e) G /\ pure_at k (emp_h e) H /\ P F G H (emp_smooth e) (emp_cvx e).
  Proof.
    induction e as [l|e IH a|e IH r]; intros Hg; cbn in *.
    - destruct (Hg (AUser l)) as (F & G & H & (HF & HG & HH) & HP); auto. exists F, G, H. auto.
    - destruct (IH Hg) as (F & G & H & HF & HG & HH & HP).
      do 3 eexists. split; [|split; [|split]]; [| | |exact (Pscal a _ _ _ _ _ HP)];
        intros x s; unfold emap; [destruct (HF x s) as [s' E]|destruct (HG x s) as [s' E]|destruct (HH x s) as [s' E]]; exists s'; now rewrite E.
    - destruct IH as (F & G & H & HF & HG & HH & HP); [intros; apply Hg; apply in_or_app; auto|].
      assert (HR : P (reg_f r) (reg_g r) (reg_h r) (reg_smooth r) (reg_cvx r)) by (apply reg_good; intros; apply Hg; apply in_or_app; auto).
      do 3 eexists. split; [|split; [|split]]; [| | |rewrite !ext_sum_fold; cbn; rewrite !ext_add0; exact (Padd _ _ _ _ _ _ _ _ _ _ HP HR)];
        intros x s; unfold ebind2; [destruct (HF x s) as [s' E]|destruct (HG x s) as [s' E]|destruct (HH x s) as [s' E]]; exists s'; now rewrite E.
  Qed.

  Lemma cost_good : forall c, (forall a, In a (atoms c) -> atom_good a) ->
    exists F G H, cost_is n kw_none k c F G H /\ P F G H (cost_smooth eig_max c) (cost_cvx eig_min c).
  Proof.
    induction c as [l|m|m A b q|r|e|c a IH|cs IH] using cost_ind2; intros Hg; cbn in *.
    - destruct (Hg (AUser l)) as (F & G & H & HA & HP); auto. exists F, G, H. auto.
    - do 3 eexists. split; [|exact P0]. repeat split; intros x s; exists s; reflexivity.
    - destruct (Hg (AQuad A b q)) as (F & G & H & (HK & -> & -> & ->) & HP); auto.
      do 3 eexists. split; [|exact HP]. repeat split; intros x s; cbn; unfold pure_nokw; rewrite HK; now exists s.
    - do 3 eexists. split; [|exact (reg_good _ Hg)]. repeat split; intros x s; exists s; reflexivity.
    - destruct (emp_good _ Hg) as (F & G & H & HF & HG & HH & HP). exists F, G, H. repeat split; auto.
    - destruct (IH Hg) as (F & G & H & (HF & HG & HH) & HP).
      do 3 eexists. split; [|exact (Pscal a _ _ _ _ _ HP)].
      repeat split; intros x s; cbn; unfold emap; [destruct (HF x s) as [s' E]|destruct (HG x s) as [s' E]|destruct (HH x s) as [s' E]]; exists s'; now rewrite E.
    - assert (L : exists Fs Gs Hs,
        pure_at k (eseq (map (cost_f n kw_none) cs)) Fs /\
        pure_at k (eseq (map (cost_g n kw_none) cs)) Gs /\
        pure_at k (eseq (map (cost_h kw_none) cs)) Hs /\
        P (fun x => fold_right Rplus 0 (Fs x)) (fun x => fold_right vadd vzero (Gs x)) (fun x => fold_right madd mzero (Hs x))
          (fold_right ext_add (Fin 0) (map (cost_smooth eig_max) cs)) (fold_right ext_add (Fin 0) (map (cost_cvx eig_min) cs))).
      { induction cs as [|c cs IHcs]; cbn in *.
        - exists (fun _ => []), (fun _ => []), (fun _ => []). repeat split; [intros x s; exists s; reflexivity..|exact P0].
        - apply Forall_cons_iff in IH. destruct IH as [IHc IH].
          destruct IHcs as (Fs & Gs & Hs & HFs & HGs & HHs & HPs); [exact IH|intros; apply Hg; apply in_or_app; auto|].
          destruct IHc as (F & G & H & (HF & HG & HH) & HP); [intros; apply Hg; apply in_or_app; auto|].
          exists (fun x => F x :: Fs x), (fun x => G x :: Gs x), (fun x => H x :: Hs x). repeat split.
          + intros x s. unfold ebind2. destruct (HF x s) as [s1 E1]. rewrite E1. destruct (HFs x s1) as [s2 E2]. rewrite E2. now exists s2.
          + intros x s. unfold ebind2. destruct (HG x s) as [s1 E1]. rewrite E1. destruct (HGs x s1) as [s2 E2]. rewrite E2. now exists s2.
          + intros x s. unfold ebind2. destruct (HH x s) as [s1 E1]. rewrite E1. destruct (HHs x s1) as [s2 E2]. rewrite E2. now exists s2.
          + exact (Padd _ _ _ _ _ _ _ _ _ _ HP HPs). }
      destruct L as (Fs & Gs & Hs & HFs & HGs & HHs & HPs). rewrite !ext_sum_fold.
      do 3 eexists. split; [|exact HPs]. repeat split; intros x s; cbn; unfold emap.
      + destruct (HFs x s) as [s' E]. rewrite E. exists s'. do 2 f_equal. unfold rsum. apply fold_symmetric; intros; ring.
      + destruct (HGs x s) as [s' E]. rewrite E. exists s'. do 2 f_equal. unfold vsum. apply fold_symmetric; intros; vext; unfold vadd; ring.
      + destruct (HHs x s) as [s' E]. rewrite E. exists s'. do 2 f_equal. unfold msum. apply fold_symmetric; intros; vext; unfold madd; ring.
  Qed.
End Closure.

(** ** Lipschitz gradients *)
Section An.
  Variable n : nat.
  Lemma lip_norm : forall G L, lipschitz n G L <-> 0 <= L /\ forall x y, norm n (vsub (G x) (G y)) <= L * norm n (vsub x y).
  Proof.
    intros G L. split; intros [HL H]; split; auto; intros x y.
    - apply norm_le; [apply Rmult_le_pos; [exact HL|apply norm_nonneg]|].
      replace (L * norm n (vsub x y) * (L * norm n (vsub x y))) with (L * L * (norm n (vsub x y) * norm n (vsub x y))) by ring.
      rewrite norm_sq. apply H.
    - rewrite <- !norm_sq. specialize (H x y).
      replace (L * L * (norm n (vsub x y) * norm n (vsub x y))) with ((L * norm n (vsub x y)) * (L * norm n (vsub x y))) by ring.
      apply Rmult_le_compat; auto; apply norm_nonneg.
  Qed.
  Lemma lip_zero : forall L, 0 <= L -> lipschitz n (fun _ => vzero) L.
  Proof.
    intros L HL. split; [exact HL|]. intros x y. rewrite (nrm2_ext n _ vzero) by (intros; unfold vsub, vzero; ring).
    rewrite nrm2_zero. pose proof (nrm2_nonneg n (vsub x y)). nra.
  Qed.
  Lemma lip_add : forall G G' L L', lipschitz n G L -> lipschitz n G' L' -> lipschitz n (fun x => vadd (G x) (G' x)) (L + L').
  Proof.
    intros G G' L L'. rewrite !lip_norm. intros [HL H] [HL' H']. split; [lra|]. intros x y.
    replace (vsub (vadd (G x) (G' x)) (vadd (G y) (G' y))) with (vadd (vsub (G x) (G y)) (vsub (G' x) (G' y)))
      by (vext; unfold vadd, vsub; ring).
    eapply Rle_trans; [apply norm_add|]. specialize (H x y). specialize (H' x y). lra.
  Qed.
  Lemma lip_scal : forall a G L, lipschitz n G L -> lipschitz n (fun x => vscal a (G x)) (Rabs a * L).
  Proof.
    intros a G L. rewrite !lip_norm. intros [HL H]. split; [apply Rmult_le_pos; [apply Rabs_pos|exact HL]|]. intros x y.
    replace (vsub (vscal a (G x)) (vscal a (G y))) with (vscal a (vsub (G x) (G y))) by (vext; unfold vscal, vsub; ring).
    rewrite norm_scal, Rmult_assoc. apply Rmult_le_compat_l; [apply Rabs_pos|apply H].
  Qed.
  Lemma cvx_zero : convex_with n (fun _ => 0) (fun _ => vzero) 0.
  Proof. split; [lra|]. intros. rewrite dot_zero_l. lra. Qed.
  Lemma cvx_add : forall F G m F' G' m', convex_with n F G m -> convex_with n F' G' m' ->
    convex_with n (fun x => F x + F' x) (fun x => vadd (G x) (G' x)) (m + m').
  Proof.
    intros F G m F' G' m' [Hm H] [Hm' H']. split; [lra|]. intros x y. rewrite dot_add_l. specialize (H x y). specialize (H' x y). lra.
  Qed.
  Lemma cvx_scal : forall a F G m, 0 <= a -> convex_with n F G m -> convex_with n (fun x => a * F x) (fun x => vscal a (G x)) (a * m).
  Proof.
    intros a F G m Ha [Hm H]. split; [now apply Rmult_le_pos|]. intros x y. rewrite dot_scal_l. specialize (H x y).
    replace (a * F y + a * dot n (G y) (vsub x y) + a * m / 2 * nrm2 n (vsub x y))
      with (a * (F y + dot n (G y) (vsub x y) + m / 2 * nrm2 n (vsub x y))) by field.
    now apply Rmult_le_compat_l.
  Qed.
  Lemma ext_add_fin : forall a b r, ext_add a b = Fin r -> exists x y, a = Fin x /\ b = Fin y /\ r = x + y.
  Proof. intros [x| |] [y| |] r H; try discriminate. injection H as <-. eauto. Qed.
  Lemma ext_mul_fin : forall a e r, ext_mul a e = Fin r -> exists x, e = Fin x /\ r = a * x.
  Proof. intros a [x| |] r H; cbn in H; [injection H as <-; eauto| |discriminate]. destruct (Req_EM_T a 0); discriminate. Qed.
  Lemma vscal0 : forall G : vec -> vec, (fun x => vscal 0 (G x)) = fun _ => vzero.
  Proof. intros. vext. unfold vscal, vzero. ring. Qed.

  Section Cl.
    Context {K St : Type} (kw_none : K -> bool) (eig_max eig_min : mat -> R) (k : K).
    Lemma smooth_closed : forall c : cost K St,
      (forall a, In a (atoms c) -> exists F G H, atom_is n kw_none k a F G H /\ forall L, atom_smooth eig_max a = Fin L -> lipschitz n G L) ->
      exists F G H, cost_is n kw_none k c F G H /\ forall L, cost_smooth eig_max c = Fin L -> lipschitz n G L.
    Proof.
      apply (cost_good n kw_none eig_max eig_min k (fun _ G _ s _ => forall L, s = Fin L -> lipschitz n G L)).
      - intros L E. injection E as <-. apply lip_zero. lra.
      - intros F G H s c F' G' H' s' c' H1 H2 L E. apply ext_add_fin in E. destruct E as (u & v & -> & -> & ->). apply lip_add; auto.
      - intros a F G H s c H1 L E. unfold scaled_smooth in E. destruct (Req_EM_T a 0) as [->|N].
        + injection E as <-. rewrite vscal0. apply lip_zero. lra.
        + apply ext_mul_fin in E. destruct E as (u & -> & ->). apply lip_scal; auto.
      - intros a F G H s c H1 L E. apply ext_mul_fin in E. destruct E as (u & -> & ->). apply lip_scal; auto.
    Qed.
    Lemma convex_closed : forall c : cost K St,
      (forall a, In a (atoms c) -> exists F G H, atom_is n kw_none k a F G H /\ forall m, atom_cvx eig_min a = Fin m -> convex_with n F G m) ->
      exists F G H, cost_is n kw_none k c F G H /\ forall m, cost_cvx eig_min c = Fin m -> convex_with n F G m.
    Proof.
      apply (cost_good n kw_none eig_max eig_min k (fun F G _ _ c => forall m, c = Fin m -> convex_with n F G m)).
      - intros L E. injection E as <-. apply cvx_zero.
      - intros F G H s c F' G' H' s' c' H1 H2 L E. apply ext_add_fin in E. destruct E as (u & v & -> & -> & ->). apply cvx_add; auto.
      - intros a F G H s c H1 L E. unfold scaled_cvx in E. destruct (Rlt_dec 0 a) as [N|N].
        + apply ext_mul_fin in E. destruct E as (u & -> & ->). apply cvx_scal; [lra|auto].
        + destruct (Req_EM_T a 0) as [->|]; [|discriminate]. injection E as <-. rewrite vscal0.
          replace (fun x => 0 * F x) with (fun _ : vec => 0) by (vext; ring). apply cvx_zero.
      - intros a F G H s c H1 L E. destruct (Rlt_dec a 0); [discriminate|].
        apply ext_mul_fin in E. destruct E as (u & -> & ->). apply cvx_scal; [lra|auto].
    Qed.
  End Cl.

  (** ** Derivatives *)
  Lemma grad_zero : forall x, grad_at n (fun _ => 0) x vzero.
  Proof.
    intros x eps He. exists 1. split; [lra|]. intros h _. rewrite dot_zero_l. rewrite !Rminus_0_r, Rabs_R0.
    apply Rmult_le_pos; [lra|apply norm_nonneg].
  Qed.
  Lemma grad_add : forall F F' x g g', grad_at n F x g -> grad_at n F' x g' -> grad_at n (fun x => F x + F' x) x (vadd g g').
  Proof.
    intros F F' x g g' H H' eps He. destruct (H (eps / 2)) as (d & Hd & B); [lra|]. destruct (H' (eps / 2)) as (d' & Hd' & B'); [lra|].
    exists (Rmin d d'). split; [now apply Rmin_pos|]. intros h Hh.
    assert (norm n h < d) by (eapply Rlt_le_trans; [exact Hh|apply Rmin_l]).
    assert (norm n h < d') by (eapply Rlt_le_trans; [exact Hh|apply Rmin_r]).
    specialize (B h). specialize (B' h). rewrite dot_add_l.
    replace (F (vadd x h) + F' (vadd x h) - (F x + F' x) - (dot n g h + dot n g' h))
      with ((F (vadd x h) - F x - dot n g h) + (F' (vadd x h) - F' x - dot n g' h)) by ring.
    eapply Rle_trans; [apply Rabs_triang|]. assert (0 <= norm n h) by apply norm_nonneg.
    replace (eps * norm n h) with (eps / 2 * norm n h + eps / 2 * norm n h) by field. apply Rplus_le_compat; auto.
  Qed.
  Lemma grad_scal : forall a F x g, grad_at n F x g -> grad_at n (fun x => a * F x) x (vscal a g).
  Proof.
    intros a F x g H eps He. assert (Hp : 0 < Rabs a + 1) by (pose proof (Rabs_pos a); lra).
    destruct (H (eps / (Rabs a + 1))) as (d & Hd & B); [now apply Rdiv_lt_0_compat|].
    exists d. split; [exact Hd|]. intros h Hh. rewrite dot_scal_l.
    replace (a * F (vadd x h) - a * F x - a * dot n g h) with (a * (F (vadd x h) - F x - dot n g h)) by ring.
    rewrite Rabs_mult. specialize (B h Hh). pose proof (norm_nonneg n h). pose proof (Rabs_pos a).
    assert (Q : Rabs a * (eps / (Rabs a + 1)) <= eps).
    { apply (Rmult_le_reg_r (Rabs a + 1)); [exact Hp|].
      replace (Rabs a * (eps / (Rabs a + 1)) * (Rabs a + 1)) with (Rabs a * eps) by (field; lra). nra. }
    eapply Rle_trans; [apply Rmult_le_compat_l; [apply Rabs_pos|exact B]|].
    rewrite <- Rmult_assoc. apply Rmult_le_compat_r; assumption.
  Qed.
  Lemma jac_zero : forall x, jac_at n (fun _ => vzero) x mzero.
  Proof.
    intros x eps He. exists 1. split; [lra|]. intros h _.
    rewrite (norm_ext n _ vzero).
    - rewrite norm_zero. apply Rmult_le_pos; [lra|apply norm_nonneg].
    - intros i _. unfold vsub, vzero, mulv, mzero. rewrite (sumn_ext n _ (fun _ => 0)) by (intros; ring). rewrite sumn_zero. ring.
  Qed.
  Lemma jac_add : forall G G' x H H', jac_at n G x H -> jac_at n G' x H' -> jac_at n (fun x => vadd (G x) (G' x)) x (madd H H').
  Proof.
    intros G G' x H H' D D' eps He. destruct (D (eps / 2)) as (d & Hd & B); [lra|]. destruct (D' (eps / 2)) as (d' & Hd' & B'); [lra|].
    exists (Rmin d d'). split; [now apply Rmin_pos|]. intros h Hh.
    assert (norm n h < d) by (eapply Rlt_le_trans; [exact Hh|apply Rmin_l]).
    assert (norm n h < d') by (eapply Rlt_le_trans; [exact Hh|apply Rmin_r]).
    specialize (B h). specialize (B' h). rewrite mulv_add_m.
    replace (vsub (vsub (vadd (G (vadd x h)) (G' (vadd x h))) (vadd (G x) (G' x))) (vadd (mulv n H h) (mulv n H' h)))
      with (vadd (vsub (vsub (G (vadd x h)) (G x)) (mulv n H h)) (vsub (vsub (G' (vadd x h)) (G' x)) (mulv n H' h)))
      by (vext; unfold vadd, vsub; ring).
    eapply Rle_trans; [apply norm_add|].
    replace (eps * norm n h) with (eps / 2 * norm n h + eps / 2 * norm n h) by field. apply Rplus_le_compat; auto.
  Qed.
  Lemma jac_scal : forall a G x H, jac_at n G x H -> jac_at n (fun x => vscal a (G x)) x (mscal a H).
  Proof.
    intros a G x H D eps He. assert (Hp : 0 < Rabs a + 1) by (pose proof (Rabs_pos a); lra).
    destruct (D (eps / (Rabs a + 1))) as (d & Hd & B); [now apply Rdiv_lt_0_compat|].
    exists d. split; [exact Hd|]. intros h Hh. rewrite mulv_scal_m.
    replace (vsub (vsub (vscal a (G (vadd x h))) (vscal a (G x))) (vscal a (mulv n H h)))
      with (vscal a (vsub (vsub (G (vadd x h)) (G x)) (mulv n H h))) by (vext; unfold vscal, vsub; ring).
    rewrite norm_scal. specialize (B h Hh). pose proof (norm_nonneg n h). pose proof (Rabs_pos a).
    assert (Q : Rabs a * (eps / (Rabs a + 1)) <= eps).
    { apply (Rmult_le_reg_r (Rabs a + 1)); [exact Hp|].
      replace (Rabs a * (eps / (Rabs a + 1)) * (Rabs a + 1)) with (Rabs a * eps) by (field; lra). nra. }
    eapply Rle_trans; [apply Rmult_le_compat_l; [apply Rabs_pos|exact B]|].
    rewrite <- Rmult_assoc. apply Rmult_le_compat_r; assumption.
  Qed.
  Lemma deriv_closed : forall {K St} (kw_none : K -> bool) (k : K) x (c : cost K St),
    (forall a, In a (atoms c) -> exists F G H, atom_is n kw_none k a F G H /\ grad_at n F x (G x) /\ jac_at n G x (H x)) ->
    exists F G H, cost_is n kw_none k c F G H /\ grad_at n F x (G x) /\ jac_at n G x (H x).
  Proof.
    intros K St kw_none k x.
    apply (cost_good n kw_none (fun _ => 0) (fun _ => 0) k (fun F G H _ _ => grad_at n F x (G x) /\ jac_at n G x (H x))).
    - split; [apply grad_zero|apply jac_zero].
    - intros F G H s c F' G' H' s' c' [A B] [A' B']. split; [now apply grad_add|now apply jac_add].
    - intros a F G H s c [A B]. split; [now apply grad_scal|now apply jac_scal].
    - intros a F G H s c [A B]. split; [now apply grad_scal|now apply jac_scal].
  Qed.

  (** a second-order remainder bound gives a derivative *)
  Lemma grad_of_bound : forall F x g C, 0 <= C -> (forall h, Rabs (F (vadd x h) - F x - dot n g h) <= C * nrm2 n h) -> grad_at n F x g.
  Proof.
    intros F x g C HC B eps He. exists (eps / (C + 1)). split; [apply Rdiv_lt_0_compat; lra|]. intros h Hh.
    eapply Rle_trans; [apply B|]. rewrite <- norm_sq, <- Rmult_assoc. pose proof (norm_nonneg n h) as Hn.
    apply Rmult_le_compat_r; [exact Hn|].
    assert (Q : C * norm n h <= C * (eps / (C + 1))) by (apply Rmult_le_compat_l; lra).
    assert (C * (eps / (C + 1)) <= eps).
    { apply (Rmult_le_reg_r (C + 1)); [lra|]. replace (C * (eps / (C + 1)) * (C + 1)) with (C * eps) by (field; lra). nra. }
    lra.
  Qed.
  Lemma jac_of_bound : forall G x H C, 0 <= C -> (forall h, norm n (vsub (vsub (G (vadd x h)) (G x)) (mulv n H h)) <= C * nrm2 n h) -> jac_at n G x H.
  Proof.
    intros F x g C HC B eps He. exists (eps / (C + 1)). split; [apply Rdiv_lt_0_compat; lra|]. intros h Hh.
    eapply Rle_trans; [apply B|]. rewrite <- norm_sq, <- Rmult_assoc. pose proof (norm_nonneg n h) as Hn.
    apply Rmult_le_compat_r; [exact Hn|].
    assert (Q : C * norm n h <= C * (eps / (C + 1))) by (apply Rmult_le_compat_l; lra).
    assert (C * (eps / (C + 1)) <= eps).
    { apply (Rmult_le_reg_r (C + 1)); [lra|]. replace (C * (eps / (C + 1)) * (C + 1)) with (C * eps) by (field; lra). nra. }
    lra.
  Qed.
End An.
