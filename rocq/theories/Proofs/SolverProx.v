(** Proofs about runs on cost objects and [proximal_solver]. *)
From Coq Require Import Reals List Bool Arith ZArith FunctionalExtensionality Lia Lra Psatz.
From Verif.Model Require Import Vec Costs Solvers.
From Verif.Spec Require Import CostSpec SolverSpec.
From Verif.Proofs Require Import CostProofs CostOk VecProofs CostAnalysis CostBuiltin SolverRun SolverRates SolverIter.
Import ListNotations.
Open Scope R_scope.

Section Runs.
  Context {X St : Type} (n : nat) (step : nat -> sst X St -> sres (sst X St)).
  Hypothesis old : keeps_old step.
  (** a successful run is [k] iterations, [1 <= k <= max_iter], all of them
      without early stopping *)
  Lemma run_after : forall mi st mt fr s s', run n step mi st mt fr s = SRet s' ->
    exists k, (1 <= Z.of_nat k <= mi)%Z /\ after step s k s' /\ (st = None -> Z.of_nat k = mi).
  Proof.
    intros mi st mt fr s s' E.
    assert (Hg : good_args mi st mt fr).
    { destruct (Z.ltb_spec mi 1) as [H|H]; [unfold run in E; destruct (Z.ltb_spec mi 1); [discriminate|lia]|].
      unfold run in E. destruct (Z.ltb_spec mi 1); [lia|]. destruct (nonpositive st) eqn:E1; [discriminate|]. destruct (nonpositive mt) eqn:E2; [discriminate|].
      destruct (Rle_dec fr 0); [discriminate|]. destruct (Rlt_dec 1 fr); [discriminate|]. rewrite nonpositive_false in E1, E2. repeat split; auto; lra. }
    destruct (run_spec n step old mi st mt fr s Hg) as [(k & m & s1 & Hst & Er)|(k & m & e & _ & _ & _ & Er & _)]; [|congruence].
    assert (s1 = s') by (rewrite E in Er; destruct mt as [t|]; [destruct (Rlt_dec t (moved n m s1)); congruence|congruence]). subst s1.
    destruct Hst as (H1 & H2 & H3 & H4 & H5). exists (S k). split; [lia|]. split; [econstructor; eauto|].
    intros ->. destruct H5 as [H5|(tol & T & _)]; [lia|discriminate].
  Qed.
  Lemma run_total : forall mi st fr s, good_args mi st None fr -> (forall k m, exists s', step k (mark m) = SRet s') -> exists s', run n step mi st None fr s = SRet s'.
  Proof.
    intros mi st fr s Hg Ht. destruct (run_spec n step old mi st None fr s Hg) as [(k & m & s1 & _ & Er)|(k & m & e & _ & _ & Es & _)]; [eauto|].
    destruct (Ht k m) as [s' E]. congruence.
  Qed.
End Runs.

Section Prox.
  Context (n : nat) {K St : Type} (kw_none : K -> bool) (kdef : K) (eig_max eig_min : mat -> R).
  Notation cost := (cost K St).
  Definition is_quad (c : cost) : bool := match c with CQuad _ _ _ _ => true | _ => false end.
  Lemma ext_sum_flat : forall (c : cost), ext_sum (map (cost_smooth eig_max) (flat c)) = cost_smooth eig_max c /\ ext_sum (map (cost_cvx eig_min) (flat c)) = cost_cvx eig_min c.
  Proof.
    assert (One : forall e, ext_sum [e] = e).
    { intros e. rewrite ext_sum_fold. cbn. destruct e; cbn; try reflexivity. f_equal. ring. }
    intros c. destruct c; cbn [flat map]; try (split; apply One). split; reflexivity.
  Qed.
  Lemma prox_cost : forall sh y rho c pc, is_quad c = false -> add (prox_quadratic sh y rho) c = Ok pc ->
    cost_smooth eig_max pc = ext_add (Fin (eig_max (sym (mscal (/ rho) meye)))) (cost_smooth eig_max c) /\
    cost_cvx eig_min pc = ext_add (quad_cvx eig_min (mscal (/ rho) meye)) (cost_cvx eig_min c) /\
    shape_of pc = sh.
  Proof.
    intros sh y rho c pc Hq E. destruct (ext_sum_flat c) as [E1 E2].
    assert (Es : sum_cost [prox_quadratic sh y rho; c] = Ok pc).
    { unfold prox_quadratic in *. cbn [add] in E. destruct (validate _ _) as [u|e]; [|discriminate]. cbn [rbind] in E. destruct c; try discriminate; exact E. }
    apply sum_cost_ok in Es. subst pc. cbn [flat_map]. rewrite app_nil_r. cbn [prox_quadratic flat app].
    split; [|split; [|reflexivity]]; cbn [cost_smooth cost_cvx map]; rewrite ext_sum_fold; cbn [map fold_right cost_smooth cost_cvx]; rewrite <- ext_sum_fold; [now rewrite E1|now rewrite E2].
  Qed.
  Lemma prox_form : forall F rho y z, rho <> 0 -> quad_f n (mscal (/ rho) meye) (vscal (/ rho) (vscal (-1) y)) 0 z + F z = prox_obj n F rho y z - nrm2 n y / (2 * rho).
  Proof.
    intros F rho y z Hr. unfold quad_f, prox_obj. rewrite mulv_scal_m, dot_scal_r, !dot_scal_l, nrm2_sub.
    rewrite (dot_ext n z z (mulv n meye z) z); [|auto|intros; now apply mulv_eye]. rewrite (dot_sym n y z). unfold nrm2. field. exact Hr.
  Qed.
  Lemma sym_eye : forall rho, sym (mscal (/ rho) meye) = mscal (/ rho) meye.
  Proof. intros rho. vext. unfold sym, mtr, mscal, madd, meye. rewrite (Nat.eqb_sym x0 x). lra. Qed.
  Lemma prox_quad_facts : forall rho b, 0 < rho ->
    lipschitz n (quad_g n (mscal (/ rho) meye) b) (/ rho) /\ convex_with n (quad_f n (mscal (/ rho) meye) b 0) (quad_g n (mscal (/ rho) meye) b) (/ rho).
  Proof.
    intros rho b Hr. assert (0 < / rho) by now apply Rinv_0_lt_compat. split.
    - split; [lra|]. intros x y. unfold quad_g. rewrite sym_eye, !mulv_scal_m. right. rewrite <- nrm2_scal. apply nrm2_ext. intros i Hi. unfold vsub, vadd, vscal. rewrite !mulv_eye by exact Hi. ring.
    - apply quad_convex; [lra|]. intros h. rewrite mulv_scal_m, dot_scal_r. unfold nrm2. right. f_equal. apply dot_ext; [auto|]. intros i Hi. symmetry. now apply mulv_eye.
  Qed.

  Lemma agd_runs : forall (c : cost) F G H l mu x0 p0 mi st fr env s0, cost_is n kw_none kdef c F G H -> cost_smooth eig_max c = Fin l -> cost_cvx eig_min c = Fin mu -> 0 < l ->
    convex_with n F G mu -> lipschitz n G l -> p0 = agd_step (grad_of n kw_none kdef c) (cost_smooth eig_max c) (cost_cvx eig_min c) PNone PNone ->
    good_args mi st None fr -> solver_init (shape_of c) x0 (fun x => x) env = SRet s0 ->
    exists s', run_agd n kw_none kdef eig_max eig_min c x0 PNone PNone mi st None fr env = SRet s'.
  Proof.
    intros c F G H l mu x0 p0 mi st fr env s0 (_ & HG & _) El Em Hl Hc HL -> Hg E0. unfold run_agd. rewrite E0. cbn [sbind].
    apply run_total; [apply agd_keeps|exact Hg|]. intros k m. rewrite El, Em.
    assert (Hmu : exists b, agd_momentum (Fin l) (Fin mu) PNone k = Some b) by (cbn; destruct (Rlt_dec 0 mu); eauto). destruct Hmu as [b Hb].
    destruct (agd_total (grad_of n kw_none kdef c) G HG (Fin l) (Fin mu) PNone PNone k (mark m) _ _ (agd_size_some l Hl) Hb) as (s' & E & _). eauto.
  Qed.
  Lemma agd_arg : forall L mu p pm s k m (g : vec -> St -> option (vec * St)), after (agd_step g L mu p pm) s k m -> s_arg m = s_arg s.
  Proof.
    intros L mu p pm s k m g A. induction A as [|k m s' A IH E]; [reflexivity|]. rewrite <- IH. unfold agd_step in E.
    destruct (agd_size L p), (g (s_aux (mark m)) (s_env (mark m))) as [[? ?]|], (agd_momentum L mu pm k); try discriminate. injection E as <-. reflexivity.
  Qed.
  Lemma proximal_spec : forall (c : cost) F G H L mu sh y rho mi env, (0 < n)%nat -> is_quad c = false -> wf c -> cost_meta c = (sh, 0%nat, 0%nat) ->
    kw_none kdef = true -> cost_is n kw_none kdef c F G H -> cost_smooth eig_max c = Fin L -> cost_cvx eig_min c = Fin mu -> lipschitz n G L -> convex_with n F G mu ->
    eig_max (mscal (/ rho) meye) = / rho -> eig_min (mscal (/ rho) meye) = / rho -> 0 < rho < 10 ^ 12 -> (1 <= mi)%Z ->
    exists s' k, proximal_solver n kw_none kdef eig_max eig_min c sh y rho mi env = SRet s' /\ s_arg s' = Some y /\ (1 <= Z.of_nat k <= mi)%Z /\
      forall z, prox_obj n F rho y (s_x s') - prox_obj n F rho y z <=
        (1 - sqrt ((/ rho + mu) / (/ rho + L))) ^ k * (F y - prox_obj n F rho y z + (/ rho + mu) / 2 * nrm2 n (vsub y z)).
  Proof.
    intros c F G H L mu sh y rho mi env Hn Hq Hw Hm Hk (HF & HG & HH) EL Em HL Hc Emax Emin [Hr Hr2] Hmi.
    assert (Hri : 0 < / rho) by now apply Rinv_0_lt_compat.
    assert (Htol : tol < / rho) by (unfold tol; apply Rinv_lt_contravar; [apply Rmult_lt_0_compat; [lra|apply pow_lt; lra]|exact Hr2]).
    unfold proximal_solver. destruct (list_nat_eqb (shape_of c) sh) as [_|Hne]; [|contradiction Hne; unfold shape_of; now rewrite Hm]. destruct (Rle_dec rho 0); [lra|].
    destruct (add (prox_quadratic sh y rho) c) as [pc|e] eqn:Ea.
    2:{ exfalso. pose proof (add_ok (prox_quadratic sh y rho) c) as A. cbn [wf prox_quadratic cost_meta] in A. specialize (A I Hw (eq_sym Hm)). destruct A as (c' & A & _). congruence. }
    destruct (prox_cost sh y rho c pc Hq Ea) as (P1 & P2 & P3). rewrite sym_eye, Emax, EL in P1. cbn [ext_add] in P1.
    assert (Eq : quad_cvx eig_min (mscal (/ rho) meye) = Fin (/ rho)) by (unfold quad_cvx; rewrite sym_eye, Emin; destruct (Rlt_dec tol (/ rho)); [reflexivity|contradiction]).
    rewrite Eq, Em in P2. cbn [ext_add] in P2. rewrite P1, P2.
    set (bq := vscal (/ rho) (vscal (-1) y)). set (Gq := quad_g n (mscal (/ rho) meye) bq). set (Fq := quad_f n (mscal (/ rho) meye) bq 0).
    assert (HG' : pure_at kdef (cost_g n kw_none pc) (fun x => vadd (Gq x) (G x))).
    { intros x s. assert (B : build (XAdd (XCost (prox_quadratic sh y rho)) (XCost c)) = Ok pc) by exact Ea. rewrite (build_g n kw_none _ _ B). cbn [den].
      unfold ebind2. unfold prox_quadratic. cbn [cost_g]. unfold pure_nokw. rewrite Hk. destruct (HG x s) as [s' E]. rewrite E. now exists s'. }
    destruct (prox_quad_facts rho bq Hr) as [Lq Cq].
    assert (L' : lipschitz n (fun x => vadd (Gq x) (G x)) (/ rho + L)) by (apply lip_add; assumption).
    assert (C' : convex_with n (fun x => Fq x + F x) (fun x => vadd (Gq x) (G x)) (/ rho + mu)) by (apply cvx_add; assumption).
    pose proof (proj1 HL). pose proof (proj1 Hc).
    assert (Hl0 : 0 < / rho + L) by lra. assert (Hm0 : 0 < / rho + mu) by lra.
    unfold run_agd. cbn [solver_init]. destruct (list_nat_eqb sh (shape_of pc)) as [_|Hne]; [|contradiction Hne; now rewrite P3]. cbn [sbind]. rewrite P1, P2.
    set (s0 := {| s_x := y; s_old := y; s_aux := y; s_arg := Some y; s_env := env |}).
    assert (Hg : good_args mi (Some (/ 10 ^ 10)) None (1/100)).
    { repeat split; try discriminate; auto; try lra. intros t [= <-]. apply Rinv_0_lt_compat. lra. }
    destruct (run_total n _ (agd_keeps (grad_of n kw_none kdef pc) (Fin (/ rho + L)) (Fin (/ rho + mu)) PNone PNone) mi (Some (/ 10 ^ 10)) (1/100) s0 Hg) as [s' Er].
    { intros k m. destruct (agd_total (grad_of n kw_none kdef pc) _ HG' (Fin (/ rho + L)) (Fin (/ rho + mu)) PNone PNone k (mark m) _ _ (agd_size_some _ Hl0) (agd_mom_strong _ _ k Hm0)) as (s' & E & _). eauto. }
    destruct (run_after n _ (agd_keeps _ _ _ _ _) _ _ _ _ _ _ Er) as (k & Hkk & A & _).
    exists s', k. split; [exact Er|]. split; [rewrite (agd_arg _ _ _ _ _ _ _ _ A); reflexivity|]. split; [exact Hkk|]. intros z.
    pose proof (agd_strong_run n (grad_of n kw_none kdef pc) (fun x => Fq x + F x) _ HG' (/ rho + L) (/ rho + mu) C' L' Hl0 Hn Hm0 s0 k s' z eq_refl A) as B.
    cbn beta in B. unfold Fq, bq in B. rewrite !prox_form in B by lra. cbn [s0 s_x] in B.
    replace (F y) with (prox_obj n F rho y y). 2:{ unfold prox_obj. replace (vsub y y) with vzero by (vext; unfold vsub, vzero; ring). rewrite nrm2_zero. field. lra. }
    eapply Rle_trans; [|eapply Rle_trans; [exact B|]]; [lra|]. right. f_equal. ring.
  Qed.
End Prox.
