(** C29: the closed-form optima; C30: the iterative solvers' stopping guarantee;
    C59: their convergence; C60: the caller's start point. *)
From Coq Require Import Reals List Bool Arith ZArith FunctionalExtensionality Lia Lra Psatz.
From Verif.Model Require Import Vec Costs Batch EmpiricalRisk Solvers.
From Verif.Spec Require Import CostSpec EmpiricalSpec SolverSpec.
From Verif.Proofs Require Import CostProofs CostOk VecProofs CostAnalysis CostBuiltin EmpiricalProofs EmpiricalAnalysis SolverRun SolverRates SolverIter SolverSolve SolverProx.
From Verif.Props Require Import EmpiricalProps.
Import ListNotations.
Open Scope R_scope.

(** ** C29 *)
(** [np.linalg.solve] returns solutions; [np.linalg.lstsq] solutions of the
    normal equations *)
Definition lsolve_ok (n : nat) (lsolve : mat -> vec -> option vec) : Prop := forall M b x, lsolve M b = Some x -> solves n M b x.
Definition lstsq_ok (n : nat) (lstsq : mat -> vec -> vec) : Prop :=
  forall M b, solves n (mtr M) (mulv n (mtr M) b) (mulv n M (lstsq M b)).

(** For a quadratic cost with symmetric matrix the optimum returned has zero
    gradient, and minimises the cost if this is convex. *)
Theorem C29_symmetric_quadratic_optimum : forall K St n (kw : K -> bool) kd ka lr lsolve lstsq emax emin m A b c mi st mt (env : St) x,
  lsolve_ok n lsolve -> (forall i j, (i < n)%nat -> (j < n)%nat -> A i j = A j i) ->
  solve n kw kd ka lr lsolve lstsq emax emin (CQuad m A b c) mi st mt env = SRet x ->
  vanishes n (quad_g n A b x) /\ ((forall h, 0 <= dot n h (mulv n A h)) -> is_min (quad_f n A b c) x).
Proof.
  intros K St n kw kd ka lr lsolve lstsq emax emin m A b c mi st mt env x Hs Hsym E. cbn [solve] in E.
  destruct (lsolve A (vscal (-1) b)) as [x'|] eqn:El; [|discriminate]. injection E as <-. apply Hs in El.
  assert (Z : vanishes n (quad_g n A b x')).
  { intros i Hi. rewrite (quad_solved n A b x' El i Hi). assert (mulv n (mtr A) x' i = mulv n A x' i); [|lra].
    unfold mulv. apply sumn_ext. intros j Hj. unfold mtr. now rewrite (Hsym i j Hi Hj). }
  split; [exact Z|]. intros P. now apply quad_zero_min.
Qed.
(** For any matrix: the gradient at the returned point is zero iff [A x = A^T x]. *)
Theorem C29_quadratic_gradient_vanishes_iff : forall K St n (kw : K -> bool) kd ka lr lsolve lstsq emax emin m A b c mi st mt (env : St) x,
  lsolve_ok n lsolve ->
  solve n kw kd ka lr lsolve lstsq emax emin (CQuad m A b c) mi st mt env = SRet x ->
  (vanishes n (quad_g n A b x) <-> forall i, (i < n)%nat -> mulv n A x i = mulv n (mtr A) x i).
Proof.
  intros K St n kw kd ka lr lsolve lstsq emax emin m A b c mi st mt env x Hs E. cbn [solve] in E.
  destruct (lsolve A (vscal (-1) b)) as [x'|] eqn:El; [|discriminate]. injection E as <-. apply Hs in El.
  split; intros H i Hi; pose proof (quad_solved n A b x' El i Hi) as Q; specialize (H i Hi); lra.
Qed.
(** The claim fails for non-symmetric matrices: the convex cost with
    A = [[1, 1], [0, 1]], b = (1, 0) gets the "optimum" (-1, 0), whose gradient
    is (0, -1/2), whatever correct linear solver is used. *)
Definition ex_A : mat := fun i j => match i, j with O, O => 1 | O, S O => 1 | S O, S O => 1 | _, _ => 0 end.
Definition ex_b : vec := fun i => match i with O => 1 | _ => 0 end.
Theorem C29_nonsymmetric_quadratic_refuted : forall K St (kw : K -> bool) kd ka lr lsolve lstsq emax emin m c mi st mt (env : St) x,
  lsolve_ok 2 lsolve ->
  solve 2 kw kd ka lr lsolve lstsq emax emin (CQuad m ex_A ex_b c) mi st mt env = SRet x ->
  quad_g 2 ex_A ex_b x 1%nat = - (1/2) /\ ~ is_min (quad_f 2 ex_A ex_b c) x /\ exists h, forall z, quad_f 2 ex_A ex_b c h <= quad_f 2 ex_A ex_b c z.
Proof.
  intros K St kw kd ka lr lsolve lstsq emax emin m c mi st mt env x Hs E. cbn [solve] in E.
  destruct (lsolve ex_A (vscal (-1) ex_b)) as [x'|] eqn:El; [|discriminate]. injection E as <-. apply Hs in El.
  pose proof (El 0%nat ltac:(lia)) as E0. pose proof (El 1%nat ltac:(lia)) as E1. unfold mulv, ex_A, ex_b, vscal in E0, E1. cbn in E0, E1.
  assert (X1 : x' 1%nat = 0) by lra. assert (X0 : x' 0%nat = -1) by lra. split; [|split].
  - unfold quad_g, mulv, vadd, sym, mscal, madd, mtr, ex_A, ex_b. cbn. rewrite X0, X1. lra.
  - intros H. specialize (H (fun i => match i with O => - (4/3) | _ => 2/3 end)). unfold quad_f, dot, mulv, ex_A, ex_b in H. cbn in H. rewrite X0, X1 in H. lra.
  - exists (fun i => match i with O => - (4/3) | _ => 2/3 end). intros z. unfold quad_f, dot, mulv, ex_A, ex_b. cbn.
    pose proof (Rle_0_sqr (z 0%nat + 4/3 + (z 1%nat - 2/3) / 2)). pose proof (Rle_0_sqr (z 1%nat - 2/3)). unfold Rsqr in *. nra.
Qed.
(** A sum of linear regression costs over the datasets [Ds]: the call succeeds;
    the sum of the full-data gradients vanishes at the returned point, which is
    a global minimiser -- whether or not the linear solver reports a singular
    matrix. *)
Theorem C29_linear_regression_optimum : forall K St d (kw : K -> bool) kd ka lr lsolve lstsq emax emin cs Ds mi st mt (env : St),
  lsolve_ok d lsolve -> lstsq_ok d lstsq -> Forall2 (regression d ka lr) cs Ds ->
  exists x, solve d kw kd ka lr lsolve lstsq emax emin (CSum cs) mi st mt env = SRet x /\
    vanishes d (fun i => rsum (map (fun D => vmean (map (sq_grad d x) D) i) Ds)) /\
    is_min (fun z => rsum (map (fun D => rmean (map (sq_loss d z) D)) Ds)) x.
Proof.
  intros K St d kw kd ka lr lsolve lstsq emax emin cs Ds mi st mt env Hs Hl H.
  destruct (regression_seq d ka lr kw cs Ds H) as (Hb & _). destruct (solve_lr_spec d ka lr kw lsolve lstsq cs Ds env H) as (x & E & Ex).
  exists x. cbn [solve all_lr]. rewrite Hb. split; [exact E|].
  assert (S : solves d (totA Ds) (vscal (-1) (totb Ds)) x).
  { rewrite Ex. destruct (lsolve (totA Ds) (vscal (-1) (totb Ds))) as [x'|] eqn:El; [now apply Hs|].
    apply tot_normal. intros i Hi. rewrite mulv_sub. unfold vsub. rewrite (Hl (totA Ds) (vscal (-1) (totb Ds)) i Hi). ring. }
  assert (V : vanishes d (vadd (mulv d (totA Ds) x) (totb Ds))) by (intros i Hi; specialize (S i Hi); unfold vscal in S; unfold vadd; lra).
  split; [intros i Hi; rewrite <- tot_grad; now apply V|now apply rsum_min].
Qed.
(** The library's own class is such a cost for every dataset of at least two
    samples (any batch size). *)
Theorem C29_linear_regression_cost_is_regression : forall d perm (D : dataset) b sol emax emin mt lr, (2 <= length D)%nat ->
  lr (lr_leaf d perm D b sol emax emin mt) = true -> regression d IxAll lr (CEmp (ELeaf (lr_leaf d perm D b sol emax emin mt))) D.
Proof.
  intros d perm D b sol emax emin mt lr H2 Hl. destruct (C57_linear_regression_as_operand d perm D b sol emax emin mt (fun _ => true) H2) as (_ & Hg & Hh).
  eexists. split; [reflexivity|]. split; [exact Hl|]. split; assumption.
Qed.
(** The other costs: smoothness constant zero is refused, smooth convex costs go
    to the accelerated method, everything else to gradient descent. *)
Theorem C29_solver_choice : forall K St n (kw : K -> bool) kd ka lr lsolve lstsq emax emin (c : cost K St) mi st mt env,
  is_quad c = false -> all_lr lr c = false ->
  solve n kw kd ka lr lsolve lstsq emax emin c mi st mt env =
    match cost_smooth emax c, cost_cvx emin c with
    | Fin l, Fin _ => if Req_EM_T l 0 then SRaise SValueError
                      else if Rlt_dec 0 l then sbind (run_agd n kw kd emax emin c None PNone PNone mi st mt (1/100) env) (fun s => SRet (s_x s))
                      else sbind (run_gd n kw kd emax emin c None PNone mi st mt (1/100) env) (fun s => SRet (s_x s))
    | _, _ => sbind (run_gd n kw kd emax emin c None PNone mi st mt (1/100) env) (fun s => SRet (s_x s))
    end.
Proof. intros K St n kw kd ka lr lsolve lstsq emax emin c mi st mt env Hq Hl. unfold solve. destruct c; try discriminate; try reflexivity. rewrite Hl. reflexivity. Qed.
Example C29_example : let A : mat := fun i j => match i, j with O, O => 2 | S O, S O => 4 | O, S O => 1 | S O, O => 1 | _, _ => 0 end in
  let sol : mat -> vec -> option vec := fun M b => if Req_EM_T (M 0%nat 0%nat * M 1%nat 1%nat - M 0%nat 1%nat * M 1%nat 0%nat) 0 then None else
    Some (fun i => match i with O => (M 1%nat 1%nat * b 0%nat - M 0%nat 1%nat * b 1%nat) / (M 0%nat 0%nat * M 1%nat 1%nat - M 0%nat 1%nat * M 1%nat 0%nat) | _ => (M 0%nat 0%nat * b 1%nat - M 1%nat 0%nat * b 0%nat) / (M 0%nat 0%nat * M 1%nat 1%nat - M 0%nat 1%nat * M 1%nat 0%nat) end) in
  lsolve_ok 2 sol /\ exists x, solve (K:=unit) (St:=unit) 2 (fun _ => true) tt tt (fun _ => false) sol (fun _ b => b) (fun _ => 0) (fun _ => 0) (CQuad ([2%nat], 0%nat, 0%nat) A (fun _ => 7) 0) 100 None None tt = SRet x /\ x 0%nat = -3.
Proof.
  intros A sol. split.
  - intros M b x. unfold sol. destruct (Req_EM_T _ 0) as [|N]; [discriminate|]. intros [= <-] i Hi. unfold mulv. cbn.
    destruct i as [|[|i]]; [field; exact N|field; exact N|lia].
  - cbn [solve]. unfold sol. unfold A. cbn. destruct (Req_EM_T (2 * 4 - 1 * 1) 0) as [E|N]; [lra|]. eexists. split; [reflexivity|]. cbn. unfold vscal. lra.
Qed.

(** ** C30 *)
(** For any solver (any step that leaves the recorded previous iterate alone):
    [run] returns [s'] exactly if the arguments are admissible and [s'] is the
    solver after the stopping iteration [k < max_iter] -- the first checked one
    whose change is at most [stop_tol], or else the last one -- and the final
    change is at most [max_tol]. *)
Theorem C30_success_iff : forall n X St (step : nat -> sst X St -> sres (sst X St)) mi st mt fr s s', keeps_old step ->
  (run n step mi st mt fr s = SRet s' <->
   good_args mi st mt fr /\ exists k m, stops_after n step mi st (check_every_of fr mi) s k m s' /\ forall t, mt = Some t -> moved n m s' <= t).
Proof.
  intros n X St step mi st mt fr s s' Ho.
  assert (D : good_args mi st mt fr \/ ~ good_args mi st mt fr).
  { destruct (Z_le_dec 1 mi) as [H1|H1]; [|right; intros (H & _); auto].
    assert (T : forall t : option R, (forall r, t = Some r -> 0 < r) \/ ~ forall r, t = Some r -> 0 < r).
    { intros [r|]; [destruct (Rlt_dec 0 r); [left; intros ? [= <-]; auto|right; intros H; apply n0, H; reflexivity]|left; discriminate]. }
    destruct (T st) as [H2|H2]; [|right; intros (_ & H & _); auto]. destruct (T mt) as [H3|H3]; [|right; intros (_ & _ & H & _); auto].
    destruct (Rlt_dec 0 fr); [|right; intros (_ & _ & _ & H); lra]. destruct (Rle_dec fr 1); [|right; intros (_ & _ & _ & H); lra]. left. repeat split; auto. }
  destruct D as [Hg|Hg]; [|rewrite run_bad by exact Hg; split; [discriminate|intros [H _]; contradiction]].
  destruct (run_spec n step Ho mi st mt fr s Hg) as [(k & m & s1 & Hst & Er)|(k & m & e & _ & _ & _ & Er & Hno)]; rewrite Er.
  - split.
    + intros E. split; [exact Hg|]. exists k, m. destruct mt as [t|].
      * destruct (Rlt_dec t (moved n m s1)); [discriminate|]. injection E as <-. split; [exact Hst|]. intros t' [= <-]. lra.
      * injection E as <-. split; [exact Hst|discriminate].
    + intros (_ & k2 & m2 & H2 & Ht). destruct (stops_unique n step mi st fr s _ _ _ _ _ _ Hst H2) as (-> & -> & ->).
      destruct mt as [t|]; [|reflexivity]. specialize (Ht t eq_refl). destruct (Rlt_dec t (moved n m2 s')); [lra|reflexivity].
  - split; [discriminate|]. intros (_ & k2 & m2 & H2 & _). exfalso. eapply Hno; eauto.
Qed.
(** RuntimeError is raised when the solver ends with a change above [max_tol]. *)
Theorem C30_failure : forall n X St (step : nat -> sst X St -> sres (sst X St)) mi st t fr s k m s', keeps_old step ->
  good_args mi st (Some t) fr -> stops_after n step mi st (check_every_of fr mi) s k m s' -> t < moved n m s' ->
  run n step mi st (Some t) fr s = SRaise SRuntimeError.
Proof.
  intros n X St step mi st t fr s k m s' Ho Hg Hst Hm.
  destruct (run_spec n step Ho mi st (Some t) fr s Hg) as [(k1 & m1 & s1 & H1 & Er)|(k1 & m1 & e & _ & _ & _ & Er & Hno)]; [|exfalso; eapply Hno; eauto].
  destruct (stops_unique n step mi st fr s _ _ _ _ _ _ Hst H1) as (-> & -> & ->). rewrite Er. destruct (Rlt_dec t (moved n m1 s1)); [reflexivity|contradiction].
Qed.
(** If no step raises, the solver stops somewhere: it returns, or raises
    RuntimeError because of [max_tol]. *)
Theorem C30_always_ends : forall n X St (step : nat -> sst X St -> sres (sst X St)) mi st mt fr s, keeps_old step -> good_args mi st mt fr ->
  (forall k m, exists s', step k m = SRet s') ->
  (exists s', run n step mi st mt fr s = SRet s') \/ (run n step mi st mt fr s = SRaise SRuntimeError /\ mt <> None).
Proof.
  intros n X St step mi st mt fr s Ho Hg Ht.
  destruct (run_spec n step Ho mi st mt fr s Hg) as [(k1 & m1 & s1 & H1 & Er)|(k1 & m1 & e & _ & _ & Es & _)].
  - rewrite Er. destruct mt as [t|]; [|eauto]. destruct (Rlt_dec t (moved n m1 s1)); [right; split; [reflexivity|discriminate]|eauto].
  - destruct (Ht k1 (mark m1)) as [s' E]. congruence.
Qed.
Theorem C30_bad_arguments : forall n X St (step : nat -> sst X St -> sres (sst X St)) mi st mt fr s,
  ~ good_args mi st mt fr -> run n step mi st mt fr s = SRaise SValueError.
Proof. intros. now apply run_bad. Qed.
(** How often the criterion is checked: every [check_every] iterations, starting
    with the first, [check_every] being the integer part of
    [check_frequency * max_iter], at least 1. *)
Theorem C30_check_interval : forall fr mi, 0 < fr <= 1 -> (1 <= mi)%Z ->
  (1 <= check_every_of fr mi <= mi)%Z /\ (0 mod check_every_of fr mi = 0)%Z /\
  (fr * IZR mi < 1 -> check_every_of fr mi = 1%Z) /\
  (1 <= fr * IZR mi -> IZR (check_every_of fr mi) <= fr * IZR mi < IZR (check_every_of fr mi) + 1).
Proof.
  intros fr mi Hf Hm. unfold check_every_of. destruct (base_Int_part (fr * IZR mi)) as [B1 B2].
  assert (Hp : 1 <= IZR mi) by now apply IZR_le. assert (0 < fr * IZR mi) by nra.
  assert (B3 : (Int_part (fr * IZR mi) <= mi)%Z) by (apply le_IZR; nra).
  split; [lia|]. split; [apply Zmod_0_l|]. split.
  - intros Hlt. assert (Int_part (fr * IZR mi) < 1)%Z by (apply lt_IZR; lra). lia.
  - intros Hge. assert (0 < Int_part (fr * IZR mi))%Z by (apply lt_IZR; lra). rewrite Z.max_r by lia. lra.
Qed.
(** The library's two solvers meet the assumption on steps. *)
Theorem C30_solvers_keep_previous_iterate : forall St (g : vec -> St -> option (vec * St)) L mu p pm,
  keeps_old (gd_step g L mu p) /\ keeps_old (agd_step g L mu p pm).
Proof. intros. split; [apply gd_keeps|apply agd_keeps]. Qed.
(** A start point of another shape than the cost's domain is refused. *)
Theorem C30_wrong_shape : forall K St n (kw : K -> bool) kd emax emin (c : cost K St) sh v p pm mi st mt fr env, sh <> shape_of c ->
  run_gd n kw kd emax emin c (Some (sh, v)) p mi st mt fr env = SRaise SValueError /\
  run_agd n kw kd emax emin c (Some (sh, v)) p pm mi st mt fr env = SRaise SValueError.
Proof. intros K St n kw kd emax emin c sh v p pm mi st mt fr env H. unfold run_gd, run_agd, solver_init. destruct (list_nat_eqb sh (shape_of c)); [contradiction|]. split; reflexivity. Qed.
(** For gradient descent a small final change means a small gradient: with step
    sizes of at least [a], stopping at tolerance [tol] means that the gradient
    at the previous iterate has squared norm at most [tol / a^2]. *)
Theorem C30_gradient_descent_stops_near_stationary : forall St n (g : vec -> St -> option (vec * St)) G L mu p k a b m s' tol,
  (forall x s, exists s', g x s = Some (G x, s')) -> gd_size L mu p k = Some b -> 0 < a <= b ->
  gd_step g L mu p k (mark m) = SRet s' -> moved n m s' <= tol -> nrm2 n (G (s_x m)) <= tol / (a * a).
Proof.
  intros St n g G L mu p k a b m s' tol Hp Hb Ha E Hm. pose proof (gd_next g G Hp L mu p k m s' b Hb E) as Ex. unfold moved in Hm. rewrite Ex in Hm.
  replace (vsub (vsub (s_x m) (vscal b (G (s_x m)))) (s_x m)) with (vscal (- b) (G (s_x m))) in Hm by (vext; unfold vsub, vscal; ring).
  rewrite nrm2_scal in Hm. pose proof (nrm2_nonneg n (G (s_x m))) as Hn. assert (0 < a * a) by nra. assert (Hab : a * a <= b * b) by nra. pose proof (Rmult_le_compat_r _ _ _ Hn Hab).
  assert (a * a * nrm2 n (G (s_x m)) <= tol) by (replace (- b * - b * nrm2 n (G (s_x m))) with (b * b * nrm2 n (G (s_x m))) in Hm by ring; lra).
  apply Rmult_le_reg_l with (a * a); [assumption|]. replace (a * a * (tol / (a * a))) with tol by (field; lra). assumption.
Qed.
(** For the accelerated method the criterion guarantees nothing of the kind: on
    the convex quadratic with A = diag(1, 6/7, 0), for every tolerance and every
    distance there is a start point from which it stops by the criterion at
    least that far from every minimiser (the fourth step from (0, c, 0) does not
    move, being at a turning point of the oscillation). *)
Definition ex_D : mat := fun i j => if Nat.eqb i j then match i with O => 1 | S O => 6/7 | _ => 0 end else 0.
Definition vv (a : R) : vec := fun i => if Nat.eqb i 1 then a else 0.
Lemma ex_D_grad : forall a, quad_g 3 ex_D vzero (vv a) = vv (6/7 * a).
Proof. intros a. vext. unfold quad_g, mulv, vadd, vzero, sym, mscal, madd, mtr, ex_D, vv. destruct x as [|[|[|x]]]; cbn; lra. Qed.
Lemma vv_sub : forall a b, vsub (vv a) (vv b) = vv (a - b).
Proof. intros. vext. unfold vsub, vv. destruct (Nat.eqb x 1); ring. Qed.
Lemma vv_add : forall a b, vadd (vv a) (vv b) = vv (a + b).
Proof. intros. vext. unfold vadd, vv. destruct (Nat.eqb x 1); ring. Qed.
Lemma vv_scal : forall a b, vscal a (vv b) = vv (a * b).
Proof. intros. vext. unfold vscal, vv. destruct (Nat.eqb x 1); ring. Qed.
Lemma ex_D_step : forall k x y, let g := fun v (s : unit) => Some (quad_g 3 ex_D vzero v, s) in
  agd_step g (Fin 1) (Fin 0) PNone PNone k {| s_x := vv x; s_old := vv x; s_aux := vv y; s_arg := None; s_env := tt |} =
  SRet {| s_x := vv (y / 7); s_old := vv x; s_aux := vv (y / 7 + INR k / (INR k + 3) * (y / 7 - x)); s_arg := None; s_env := tt |}.
Proof.
  intros k x y g. unfold agd_step, agd_size, ext_inv, agd_momentum, ext_pos, g. cbn [s_aux s_env s_old s_arg]. destruct (Req_EM_T 1 0); [lra|]. destruct (Rlt_dec 0 0); [lra|].
  rewrite ex_D_grad, !vv_scal, vv_sub. replace (y - 1 / 1 * (6 / 7 * y)) with (y / 7) by field. now rewrite vv_sub, vv_scal, vv_add.
Qed.
Lemma vv_nrm : forall a, nrm2 3 (vv a) = a * a.
Proof. intros. unfold nrm2, dot, vv. cbn. ring. Qed.
Theorem C30_accelerated_stop_far_from_optimum_refuted : forall tol dist, 0 < tol ->
  exists c s', run (X:=vec) (St:=unit) 3 (agd_step (fun v s => Some (quad_g 3 ex_D vzero v, s)) (Fin 1) (Fin 0) PNone PNone) 100 (Some tol) None (1/100)
    {| s_x := vv c; s_old := vv c; s_aux := vv c; s_arg := None; s_env := tt |} = SRet s' /\
  forall z, is_min (quad_f 3 ex_D vzero 0) z -> dist <= nrm2 3 (vsub (s_x s') z).
Proof.
  intros tol dist Ht. set (c := 686 * (1 + Rabs tol + Rabs dist)). pose proof (Rabs_pos dist). pose proof (Rle_abs dist). pose proof (Rle_abs tol).
  assert (Hc : 686 * (1 + tol) <= c) by (unfold c; lra).
  set (st := agd_step (fun v s => Some (quad_g 3 ex_D vzero v, s)) (Fin 1) (Fin 0) PNone PNone).
  set (mk := fun x o y => {| s_x := vv x; s_old := vv o; s_aux := vv y; s_arg := @None vec; s_env := tt |}).
  assert (Es : forall k x o y, st k (mark (mk x o y)) = SRet (mk (y / 7) x (y / 7 + INR k / (INR k + 3) * (y / 7 - x)))) by (intros; apply ex_D_step).
  assert (S0 : st 0%nat (mark (mk c c c)) = SRet (mk (c / 7) c (c / 7))) by (rewrite Es; do 2 f_equal; cbn; field).
  assert (S1 : st 1%nat (mark (mk (c / 7) c (c / 7))) = SRet (mk (c / 49) (c / 7) (- c / 98))) by (rewrite Es; unfold mk; do 2 f_equal; f_equal; cbn; field).
  assert (S2 : st 2%nat (mark (mk (c / 49) (c / 7) (- c / 98))) = SRet (mk (- c / 686) (c / 49) (- c / 98))) by (rewrite Es; unfold mk; do 2 f_equal; f_equal; cbn; field).
  assert (S3 : exists y, st 3%nat (mark (mk (- c / 686) (c / 49) (- c / 98))) = SRet (mk (- c / 686) (- c / 686) y)) by (eexists; rewrite Es; unfold mk; do 2 f_equal; f_equal; cbn; field).
  destruct S3 as [y S3]. exists c, (mk (- c / 686) (- c / 686) y). split.
  - apply C30_success_iff; [apply agd_keeps|]. split; [repeat split; try discriminate; try lia; try lra; intros t [= <-]; exact Ht|].
    assert (Hce : check_every_of (1/100) 100 = 1%Z).
    { destruct (C30_check_interval (1/100) 100 ltac:(lra) ltac:(lia)) as (C1 & _ & _ & C4). specialize (C4 ltac:(lra)). assert (check_every_of (1/100) 100 < 2)%Z by (apply lt_IZR; lra). lia. }
    rewrite Hce. fold st. fold (mk c c c).
    assert (A0 : after st (mk c c c) 0 (mk c c c)) by constructor. assert (A1 : after st (mk c c c) 1 (mk (c / 7) c (c / 7))) by (econstructor; [exact A0|exact S0]).
    assert (A2 : after st (mk c c c) 2 (mk (c / 49) (c / 7) (- c / 98))) by (econstructor; [exact A1|exact S1]).
    assert (A3 : after st (mk c c c) 3 (mk (- c / 686) (c / 49) (- c / 98))) by (econstructor; [exact A2|exact S2]).
    exists 3%nat, (mk (- c / 686) (c / 49) (- c / 98)). split; [|discriminate]. split; [lia|]. split; [exact A3|]. split; [exact S3|]. split.
    + intros t j m1 s1 [= <-] Hj _ Am Em. assert (Hcp : 686 <= c) by lra.
      destruct j as [|[|[|j]]]; [| | |lia].
      * rewrite (after_det st _ _ _ _ Am A0), S0 in Em. injection Em as <-. rewrite (after_det st _ _ _ _ Am A0). unfold moved, mk. cbn [s_x]. rewrite vv_sub, vv_nrm. nra.
      * rewrite (after_det st _ _ _ _ Am A1), S1 in Em. injection Em as <-. rewrite (after_det st _ _ _ _ Am A1). unfold moved, mk. cbn [s_x]. rewrite vv_sub, vv_nrm. nra.
      * rewrite (after_det st _ _ _ _ Am A2), S2 in Em. injection Em as <-. rewrite (after_det st _ _ _ _ Am A2). unfold moved, mk. cbn [s_x]. rewrite vv_sub, vv_nrm. nra.
    + right. exists tol. split; [reflexivity|]. split; [reflexivity|]. unfold moved, mk. cbn [s_x]. rewrite vv_sub, vv_nrm. nra.
  - intros z Hz. unfold mk. cbn [s_x]. specialize (Hz vzero). unfold quad_f, dot, mulv, ex_D, vzero in Hz. cbn in Hz.
    assert (Z1 : z 1%nat = 0) by nra. unfold nrm2, dot, vsub, vv. cbn. rewrite Z1.
    assert (dist <= (- c / 686 - 0) * (- c / 686 - 0)). { replace (- c / 686 - 0) with (- (1 + Rabs tol + Rabs dist)) by (unfold c; field). pose proof (Rabs_pos tol). nra. }
    pose proof (Rle_0_sqr (z 0%nat)). pose proof (Rle_0_sqr (z 2%nat)). unfold Rsqr in *. nra.
Qed.
(** An integer step size is silently replaced by the default. *)
Theorem C30_integer_step_size_ignored : forall L mu z k, gd_size L mu (PInt z) k = gd_size L mu PNone k /\ agd_size L (PInt z) = agd_size L PNone /\ agd_momentum L mu (PInt z) k = agd_momentum L mu PNone k.
Proof. repeat split. Qed.
(** Example: one-dimensional gradient descent on x^2/2 with step 1/2 from 1 and
    tolerance 1/10 stops after two steps at 1/4. *)
Example C30_example : exists s', run (X:=unit) (St:=unit) 1 (gd_step (fun v s => Some (v, s)) (Fin 1) (Fin 1) (PFloat (1/2))) 10 (Some (1/10)) (Some 1) (1/10)
  {| s_x := fun _ => 1; s_old := fun _ => 1; s_aux := tt; s_arg := None; s_env := tt |} = SRet s' /\ s_x s' 0%nat = 1/4.
Proof.
  set (st := gd_step (fun v s => Some (v, s)) (Fin 1) (Fin 1) (PFloat (1/2))).
  set (mk := fun x o : R => {| s_x := fun _ : nat => x; s_old := fun _ : nat => o; s_aux := tt; s_arg := @None vec; s_env := tt |}).
  assert (Es : forall k x o, st k (mark (mk x o)) = SRet (mk (x / 2) x)).
  { intros. unfold st, gd_step, mk. cbn. do 2 f_equal. vext. unfold vsub, vscal. field. }
  exists (mk (1/4) (1/2)). split; [|reflexivity]. apply C30_success_iff; [apply gd_keeps|].
  split; [repeat split; try lia; try lra; intros t [= <-]; lra|]. fold st. fold (mk 1 1).
  assert (A0 : after st (mk 1 1) 0 (mk 1 1)) by constructor. assert (A1 : after st (mk 1 1) 1 (mk (1/2) 1)) by (econstructor; [exact A0|apply Es]).
  assert (Hce : check_every_of (1/10) 10 = 1%Z).
  { destruct (C30_check_interval (1/10) 10 ltac:(lra) ltac:(lia)) as (C1 & _ & _ & C4). specialize (C4 ltac:(lra)). assert (check_every_of (1/10) 10 < 2)%Z by (apply lt_IZR; lra). lia. }
  rewrite Hce. assert (M : moved 1 (mk (1/2) 1) (mk (1/4) (1/2)) = 1/16) by (unfold moved, mk, nrm2, dot, vsub; cbn; field).
  exists 1%nat, (mk (1/2) 1). split; [split; [lia|]; split; [exact A1|]; split; [rewrite Es; do 2 f_equal; field|]; split|].
  - intros t j m1 s1 [= <-] Hj _ Am Em. destruct j as [|j]; [|lia]. rewrite (after_det st _ _ _ _ Am A0), Es in Em. injection Em as <-. rewrite (after_det st _ _ _ _ Am A0).
    unfold moved, mk, nrm2, dot, vsub. cbn. lra.
  - right. exists (1/10). split; [reflexivity|]. split; [reflexivity|]. rewrite M. lra.
  - intros t [= <-]. rewrite M. lra.
Qed.

(** ** C59: convergence *)
(** For a cost that computes [F] with gradient [G] and reports valid constants
    [l > 0] and [mu], a successful run of gradient descent with the default step
    has made some number [k] of steps, [1 <= k <= max_iter] ([= max_iter] without
    early stopping), and: if [mu = 0], the value is within
    [l |x0 - z|^2 / (2 k)] of that at any [z]; if [mu > 0], the squared distance
    to a stationary point shrank by the factor [((l-mu)/(l+mu))^(2k)]. *)
Theorem C59_gradient_descent_rate : forall K St n (kw : K -> bool) kd emax emin (c : cost K St) F G H l mu x0 mi st mt fr env s',
  cost_is n kw kd c F G H -> cost_smooth emax c = Fin l -> cost_cvx emin c = Fin mu -> 0 < l -> lipschitz n G l -> convex_with n F G mu ->
  run_gd n kw kd emax emin c (Some (shape_of c, x0)) PNone mi st mt fr env = SRet s' ->
  exists k, (1 <= Z.of_nat k <= mi)%Z /\ (st = None -> Z.of_nat k = mi) /\
    (mu = 0 -> F (s_x s') <= F x0 /\ forall z, F (s_x s') - F z <= l * nrm2 n (vsub x0 z) / (2 * INR k)) /\
    (0 < mu -> forall z, vanishes n (G z) -> nrm2 n (vsub (s_x s') z) <= ((l - mu) / (l + mu)) ^ (2 * k) * nrm2 n (vsub x0 z)).
Proof.
  intros K St n kw kd emax emin c F G H l mu x0 mi st mt fr env s' (_ & HG & _) El Em Hl HL Hc E.
  unfold run_gd in E. cbn [solver_init] in E. destruct (list_nat_eqb (shape_of c) (shape_of c)) as [_|N]; [|now contradiction N]. cbn [sbind] in E. rewrite El, Em in E.
  destruct (run_after n _ (gd_keeps _ _ _ _) _ _ _ _ _ _ E) as (k & Hk & A & Hn). exists k. split; [exact Hk|]. split; [exact Hn|]. split.
  - intros H0. split; [apply (gd_convex n _ F G HG l mu Hc HL Hl H0 _ _ _ vzero A)|]. intros z.
    destruct (gd_convex n _ F G HG l mu Hc HL Hl H0 _ _ _ z A) as [B _]. cbn [s_x] in B. assert (Hk1 : 0 < INR k) by (apply lt_0_INR; lia).
    pose proof (nrm2_nonneg n (vsub (s_x s') z)). apply Rmult_le_reg_l with (INR k); [assumption|].
    replace (INR k * (l * nrm2 n (vsub x0 z) / (2 * INR k))) with (l / 2 * nrm2 n (vsub x0 z)) by (field; lra). nra.
  - intros H0 z Hz. exact (gd_strong n _ F G HG l mu Hc HL Hl H0 _ _ _ z Hz A).
Qed.
(** The accelerated method: if [mu = 0], the value is within
    [2 l |x0 - z|^2 / (k+1)^2] of the minimum; if [mu > 0], the gap shrinks by
    [(1 - sqrt (mu / l))^k]. *)
Theorem C59_accelerated_rate : forall K St n (kw : K -> bool) kd emax emin (c : cost K St) F G H l mu x0 mi st mt fr env s', (0 < n)%nat ->
  cost_is n kw kd c F G H -> cost_smooth emax c = Fin l -> cost_cvx emin c = Fin mu -> 0 < l -> lipschitz n G l -> convex_with n F G mu ->
  run_agd n kw kd emax emin c (Some (shape_of c, x0)) PNone PNone mi st mt fr env = SRet s' ->
  exists k, (1 <= Z.of_nat k <= mi)%Z /\ (st = None -> Z.of_nat k = mi) /\
    (mu = 0 -> forall z, is_min F z -> F (s_x s') - F z <= 2 * l * nrm2 n (vsub x0 z) / (INR k + 1) ^ 2) /\
    (0 < mu -> forall z, F (s_x s') - F z <= (1 - sqrt (mu / l)) ^ k * (F x0 - F z + mu / 2 * nrm2 n (vsub x0 z))).
Proof.
  intros K St n kw kd emax emin c F G H l mu x0 mi st mt fr env s' Hn0 (_ & HG & _) El Em Hl HL Hc E.
  unfold run_agd in E. cbn [solver_init] in E. destruct (list_nat_eqb (shape_of c) (shape_of c)) as [_|N]; [|now contradiction N]. cbn [sbind] in E. rewrite El, Em in E.
  destruct (run_after n _ (agd_keeps _ _ _ _ _) _ _ _ _ _ _ E) as (k & Hk & A & Hn). exists k. split; [exact Hk|]. split; [exact Hn|]. split.
  - intros H0 z Hz. pose proof (fun Hx => agd_convex n _ F G HG l mu Hc HL Hl H0 _ k s' z Hx Hz A) as B. specialize (B eq_refl). destruct B as [_ B]. specialize (B ltac:(lia)). cbn [s_x] in B. pose proof (pos_INR k).
    assert (Hp : 0 < (INR k + 1) ^ 2) by (apply pow_lt; lra).
    apply Rmult_le_reg_l with ((INR k + 1) ^ 2); [assumption|]. replace ((INR k + 1) ^ 2 * (2 * l * nrm2 n (vsub x0 z) / (INR k + 1) ^ 2)) with (2 * l * nrm2 n (vsub x0 z)) by (field; lra). lra.
  - intros H0 z. refine (agd_strong_run n _ F G HG l mu Hc HL Hl Hn0 H0 _ _ _ z _ A); reflexivity.
Qed.
(** Consequently [solve] on a smooth convex cost (not a quadratic, not a sum of
    linear regressions) without early stopping, which starts from zero. *)
Theorem C59_solve_rate : forall K St n (kw : K -> bool) kd ka lr lsolve lstsq emax emin (c : cost K St) F G H l mu mi mt env x, (0 < n)%nat ->
  is_quad c = false -> all_lr lr c = false ->
  cost_is n kw kd c F G H -> cost_smooth emax c = Fin l -> cost_cvx emin c = Fin mu -> 0 < l -> lipschitz n G l -> convex_with n F G mu ->
  solve n kw kd ka lr lsolve lstsq emax emin c mi None mt env = SRet x -> forall z, is_min F z ->
  (mu = 0 -> F x - F z <= 2 * l * nrm2 n z / (IZR mi + 1) ^ 2) /\
  (0 < mu -> F x - F z <= (1 - sqrt (mu / l)) ^ (Z.to_nat mi) * (F vzero - F z + mu / 2 * nrm2 n z)).
Proof.
  intros K St n kw kd ka lr lsolve lstsq emax emin c F G H l mu mi mt env x Hn Hq Hlr HG El Em Hl HL Hc E z Hz.
  rewrite C29_solver_choice in E by assumption. rewrite El, Em in E. destruct (Req_EM_T l 0); [lra|]. destruct (Rlt_dec 0 l); [|contradiction].
  assert (Er : exists s', run_agd n kw kd emax emin c None PNone PNone mi None mt (1/100) env = SRet s' /\ x = s_x s').
  { destruct (run_agd n kw kd emax emin c None PNone PNone mi None mt (1/100) env) as [s'|e]; [|discriminate]. injection E as <-. eauto. }
  destruct Er as (s' & Er & ->). clear E. destruct HG as (_ & HG & _). unfold run_agd in Er. cbn [solver_init sbind] in Er. rewrite El, Em in Er.
  destruct (run_after n _ (agd_keeps _ _ _ _ _) _ _ _ _ _ _ Er) as (k & Hk & A & Hk2). specialize (Hk2 eq_refl).
  assert (Ek : k = Z.to_nat mi) by lia. assert (EI : INR k = IZR mi) by (rewrite INR_IZR_INZ, Hk2; reflexivity).
  assert (Ez : nrm2 n (vsub vzero z) = nrm2 n z) by (replace (vsub vzero z) with (vscal (-1) z) by (vext; unfold vsub, vscal, vzero; ring); rewrite nrm2_scal; ring).
  split; intros H0.
  - pose proof (fun Hx => agd_convex n _ F G HG l mu Hc HL Hl H0 _ k s' z Hx Hz A) as B. specialize (B eq_refl). destruct B as [_ B]. specialize (B ltac:(lia)). cbn [s_x] in B. rewrite Ez, EI in B.
    assert (Hp1 : 1 <= IZR mi) by (apply IZR_le; lia). assert (Hp : 0 < (IZR mi + 1) ^ 2) by (apply pow_lt; lra).
    apply Rmult_le_reg_l with ((IZR mi + 1) ^ 2); [assumption|]. replace ((IZR mi + 1) ^ 2 * (2 * l * nrm2 n z / (IZR mi + 1) ^ 2)) with (2 * l * nrm2 n z) by (field; lra). lra.
  - pose proof (fun Hx => agd_strong_run n _ F G HG l mu Hc HL Hl Hn H0 _ _ _ z Hx A) as B. specialize (B eq_refl). cbn [s_x] in B. rewrite Ez in B. now rewrite <- Ek.
Qed.
(** [proximal_solver] on a well-formed smooth convex cost (not a quadratic) with
    a penalty below 10^12, given the eigenvalues of [I / penalty]: it returns
    after [k] steps, [1 <= k <= max_iter], a point whose proximal objective
    [F z + |z - y|^2 / (2 penalty)] is within the shrinking gap of that of every
    [z]; the caller's [y] is unchanged. *)
Theorem C59_proximal_solver_rate : forall K St n (kw : K -> bool) kd emax emin (c : cost K St) F G H L mu sh y rho mi env, (0 < n)%nat ->
  is_quad c = false -> wf c -> cost_meta c = (sh, 0%nat, 0%nat) -> kw kd = true ->
  cost_is n kw kd c F G H -> cost_smooth emax c = Fin L -> cost_cvx emin c = Fin mu -> lipschitz n G L -> convex_with n F G mu ->
  emax (mscal (/ rho) meye) = / rho -> emin (mscal (/ rho) meye) = / rho -> 0 < rho < 10 ^ 12 -> (1 <= mi)%Z ->
  exists s' k, proximal_solver n kw kd emax emin c sh y rho mi env = SRet s' /\ s_arg s' = Some y /\ (1 <= Z.of_nat k <= mi)%Z /\
    forall z, prox_obj n F rho y (s_x s') - prox_obj n F rho y z <=
      (1 - sqrt ((/ rho + mu) / (/ rho + L))) ^ k * (F y - prox_obj n F rho y z + (/ rho + mu) / 2 * nrm2 n (vsub y z)).
Proof. intros. eapply proximal_spec; eauto. Qed.
(** ... and refuses wrong shapes, penalties that are not positive, and costs
    without finite constants. *)
Theorem C59_proximal_solver_refuses : forall K St n (kw : K -> bool) kd emax emin (c : cost K St) sh y rho mi env,
  (shape_of c <> sh \/ rho <= 0 -> proximal_solver n kw kd emax emin c sh y rho mi env = SRaise SValueError) /\
  (shape_of c = sh -> 0 < rho -> is_quad c = false -> forall pc, add (prox_quadratic sh y rho) c = Ok pc ->
     (forall l, cost_smooth emax c <> Fin l) \/ cost_cvx emin c = NaN -> proximal_solver n kw kd emax emin c sh y rho mi env = SRaise SNotImplementedError).
Proof.
  intros K St n kw kd emax emin c sh y rho mi env. unfold proximal_solver. split.
  - intros Hor. destruct (list_nat_eqb (shape_of c) sh) as [Hs|Hs]; [|reflexivity]. destruct Hor as [|Hr]; [contradiction|]. destruct (Rle_dec rho 0); [reflexivity|contradiction].
  - intros Hs Hr Hq pc Ea Hor. destruct (list_nat_eqb (shape_of c) sh) as [_|N]; [|contradiction]. destruct (Rle_dec rho 0); [lra|]. rewrite Ea.
    destruct (prox_cost emax emin sh y rho c pc Hq Ea) as (P1 & P2 & _). rewrite P1, P2.
    destruct Hor as [Hn|Hn].
    + destruct (cost_smooth emax c) as [l| |]; [now contradiction (Hn l)|reflexivity|reflexivity].
    + rewrite Hn. destruct (cost_smooth emax c); cbn [ext_add]; try reflexivity. destruct (quad_cvx emin (mscal (/ rho) meye)); reflexivity.
Qed.
(** Example: the L2 regularizer [|x|^2 / 2] meets the hypotheses with both
    constants 1, and its proximal at [y] with penalty 1 is [y / 2]. *)
Example C59_example : let m := ([1%nat], 0%nat, 0%nat) in let c : cost unit unit := CReg (RLeaf (l2_reg 1 m)) in
  exists F G H, cost_is 1 (fun _ => true) tt c F G H /\ cost_smooth (fun M => M 0%nat 0%nat) c = Fin 1 /\ cost_cvx (fun M => M 0%nat 0%nat) c = Fin 1 /\
    lipschitz 1 G 1 /\ convex_with 1 F G 1 /\ wf c /\ is_quad c = false /\
    exists s', proximal_solver 1 (fun _ => true) tt (fun M => M 0%nat 0%nat) (fun M => M 0%nat 0%nat) c [1%nat] (fun _ => 8) 1 100 tt = SRet s' /\ s_x s' 0%nat = 4.
Proof.
  intros m c. exists (rl_f (l2_reg 1 m)), (rl_g (l2_reg 1 m)), (rl_h (l2_reg 1 m)).
  assert (CI : cost_is 1 (fun _ => true) tt c (rl_f (l2_reg 1 m)) (rl_g (l2_reg 1 m)) (rl_h (l2_reg 1 m))) by (repeat split; intros x s; exists s; reflexivity).
  assert (E : mscal (/ 1) meye 0%nat 0%nat = / 1) by (unfold mscal, meye; cbn; lra).
  assert (L2 : 10 ^ 12 > 1) by (cbn; lra).
  destruct (C59_proximal_solver_rate unit unit 1 (fun _ => true) tt (fun M => M 0%nat 0%nat) (fun M => M 0%nat 0%nat) c _ _ _ 1 1 [1%nat] (fun _ => 8) 1 100 tt
    ltac:(lia) eq_refl I eq_refl eq_refl CI eq_refl eq_refl (l2_lip 1 m) (l2_cvx 1 m) E E ltac:(lra) ltac:(lia)) as (s' & k & Er & _ & Hk & B).
  repeat (split; [first [exact CI|reflexivity|apply l2_lip|apply l2_cvx|exact I]|]). exists s'. split; [exact Er|].
  specialize (B (fun _ => 4)). replace ((/ 1 + 1) / (/ 1 + 1)) with 1 in B by lra. rewrite sqrt_1 in B. replace (1 - 1) with 0 in B by ring.
  rewrite pow_i in B by lia. unfold prox_obj, nrm2, dot, vsub in B. cbn in B. pose proof (Rle_0_sqr (s_x s' 0%nat - 4)) as Q. unfold Rsqr in Q.
  assert (s_x s' 0%nat - 4 = 0) by nra. lra.
Qed.

(** ** C60: the caller's start point *)
(** The accelerated method (and so [proximal_solver]) leaves the array passed as
    start point unchanged. *)
Theorem C60_accelerated_keeps_start_point : forall K St n (kw : K -> bool) kd emax emin (c : cost K St) sh v p pm mi st mt fr env s',
  run_agd n kw kd emax emin c (Some (sh, v)) p pm mi st mt fr env = SRet s' -> s_arg s' = Some v.
Proof.
  intros K St n kw kd emax emin c sh v p pm mi st mt fr env s' E. unfold run_agd in E. cbn [solver_init] in E. destruct (list_nat_eqb sh (shape_of c)); [|discriminate]. cbn [sbind] in E.
  destruct (run_after n _ (agd_keeps _ _ _ _ _) _ _ _ _ _ _ E) as (k & _ & A & _). now rewrite (agd_arg _ _ _ _ _ _ _ _ A).
Qed.
Theorem C60_proximal_solver_keeps_point : forall K St n (kw : K -> bool) kd emax emin (c : cost K St) sh y rho mi env s',
  proximal_solver n kw kd emax emin c sh y rho mi env = SRet s' -> s_arg s' = Some y.
Proof.
  intros K St n kw kd emax emin c sh y rho mi env s' E. unfold proximal_solver in E. destruct (list_nat_eqb (shape_of c) sh); [|discriminate]. destruct (Rle_dec rho 0); [discriminate|].
  destruct (add (prox_quadratic sh y rho) c) as [pc|]; [|discriminate]. destruct (cost_smooth emax pc), (cost_cvx emin pc); try discriminate; eapply C60_accelerated_keeps_start_point; eauto.
Qed.
(** Gradient descent overwrites it with the result. *)
Theorem C60_gradient_descent_overwrites_start_point_refuted : forall K St n (kw : K -> bool) kd emax emin (c : cost K St) sh v p mi st mt fr env s',
  run_gd n kw kd emax emin c (Some (sh, v)) p mi st mt fr env = SRet s' -> s_arg s' = Some (s_x s').
Proof.
  intros K St n kw kd emax emin c sh v p mi st mt fr env s' E. unfold run_gd in E. cbn [solver_init] in E. destruct (list_nat_eqb sh (shape_of c)); [|discriminate]. cbn [sbind] in E.
  destruct (run_after n _ (gd_keeps _ _ _ _) _ _ _ _ _ _ E) as (k & _ & A & _).
  remember {| s_x := v; s_old := v; s_aux := tt; s_arg := Some v; s_env := env |} as s0 eqn:E0. assert (H0 : s_arg s0 = Some (s_x s0)) by now subst. clear E0 E.
  induction A as [|k m s' A IH Es]; [exact H0|]. unfold gd_step in Es. cbn [mark s_arg s_x s_env] in Es.
  destruct (gd_size _ _ p k), (grad_of n kw kd c (s_x m) (s_env m)) as [[? ?]|]; try discriminate. rewrite IH in Es. injection Es as <-. reflexivity.
Qed.
Example C60_example : exists s', run_gd (K:=unit) (St:=unit) 1 (fun _ => true) tt (fun _ => 1) (fun _ => 1) (CReg (RLeaf (l2_reg 1 ([1%nat], 0%nat, 0%nat)))) (Some ([1%nat], fun _ => 8)) (PFloat (1/2)) 1 None None 1 tt = SRet s' /\
  s_arg s' <> Some (fun _ => 8).
Proof.
  unfold run_gd. cbn [solver_init shape_of cost_meta reg_meta rl_meta l2_reg fst]. destruct (list_nat_eqb [1%nat] [1%nat]) as [_|N]; [|now contradiction N]. cbn [sbind].
  unfold run. cbn [Z.ltb Z.compare Pos.compare Pos.compare_cont nonpositive]. destruct (Rle_dec 1 0); [lra|]. destruct (Rlt_dec 1 1); [lra|].
  eexists. split; [reflexivity|]. cbn. intros [= E]. apply (f_equal (fun f => f 0%nat)) in E. unfold vsub, vscal in E. lra.
Qed.

(** A cost with no smoothness constant ([m_smooth] infinite): the default step size of
    the accelerated method is [1 / inf = 0], and the result is the start point. *)
Theorem C60_accelerated_infinite_smoothness : forall K St n (kw : K -> bool) kd emax emin (c : cost K St) sh v z pm mi st mt fr env s',
  cost_smooth emax c = PInf ->
  (run_agd n kw kd emax emin c (Some (sh, v)) PNone pm mi st mt fr env = SRet s' \/ run_agd n kw kd emax emin c (Some (sh, v)) (PInt z) pm mi st mt fr env = SRet s') ->
  forall i, s_x s' i = v i.
Proof.
  intros K St n kw kd emax emin c sh v z pm mi st mt fr env s' I E.
  assert (G : forall p, agd_size PInf p = Some 0 -> run_agd n kw kd emax emin c (Some (sh, v)) p pm mi st mt fr env = SRet s' -> forall i, s_x s' i = v i).
  { clear E. intros p P E. unfold run_agd in E. cbn [solver_init] in E. destruct (list_nat_eqb sh (shape_of c)); [|discriminate]. cbn [sbind] in E.
    destruct (run_after n _ (agd_keeps _ _ _ _ _) _ _ _ _ _ _ E) as (k & _ & A & _).
    match type of A with context [{| s_x := ?a; s_old := ?b; s_aux := ?y; s_arg := ?g; s_env := ?e |}] => remember {| s_x := a; s_old := b; s_aux := y; s_arg := g; s_env := e |} as s0 eqn:E0 end.
    assert (H0 : (forall i, s_x s0 i = v i) /\ (forall i, s_aux s0 i = v i)) by (subst; split; reflexivity). clear E0 E.
    enough ((forall i, s_x s' i = v i) /\ (forall i, s_aux s' i = v i)) by tauto.
    induction A as [|k m s' A IH Es]; [exact H0|]. destruct IH as [I1 I2]. unfold agd_step in Es. rewrite I, P in Es. cbn [mark s_x s_old s_aux s_env s_arg] in Es.
    destruct (grad_of n kw kd c (s_aux m) (s_env m)) as [[gr en]|]; [|discriminate]. destruct (agd_momentum _ _ pm k) as [q|]; [|discriminate]. injection Es as <-. cbn [s_x s_aux]. unfold vsub, vadd, vscal.
    split; intro i; rewrite ?I1, ?I2; lra. }
  destruct E as [E|E]; [exact (G PNone eq_refl E)|exact (G (PInt z) eq_refl E)].
Qed.
Example C60_infinite_example : exists c : cost unit unit, cost_smooth (fun _ => 1) c = PInf
  /\ exists s', run_agd 1 (fun _ => true) tt (fun _ => 1) (fun _ => 1) c (Some ([1%nat], fun _ => 8)) PNone PNone 1 None None 1 tt = SRet s'.
Proof.
  exists (CReg (RLeaf {| rl_meta := ([1%nat], 0%nat, 0%nat); rl_f := fun _ => 0; rl_g := fun x => x; rl_h := fun _ => mzero; rl_smooth := PInf; rl_cvx := Fin 0; rl_prox := fun _ _ => Err ValueError |})).
  split; [reflexivity|].
  unfold run_agd. cbn [solver_init shape_of cost_meta reg_meta rl_meta fst]. destruct (list_nat_eqb [1%nat] [1%nat]) as [_|N]; [|now contradiction N]. cbn [sbind].
  unfold run. cbn [Z.ltb Z.compare Pos.compare Pos.compare_cont nonpositive]. destruct (Rle_dec 1 0); [lra|]. destruct (Rlt_dec 1 1); [lra|].
  change (Z.to_nat 1 - 1)%nat with 0%nat. cbn. unfold agd_momentum, ext_pos. destruct (Rlt_dec 0 0); [lra|]. cbn. eexists. reflexivity.
Qed.
(** Gradient descent then uses [1 / sqrt (k + 1)] instead: the same for a nonconvex cost. *)
Theorem C60_gradient_descent_default_without_constants : forall L mu k, L = PInf \/ L = NaN \/ mu = NaN ->
  gd_size L mu PNone k = Some (1 / sqrt (INR (k + 1))).
Proof. intros L mu k [->|[->| ->]]; try reflexivity. destruct L; reflexivity. Qed.

Print Assumptions C29_symmetric_quadratic_optimum.
Print Assumptions C29_linear_regression_optimum.
Print Assumptions C30_success_iff.
Print Assumptions C30_accelerated_stop_far_from_optimum_refuted.
Print Assumptions C59_gradient_descent_rate.
Print Assumptions C59_accelerated_rate.
Print Assumptions C59_proximal_solver_rate.
Print Assumptions C60_gradient_descent_overwrites_start_point_refuted.
Print Assumptions C60_accelerated_infinite_smoothness.
Print Assumptions C60_gradient_descent_default_without_constants.
