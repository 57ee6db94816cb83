(** Cost arithmetic, constants, derivatives and proximal operators:
    C26, C27, C56, C57. *)
From Coq Require Import Reals List Bool Arith Lra Lia FunctionalExtensionality.
From Verif.Model Require Import Vec Costs.
From Verif.Spec Require Import CostSpec.
From Verif.Proofs Require Import CostProofs CostOk VecProofs CostAnalysis CostBuiltin.
Import ListNotations.
Open Scope R_scope.

(** ** C26: cost algebra is pointwise *)
(** Whatever object an expression evaluates to, its function, gradient and
    hessian (including exceptions and effects on random state, for every
    keyword argument) are the same combination of those of the operands. *)
Theorem C26_cost_algebra_is_pointwise : forall K St n (kw_none : K -> bool) (e : expr K St) c, build e = Ok c -> forall k x s,
  cost_f n kw_none c k x s = den (cost_f n kw_none) Rplus Rminus Rmult e k x s /\
  cost_g n kw_none c k x s = den (cost_g n kw_none) vadd vsub vscal e k x s /\
  cost_h kw_none c k x s = den (cost_h kw_none) madd msub mscal e k x s.
Proof. intros. split; [now apply build_f|split; [now apply build_g|now apply build_h]]. Qed.

(** An expression over well-formed costs evaluates without error exactly when
    its operands agree in shape, framework and device and no divisor is zero;
    the result is well formed and has the operands' shape, framework, device. *)
Theorem C26_expression_succeeds_iff : forall K St (e : expr K St), Forall wf (leaves e) ->
  ((exists c, build e = Ok c) <->
   (exists m, Forall (fun c => cost_meta c = m) (leaves e)) /\ Forall (fun r => r <> 0) (divisors e)).
Proof.
  intros K St e W. split.
  - intros (c & H). destruct (build_only e c W H) as (M & N & _). split; [now exists (cost_meta c)|exact N].
  - intros ((m & M) & N). destruct (build_ok e m W M N) as (c & H & _). now exists c.
Qed.
Theorem C26_result_metadata : forall K St (e : expr K St) c, Forall wf (leaves e) -> build e = Ok c ->
  wf c /\ Forall (fun d => cost_meta d = cost_meta c) (leaves e).
Proof. intros K St e c W H. destruct (build_only e c W H) as (M & _ & Wc). auto. Qed.

(** [sum(costs)] evaluates every cost once, in order, and adds the values. *)
Theorem C26_builtin_sum : forall K St n (kw_none : K -> bool) (cs : list (cost K St)) c, py_sum cs = Ok c -> forall k x s,
  cost_f n kw_none c k x s = emap rsum (eseq (map (cost_f n kw_none) cs)) k x s.
Proof. intros. now apply sum_f. Qed.

(** Booleans and other objects are rejected as operands, numbers other than
    zero cannot be added. *)
Theorem C26_bad_operands : forall K St (c : cost K St) (o : operand K St), (forall d, o <> OCost d) ->
  py_add (OCost c) o = Err TypeError /\ py_sub (OCost c) o = Err TypeError /\ py_sub o (OCost c) = Err TypeError /\
  (forall b, o = OBool b -> py_mul (OCost c) o = Err TypeError /\ py_div (OCost c) o = Err TypeError) /\
  (forall r, o = OReal r -> r <> 0 -> py_add o (OCost c) = Err TypeError) /\ (o = OReal 0 -> py_add o (OCost c) = Ok c).
Proof.
  intros K St c o H. destruct o as [d|a|b|]; [now contradiction (H d)| | |]; repeat split; try reflexivity; try discriminate.
  - intros r E N. injection E as ->. cbn. destruct (Req_EM_T r 0); [contradiction|reflexivity].
  - intros E. injection E as ->. cbn. destruct (Req_EM_T 0 0) as [_|N]; [reflexivity|now contradiction N].
Qed.

(** Example: [(q + z) - 2 * l2 / 4 + u] over dimension 1 with a quadratic, the zero cost,
    a regularizer and a user's cost that counts its calls. *)
Section Ex.
  Let m0 : meta := ([1%nat], 0%nat, 0%nat).
  Let user : leaf bool nat :=
    {| l_meta := m0; l_f := fun _ x s => Some (x 0%nat * INR s, S s); l_g := fun _ x s => Some (fun _ => INR s, S s);
       l_h := fun _ _ _ => None; l_smooth := Fin 0; l_cvx := Fin 0; l_prox := fun x _ => Ok x |}.
  Let e : expr bool nat :=
    XAdd (XSub (XAdd (XCost (CQuad m0 (fun _ _ => 4) (fun _ => 1) 3)) (XCost (CZero m0)))
               (XDiv (XMul (XCost (CReg (RLeaf (l2_reg 1 m0)))) 2) 4)) (XCost (CUser user)).
  Example C26_example_hypotheses : Forall wf (leaves e) /\ (exists m, Forall (fun c => cost_meta c = m) (leaves e)) /\ Forall (fun r => r <> 0) (divisors e).
  Proof.
    split; [|split].
    - repeat constructor.
    - exists m0. repeat constructor.
    - repeat constructor. lra.
  Qed.
  (** value at x=2 with the call counter at 5: 13 - 1 + 2*5, counter 6 *)
  Example C26_example_value : exists c, build e = Ok c /\
    cost_f 1 (fun b => b) c true (fun _ => 2) 5%nat = Some (22, 6%nat) /\ cost_f 1 (fun b => b) c false (fun _ => 2) 5%nat = None /\
    cost_h (fun b => b) c true (fun _ => 2) 5%nat = None.
  Proof.
    destruct C26_example_hypotheses as (W & (m & M) & N). destruct (build_ok e m W M N) as (c & H & _). exists c. split; [exact H|].
    destruct (C26_cost_algebra_is_pointwise _ _ 1 (fun b => b) e c H true (fun _ => 2) 5%nat) as (E1 & _ & E3).
    destruct (C26_cost_algebra_is_pointwise _ _ 1 (fun b => b) e c H false (fun _ => 2) 5%nat) as (E2 & _ & _).
    rewrite E1, E2, E3. split; [|split; reflexivity]. cbn. do 2 f_equal. unfold quad_f, dot, mulv. cbn. field.
  Qed.
  (** a mismatched operand *)
  Example C26_example_mismatch : build (XAdd e (XCost (CZero ([2%nat], 0%nat, 0%nat)))) = Err ValueError.
  Proof.
    destruct C26_example_hypotheses as (W & (m & M) & N). cbn [build]. destruct (build_ok e m W M N) as (c & -> & Wc & Mc). cbn [rbind py_add build].
    apply add_err; [exact Wc|exact I|]. rewrite Mc. apply Forall_inv in M. cbn in M. subst m. discriminate.
  Qed.
End Ex.

(** ** C56: the smoothness and convexity constants of composed costs *)
(** If every basic cost inside an arbitrarily composed cost reports a valid
    Lipschitz constant of its gradient (or none: inf or nan), so does the
    composed cost. *)
Theorem C56_smoothness_constant_is_valid : forall K St n (kw_none : K -> bool) eig_max k (c : cost K St),
  (forall a, In a (atoms c) -> exists F G H, atom_is n kw_none k a F G H /\ forall L, atom_smooth eig_max a = Fin L -> lipschitz n G L) ->
  exists F G H, cost_is n kw_none k c F G H /\ forall L, cost_smooth eig_max c = Fin L -> lipschitz n G L.
Proof. intros. now apply smooth_closed. Qed.
Theorem C56_convexity_constant_is_valid : forall K St n (kw_none : K -> bool) eig_min k (c : cost K St),
  (forall a, In a (atoms c) -> exists F G H, atom_is n kw_none k a F G H /\ forall m, atom_cvx eig_min a = Fin m -> convex_with n F G m) ->
  exists F G H, cost_is n kw_none k c F G H /\ forall m, cost_cvx eig_min c = Fin m -> convex_with n F G m.
Proof. intros. now apply convex_closed. Qed.
(** The built-in basic costs report valid constants. *)
Theorem C56_builtin_constants : forall n m mi t,
  (forall L, rl_smooth (l1_reg n m) = Fin L -> lipschitz n (rl_g (l1_reg n m)) L) /\
  (forall L, rl_smooth (l2_reg n m) = Fin L -> lipschitz n (rl_g (l2_reg n m)) L) /\
  (forall L, rl_smooth (frac_reg n m mi t) = Fin L -> lipschitz n (rl_g (frac_reg n m mi t)) L) /\
  (forall M, rl_cvx (l1_reg n m) = Fin M -> convex_with n (rl_f (l1_reg n m)) (rl_g (l1_reg n m)) M) /\
  (forall M, rl_cvx (l2_reg n m) = Fin M -> convex_with n (rl_f (l2_reg n m)) (rl_g (l2_reg n m)) M) /\
  (forall M, rl_cvx (frac_reg n m mi t) = Fin M -> convex_with n (rl_f (frac_reg n m mi t)) (rl_g (frac_reg n m mi t)) M).
Proof.
  intros. repeat match goal with |- _ /\ _ => split end; intros L E; cbn in E; try discriminate; injection E as <-.
  - apply l2_lip. - apply frac_lip. - apply l1_cvx. - apply l2_cvx.
Qed.
(** they also report one wherever it matters: L2 is both, L1 convex, the fractional one smooth *)
Theorem C56_builtin_constants_reported : forall n m mi t,
  rl_smooth (l2_reg n m) = Fin 1 /\ rl_cvx (l2_reg n m) = Fin 1 /\ rl_cvx (l1_reg n m) = Fin 0 /\ rl_smooth (frac_reg n m mi t) = Fin 2.
Proof. repeat split. Qed.
(** Quadratics, given correct eigenvalues: the smoothness constant is valid,
    the convexity constant up to the tolerance 1e-12, exactly when the smallest
    eigenvalue is nonnegative. *)
Theorem C56_quadratic_constants : forall n eig_max eig_min A b c,
  eig_max_right n eig_max (sym A) -> eig_min_right n eig_min (sym A) ->
  lipschitz n (quad_g n A b) (eig_max (sym A)) /\
  (forall m, quad_cvx eig_min A = Fin m ->
     0 <= m /\ (forall x y, quad_f n A b c y + dot n (quad_g n A b y) (vsub x y) + (m - / 10 ^ 12) / 2 * nrm2 n (vsub x y) <= quad_f n A b c x) /\
     (0 <= eig_min (sym A) -> convex_with n (quad_f n A b c) (quad_g n A b) m)).
Proof.
  intros n eig_max eig_min A b c H1 H2. split; [now apply quad_lip|]. intros m E.
  destruct (quad_cvx_slack n eig_min A b c m H2 E) as [Hm Hs]. split; [exact Hm|]. split; [exact Hs|].
  intros H0. now apply (quad_cvx_ok n eig_min).
Qed.
(** The slack is real: a quadratic with the eigenvalue -1e-13 reports convexity
    constant 0 but is not convex. *)
Example C56_example_tolerance : let A : mat := fun _ _ => - / 10 ^ 13 in
  eig_min_right 1 (fun S => S 0%nat 0%nat) (sym A) /\ quad_cvx (fun S => S 0%nat 0%nat) A = Fin 0 /\
  ~ convex_with 1 (quad_f 1 A vzero 0) (quad_g 1 A vzero) 0.
Proof.
  intros A. assert (P : 0 < / 10 ^ 13) by (apply Rinv_0_lt_compat; apply pow_lt; lra).
  assert (E : sym A 0%nat 0%nat = - / 10 ^ 13) by (unfold sym, mtr, mscal, madd, A; lra).
  assert (T : / 10 ^ 13 <= tol).
  { unfold tol. apply Rinv_le_contravar; [apply pow_lt; lra|]. apply Rle_pow; [lra|lia]. }
  repeat split.
  - intros x. unfold nrm2, dot, mulv. cbn. lra.
  - unfold quad_cvx. rewrite E. destruct (Rlt_dec tol (- / 10 ^ 13)); [lra|].
    destruct (Rle_dec (Rabs (- / 10 ^ 13)) tol) as [|N]; [reflexivity|]. exfalso. apply N. rewrite Rabs_Ropp, Rabs_right by lra. exact T.
  - intros [_ H]. specialize (H (fun _ => 1) (fun _ => 0)). unfold quad_f, quad_g, nrm2, dot, mulv, vsub, vadd, vzero, A in H. cbn in H.
    fold (10 ^ 13) in H. lra.
Qed.
(** Example: [3 * l2 + frac] reports smoothness 5. *)
Example C56_example : let c := CReg (K:=unit) (St:=unit) (RComp ([1%nat], 0%nat, 0%nat) [(l2_reg 1 ([1%nat], 0%nat, 0%nat), 3); (frac_reg 1 ([1%nat], 0%nat, 0%nat) 10 None, 1)]) in
  cost_smooth (fun _ => 0) c = Fin 5 /\ lipschitz 1 (reg_g (RComp ([1%nat], 0%nat, 0%nat) [(l2_reg 1 ([1%nat], 0%nat, 0%nat), 3); (frac_reg 1 ([1%nat], 0%nat, 0%nat) 10 None, 1)])) 5.
Proof.
  intros c. assert (E : cost_smooth (fun _ => 0) c = Fin 5).
  { cbn. unfold ext_sum. cbn. f_equal. rewrite !Rabs_right by lra. ring. }
  split; [exact E|].
  destruct (C56_smoothness_constant_is_valid unit unit 1 (fun _ => true) (fun _ => 0) tt c) as (F & G & H & (_ & HG & _) & HL).
  - intros a Ha. cbn in Ha. destruct Ha as [<-|[<-|[]]]; do 3 eexists; (split; [repeat split|]); intros L EL; cbn in EL; injection EL as <-; [apply l2_lip|apply frac_lip].
  - specialize (HL _ E). replace (reg_g _) with G; [exact HL|].
    apply functional_extensionality. intros x. destruct (HG x tt) as [s' HG']. clear HG. rename HG' into HG. cbn [cost_g c] in HG. unfold eret in HG. injection HG as HG _. symmetry. exact HG.
Qed.

(** ** C57: gradient and hessian are the derivatives *)
(** If at [x] every basic cost's gradient and hessian are the derivatives of its
    function, the same holds for the composed cost. *)
Theorem C57_derivatives : forall K St n (kw_none : K -> bool) (k : K) x (c : cost K St),
  (forall a, In a (atoms c) -> exists F G H, atom_is n kw_none k a F G H /\ grad_at n F x (G x) /\ jac_at n G x (H x)) ->
  exists F G H, cost_is n kw_none k c F G H /\ grad_at n F x (G x) /\ jac_at n G x (H x).
Proof. intros. now apply deriv_closed. Qed.
(** The built-in basic costs satisfy this at every point (L1: at every point
    with no zero coordinate). *)
Theorem C57_builtin_derivatives : forall n m mi t A b c x,
  (grad_at n (quad_f n A b c) x (quad_g n A b x) /\ jac_at n (quad_g n A b) x (sym A)) /\
  (grad_at n (rl_f (l2_reg n m)) x (rl_g (l2_reg n m) x) /\ jac_at n (rl_g (l2_reg n m)) x (rl_h (l2_reg n m) x)) /\
  (grad_at n (rl_f (frac_reg n m mi t)) x (rl_g (frac_reg n m mi t) x) /\ jac_at n (rl_g (frac_reg n m mi t)) x (rl_h (frac_reg n m mi t) x)) /\
  ((forall i, (i < n)%nat -> x i <> 0) ->
   grad_at n (rl_f (l1_reg n m)) x (rl_g (l1_reg n m) x) /\ jac_at n (rl_g (l1_reg n m)) x (rl_h (l1_reg n m) x)).
Proof.
  intros. split; [split; [apply quad_grad|apply quad_jac]|]. split; [split; [apply l2_grad|apply l2_jac]|].
  split; [split; [apply frac_grad|apply frac_jac]|]. intros H. split; [now apply l1_grad|now apply l1_jac].
Qed.
(** Example: the objective of a quadratic plus twice L1 at a point off the axes *)
Example C57_example : exists F G H,
  cost_is 2 (fun _ : unit => true) tt (CSum (K:=unit) (St:=unit) [CQuad ([2%nat], 0%nat, 0%nat) (fun i j => INR (i + 2 * j)) (fun _ => 1) 0; CReg (RComp ([2%nat], 0%nat, 0%nat) [(l1_reg 2 ([2%nat], 0%nat, 0%nat), 2)])]) F G H /\
  grad_at 2 F (fun _ => 3) (G (fun _ => 3)) /\ jac_at 2 G (fun _ => 3) (H (fun _ => 3)).
Proof.
  apply C57_derivatives. intros a Ha. cbn in Ha. destruct Ha as [<-|[<-|[]]].
  - do 3 eexists. split; [repeat split|]. split; [apply quad_grad|apply quad_jac].
  - do 3 eexists. split; [repeat split|]. split; [apply l1_grad|apply l1_jac]; intros; lra.
Qed.

(** ** C27: proximal operators *)
(** Wherever [proximal] of a cost that is not a sum returns a point for a
    positive penalty, the point is the unique minimiser of
    [f z + |z - x|^2 / (2 penalty)]: through all scalings, merges and
    flattenings, given this for the user's costs, convex quadratics and a linear
    solver that solves nonsingular systems. *)
Theorem C27_proximal_is_unique_minimiser : forall K St n (kw_none : K -> bool) (k : K) solve prox_solver (c : cost K St),
  solve_ok n solve -> no_sum c ->
  (forall a, In a (atoms c) -> exists F G H, atom_is n kw_none k a F G H /\ atom_prox_right n a F) ->
  exists F G H, cost_is n kw_none k c F G H /\
    forall x rho p, 0 < rho -> cost_prox solve prox_solver c x rho = Ok p -> is_prox n F rho x p.
Proof. intros. now apply cost_proxed. Qed.
(** The closed forms of the built-in costs: zero, L1 (soft thresholding), L2
    (shrinkage); the quadratic one for every penalty that makes the proximal
    objective strictly convex, convex or not. *)
Theorem C27_builtin_proximals : forall n m x rho,
  0 < rho ->
  is_prox n (fun _ => 0) rho x x /\
  (exists p, rl_prox (l1_reg n m) x rho = Ok p /\ is_prox n (rl_f (l1_reg n m)) rho x p) /\
  (exists p, rl_prox (l2_reg n m) x rho = Ok p /\ is_prox n (rl_f (l2_reg n m)) rho x p).
Proof.
  intros n m x rho Hr. split; [now apply prox_zero|]. split.
  - destruct (rl_prox (l1_reg n m) x rho) as [p|e] eqn:E; [exists p; split; [reflexivity|exact (proj2 (prox_l1 n m rho x p E))]|].
    cbn in E. destruct (Rle_dec rho 0); [lra|discriminate].
  - destruct (rl_prox (l2_reg n m) x rho) as [p|e] eqn:E; [exists p; split; [reflexivity|exact (proj2 (prox_l2 n m rho x p E))]|].
    cbn in E. destruct (Rle_dec rho 0); [lra|discriminate].
Qed.
Theorem C27_quadratic_proximal : forall n solve A b c rho x, solve_ok n solve -> 0 < rho ->
  (forall h, (exists i, (i < n)%nat /\ h i <> 0) -> 0 < rho * dot n h (mulv n A h) + nrm2 n h) ->
  is_prox n (quad_f n A b c) rho x (quad_prox solve A b x rho).
Proof. intros. now apply prox_quad_solve. Qed.
(** Nonpositive penalties are rejected by zero, scaled and built-in regularizer costs. *)
Theorem C27_penalty_checked : forall K St n solve prox_solver (m : meta) mi t (c : cost K St) a ts x rho, rho <= 0 ->
  cost_prox solve prox_solver (CZero m) x rho = Err ValueError /\
  cost_prox solve prox_solver (CScaled c a) x rho = Err ValueError /\
  cost_prox solve prox_solver (CReg (RComp m ts)) x rho = Err ValueError /\
  (forall l, In l [l1_reg n m; l2_reg n m; frac_reg n m mi t] -> cost_prox solve prox_solver (CReg (RLeaf l)) x rho = Err ValueError).
Proof.
  intros. cbn. unfold scaled_prox. destruct (Rle_dec rho 0); [|contradiction]. repeat split.
  intros l [<-|[<-|[<-|[]]]]; cbn; destruct (Rle_dec rho 0); auto; contradiction.
Qed.
(** The fractional regularizer has no closed form: its fixed number of gradient
    steps never ends above the objective value at [x]. *)
Theorem C27_fractional_proximal_descends : forall n m mi t rho x p, rl_prox (frac_reg n m mi t) x rho = Ok p ->
  prox_obj n (rl_f (frac_reg n m mi t)) rho x p <= prox_obj n (rl_f (frac_reg n m mi t)) rho x x.
Proof.
  intros n m mi t rho x p E. cbn in E. destruct (Rle_dec rho 0) as [|N]; [discriminate|]. injection E as <-. apply frac_iter_descends. lra.
Qed.

(** Example: soft thresholding of [3] with [2 * l1], penalty 1, gives [1]. *)
Example C27_example : cost_prox (K:=unit) (St:=unit) (fun _ b => b) (fun _ x _ => Ok x) (CReg (RComp ([1%nat], 0%nat, 0%nat) [(l1_reg 1 ([1%nat], 0%nat, 0%nat), 2)])) (fun _ => 3) 1 = Ok (fun _ => 1).
Proof.
  cbn. destruct (Rle_dec 1 0); [lra|]. destruct (Rlt_dec 0 2); [|lra]. cbn. destruct (Rle_dec (1 * 2) 0); [lra|]. f_equal.
  apply functional_extensionality. intros _. unfold sgn. destruct (Rlt_dec 0 3); [|lra]. rewrite Rabs_right by lra. unfold Rmax. destruct (Rle_dec (3 - 1 * 2) 0); lra.
Qed.
(** the hypotheses of the quadratic theorem: a non-symmetric indefinite matrix and a small penalty *)
Example C27_example_quadratic : solve_ok 0 (fun _ b => b) /\
  forall h : vec, (exists i, (i < 2)%nat /\ h i <> 0) ->
    0 < 1/4 * dot 2 h (mulv 2 (fun i j => if Nat.eqb i j then -1 else INR i) h) + nrm2 2 h.
Proof.
  split; [intros M b _ i Hi; lia|]. intros h (i & Hi & N). unfold nrm2, dot, mulv. cbn.
  assert (P : 0 < h 0%nat * h 0%nat + h 1%nat * h 1%nat).
  { destruct i as [|[|i]]; [| |lia]; pose proof (Rle_0_sqr (h 0%nat)); pose proof (Rle_0_sqr (h 1%nat));
      pose proof (Rsqr_pos_lt _ N); unfold Rsqr in *; lra. }
  pose proof (Rle_0_sqr (h 0%nat + h 1%nat)). pose proof (Rle_0_sqr (h 0%nat - h 1%nat)). unfold Rsqr in *. nra.
Qed.

Print Assumptions C26_cost_algebra_is_pointwise.
Print Assumptions C26_expression_succeeds_iff.
Print Assumptions C27_proximal_is_unique_minimiser.
Print Assumptions C56_smoothness_constant_is_valid.
Print Assumptions C57_derivatives.
