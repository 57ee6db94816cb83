(** What cost arithmetic, constants and proximal operators should mean. *)
From Coq Require Import Reals List.
From Verif.Model Require Import Vec Costs.
Import ListNotations.
Open Scope R_scope.

(** An expression a user writes with costs; its Python object ([build]) and its
    pointwise value ([den]).  Operands are evaluated left to right. *)
Section Expr.
  Context {K St : Type}.
  Notation cost := (cost K St).
  Inductive expr :=
  | XCost (c : cost) | XAdd (a b : expr) | XSub (a b : expr) | XNeg (a : expr) | XMul (a : expr) (r : R) | XDiv (a : expr) (r : R).
  Fixpoint build (e : expr) : res cost :=
    match e with
    | XCost c => Ok c
    | XAdd a b => rbind (build a) (fun a => rbind (build b) (fun b => py_add (OCost a) (OCost b)))
    | XSub a b => rbind (build a) (fun a => rbind (build b) (fun b => py_sub (OCost a) (OCost b)))
    | XNeg a => rbind (build a) (fun a => neg a)
    | XMul a r => rbind (build a) (fun a => py_mul (OCost a) (OReal r))
    | XDiv a r => rbind (build a) (fun a => py_div (OCost a) (OReal r))
    end.
  Section Den.
    Context {A : Type} (leafv : cost -> ev K St A) (plus minus : A -> A -> A) (times : R -> A -> A).
    Fixpoint den (e : expr) : ev K St A :=
      match e with
      | XCost c => leafv c
      | XAdd a b => ebind2 plus (den a) (den b)
      | XSub a b => ebind2 minus (den a) (den b)
      | XNeg a => emap (times (-1)) (den a)
      | XMul a r => emap (times r) (den a)
      | XDiv a r => emap (times (/ r)) (den a)
      end.
  End Den.
  Definition msub (A B : mat) : mat := fun i j => A i j - B i j.
  (** the leaves of an expression *)
  Fixpoint leaves (e : expr) : list cost :=
    match e with XCost c => [c] | XAdd a b | XSub a b => leaves a ++ leaves b | XNeg a | XMul a _ | XDiv a _ => leaves a end.
  Fixpoint divisors (e : expr) : list R :=
    match e with XCost c => [] | XAdd a b | XSub a b => divisors a ++ divisors b | XNeg a | XMul a _ => divisors a | XDiv a r => r :: divisors a end.
End Expr.

Arguments expr K St : clear implicits.

(** A cost object in a state the constructors produce: sums are non-empty and
    of matching tags, an empirical cost and its regularizer match. *)
Fixpoint emp_wf {K St} (e : emp K St) : Prop :=
  match e with ELeaf _ => True | EScaled e _ => emp_wf e | EReg e r => emp_wf e /\ emp_meta e = reg_meta r end.
Fixpoint wf {K St} (c : cost K St) : Prop :=
  match c with
  | CEmp e => emp_wf e
  | CScaled c _ => wf c
  | CSum cs => cs <> [] /\ (fix all l := match l with [] => True | d :: l => wf d /\ cost_meta d = cost_meta c /\ all l end) cs
  | _ => True
  end.

(** The basic costs inside a cost object, with their values and the constants
    they report. *)
Inductive atom K St := AUser (l : leaf K St) | AReg (r : regleaf) | AQuad (A : mat) (b : vec) (c : R).
Arguments AUser {K St}. Arguments AReg {K St}. Arguments AQuad {K St}.
Definition reg_atoms {K St} (r : reg) : list (atom K St) :=
  match r with RLeaf l => [AReg l] | RComp _ ts => map (fun t => AReg (fst t)) ts end.
Fixpoint emp_atoms {K St} (e : emp K St) : list (atom K St) :=
  match e with ELeaf l => [AUser l] | EScaled e _ => emp_atoms e | EReg e r => emp_atoms e ++ reg_atoms r end.
Fixpoint atoms {K St} (c : cost K St) : list (atom K St) :=
  match c with
  | CUser l => [AUser l]
  | CZero _ => []
  | CQuad _ A b c => [AQuad A b c]
  | CReg r => reg_atoms r
  | CEmp e => emp_atoms e
  | CScaled c _ => atoms c
  | CSum cs => flat_map atoms cs
  end.
(** called with keyword arguments [k], an evaluation succeeds with the value of
    the function [f], whatever the state (which it may change) *)
Definition pure_at {K St A} (k : K) (m : ev K St A) (f : vec -> A) : Prop := forall x s, exists s', m k x s = Some (f x, s').
(** [F], [G], [H] are what function, gradient and hessian compute *)
Definition atom_is {K St} (n : nat) (kw_none : K -> bool) (k : K) (a : atom K St) (F : vec -> R) (G : vec -> vec) (H : vec -> mat) : Prop :=
  match a with
  | AUser l => pure_at k (l_f l) F /\ pure_at k (l_g l) G /\ pure_at k (l_h l) H
  | AReg r => F = rl_f r /\ G = rl_g r /\ H = rl_h r
  | AQuad A b c => kw_none k = true /\ F = quad_f n A b c /\ G = quad_g n A b /\ H = fun _ => sym A
  end.
Definition cost_is {K St} (n : nat) (kw_none : K -> bool) (k : K) (c : cost K St) (F : vec -> R) (G : vec -> vec) (H : vec -> mat) : Prop :=
  pure_at k (cost_f n kw_none c) F /\ pure_at k (cost_g n kw_none c) G /\ pure_at k (cost_h kw_none c) H.
Definition atom_smooth {K St} (eig_max : mat -> R) (a : atom K St) : ext :=
  match a with AUser l => l_smooth l | AReg r => rl_smooth r | AQuad A _ _ => Fin (eig_max (sym A)) end.
Definition atom_cvx {K St} (eig_min : mat -> R) (a : atom K St) : ext :=
  match a with AUser l => l_cvx l | AReg r => rl_cvx r | AQuad A _ _ => quad_cvx eig_min A end.

(** What the constants promise: gradient Lipschitz with constant [L] (squared
    form), quadratic lower bound with modulus [m]. *)
Definition lipschitz (n : nat) (G : vec -> vec) (L : R) : Prop :=
  0 <= L /\ forall x y, nrm2 n (vsub (G x) (G y)) <= L * L * nrm2 n (vsub x y).
Definition convex_with (n : nat) (F : vec -> R) (G : vec -> vec) (m : R) : Prop :=
  0 <= m /\ forall x y, F y + dot n (G y) (vsub x y) + m / 2 * nrm2 n (vsub x y) <= F x.
(** Frechet derivatives: [g] is the gradient of [F] at [x], [H] the Jacobian of
    [G] at [x]. *)
Definition norm (n : nat) (x : vec) : R := sqrt (nrm2 n x).
Definition grad_at (n : nat) (F : vec -> R) (x g : vec) : Prop :=
  forall eps, 0 < eps -> exists d, 0 < d /\
    forall h, norm n h < d -> Rabs (F (vadd x h) - F x - dot n g h) <= eps * norm n h.
Definition jac_at (n : nat) (G : vec -> vec) (x : vec) (H : mat) : Prop :=
  forall eps, 0 < eps -> exists d, 0 < d /\
    forall h, norm n h < d -> norm n (vsub (vsub (G (vadd x h)) (G x)) (mulv n H h)) <= eps * norm n h.

(** [p] is the unique minimiser of [F z + |z - x|^2 / (2 rho)] *)
Definition is_prox (n : nat) (F : vec -> R) (rho : R) (x p : vec) : Prop :=
  forall z, F p + nrm2 n (vsub p x) / (2 * rho) <= F z + nrm2 n (vsub z x) / (2 * rho) /\
            (F z + nrm2 n (vsub z x) / (2 * rho) <= F p + nrm2 n (vsub p x) / (2 * rho) -> forall i, (i < n)%nat -> z i = p i).
(** [p] solves [A p = b] *)
Definition solves (n : nat) (A : mat) (b p : vec) : Prop := forall i, (i < n)%nat -> mulv n A p i = b i.
(** the value a proximal step should not increase *)
Definition prox_obj (n : nat) (F : vec -> R) (rho : R) (x z : vec) : R := F z + nrm2 n (vsub z x) / (2 * rho).
(** the proximal of a basic cost is right: for given costs an assumption, for
    quadratics that the form is positive semidefinite *)
Definition atom_prox_right {K St} (n : nat) (a : atom K St) (F : vec -> R) : Prop :=
  match a with
  | AUser l => forall x rho p, 0 < rho -> l_prox l x rho = Ok p -> is_prox n F rho x p
  | AReg r => forall x rho p, 0 < rho -> rl_prox r x rho = Ok p -> is_prox n F rho x p
  | AQuad A b c => forall h, 0 <= dot n h (mulv n A h)
  end.
(** no sum below the scalings *)
Fixpoint no_sum {K St} (c : cost K St) : Prop := match c with CScaled c _ => no_sum c | CSum _ => False | _ => True end.
(** [np.linalg.solve] solves every nonsingular system *)
Definition solve_ok (n : nat) (solve : mat -> vec -> vec) : Prop :=
  forall M b, (forall h, (forall i, (i < n)%nat -> mulv n M h i = 0) -> forall i, (i < n)%nat -> h i = 0) -> solves n M b (solve M b).
(** what the eigenvalue routines promise about a symmetric matrix: [eig_max]
    bounds the operator norm, [eig_min] the quadratic form from below *)
Definition eig_max_right (n : nat) (eig_max : mat -> R) (S : mat) : Prop :=
  0 <= eig_max S /\ forall x, nrm2 n (mulv n S x) <= eig_max S * eig_max S * nrm2 n x.
Definition eig_min_right (n : nat) (eig_min : mat -> R) (S : mat) : Prop := forall x, eig_min S * nrm2 n x <= dot n x (mulv n S x).
