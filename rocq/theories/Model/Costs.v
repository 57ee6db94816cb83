(** Model of the cost classes and their arithmetic:
    /repo/decent_bench/costs/_base/{_cost,_scaled_cost,_sum_cost,_zero_cost,
    _quadratic_cost,_regularizer_costs}.py and
    /repo/decent_bench/costs/_empirical_risk/{_empirical_risk_cost,
    _empirical_scaled_cost,_empirical_regularized_cost}.py.

    Real numbers instead of floats; 1-D domains of one dimension [n].  The
    shape, framework and device that the operators compare are a tag ([meta]).
    An evaluation takes keyword arguments of an arbitrary type [K] (e.g.
    [indices=...]) and may read and change a state [St] (random generators,
    the samplers of empirical costs) or raise ([None]).  Gradients are those
    with [reduction="mean"]; see Model/EmpiricalRisk.v for [reduction=None]. *)
From Coq Require Import Reals List Bool Arith.
From Verif.Model Require Import Vec.
Import ListNotations.
Open Scope R_scope.

Definition meta := (list nat * nat * nat)%type.    (* shape, framework, device *)
Definition list_nat_eqb := list_eq_dec Nat.eq_dec.
Definition meta_eqb (a b : meta) : bool :=
  let '(s, f, d) := a in let '(s', f', d') := b in
  (if list_nat_eqb s s' then true else false) && Nat.eqb f f' && Nat.eqb d d'.

(** the constants [m_smooth], [m_cvx]: a float that may be inf or nan *)
Inductive ext := Fin (r : R) | PInf | NaN.
(** float product with a nonnegative finite number *)
Definition ext_mul (a : R) (e : ext) : ext :=
  match e with
  | Fin r => Fin (a * r)
  | PInf => if Req_EM_T a 0 then NaN else PInf
  | NaN => NaN
  end.
Definition is_nan (e : ext) : bool := match e with NaN => true | _ => false end.
Definition ext_add (a b : ext) : ext :=
  match a, b with Fin x, Fin y => Fin (x + y) | NaN, _ | _, NaN => NaN | _, _ => PInf end.
(** [np.nan if any(np.isnan(v) for v in vals) else sum(vals)] *)
Definition ext_sum (vals : list ext) : ext :=
  if existsb is_nan vals then NaN else fold_left ext_add vals (Fin 0).

Inductive exn := TypeError | ValueError | ZeroDivisionError | NotImplementedError.
Inductive res (A : Type) := Ok (a : A) | Err (e : exn).
Arguments Ok {A}. Arguments Err {A}.
Definition rbind {A B} (m : res A) (f : A -> res B) : res B := match m with Ok a => f a | Err e => Err e end.

Section Costs.
  Context (n : nat) {K St : Type}.
  Definition ev (A : Type) := K -> vec -> St -> option (A * St).
  Definition eret {A} (f : vec -> A) : ev A := fun _ x s => Some (f x, s).
  Definition emap {A B} (f : A -> B) (m : ev A) : ev B :=
    fun k x s => match m k x s with Some (a, s) => Some (f a, s) | None => None end.
  Definition ebind2 {A B C} (f : A -> B -> C) (m1 : ev A) (m2 : ev B) : ev C :=
    fun k x s => match m1 k x s with
                 | None => None
                 | Some (a, s) => match m2 k x s with None => None | Some (b, s) => Some (f a b, s) end
                 end.
  (** evaluate a list left to right *)
  Fixpoint eseq {A} (ms : list (ev A)) : ev (list A) :=
    match ms with
    | [] => eret (fun _ => [])
    | m :: ms => ebind2 cons m (eseq ms)
    end.

  (** A leaf regularizer (a direct subclass of [BaseRegularizerCost]); the
      methods accept and ignore keyword arguments. *)
  Record regleaf := { rl_meta : meta; rl_f : vec -> R; rl_g : vec -> vec; rl_h : vec -> mat;
                      rl_smooth : ext; rl_cvx : ext; rl_prox : vec -> R -> res vec }.
  (** any regularizer: a leaf or a [_CompositeRegularizerCost] with its
      flattened [_terms] *)
  Inductive reg := RLeaf (l : regleaf) | RComp (m : meta) (terms : list (regleaf * R)).
  (** a user's or built-in cost with arbitrary methods *)
  Record leaf := { l_meta : meta; l_f : ev R; l_g : ev vec; l_h : ev mat; l_smooth : ext; l_cvx : ext;
                   l_prox : vec -> R -> res vec }.
  (** an [EmpiricalRiskCost]: a leaf, [_EmpiricalScaledCost] or
      [EmpiricalRegularizedCost] *)
  Inductive emp := ELeaf (l : leaf) | EScaled (e : emp) (a : R) | EReg (e : emp) (r : reg).
  Inductive cost :=
  | CUser (l : leaf)
  | CZero (m : meta)
  | CQuad (m : meta) (A : mat) (b : vec) (c : R)
  | CReg (r : reg)
  | CEmp (e : emp)
  | CScaled (c : cost) (a : R)
  | CSum (cs : list cost).

  (** [shape], [framework], [device]: _scaled_cost.py:36-46, _sum_cost.py:42-52,
      _empirical_scaled_cost.py:42-52, _empirical_regularized_cost.py:43-53 *)
  Definition reg_meta (r : reg) : meta := match r with RLeaf l => rl_meta l | RComp m _ => m end.
  Fixpoint emp_meta (e : emp) : meta := match e with ELeaf l => l_meta l | EScaled e _ => emp_meta e | EReg e _ => emp_meta e end.
  Fixpoint cost_meta (c : cost) : meta :=
    match c with
    | CUser l => l_meta l
    | CZero m => m
    | CQuad m _ _ _ => m
    | CReg r => reg_meta r
    | CEmp e => emp_meta e
    | CScaled c _ => cost_meta c
    | CSum (c :: _) => cost_meta c
    | CSum [] => ([], 0%nat, 0%nat)
    end.
  (** [_validate_cost_operation], _cost.py:16-40, for two costs *)
  Definition validate (a b : meta) : res unit := if meta_eqb a b then Ok tt else Err ValueError.

  (** *** Evaluation *)
  (** regularizers: _regularizer_costs.py:159-172 *)
  Definition reg_f (r : reg) (x : vec) : R :=
    match r with RLeaf l => rl_f l x | RComp _ ts => rsum (map (fun t => snd t * rl_f (fst t) x) ts) end.
  Definition reg_g (r : reg) (x : vec) : vec :=
    match r with RLeaf l => rl_g l x | RComp _ ts => vsum (map (fun t => vscal (snd t) (rl_g (fst t) x)) ts) end.
  Definition reg_h (r : reg) (x : vec) : mat :=
    match r with RLeaf l => rl_h l x | RComp _ ts => msum (map (fun t => mscal (snd t) (rl_h (fst t) x)) ts) end.
  (** _empirical_scaled_cost.py:88-101, _empirical_regularized_cost.py:85-116:
      the regularizer is called without the keyword arguments *)
  Fixpoint emp_f (e : emp) : ev R :=
    match e with
    | ELeaf l => l_f l
    | EScaled e a => emap (Rmult a) (emp_f e)
    | EReg e r => ebind2 Rplus (emp_f e) (eret (reg_f r))
    end.
  Fixpoint emp_g (e : emp) : ev vec :=
    match e with
    | ELeaf l => l_g l
    | EScaled e a => emap (vscal a) (emp_g e)
    | EReg e r => ebind2 vadd (emp_g e) (eret (reg_g r))
    end.
  Fixpoint emp_h (e : emp) : ev mat :=
    match e with
    | ELeaf l => l_h l
    | EScaled e a => emap (mscal a) (emp_h e)
    | EReg e r => ebind2 madd (emp_h e) (eret (reg_h r))
    end.
  (** [QuadraticCost], _quadratic_cost.py:40 (A_sym), 97-122.  Its methods
      take no keyword arguments: [kw_none k] says that [k] is empty, otherwise
      the call raises TypeError. *)
  Variable kw_none : K -> bool.
  Definition pure_nokw {A} (f : vec -> A) : ev A := fun k x s => if kw_none k then Some (f x, s) else None.
  Definition sym (A : mat) : mat := mscal (1/2) (madd A (mtr A)).
  Definition quad_f (A : mat) (b : vec) (c : R) (x : vec) : R := 1/2 * dot n x (mulv n A x) + dot n b x + c.
  Definition quad_g (A : mat) (b : vec) (x : vec) : vec := vadd (mulv n (sym A) x) b.
  (** [function], [gradient], [hessian] of any cost: _zero_cost.py:56-66 (x has
      the right shape), _scaled_cost.py:62-69, _sum_cost.py:88-98 *)
  Fixpoint cost_f (c : cost) : ev R :=
    match c with
    | CUser l => l_f l
    | CZero _ => eret (fun _ => 0)
    | CQuad _ A b c => pure_nokw (quad_f A b c)
    | CReg r => eret (reg_f r)
    | CEmp e => emp_f e
    | CScaled c a => emap (Rmult a) (cost_f c)
    | CSum cs => emap rsum (eseq (map cost_f cs))
    end.
  Fixpoint cost_g (c : cost) : ev vec :=
    match c with
    | CUser l => l_g l
    | CZero _ => eret (fun _ => vzero)
    | CQuad _ A b c => pure_nokw (quad_g A b)
    | CReg r => eret (reg_g r)
    | CEmp e => emp_g e
    | CScaled c a => emap (vscal a) (cost_g c)
    | CSum cs => emap vsum (eseq (map cost_g cs))
    end.
  Fixpoint cost_h (c : cost) : ev mat :=
    match c with
    | CUser l => l_h l
    | CZero _ => eret (fun _ => mzero)
    | CQuad _ A b c => pure_nokw (fun _ => sym A)
    | CReg r => eret (reg_h r)
    | CEmp e => emp_h e
    | CScaled c a => emap (mscal a) (cost_h c)
    | CSum cs => emap msum (eseq (map cost_h cs))
    end.

  (** *** Constants *)
  (** _regularizer_costs.py:147-157 *)
  Definition reg_smooth (r : reg) : ext :=
    match r with RLeaf l => rl_smooth l | RComp _ ts => ext_sum (map (fun t => ext_mul (Rabs (snd t)) (rl_smooth (fst t))) ts) end.
  Definition reg_cvx (r : reg) : ext :=
    match r with
    | RLeaf l => rl_cvx l
    | RComp _ ts => if existsb (fun t => if Rlt_dec (snd t) 0 then true else false) ts then NaN
                    else ext_sum (map (fun t => ext_mul (snd t) (rl_cvx (fst t))) ts)
    end.
  (** _scaled_cost.py:48-60, _empirical_scaled_cost.py:70-82 *)
  Definition scaled_smooth (a : R) (e : ext) : ext := if Req_EM_T a 0 then Fin 0 else ext_mul (Rabs a) e.
  Definition scaled_cvx (a : R) (e : ext) : ext :=
    if Rlt_dec 0 a then ext_mul a e else if Req_EM_T a 0 then Fin 0 else NaN.
  (** _empirical_regularized_cost.py:71-79 *)
  Fixpoint emp_smooth (e : emp) : ext :=
    match e with
    | ELeaf l => l_smooth l
    | EScaled e a => scaled_smooth a (emp_smooth e)
    | EReg e r => ext_sum [emp_smooth e; reg_smooth r]
    end.
  Fixpoint emp_cvx (e : emp) : ext :=
    match e with
    | ELeaf l => l_cvx l
    | EScaled e a => scaled_cvx a (emp_cvx e)
    | EReg e r => ext_sum [emp_cvx e; reg_cvx r]
    end.
  (** eigenvalues are an oracle: [eig_max A] is [np.max(np.abs(eigvalsh(A)))],
      [eig_min A] is [np.min(eigvalsh(A))]; _quadratic_cost.py:55-95, with
      the tolerance 1e-12 *)
  Variables (eig_max eig_min : mat -> R).
  Definition tol : R := / 10 ^ 12.
  Definition quad_cvx (A : mat) : ext :=
    let l := eig_min (sym A) in
    if Rlt_dec tol l then Fin l else if Rle_dec (Rabs l) tol then Fin 0 else NaN.
  (** _sum_cost.py:54-86 *)
  Fixpoint cost_smooth (c : cost) : ext :=
    match c with
    | CUser l => l_smooth l
    | CZero _ => Fin 0
    | CQuad _ A _ _ => Fin (eig_max (sym A))
    | CReg r => reg_smooth r
    | CEmp e => emp_smooth e
    | CScaled c a => scaled_smooth a (cost_smooth c)
    | CSum cs => ext_sum (map cost_smooth cs)
    end.
  Fixpoint cost_cvx (c : cost) : ext :=
    match c with
    | CUser l => l_cvx l
    | CZero _ => Fin 0
    | CQuad _ A _ _ => quad_cvx A
    | CReg r => reg_cvx r
    | CEmp e => emp_cvx e
    | CScaled c a => scaled_cvx a (cost_cvx c)
    | CSum cs => ext_sum (map cost_cvx cs)
    end.

  (** *** Constructors and operators *)
  (** [_CompositeRegularizerCost.__init__], _regularizer_costs.py:125-145 *)
  Definition reg_terms (r : reg) (w : R) : list (regleaf * R) :=
    match r with RLeaf l => [(l, w)] | RComp _ ts => map (fun t => (fst t, w * snd t)) ts end.
  Fixpoint comp_terms (m : meta) (rs : list (reg * R)) : res (list (regleaf * R)) :=
    match rs with
    | [] => Ok []
    | (r, w) :: rs => rbind (validate m (reg_meta r)) (fun _ => rbind (comp_terms m rs) (fun ts => Ok (reg_terms r w ++ ts)))
    end.
  Definition composite (rs : list (reg * R)) : res reg :=
    match rs with
    | [] => Err ValueError
    | (r, _) :: _ => rbind (comp_terms (reg_meta r) rs) (fun ts => Ok (RComp (reg_meta r) ts))
    end.
  (** [SumCost.__init__], _sum_cost.py:27-40 *)
  Definition flat (c : cost) : list cost := match c with CSum cs => cs | _ => [c] end.
  Fixpoint validate_all (m : meta) (cs : list cost) : res unit :=
    match cs with [] => Ok tt | c :: cs => rbind (validate m (cost_meta c)) (fun _ => validate_all m cs) end.
  Definition sum_cost (cs : list cost) : res cost :=
    match cs with
    | [] => Err ValueError
    | _ => match flat_map flat cs with
           | [] => Err ValueError
           | c :: rest => rbind (validate_all (cost_meta c) rest) (fun _ => Ok (CSum (c :: rest)))
           end
    end.
  (** [ScaledCost.__init__], _scaled_cost.py:26-34, and
      [_EmpiricalScaledCost.__init__], _empirical_scaled_cost.py:32-40 *)
  Definition scaled_cost (c : cost) (a : R) : cost := match c with CScaled c' a' => CScaled c' (a * a') | _ => CScaled c a end.
  Definition emp_scaled (e : emp) (a : R) : emp := match e with EScaled e' a' => EScaled e' (a * a') | _ => EScaled e a end.
  (** [EmpiricalRegularizedCost.__init__], _empirical_regularized_cost.py:37-41 *)
  Definition emp_regularized (e : emp) (r : reg) : res emp :=
    rbind (validate (emp_meta e) (reg_meta r)) (fun _ => Ok (EReg e r)).

  (** [__add__] for two costs: _cost.py:157-171; _scaled_cost.py:80-82;
      _sum_cost.py:121-123; _zero_cost.py:84-90; _quadratic_cost.py:144-154;
      _regularizer_costs.py:67-72; _empirical_risk_cost.py:132-143;
      _empirical_regularized_cost.py:141-144.  (The class of the left operand
      decides; [__radd__] is inherited unchanged, so Python never prefers it.) *)
  Definition add (c1 c2 : cost) : res cost :=
    match c1 with
    | CSum _ => sum_cost [c1; c2]
    | CEmp (EReg e r) =>
        match c2 with
        | CReg r2 => rbind (rbind (validate (reg_meta r) (reg_meta r2)) (fun _ => composite [(r, 1); (r2, 1)]))
                           (fun r' => rbind (emp_regularized e r') (fun e' => Ok (CEmp e')))
        | _ => rbind (validate (cost_meta c1) (cost_meta c2)) (fun _ => sum_cost [c1; c2])
        end
    | _ =>
        rbind (validate (cost_meta c1) (cost_meta c2)) (fun _ =>
          match c1, c2 with
          | CZero _, CZero _ => Ok c1
          | CZero _, _ => Ok c2
          | CQuad m A b c, CQuad _ A' b' c' => Ok (CQuad m (madd A A') (vadd b b') (c + c'))
          | CReg r, CReg r2 => rbind (composite [(r, 1); (r2, 1)]) (fun r' => Ok (CReg r'))
          | CEmp e, CReg r => rbind (emp_regularized e r) (fun e' => Ok (CEmp e'))
          | _, _ => sum_cost [c1; c2]
          end)
    end.
  (** [__mul__], [__rmul__] with a real scalar: _cost.py:173-189,
      _regularizer_costs.py:74-84, _empirical_risk_cost.py:99-111 *)
  Definition mul (c : cost) (a : R) : res cost :=
    match c with
    | CReg r => rbind (composite [(r, a)]) (fun r' => Ok (CReg r'))
    | CEmp e => Ok (CEmp (emp_scaled e a))
    | _ => Ok (scaled_cost c a)
    end.
  (** [__truediv__]: _cost.py:191-204 *)
  Definition truediv (c : cost) (a : R) : res cost := if Req_EM_T a 0 then Err ZeroDivisionError else mul c (1 / a).
  (** [__neg__]: _cost.py:216-218 *)
  Definition neg (c : cost) : res cost := mul c (-1).
  (** [__sub__]: _cost.py:220-223; _quadratic_cost.py:156-171;
      _regularizer_costs.py:105-110 *)
  Definition sub (c1 c2 : cost) : res cost :=
    rbind (validate (cost_meta c1) (cost_meta c2)) (fun _ =>
      match c1, c2 with
      | CQuad _ _ _ _, CQuad m A b c => add c1 (CQuad m (mscal (-1) A) (vscal (-1) b) (- c))
      | CReg r, CReg r2 => rbind (composite [(r, 1); (r2, -1)]) (fun r' => Ok (CReg r'))
      | _, _ => rbind (neg c2) (add c1)
      end).

  (** operands that may be anything: a cost, a real number ([bool] excluded,
      [_is_valid_scalar], _cost.py:240-242), a bool, something else *)
  Inductive operand := OCost (c : cost) | OReal (a : R) | OBool (b : bool) | OOther.
  (** [x + y] where at least one is a cost; [__radd__]: _cost.py:225-237 *)
  Definition py_add (x y : operand) : res cost :=
    match x, y with
    | OCost c1, OCost c2 => add c1 c2
    | OCost _, _ => Err TypeError
    | OReal a, OCost c => if Req_EM_T a 0 then Ok c else Err TypeError
    | OBool b, OCost c => if b then Err TypeError else Ok c      (* False == 0 *)
    | _, _ => Err TypeError
    end.
  Definition py_sub (x y : operand) : res cost :=
    match x, y with OCost c1, OCost c2 => sub c1 c2 | _, _ => Err TypeError end.
  Definition py_mul (x y : operand) : res cost :=
    match x, y with OCost c, OReal a | OReal a, OCost c => mul c a | _, _ => Err TypeError end.
  Definition py_div (x y : operand) : res cost :=
    match x, y with OCost c, OReal a => truediv c a | _, _ => Err TypeError end.
  (** [sum(costs)]: [0 + c1 + c2 + ...] *)
  Fixpoint py_sum_from (acc : operand) (cs : list cost) : res cost :=
    match cs with
    | [] => match acc with OCost c => Ok c | _ => Err TypeError end
    | c :: cs => rbind (py_add acc (OCost c)) (fun a => py_sum_from (OCost a) cs)
    end.
  Definition py_sum (cs : list cost) : res cost := py_sum_from (OReal 0) cs.

  (** *** Proximal operators: _zero_cost.py:68-82, _scaled_cost.py:71-78,
      _regularizer_costs.py:174-196, _quadratic_cost.py:125-142,
      _sum_cost.py:100-119, _empirical_scaled_cost.py:103-110,
      _empirical_regularized_cost.py:118-133.  [solve lhs rhs] is
      [np.linalg.solve], [prox_solver c x p] the iterative solver. *)
  Variable solve : mat -> vec -> vec.
  Variable prox_solver : cost -> vec -> R -> res vec.
  Definition reg_prox (r : reg) (x : vec) (p : R) : res vec :=
    match r with
    | RLeaf l => rl_prox l x p
    | RComp _ ts =>
        if Rle_dec p 0 then Err ValueError
        else match ts with
             | [(l, w)] => if Rlt_dec 0 w then rl_prox l x (p * w) else Err NotImplementedError
             | _ => Err NotImplementedError
             end
    end.
  Definition scaled_prox (a : R) (inner : vec -> R -> res vec) (x : vec) (p : R) : res vec :=
    if Rle_dec p 0 then Err ValueError
    else if Rlt_dec a 0 then Err ValueError
    else if Req_EM_T a 0 then Ok x
    else inner x (p * a).
  Fixpoint emp_prox (e : emp) (x : vec) (p : R) : res vec :=
    match e with
    | ELeaf l => l_prox l x p
    | EScaled e a => scaled_prox a (emp_prox e) x p
    | EReg _ _ => Err NotImplementedError
    end.
  Definition quad_prox (A : mat) (b : vec) (x : vec) (p : R) : vec :=
    solve (madd (mscal p (sym A)) meye) (vsub x (vscal p b)).
  Fixpoint cost_prox (c : cost) (x : vec) (p : R) : res vec :=
    match c with
    | CUser l => l_prox l x p
    | CZero _ => if Rle_dec p 0 then Err ValueError else Ok x
    | CQuad _ A b _ => Ok (quad_prox A b x p)
    | CReg r => reg_prox r x p
    | CEmp e => emp_prox e x p
    | CScaled c a => scaled_prox a (cost_prox c) x p
    | CSum _ => prox_solver c x p
    end.

  (** *** The built-in regularizers *)
  (** [iop.sign], [iop.absolute], [iop.maximum] *)
  Definition sgn (a : R) : R := if Rlt_dec 0 a then 1 else if Rlt_dec a 0 then -1 else 0.
  (** [L1RegularizerCost], _regularizer_costs.py:199-230 *)
  Definition l1_reg (m : meta) : regleaf :=
    {| rl_meta := m; rl_f := fun x => sumn n (fun i => Rabs (x i)); rl_g := fun x i => sgn (x i); rl_h := fun _ => mzero;
       rl_smooth := NaN; rl_cvx := Fin 0;
       rl_prox := fun x p => if Rle_dec p 0 then Err ValueError
                             else Ok (fun i => sgn (x i) * Rmax (Rabs (x i) - p) 0) |}.
  (** [L2RegularizerCost], _regularizer_costs.py:233-263 *)
  Definition l2_reg (m : meta) : regleaf :=
    {| rl_meta := m; rl_f := fun x => 1/2 * dot n x x; rl_g := fun x => x; rl_h := fun _ => meye;
       rl_smooth := Fin 1; rl_cvx := Fin 1;
       rl_prox := fun x p => if Rle_dec p 0 then Err ValueError else Ok (fun i => x i / (1 + p)) |}.
  (** [FractionalQuadraticRegularizerCost], _regularizer_costs.py:266-325;
      [frac_iter] is the loop of lines 316-324 *)
  Definition frac_d (a : R) : R := 2 * a / (1 + a * a) ^ 2.
  Fixpoint frac_iter (iters : nat) (prox_tol : option R) (x : vec) (p : R) (cur : vec) : vec :=
    match iters with
    | O => cur
    | S iters =>
        let step := 1 / (2 + 1 / p) in
        let next : vec := fun i => cur i - step * (frac_d (cur i) + (cur i - x i) / p) in
        let stop := match prox_tol with
                    | None => false
                    | Some t => if Rle_dec (sqrt (nrm2 n (vsub next cur))) t then true else false
                    end in
        if stop then next else frac_iter iters prox_tol x p next
    end.
  Definition frac_reg (m : meta) (max_iter : nat) (prox_tol : option R) : regleaf :=
    {| rl_meta := m; rl_f := fun x => sumn n (fun i => x i * x i / (1 + x i * x i)); rl_g := fun x i => frac_d (x i);
       rl_h := fun x i j => if Nat.eqb i j then 2 * (1 - 3 * (x i * x i)) / (1 + x i * x i) ^ 3 else 0;
       rl_smooth := Fin 2; rl_cvx := NaN;
       rl_prox := fun x p => if Rle_dec p 0 then Err ValueError else Ok (frac_iter max_iter prox_tol x p x) |}.
End Costs.
Arguments ev K St A : clear implicits.
Arguments leaf K St : clear implicits.
Arguments emp K St : clear implicits.
Arguments cost K St : clear implicits.
Arguments operand K St : clear implicits.
