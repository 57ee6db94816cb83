(** Model of the centralised solvers, /repo/decent_bench/centralized_algorithms.py,
    over the real numbers, for 1-D domains of dimension [n].

    An evaluation of the gradient may raise or change a state [St] (random
    generators, samplers), as in Model/Costs.v.  Progress bars and logging are
    left out. *)
From Coq Require Import Reals List Bool Arith ZArith.
From Verif.Model Require Import Vec Costs.
Import ListNotations.
Open Scope R_scope.

(** [SOther]: the exception of a user's step, of a cost's method, or a division
    by zero *)
Inductive serr := SValueError | SRuntimeError | SNotImplementedError | SLinAlgError | SOther.
Inductive sres (A : Type) := SRet (a : A) | SRaise (e : serr).
Arguments SRet {A}. Arguments SRaise {A}.
Definition sbind {A B} (m : sres A) (f : A -> sres B) : sres B := match m with SRet a => f a | SRaise e => SRaise e end.

Section Solver.
  Context (n : nat) {X St : Type}.
  (** a solver object: [self.x], [self.x_old], what the subclass adds, the
      contents of the array the caller passed as [x0] (if any), and the state
      of the cost.  lines 107-115 *)
  Record sst := { s_x : vec; s_old : vec; s_aux : X; s_arg : option vec; s_env : St }.
  (** [Solver.__init__], lines 107-115; the subclass part [aux] is computed from
      [self.x] (its constructors call [super().__init__] first, lines 224-225,
      262-265).  [x0]: shape and contents. *)
  Definition solver_init (shape : list nat) (x0 : option (list nat * vec)) (aux : vec -> X) (env : St) : sres sst :=
    match x0 with
    | None => SRet {| s_x := vzero; s_old := vzero; s_aux := aux vzero; s_arg := None; s_env := env |}
    | Some (sh, v) =>
        if list_nat_eqb sh shape then SRet {| s_x := v; s_old := v; s_aux := aux v; s_arg := Some v; s_env := env |}
        else SRaise SValueError
    end.
  (** [self.x_old = iop.copy(self.x)], line 182 *)
  Definition mark (s : sst) : sst := {| s_x := s_x s; s_old := s_x s; s_aux := s_aux s; s_arg := s_arg s; s_env := s_env s |}.
  (** [d = self.x - self.x_old; float(transpose(d) @ d)], lines 185-186 *)
  Definition change (s : sst) : R := nrm2 n (vsub (s_x s) (s_old s)).

  Variable step : nat -> sst -> sres sst.
  Variables (stop_tol max_tol : option R) (check_every : Z).
  (** the loop, lines 176-188, from iteration [k] with [todo] iterations after
      it; it ends with the solver, [k] and the variable [delta] *)
  Fixpoint rloop (todo k : nat) (delta : option R) (s : sst) : sres (sst * nat * option R) :=
    match step k (mark s) with
    | SRaise e => SRaise e
    | SRet s =>
        let go delta := match todo with O => SRet (s, k, delta) | S todo => rloop todo (S k) delta s end in
        match stop_tol with
        | Some tol => if Z.eqb (Z.of_nat k mod check_every) 0
                      then if Rle_dec (change s) tol then SRet (s, k, Some (change s)) else go (Some (change s))
                      else go delta
        | None => go delta
        end
    end.
  (** lines 190-200.  An unbound [delta] (it cannot be) would raise. *)
  Definition final_check (r : sst * nat * option R) : sres sst :=
    let '(s, k, delta) := r in
    match max_tol with
    | None => SRet s
    | Some mt =>
        let recompute := match stop_tol with None => true | Some _ => negb (Z.eqb (Z.of_nat k mod check_every) 0) end in
        match (if recompute then Some (change s) else delta) with
        | None => SRaise SOther
        | Some d => if Rlt_dec mt d then SRaise SRuntimeError else SRet s
        end
    end.
End Solver.
Arguments sst X St : clear implicits.

Section Run.
  Context (n : nat) {X St : Type} (step : nat -> sst X St -> sres (sst X St)).
  (** [check_every], line 174; [int] of a positive float is its floor *)
  Definition check_every_of (freq : R) (max_iter : Z) : Z := Z.max 1 (Int_part (freq * IZR max_iter)).
  Definition nonpositive (t : option R) : bool := match t with Some t => if Rle_dec t 0 then true else false | None => false end.
  (** [Solver.run], lines 131-200; the returned iterate is [s_x] of the result *)
  Definition run (max_iter : Z) (stop_tol max_tol : option R) (freq : R) (s : sst X St) : sres (sst X St) :=
    if (max_iter <? 1)%Z then SRaise SValueError
    else if nonpositive stop_tol then SRaise SValueError
    else if nonpositive max_tol then SRaise SValueError
    else if (if Rle_dec freq 0 then true else if Rlt_dec 1 freq then true else false) then SRaise SValueError
    else let ce := check_every_of freq max_iter in
         sbind (rloop n step stop_tol ce (Z.to_nat max_iter - 1) 0 None s) (final_check n stop_tol max_tol ce).
End Run.

(** a scalar parameter: a callable, a [float], [None], or an [int] (which is
    not a [float], lines 214-217, 245-251) *)
Inductive param := PFun (f : nat -> R) | PFloat (a : R) | PNone | PInt (z : Z).

(** [1 / v], [None] if the result is nan or the division raises *)
Definition ext_inv (a : R) (v : ext) : option R :=
  match v with Fin r => if Req_EM_T r 0 then None else Some (a / r) | PInf => Some 0 | NaN => None end.
Definition ext_pos (v : ext) : bool := match v with Fin r => if Rlt_dec 0 r then true else false | PInf => true | NaN => false end.

Section Gradient.
  Context {St : Type} (gradient : vec -> St -> option (vec * St)) (L mu : ext).
  (** [GradientDescent.__init__], lines 213-226: the step size at iteration [k] *)
  Definition gd_size (p : param) (k : nat) : option R :=
    match p with
    | PFun f => Some (f k)
    | PFloat a => Some a
    | _ => match L, mu with
           | NaN, _ | PInf, _ | _, NaN => Some (1 / sqrt (INR (k + 1)))
           | _, _ => if ext_pos mu then ext_inv 2 (ext_add L mu) else ext_inv 1 L
           end
    end.
  (** [GradientDescent.step], lines 228-230.  [-=] changes the array in place
      (interoperability/_operators.py:116-137), so also the caller's. *)
  Definition gd_step (p : param) (k : nat) (s : sst unit St) : sres (sst unit St) :=
    match gd_size p k, gradient (s_x s) (s_env s) with
    | Some a, Some (g, e) =>
        let x := vsub (s_x s) (vscal a g) in
        SRet {| s_x := x; s_old := s_old s; s_aux := tt; s_arg := match s_arg s with Some _ => Some x | None => None end; s_env := e |}
    | _, _ => SRaise SOther
    end.
  (** [AcceleratedGradientDescent.__init__], lines 245-265 *)
  Definition agd_size (p : param) : option R := match p with PFloat a => Some a | _ => ext_inv 1 L end.
  Definition agd_momentum (p : param) (k : nat) : option R :=
    match p with
    | PFun f => Some (f k)
    | PFloat a => Some a
    | _ => if ext_pos mu
           then match L, mu with
                | Fin l, Fin m => Some ((sqrt l - sqrt m) / (sqrt l + sqrt m))
                | _, _ => None
                end
           else Some (INR k / (INR k + 3))
    end.
  (** [AcceleratedGradientDescent.step], lines 267-270; [s_aux] is [self.y].
      (The step size is computed in the constructor; an exception there is
      reported at the first step here.) *)
  Definition agd_step (p pm : param) (k : nat) (s : sst vec St) : sres (sst vec St) :=
    match agd_size p, gradient (s_aux s) (s_env s), agd_momentum pm k with
    | Some a, Some (g, e), Some m =>
        let x := vsub (s_aux s) (vscal a g) in
        SRet {| s_x := x; s_old := s_old s; s_aux := vadd x (vscal m (vsub x (s_old s))); s_arg := s_arg s; s_env := e |}
    | _, _, _ => SRaise SOther
    end.
End Gradient.

Section Solve.
  Context (n : nat) {K St : Type} (kw_none : K -> bool).
  (** the keyword arguments of [cost.gradient(x)] and those of
      [c.gradient(z, indices="all")]; which costs are [LinearRegressionCost] *)
  Variables (kdef kall : K) (is_linreg : leaf K St -> bool).
  (** [np.linalg.solve] ([None]: LinAlgError), [np.linalg.lstsq(..)[0]], and the
      eigenvalue routines behind the constants of quadratic costs *)
  Variables (lsolve : mat -> vec -> option vec) (lstsq : mat -> vec -> vec) (eig_max eig_min : mat -> R).
  Notation cost := (cost K St).
  Definition grad_of (c : cost) : vec -> St -> option (vec * St) := cost_g n kw_none c kdef.
  Definition shape_of (c : cost) : list nat := fst (fst (cost_meta c)).
  Definition run_gd (c : cost) (x0 : option (list nat * vec)) (p : param) (max_iter : Z) (stop max : option R) (freq : R) (env : St)
    : sres (sst unit St) :=
    sbind (solver_init (shape_of c) x0 (fun _ => tt) env)
          (run n (gd_step (grad_of c) (cost_smooth eig_max c) (cost_cvx eig_min c) p) max_iter stop max freq).
  Definition run_agd (c : cost) (x0 : option (list nat * vec)) (p pm : param) (max_iter : Z) (stop max : option R) (freq : R) (env : St)
    : sres (sst vec St) :=
    sbind (solver_init (shape_of c) x0 (fun x => x) env)
          (run n (agd_step (grad_of c) (cost_smooth eig_max c) (cost_cvx eig_min c) p pm) max_iter stop max freq).

  Definition is_lr (c : cost) : bool := match c with CEmp (ELeaf l) => is_linreg l | _ => false end.
  Definition all_lr (c : cost) : bool := match c with CSum cs => forallb is_lr cs | _ => false end.
  (** the linear regression branch of [solve], lines 60-69 *)
  Definition solve_lr (cs : list cost) (env : St) : sres vec :=
    match eseq (map (cost_h kw_none) cs) kall vzero env with
    | None => SRaise SOther
    | Some (hs, env) =>
        match eseq (map (cost_g n kw_none) cs) kall vzero env with
        | None => SRaise SOther
        | Some (gs, env) =>
            let Q := msum hs in let r := vscal (-1) (vsum gs) in
            SRet (match lsolve Q r with Some x => x | None => lstsq Q r end)
        end
    end.
  (** the iterative branches, lines 70-91; [check_frequency] is the default of
      [run] *)
  Definition solve_iter (c : cost) (max_iter : Z) (stop max : option R) (env : St) : sres vec :=
    let gd := sbind (run_gd c None PNone max_iter stop max (1/100) env) (fun s => SRet (s_x s)) in
    match cost_smooth eig_max c, cost_cvx eig_min c with
    | Fin l, Fin _ =>
        if Req_EM_T l 0 then SRaise SValueError
        else if Rlt_dec 0 l then sbind (run_agd c None PNone PNone max_iter stop max (1/100) env) (fun s => SRet (s_x s))
        else gd
    | _, _ => gd
    end.
  (** [solve], lines 17-95 *)
  Definition solve (c : cost) (max_iter : Z) (stop max : option R) (env : St) : sres vec :=
    match c with
    | CQuad _ A b _ => match lsolve A (vscal (-1) b) with Some x => SRet x | None => SRaise SLinAlgError end
    | CSum cs => if all_lr c then solve_lr cs env else solve_iter c max_iter stop max env
    | _ => solve_iter c max_iter stop max env
    end.

  (** the exceptions of the cost operators *)
  Definition serr_of (e : exn) : serr := match e with ValueError => SValueError | NotImplementedError => SNotImplementedError | _ => SOther end.
  (** [QuadraticCost(A=iop.eye_like(y) / penalty, b=-y / penalty)], line 305:
      numpy on the CPU, here framework 0 and device 0 *)
  Definition prox_quadratic (sh : list nat) (y : vec) (penalty : R) : cost :=
    CQuad (sh, 0%nat, 0%nat) (mscal (/ penalty) meye) (vscal (/ penalty) (vscal (-1) y)) 0.
  (** [proximal_solver], lines 275-312; [y] with its shape.  The result is the
      solver object, whose [s_arg] tells what happened to the caller's [y]. *)
  Definition proximal_solver (c : cost) (sh : list nat) (y : vec) (penalty : R) (max_iter : Z) (env : St) : sres (sst vec St) :=
    if list_nat_eqb (shape_of c) sh then
      if Rle_dec penalty 0 then SRaise SValueError
      else match add (prox_quadratic sh y penalty) c with
           | Err e => SRaise (serr_of e)
           | Ok pc => match cost_smooth eig_max pc, cost_cvx eig_min pc with
                      | PInf, _ | NaN, _ | _, NaN => SRaise SNotImplementedError
                      | _, _ => run_agd pc (Some (sh, y)) PNone PNone max_iter (Some (/ 10 ^ 10)) None (1/100) env
                      end
           end
    else SRaise SValueError.
End Solve.
