(** Model of the built-in empirical risks:
    /repo/decent_bench/costs/_empirical_risk/_linear_regression_cost.py and
    _logistic_regression_cost.py, on top of the sampler of Model/Batch.v
    (_empirical_risk_cost.py:218-287).

    Real numbers instead of floats.  A dataset is a list of pairs (features,
    target); the features are vectors of one dimension [d].  The caches [A],
    [b], [ATA] hold what is recomputed here on each call (the dataset is not
    changed).  [np.linalg.solve] and the eigenvalue routines are parameters. *)
From Coq Require Import Reals List Bool Arith ZArith.
From Verif.Model Require Import Vec Costs Batch.
Import ListNotations.
Open Scope R_scope.

Definition dataset := list (vec * R).

(** the outcome of an evaluation: a value, nan in every entry (a numpy 0/0), or
    an exception *)
Inductive out (A : Type) := OVal (a : A) | ONan | ORaise.
Arguments OVal {A}. Arguments ONan {A}. Arguments ORaise {A}.

(** [dataset[idx]] on a Python list of length [m]: negative indices count from
    the end, others raise IndexError *)
Definition py_index (D : dataset) (i : Z) : option (vec * R) :=
  let m := Z.of_nat (length D) in
  if (0 <=? i)%Z && (i <? m)%Z then nth_error D (Z.to_nat i)
  else if (- m <=? i)%Z && (i <? 0)%Z then nth_error D (Z.to_nat (i + m))
  else None.
Fixpoint py_rows (D : dataset) (l : list Z) : option dataset :=
  match l with
  | [] => Some []
  | i :: l => match py_index D i, py_rows D l with Some p, Some ps => Some (p :: ps) | _, _ => None end
  end.

(** the target array: 1-D, or 0-d after [.squeeze()] of a (1, 1) array *)
Inductive targets := T1 (b : list R) | T0 (b : R).
Definition squeeze (b : list R) : targets := match b with [y] => T0 y | _ => T1 b end.

(** the sizes accepted by the constructors: [batch_size: int | "all"] *)
Inductive bsize := BsAll | BsInt (z : Z) | BsOtherString.
(** [LinearRegressionCost.__init__], _linear_regression_cost.py:64-81, on
    well-shaped data: the batch size, or an exception ([dataset[0]] of an empty
    list raises IndexError).  The same in [LogisticRegressionCost.__init__],
    _logistic_regression_cost.py:78-90, before the class labels are counted. *)
Definition init_batch_size (D : dataset) (bs : bsize) : option nat :=
  match D with
  | [] => None
  | _ => match bs with
         | BsAll => Some (length D)
         | BsInt z => if (z <=? 0)%Z || (Z.of_nat (length D) <? z)%Z then None else Some (Z.to_nat z)
         | BsOtherString => None
         end
  end.

(** [A.T @ A], [A.T.dot(v)] and [A.dot(x)] for the matrix with the given rows *)
Definition gram (rows : list vec) : mat := fun i j => rsum (map (fun a => a i * a j) rows).
Definition tmulv (rows : list vec) (v : list R) : vec := fun i => rsum (map (fun p => fst p i * snd p) (combine rows v)).
Definition mulrows (d : nat) (rows : list vec) (x : vec) : list R := map (fun a => dot d a x) rows.
(** elementwise difference of two 1-D arrays of one length *)
Definition lsub (u v : list R) : list R := map (fun p => fst p - snd p) (combine u v).
Definition ldot (u v : list R) : R := rsum (map (fun p => fst p * snd p) (combine u v)).

Section LinReg.
  Variables (d : nat) (perm : nat -> list nat -> list nat) (D : dataset) (b : nat).
  Variable solve : mat -> vec -> vec.
  Let m := length D.

  (** [_get_batch_data], lines 302-322: rows and targets ([None]: an
      exception), the number of indices used, the new state *)
  Definition lr_batch_data (ix : indices) (s : sampler) : option (list vec * targets * nat) * sampler :=
    match sample_batch_indices perm m b ix s with
    | (BValueError, s) => (None, s)
    | (BOk l, s) =>
        if Nat.eqb (length l) m
        then (Some (map fst D, squeeze (map snd D), length l), s)
        else match py_rows D l with
             | None => (None, s)
             | Some ps => (Some (map fst ps, T1 (map snd ps), length l), s)
             end
    end.
  (** [A.dot(x) - b]: a 0-d [b] is subtracted from every entry *)
  Definition residuals (rows : list vec) (b : targets) (x : vec) : list R :=
    match b with T1 b => lsub (mulrows d rows x) b | T0 y => map (fun z => z - y) (mulrows d rows x) end.
  (** [function], lines 174-198 *)
  Definition lr_function (x : vec) (ix : indices) (s : sampler) : out R * sampler :=
    match lr_batch_data ix s with
    | (None, s) => (ORaise, s)
    | (Some (rows, b, k), s) =>
        let r := residuals rows b x in
        (if Nat.eqb k 0 then ONan else OVal (1/2 * ldot r r / INR k), s)
    end.
  (** what [gradient] returns: a vector, or (with a 0-d [b]) the [d x d] array
      that broadcasting [(d,) - (d, 1)] produces *)
  Inductive gval := GVec (v : vec) | GMat (M : mat).
  (** [gradient] with reduction "mean", lines 238-243 *)
  Definition lr_gradient (x : vec) (ix : indices) (s : sampler) : out gval * sampler :=
    match lr_batch_data ix s with
    | (None, s) => (ORaise, s)
    | (Some (rows, b, k), s) =>
        let Gx := mulv d (gram rows) x in
        (if Nat.eqb k 0 then ONan
         else OVal (match b with
                    | T1 b => GVec (vscal (/ INR k) (vsub Gx (tmulv rows b)))
                    | T0 y => GMat (fun i j => / INR k * (Gx j - rsum (map (fun a => a i) rows) * y))
                    end), s)
    end.
  (** [_per_sample_gradients], lines 246-254: one row per sample *)
  Definition lr_rows (x : vec) (ix : indices) (s : sampler) : out (list vec) * sampler :=
    match lr_batch_data ix s with
    | (None, s) => (ORaise, s)
    | (Some (rows, b, _), s) => (OVal (map (fun p => vscal (fst p) (snd p)) (combine (residuals rows b x) rows)), s)
    end.
  (** [hessian], lines 257-281 *)
  Definition lr_hessian (ix : indices) (s : sampler) : out mat * sampler :=
    match lr_batch_data ix s with
    | (None, s) => (ORaise, s)
    | (Some (rows, _, k), s) => (if Nat.eqb k 0 then ONan else OVal (mscal (/ INR k) (gram rows)), s)
    end.
  (** [proximal], lines 284-300; [A.T @ b] with a 0-d [b] raises ValueError.
      (The sampler's [batch_used] changes as with indices "all"; dropped.) *)
  Definition lr_proximal (x : vec) (penalty : R) : res vec :=
    let rows := map fst D in
    match squeeze (map snd D) with
    | T0 _ => Err ValueError
    | T1 b => Ok (solve (madd (mscal (penalty * / INR m) (gram rows)) meye)
                        (vadd x (vscal (penalty * / INR m) (tmulv rows b))))
    end.
  (** [m_smooth], lines 112-127, and [m_cvx], lines 129-152 *)
  Variables (eig_max eig_min : mat -> R).
  Definition lr_smooth : ext := Fin (eig_max (gram (map fst D)) / INR m).
  Definition lr_cvx : ext :=
    let l := eig_min (gram (map fst D)) / INR m in
    if Rlt_dec tol l then Fin l else if Rle_dec (Rabs l) tol then Fin 0 else NaN.

  (** the cost object as seen by the cost arithmetic of Model/Costs.v: a nan or
      an ill-shaped gradient counts as a failure there *)
  Definition ev_of {A} (f : vec -> indices -> sampler -> out A * sampler) : ev indices sampler A :=
    fun ix x s => match f x ix s with (OVal a, s) => Some (a, s) | _ => None end.
  Definition lr_leaf (mt : meta) : leaf indices sampler :=
    {| l_meta := mt;
       l_f := ev_of lr_function;
       l_g := fun ix x s => match lr_gradient x ix s with (OVal (GVec v), s) => Some (v, s) | _ => None end;
       l_h := ev_of (fun _ => lr_hessian);
       l_smooth := lr_smooth; l_cvx := lr_cvx; l_prox := lr_proximal |}.
End LinReg.

Section Logistic.
  Variables (d : nat) (perm : nat -> list nat -> list nat) (D : dataset) (b : nat).
  Let m := length D.
  (** [_label_mapping = dict(enumerate(class_labels))], line 97: the set of the
      two labels is enumerated in an order fixed by CPython's hash table, here
      any pair *)
  Variables l0 l1 : R.
  (** lines 92-94: the labels found in the dataset are exactly two.  As a
      property of the data and the enumeration: *)
  Definition lg_labels : Prop := l0 <> l1 /\ (exists p, In p D /\ snd p = l0) /\ (exists p, In p D /\ snd p = l1) /\
    forall p, In p D -> snd p = l0 \/ snd p = l1.
  (** the loop [for k in mapping: b[np.where(b == mapping[k])] = k] on one
      entry, lines 327-328 and 336-337: both comparisons see the array as
      changed so far *)
  Definition relabel (y : R) : R :=
    let y := if Req_EM_T y l0 then 0 else y in
    if Req_EM_T y l1 then 1 else y.
  (** [_get_batch_data], lines 318-338.  Two classes need two samples, so
      [squeeze] keeps the axis. *)
  Definition lg_batch_data (ix : indices) (s : sampler) : option (list vec * list R * nat) * sampler :=
    match sample_batch_indices perm m b ix s with
    | (BValueError, s) => (None, s)
    | (BOk l, s) =>
        if Nat.eqb (length l) m
        then (Some (map fst D, map (fun p => relabel (snd p)) D, length l), s)
        else match py_rows D l with
             | None => (None, s)
             | Some ps => (Some (map fst ps, map (fun p => relabel (snd p)) ps, length l), s)
             end
    end.
  (** [special.expit], [np.logaddexp(0, -z)] *)
  Definition expit (z : R) : R := / (1 + exp (- z)).
  Definition softplus_neg (z : R) : R := ln (1 + exp (- z)).
  (** [function], lines 175-207; with no indices [float(cost) / 0] raises *)
  Definition lg_function (x : vec) (ix : indices) (s : sampler) : out R * sampler :=
    match lg_batch_data ix s with
    | (None, s) => (ORaise, s)
    | (Some (rows, b, k), s) =>
        let Ax := mulrows d rows x in
        let nls := map softplus_neg Ax in
        let cost := ldot b nls + ldot (map (fun y => 1 - y) b) (map (fun p => fst p + snd p) (combine Ax nls)) in
        (if Nat.eqb k 0 then ORaise else OVal (cost / INR k), s)
    end.
  (** [gradient] with reduction "mean", lines 249-255 *)
  Definition lg_gradient (x : vec) (ix : indices) (s : sampler) : out vec * sampler :=
    match lg_batch_data ix s with
    | (None, s) => (ORaise, s)
    | (Some (rows, b, k), s) =>
        let sig := map expit (mulrows d rows x) in
        (if Nat.eqb k 0 then ONan else OVal (vscal (/ INR k) (tmulv rows (lsub sig b))), s)
    end.
  (** [_per_sample_gradients], lines 257-265 *)
  Definition lg_rows (x : vec) (ix : indices) (s : sampler) : out (list vec) * sampler :=
    match lg_batch_data ix s with
    | (None, s) => (ORaise, s)
    | (Some (rows, b, _), s) =>
        let sig := map expit (mulrows d rows x) in
        (OVal (map (fun p => vscal (snd p) (fst p)) (combine rows (lsub sig b))), s)
    end.
  (** [hessian], lines 268-297 *)
  Definition lg_hessian (x : vec) (ix : indices) (s : sampler) : out mat * sampler :=
    match lg_batch_data ix s with
    | (None, s) => (ORaise, s)
    | (Some (rows, _, k), s) =>
        let sig := map expit (mulrows d rows x) in
        let ADA : mat := fun i j => rsum (map (fun p => fst p i * (snd p * (1 - snd p)) * fst p j) (combine rows sig)) in
        (if Nat.eqb k 0 then ONan else OVal (mscal (/ INR k) ADA), s)
    end.
  (** [m_smooth], lines 128-141 ([max] over the rows), and [m_cvx], lines 144-151 *)
  Definition lg_smooth : ext := Fin (fold_left Rmax (map (nrm2 d) (map fst D)) 0 / 4).
  Definition lg_cvx : ext := Fin 0.
  (** [predict] on one row, lines 154-172: [label_mapping[int(sig >= 0.5)]] *)
  Definition lg_predict (x : vec) (a : vec) : R := if Rle_dec (1/2) (expit (dot d a x)) then l1 else l0.
  (** [proximal], lines 300-316, calls [proximal_solver] (Model/Solvers.v) *)
  Definition lg_leaf (prox : vec -> R -> res vec) (mt : meta) : leaf indices sampler :=
    {| l_meta := mt; l_f := ev_of lg_function; l_g := ev_of lg_gradient; l_h := ev_of lg_hessian;
       l_smooth := lg_smooth; l_cvx := lg_cvx; l_prox := prox |}.
End Logistic.

(** [gradient] with [reduction=None] of wrapped empirical costs:
    _empirical_scaled_cost.py:91-98 and _empirical_regularized_cost.py:88-113.
    Stacking zero regularizer gradients raises. *)
Fixpoint emp_rows {K St} (leaf_rows : leaf K St -> ev K St (list vec)) (e : emp K St) : ev K St (list vec) :=
  match e with
  | ELeaf l => leaf_rows l
  | EScaled e a => emap (map (vscal a)) (emp_rows leaf_rows e)
  | EReg e r => fun k x s => match emp_rows leaf_rows e k x s with
                             | Some (v :: vs, s) => Some (map (fun v => vadd v (reg_g r x)) (v :: vs), s)
                             | _ => None
                             end
  end.
