(** Model of the out-of-the-box problems,
    /repo/decent_bench/benchmark/_utils.py, for the built-in costs (not
    [PyTorchCost]; any other class raises ValueError at lines 127 and 223).

    Random draws and data sources are parameters.  Logging and progress bars are
    left out.  The agents' costs share one sampler state in a sum (Model/Costs.v);
    evaluations with [indices="all"] do not depend on it. *)
From Coq Require Import Reals List Bool Arith ZArith.
From Verif.Model Require Import Vec Costs Batch EmpiricalRisk Solvers Partition Handlers.
Import ListNotations.
Open Scope R_scope.

(** lines 20-22 *)
Definition solve_max_iter : Z := 10000.
Definition solve_stop_tol : R := / 10 ^ 20.
Definition solve_max_tol : R := / 10 ^ 16.

(** the exceptions of the handlers as those of the solvers' model *)
Definition of_hout {A} (m : hout A) : sres A :=
  match m with HOk a => SRet a | HValueError => SRaise SValueError | _ => SRaise SOther end.
(** [functools.reduce(operator.add, costs)]: TypeError for an empty list *)
Fixpoint add_all {K St} (c : cost K St) (cs : list (cost K St)) : res (cost K St) :=
  match cs with [] => Ok c | c' :: cs => rbind (add c c') (fun s => add_all s cs) end.
Definition reduce_add {K St} (cs : list (cost K St)) : sres (cost K St) :=
  match cs with
  | [] => SRaise SOther
  | c :: cs => match add_all c cs with Ok s => SRet s | Err e => SRaise (serr_of e) end
  end.
(** a list comprehension *)
Fixpoint smap {A B} (f : A -> sres B) (l : list A) : sres (list B) :=
  match l with [] => SRet [] | a :: l => sbind (f a) (fun b => sbind (smap f l) (fun bs => SRet (b :: bs))) end.

(** numpy arrays of shape [(d,)] on the CPU *)
Definition np_meta (d : nat) : meta := ([d], 0%nat, 0%nat).

(** *** [create_quadratic_problem], lines 228-260 *)
Section Quadratic.
  (** the linear solver and the eigenvalue routines, as in Model/Solvers.v *)
  Variables (lsolve : mat -> vec -> option vec) (lstsq : mat -> vec -> vec) (eig_max eig_min : mat -> R).
  (** [(A_i + iop.transpose(A_i)) / 2 + size * iop.eye_like(A_i)], line 246 *)
  Definition quad_matrix (size : nat) (U : mat) : mat := madd (mscal (/ 2) (madd U (mtr U))) (mscal (INR size) meye).
  (** the [i]-th [iop.uniform] and [iop.normal] draws, lines 245-247 *)
  Variables (uniform : nat -> mat) (normal : nat -> vec).
  (** lines 243-249 *)
  Definition quadratic_costs (size : nat) (n_agents : Z) : list (cost unit unit) :=
    map (fun i => CQuad (np_meta size) (quad_matrix size (uniform i)) (normal i) 0) (seq 0 (Z.to_nat n_agents)).
  Definition create_quadratic_problem (size : nat) (n_agents : Z) : sres (list (cost unit unit) * vec) :=
    let costs := quadratic_costs size n_agents in
    sbind (reduce_add costs) (fun c =>
    sbind (solve size (fun _ => true) tt tt (fun _ => false) lsolve lstsq eig_max eig_min c solve_max_iter (Some solve_stop_tol) (Some solve_max_tol) tt) (fun x =>
    SRet (costs, x))).
End Quadratic.

(** *** The empirical problems *)
Section Empirical.
  (** the data generators for the dimension at hand and [rng.permutation] in
      [split_iid] *)
  Variables (seeded : Z -> nat -> list vec * list R) (unseeded : nat -> nat -> list vec * list R).
  Variable iperm : list nat -> nat -> list nat.
  (** [bperm i]: the permutations drawn by the sampler of the [i]-th cost *)
  Variable bperm : nat -> nat -> list nat -> list nat.
  Variables (lsolve : mat -> vec -> option vec) (lstsq : mat -> vec -> vec) (sol : mat -> vec -> vec) (eig_max eig_min : mat -> R).
  (** a datapoint: the features and the one target (shape [(1,)]) *)
  Definition point (x : vec) (ys : list R) : vec * R := (x, hd 0 ys).
  Definition points := sy_datapoints point seeded unseeded.
  (** [n_samples=n_agents * 10], lines 61 and 166 *)
  Definition n_train (n_agents : Z) : nat := Z.to_nat (n_agents * 10).
  Definition n_test : nat := 100.   (* lines 70 and 175 *)
  (** [dataset.split(partitions=split_iid(dataset, n_partitions=n_agents))],
      lines 77 and 182 *)
  Definition local_datasets (n_agents : Z) (w : world) : hout (list dataset) * world * synthetic vec R :=
    let h := new_synthetic (n_train n_agents) in
    match split_iid iperm (n_train n_agents) n_agents SNone with
    | None => (HValueError, w, h)
    | Some ps => sy_split point seeded unseeded (map (map (fun i => IxInt (Z.of_nat i))) ps) w h
    end.
  (** the constructors' exceptions: [dataset[0]] of an empty list is an
      IndexError, the others are ValueErrors *)
  Definition checked_batch (D : dataset) (bs : bsize) : sres nat :=
    match D with [] => SRaise SOther | _ => match init_batch_size D bs with Some b => SRet b | None => SRaise SValueError end end.
  Definition number {A} (l : list A) : list (nat * A) := combine (seq 0 (length l)) l.

  (** [LinearRegressionCost(dataset=p, batch_size=batch_size)], lines 208-210 *)
  Definition lr_cost (d : nat) (bs : bsize) (iD : nat * dataset) : sres (cost indices sampler) :=
    let '(i, D) := iD in
    sbind (checked_batch D bs) (fun b => SRet (CEmp (ELeaf (lr_leaf d (bperm i) D b sol eig_max eig_min (np_meta d))))).
  (** [create_regression_problem], lines 132-225; the library uses [d = 1] *)
  Definition create_regression_problem (d : nat) (n_agents : Z) (bs : bsize) (compute : bool) (w : world)
      : sres (list (cost indices sampler) * option vec * dataset) :=
    let '(Ds, w, _) := local_datasets n_agents w in
    sbind (of_hout Ds) (fun Ds =>
    sbind (smap (lr_cost d bs) (number Ds)) (fun costs =>
    sbind (if compute
           then sbind (reduce_add costs) (fun c =>
                sbind (solve d (fun _ => false) IxBatch IxAll (fun _ => true) lsolve lstsq eig_max eig_min c solve_max_iter (Some solve_stop_tol) (Some solve_max_tol) sp_new)
                      (fun x => SRet (Some x)))
           else SRet None) (fun x_optimal =>
    let '(test, _, _) := points w (new_synthetic n_test) in
    sbind (of_hout test) (fun test => SRet (costs, x_optimal, test))))).

  (** [LogisticRegressionCost(dataset=p, batch_size=batch_size)] on data with
      integer labels 0 and 1, lines 111-113: CPython enumerates the set [{0, 1}]
      in this order; fewer than two labels raise
      (_logistic_regression_cost.py:92-94).  [prox] is its [proximal]. *)
  Variable prox : dataset -> vec -> R -> res vec.
  Definition has_label (D : dataset) (y : R) : bool := existsb (fun p => if Req_EM_T (snd p) y then true else false) D.
  Definition lg_cost (d : nat) (bs : bsize) (iD : nat * dataset) : sres (cost indices sampler) :=
    let '(i, D) := iD in
    sbind (checked_batch D bs) (fun b =>
      if has_label D 0 && has_label D 1
      then SRet (CEmp (ELeaf (lg_leaf d (bperm i) D b 0 1 (prox D) (np_meta d))))
      else SRaise SValueError).
  (** [create_classification_problem], lines 25-129; the library uses [d = 3].
      The pooled cost is built from [dataset.get_datapoints()], on the same
      handler. *)
  Definition create_classification_problem (d : nat) (n_agents : Z) (bs : bsize) (compute : bool) (w : world)
      : sres (list (cost indices sampler) * option vec * dataset) :=
    let '(Ds, w, h) := local_datasets n_agents w in
    sbind (of_hout Ds) (fun Ds =>
    sbind (smap (lg_cost d bs) (number Ds)) (fun costs =>
    let '(pooled, w, _) := if compute then points w h else (HOk [], w, h) in
    sbind (if compute
           then sbind (of_hout pooled) (fun D =>
                sbind (lg_cost d BsAll (length Ds, D)) (fun c =>
                sbind (solve d (fun _ => false) IxBatch IxAll (fun _ => false) lsolve lstsq eig_max eig_min c solve_max_iter (Some solve_stop_tol) (Some solve_max_tol) sp_new)
                      (fun x => SRet (Some x))))
           else SRet None) (fun x_optimal =>
    let '(test, _, _) := points w (new_synthetic n_test) in
    sbind (of_hout test) (fun test => SRet (costs, x_optimal, test))))).
End Empirical.
