(** Constructing an algorithm: dataclass fields and parameter validation.
    Sources: decent_bench/algorithms/_algorithm.py:15-31 and the [__post_init__]
    methods of decent_bench/algorithms/p2p/*.py and federated/*.py.
    An algorithm object is the mapping from field names to values that its
    attributes are; keyword arguments are given in the order written.
    Simplifications: positional arguments are not modelled (a dataclass
    constructor accepts the same fields by position); a bool is the int it is a
    subclass of; decimal literals stand for exact rationals rather than for the
    nearest double; [field(init=False)] attributes are left out. *)
From Coq Require Import QArith ZArith List String Bool.
Import ListNotations.
Local Open Scope string_scope.

(** A Python float: a finite double is a rational number. *)
Inductive fnum := FFin (q : Q) | FPInf | FNInf | FNaN.
(** The values passed as parameters. [VObj] is any object without an order
    relation to numbers (None, a callable, a selection scheme, ...); [VSteps] a dict
    from clients to values; [VArgs] a dict from strings to values. *)
Inductive value :=
  | VInt (z : Z) | VFloat (f : fnum) | VStr (s : string) | VObj
  | VSteps (m : list (nat * value)) | VArgs (m : list (string * value)).
Inductive error := ValueError | TypeError | AttributeError.
Inductive outcome (A : Type) := Done (a : A) | Raises (e : error).
Arguments Done {A} _. Arguments Raises {A} _.
(** attributes of the object being constructed *)
Definition obj := string -> value.

(** Python numeric comparison: exact between ints and floats, false for NaN,
    TypeError ([None]) against a value of another kind. *)
Definition as_num (v : value) : option fnum :=
  match v with VInt z => Some (FFin (inject_Z z)) | VFloat f => Some f | _ => None end.
Definition f_le (a b : fnum) : bool :=
  match a, b with
  | FNaN, _ | _, FNaN => false
  | FNInf, _ => true
  | _, FPInf => true
  | FFin p, FFin q => Qle_bool p q
  | FFin _, FNInf => false
  | FPInf, _ => false
  end.
Definition f_lt (a b : fnum) : bool :=
  match a, b with
  | FNaN, _ | _, FNaN => false
  | FFin p, FFin q => negb (Qle_bool q p)
  | FNInf, FNInf => false
  | FNInf, _ => true
  | _, FPInf => match a with FPInf => false | _ => true end
  | _, _ => false
  end.
Definition py_le (a b : value) : option bool :=
  match as_num a, as_num b with Some x, Some y => Some (f_le x y) | _, _ => None end.
Definition py_lt (a b : value) : option bool :=
  match as_num a, as_num b with Some x, Some y => Some (f_lt x y) | _, _ => None end.
(** [not c] and the short-circuit [a and b] of a chained comparison *)
Definition py_not (c : option bool) : option bool := option_map negb c.
Definition py_and (a b : option bool) : option bool :=
  match a with Some true => b | Some false => Some false | None => None end.
(** [if c: raise ValueError] followed by the rest of the method *)
Definition reject_if {A} (c : option bool) (rest : outcome A) : outcome A :=
  match c with None => Raises TypeError | Some true => Raises ValueError | Some false => rest end.
(** [if isinstance(v, float) and v <= 0: raise ValueError] followed by the rest *)
Definition reject_float_if {A} (v : value) (c : option bool) (rest : outcome A) : outcome A :=
  match v with VFloat _ => reject_if c rest | _ => rest end.

Definition zero : value := VInt 0.
Definition one : value := VInt 1.

(** The algorithm classes of decent_bench/algorithms/p2p and federated that can
    be instantiated (FedOpt is abstract). *)
Inductive alg :=
  | ADMM | ATC | ATC_Tracking | ATG | AugDGM | DGD | DiNNO | DLM | ED | EXTRA
  | GT_SAGA | GT_SARAH | GT_VR | KGT | LED | LT_ADMM | LT_ADMM_VR | NIDS
  | ProxSkip | SimpleGT | WangElia
  | FedAdagrad | FedAdam | FedAvg | FedDyn | FedLT | FedNova | FedPD | FedProx
  | FedYogi | Scaffold.

Definition dec (n : Z) (d : positive) : value := VFloat (FFin (Qmake n d)).

(** Fields and defaults of FedOpt: federated/_fed_opt.py:66-76. *)
Definition fed_opt_fields (name : string) : list (string * value) :=
  [("iterations", VInt 100); ("step_size", dec 1 1000); ("num_local_steps", VInt 1);
   ("server_step_size", dec 1 1000); ("beta_1", dec 9 10); ("epsilon", dec 1 1000000);
   ("selection_scheme", VObj); ("x0", VObj); ("name", VStr name)].
(** p2p/_atc.py:33-36, _atc_tracking.py:42-45, _aug_dgm.py:42-45, _dgd.py:29-32,
    _ed.py:35-38, _extra.py:36-39, _nids.py:37-40, _simple_gt.py:33-36, _wang_elia.py:40-43. *)
Definition plain_fields (name : string) : list (string * value) :=
  [("iterations", VInt 100); ("step_size", dec 1 1000); ("x0", VObj); ("name", VStr name)].
(** p2p/_lt_admm.py:33-40 *)
Definition lt_admm_fields (name : string) : list (string * value) :=
  [("iterations", VInt 100); ("num_local_steps", VInt 5); ("step_size", dec 1 100);
   ("aux_step_size", dec 1 100); ("penalty", dec 1 1); ("alpha", dec 1 2); ("x0", VObj); ("name", VStr name)].
(** Dataclass fields with their defaults: p2p/_admm.py:49-54, _atg.py:55-62,
    _dinno.py:39-44, _dlm.py:39-43, _gt_saga.py:37-40, _gt_sarah.py:38-42,
    _gt_vr.py:38-42, _kgt.py:34-39, _led.py:31-36, _lt_admm_vr.py:43-44,
    _prox_skip.py:33-39; federated/_fed_adagrad.py:59, _fed_adam.py:60-61,
    _fed_avg.py:46-53, _fed_dyn.py:64-72, _fed_lt.py:134-145, _fed_nova.py:116-129,
    _fed_pd.py:66-72, _fed_prox.py:52-60, _fed_yogi.py:62-63, _scaffold.py:77-86. *)
Definition fields (a : alg) : list (string * value) :=
  match a with
  | ADMM => [("iterations", VInt 100); ("penalty", VInt 1); ("relaxation", dec 1 2); ("x0", VObj); ("z0", VObj); ("name", VStr "ADMM")]
  | ATC => plain_fields "ATC"
  | ATC_Tracking => plain_fields "ATC-Tracking"
  | ATG => [("iterations", VInt 100); ("penalty", VInt 1); ("relaxation", dec 1 2); ("gamma", dec 1 10); ("delta", dec 1 1000);
            ("x0", VObj); ("z0", VObj); ("name", VStr "ATG")]
  | AugDGM => plain_fields "Aug-DGM"
  | DGD => plain_fields "DGD"
  | DiNNO => [("iterations", VInt 100); ("step_size", dec 1 100); ("num_local_steps", VInt 5); ("penalty", dec 1 2); ("x0", VObj); ("name", VStr "DiNNO")]
  | DLM => [("iterations", VInt 100); ("step_size", dec 1 1000); ("penalty", VInt 1); ("x0", VObj); ("name", VStr "DLM")]
  | ED => plain_fields "ED"
  | EXTRA => plain_fields "EXTRA"
  | GT_SAGA => [("iterations", VInt 100); ("step_size", dec 1 100); ("x0", VObj); ("name", VStr "GT-SAGA")]
  | GT_SARAH => [("iterations", VInt 100); ("num_local_steps", VInt 5); ("step_size", dec 1 100); ("x0", VObj); ("name", VStr "GT-SARAH")]
  | GT_VR => [("iterations", VInt 100); ("step_size", dec 1 100); ("snapshot_prob", dec 3 10); ("x0", VObj); ("name", VStr "GT-VR")]
  | KGT => [("iterations", VInt 100); ("num_local_steps", VInt 5); ("step_size", dec 1 100); ("aux_step_size", dec 1 100); ("x0", VObj); ("name", VStr "K-GT")]
  | LED => [("iterations", VInt 100); ("num_local_steps", VInt 5); ("step_size", dec 1 100); ("aux_step_size", dec 1 100); ("x0", VObj); ("name", VStr "LED")]
  | LT_ADMM => lt_admm_fields "LT-ADMM"
  | LT_ADMM_VR => lt_admm_fields "LT-ADMM-VR" ++ [("v2", VInt 1)]
  | NIDS => plain_fields "NIDS"
  | ProxSkip => [("iterations", VInt 100); ("step_size", dec 1 100); ("aux_step_size", dec 1 100); ("comm_probability", dec 7 10); ("chi", dec 1 1);
                 ("x0", VObj); ("name", VStr "ProxSkip")]
  | SimpleGT => plain_fields "SimpleGT"
  | WangElia => plain_fields "Wang-Elia"
  | FedAdagrad => fed_opt_fields "FedAdagrad"
  | FedAdam => fed_opt_fields "FedAdam" ++ [("beta_2", dec 99 100)]
  | FedYogi => fed_opt_fields "FedYogi" ++ [("beta_2", dec 99 100)]
  | FedAvg => [("iterations", VInt 100); ("step_size", dec 1 1000); ("num_local_steps", VInt 1); ("selection_scheme", VObj); ("x0", VObj); ("name", VStr "FedAvg")]
  | FedDyn => [("iterations", VInt 100); ("step_size", dec 1 1000); ("penalty", dec 1 100); ("num_local_steps", VInt 1);
               ("selection_scheme", VObj); ("x0", VObj); ("name", VStr "FedDyn")]
  | FedLT => [("iterations", VInt 100); ("step_size", dec 1 1000); ("num_local_steps", VInt 1); ("penalty", dec 1 1); ("local_solver", VStr "gd");
              ("solver_args", VArgs []); ("selection_scheme", VObj); ("x0", VObj); ("z0", VObj); ("name", VStr "FedLT")]
  | FedNova => [("iterations", VInt 100); ("step_size", dec 1 1000); ("num_local_steps", VInt 1); ("use_momentum", VInt 0); ("momentum", dec 9 10);
                ("use_prox", VInt 0); ("penalty", dec 1 100); ("use_server_momentum", VInt 0); ("server_momentum", dec 9 10);
                ("selection_scheme", VObj); ("x0", VObj); ("name", VStr "FedNova")]
  | FedPD => [("iterations", VInt 100); ("step_size", dec 1 1000); ("penalty", dec 1 1); ("skip_probability", dec 0 1); ("num_local_steps", VInt 1);
              ("x0", VObj); ("name", VStr "FedPD")]
  | FedProx => [("iterations", VInt 100); ("step_size", dec 1 1000); ("num_local_steps", VInt 1); ("penalty", dec 1 100);
                ("selection_scheme", VObj); ("x0", VObj); ("name", VStr "FedProx")]
  | Scaffold => [("iterations", VInt 100); ("step_size", dec 1 1000); ("num_local_steps", VInt 1); ("server_step_size", dec 1 1);
                 ("selection_scheme", VObj); ("x0", VObj); ("c0", VObj); ("name", VStr "Scaffold")]
  end.

(** [0 < x < 1], [0 < x <= 1], [0 <= x < 1], [0 <= x <= 1] *)
Definition in_oo (v : value) : option bool := py_and (py_lt zero v) (py_lt v one).
Definition in_oc (v : value) : option bool := py_and (py_lt zero v) (py_le v one).
Definition in_co (v : value) : option bool := py_and (py_le zero v) (py_lt v one).
Definition in_cc (v : value) : option bool := py_and (py_le zero v) (py_le v one).

(** p2p/_admm.py:64-67 *)
Definition admm_check (o : obj) : outcome obj :=
  reject_if (py_le (o "penalty") zero) (reject_if (py_not (in_oo (o "relaxation"))) (Done o)).
(** p2p/_atc.py:46-47, _atc_tracking.py:55-56, _aug_dgm.py:55-56, _dgd.py:42-43, _ed.py:48-49,
    _extra.py:49-50, _nids.py:50-51, _simple_gt.py:46-47, _wang_elia.py:53-54 *)
Definition plain_check (o : obj) : outcome obj := reject_if (py_le (o "step_size") zero) (Done o).
(** p2p/_atg.py:72-79 *)
Definition atg_check (o : obj) : outcome obj :=
  reject_if (py_le (o "penalty") zero) (reject_if (py_not (in_oo (o "relaxation")))
  (reject_if (py_le (o "gamma") zero) (reject_if (py_le (o "delta") zero) (Done o)))).
(** p2p/_dinno.py:55-60 *)
Definition dinno_check (o : obj) : outcome obj :=
  reject_if (py_le (o "num_local_steps") zero)
  (reject_float_if (o "step_size") (py_le (o "step_size") zero) (reject_if (py_le (o "penalty") zero) (Done o))).
(** p2p/_dlm.py:53-56 *)
Definition dlm_check (o : obj) : outcome obj :=
  reject_if (py_le (o "step_size") zero) (reject_if (py_le (o "penalty") zero) (Done o)).
(** p2p/_gt_saga.py:51-52 *)
Definition gt_saga_check (o : obj) : outcome obj := reject_float_if (o "step_size") (py_le (o "step_size") zero) (Done o).
(** p2p/_gt_sarah.py:53-56 *)
Definition gt_sarah_check (o : obj) : outcome obj :=
  reject_if (py_le (o "num_local_steps") zero) (reject_float_if (o "step_size") (py_le (o "step_size") zero) (Done o)).
(** p2p/_gt_vr.py:53-56 *)
Definition gt_vr_check (o : obj) : outcome obj :=
  reject_float_if (o "step_size") (py_le (o "step_size") zero) (reject_if (py_not (in_oc (o "snapshot_prob"))) (Done o)).
(** p2p/_kgt.py:50-55 and _led.py:47-52 *)
Definition kgt_check (o : obj) : outcome obj :=
  reject_if (py_le (o "num_local_steps") zero)
  (reject_float_if (o "step_size") (py_le (o "step_size") zero)
  (reject_float_if (o "aux_step_size") (py_le (o "aux_step_size") zero) (Done o))).
(** p2p/_lt_admm.py:51-60, inherited by LT_ADMM_VR *)
Definition lt_admm_check (o : obj) : outcome obj :=
  reject_if (py_le (o "num_local_steps") zero)
  (reject_float_if (o "step_size") (py_le (o "step_size") zero)
  (reject_float_if (o "aux_step_size") (py_le (o "aux_step_size") zero)
  (reject_if (py_le (o "penalty") zero) (reject_if (py_le (o "alpha") zero) (Done o))))).
(** p2p/_prox_skip.py:50-57 *)
Definition prox_skip_check (o : obj) : outcome obj :=
  reject_float_if (o "step_size") (py_le (o "step_size") zero)
  (reject_float_if (o "aux_step_size") (py_le (o "aux_step_size") zero)
  (reject_if (py_not (in_oc (o "comm_probability"))) (reject_if (py_lt (o "chi") one) (Done o)))).
(** federated/_fed_avg.py:63-66 *)
Definition fed_avg_check (o : obj) : outcome obj :=
  reject_if (py_le (o "step_size") zero) (reject_if (py_le (o "num_local_steps") zero) (Done o)).
(** federated/_fed_dyn.py:82-87 *)
Definition fed_dyn_check (o : obj) : outcome obj :=
  reject_if (py_le (o "step_size") zero) (reject_if (py_le (o "penalty") zero) (reject_if (py_le (o "num_local_steps") zero) (Done o))).
(** federated/_fed_opt.py:86-95 *)
Definition fed_opt_check (o : obj) : outcome obj :=
  reject_if (py_le (o "step_size") zero) (reject_if (py_le (o "num_local_steps") zero)
  (reject_if (py_le (o "server_step_size") zero) (reject_if (py_not (in_co (o "beta_1")))
  (reject_if (py_le (o "epsilon") zero) (Done o))))).
(** federated/_fed_prox.py:70-75 *)
Definition fed_prox_check (o : obj) : outcome obj :=
  reject_if (py_le (o "step_size") zero) (reject_if (py_le (o "num_local_steps") zero) (reject_if (py_lt (o "penalty") zero) (Done o))).
(** federated/_scaffold.py:96-101 *)
Definition scaffold_check (o : obj) : outcome obj :=
  reject_if (py_le (o "step_size") zero) (reject_if (py_le (o "num_local_steps") zero) (reject_if (py_le (o "server_step_size") zero) (Done o))).
(** FedAlgorithm._validate_num_local_steps, federated/_fed_algorithm.py:30-41: the
    loop over a mapping stops at the first offending value. *)
Fixpoint steps_loop (vs : list value) (o : obj) : outcome obj :=
  match vs with
  | [] => Done o
  | VInt z :: r => if (z <=? 0)%Z then Raises ValueError else steps_loop r o
  | _ :: _ => Raises TypeError
  end.
Definition validate_num_local_steps (o : obj) : outcome obj :=
  match o "num_local_steps" with
  | VInt z => if (z <=? 0)%Z then Raises ValueError else Done o
  | VSteps m => steps_loop (map snd m) o
  | VArgs m => steps_loop (map snd m) o
  | _ => Raises TypeError
  end.
(** federated/_fed_nova.py:140-148 *)
Definition fed_nova_check (o : obj) : outcome obj :=
  reject_if (py_le (o "step_size") zero) (reject_if (py_not (in_co (o "momentum")))
  (reject_if (py_lt (o "penalty") zero) (reject_if (py_not (in_co (o "server_momentum"))) (validate_num_local_steps o)))).
(** federated/_fed_pd.py:83-89 *)
Definition fed_pd_check (o : obj) : outcome obj :=
  reject_if (py_le (o "step_size") zero) (reject_if (py_le (o "penalty") zero)
  (reject_if (py_not (in_cc (o "skip_probability"))) (validate_num_local_steps o))).
(** [user_args.get(key, default)] *)
Fixpoint args_get (m : list (string * value)) (k : string) (d : value) : value :=
  match m with [] => d | (k', v) :: r => if String.eqb k' k then v else args_get r k d end.
(** [set(user_args) - set(default_args)] is not empty *)
Definition unknown_args (m : list (string * value)) (known : list string) : bool :=
  existsb (fun p => negb (existsb (String.eqb (fst p)) known)) m.
Definition set_field (o : obj) (k : string) (v : value) : obj := fun k' => if String.eqb k' k then v else o k'.
(** FedLT._validate_solver_args, federated/_fed_lt.py:165-198: the settled
    arguments replace the given ones before anything is checked. *)
Definition validate_solver_args (o : obj) : outcome obj :=
  match o "local_solver" with
  | VStr "adam" =>
      match o "solver_args" with
      | VArgs u =>
          let b1 := args_get u "beta1" (dec 9 10) in
          let b2 := args_get u "beta2" (dec 999 1000) in
          let e := args_get u "epsilon" (dec 1 100000000) in
          let o' := set_field o "solver_args" (VArgs [("beta1", b1); ("beta2", b2); ("epsilon", e)]) in
          if unknown_args u ["beta1"; "beta2"; "epsilon"] then Raises ValueError
          else reject_if (py_not (in_co b1)) (reject_if (py_not (in_co b2)) (reject_if (py_le e zero) (Done o')))
      | _ => Raises AttributeError
      end
  | VStr "nesterov" =>
      match o "solver_args" with
      | VArgs u =>
          let b := args_get u "momentum" (dec 9 10) in
          let o' := set_field o "solver_args" (VArgs [("momentum", b)]) in
          if unknown_args u ["momentum"] then Raises ValueError else reject_if (py_not (in_co b)) (Done o')
      | _ => Raises AttributeError
      end
  | _ =>
      match o "solver_args" with
      | VArgs u => if unknown_args u [] then Raises ValueError else Done (set_field o "solver_args" (VArgs []))
      | _ => Raises TypeError
      end
  end.
(** [local_solver not in {"gd", "nesterov", "adam"}] *)
Definition known_solver (v : value) : bool :=
  match v with VStr s => existsb (String.eqb s) ["gd"; "nesterov"; "adam"] | _ => false end.
(** federated/_fed_lt.py:155-163 *)
Definition fed_lt_check (o : obj) : outcome obj :=
  reject_if (py_le (o "step_size") zero) (reject_if (py_le (o "num_local_steps") zero) (reject_if (py_le (o "penalty") zero)
  (if known_solver (o "local_solver") then validate_solver_args o else Raises ValueError))).
(** federated/_fed_adam.py:71-73 and _fed_yogi.py:73-75: the checks of FedOpt first;
    [super().__post_init__()] is FedOpt's wrapped method, which checks [iterations] again. *)
Definition fed_adam_check (o : obj) : outcome obj :=
  reject_if (py_le (o "iterations") zero)
  (match fed_opt_check o with Done o' => reject_if (py_not (in_co (o' "beta_2"))) (Done o') | Raises e => Raises e end).

(** the [__post_init__] each class defines or inherits *)
Definition own_check (a : alg) : obj -> outcome obj :=
  match a with
  | ADMM => admm_check
  | ATC | ATC_Tracking | AugDGM | DGD | ED | EXTRA | NIDS | SimpleGT | WangElia => plain_check
  | ATG => atg_check | DiNNO => dinno_check | DLM => dlm_check | GT_SAGA => gt_saga_check
  | GT_SARAH => gt_sarah_check | GT_VR => gt_vr_check | KGT | LED => kgt_check
  | LT_ADMM | LT_ADMM_VR => lt_admm_check | ProxSkip => prox_skip_check
  | FedAdagrad => fed_opt_check | FedAdam | FedYogi => fed_adam_check
  | FedAvg => fed_avg_check | FedDyn => fed_dyn_check | FedLT => fed_lt_check
  | FedNova => fed_nova_check | FedPD => fed_pd_check | FedProx => fed_prox_check | Scaffold => scaffold_check
  end.
(** Algorithm.__init_subclass__, algorithms/_algorithm.py:22-31: [iterations] is checked before the class's own method. *)
Definition post_init (a : alg) (o : obj) : outcome obj := reject_if (py_le (o "iterations") zero) (own_check a o).

(** The dataclass constructor: an unknown keyword is a TypeError, a field not
    given takes its default. *)
Definition attributes (a : alg) (kw : list (string * value)) : obj :=
  fun k => args_get kw k (args_get (fields a) k VObj).
Definition construct (a : alg) (kw : list (string * value)) : outcome obj :=
  if unknown_args kw (map fst (fields a)) then Raises TypeError else post_init a (attributes a kw).

(** FedAlgorithm._settle_num_local_steps, federated/_fed_algorithm.py:51-60. *)
Fixpoint steps_of (m : list (nat * value)) (c : nat) : option value :=
  match m with [] => None | (c', v) :: r => if Nat.eqb c' c then Some v else steps_of r c end.
Definition settle_num_local_steps (o : obj) (clients : list nat) : outcome (list (nat * value)) :=
  match o "num_local_steps" with
  | VInt z => Done (map (fun c => (c, VInt z)) clients)
  | VSteps m =>
      if existsb (fun c => match steps_of m c with None => true | Some _ => false end) clients then Raises ValueError
      else Done (map (fun c => (c, match steps_of m c with Some v => v | None => VObj end)) clients)
  | _ => Raises TypeError
  end.
