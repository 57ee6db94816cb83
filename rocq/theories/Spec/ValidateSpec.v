(** The documented domains of the algorithms' parameters, as a table. *)
From Coq Require Import QArith ZArith List String Bool.
From Verif.Model Require Import Validate.
Import ListNotations.
Local Open Scope string_scope.

Inductive domain := Positive | NonNegative | AtLeastOne | Open01 | Above0UpTo1 | From0Below1 | Closed01.
Definition inside (d : domain) (q : Q) : Prop :=
  match d with
  | Positive => 0 < q
  | NonNegative => 0 <= q
  | AtLeastOne => 1 <= q
  | Open01 => 0 < q /\ q < 1
  | Above0UpTo1 => 0 < q /\ q <= 1
  | From0Below1 => 0 <= q /\ q < 1
  | Closed01 => 0 <= q /\ q <= 1
  end%Q.

Definition opt_domains : list (string * domain) :=
  [("iterations", Positive); ("step_size", Positive); ("num_local_steps", Positive); ("server_step_size", Positive); ("beta_1", From0Below1); ("epsilon", Positive)].
(** which parameters of each class are numbers and where they must lie *)
Definition domains (a : alg) : list (string * domain) :=
  match a with
  | ADMM => [("iterations", Positive); ("penalty", Positive); ("relaxation", Open01)]
  | ATC | ATC_Tracking | AugDGM | DGD | ED | EXTRA | NIDS | SimpleGT | WangElia | GT_SAGA => [("iterations", Positive); ("step_size", Positive)]
  | ATG => [("iterations", Positive); ("penalty", Positive); ("relaxation", Open01); ("gamma", Positive); ("delta", Positive)]
  | DiNNO => [("iterations", Positive); ("step_size", Positive); ("num_local_steps", Positive); ("penalty", Positive)]
  | DLM => [("iterations", Positive); ("step_size", Positive); ("penalty", Positive)]
  | GT_SARAH => [("iterations", Positive); ("num_local_steps", Positive); ("step_size", Positive)]
  | GT_VR => [("iterations", Positive); ("step_size", Positive); ("snapshot_prob", Above0UpTo1)]
  | KGT | LED => [("iterations", Positive); ("num_local_steps", Positive); ("step_size", Positive); ("aux_step_size", Positive)]
  | LT_ADMM | LT_ADMM_VR => [("iterations", Positive); ("num_local_steps", Positive); ("step_size", Positive); ("aux_step_size", Positive); ("penalty", Positive); ("alpha", Positive)]
  | ProxSkip => [("iterations", Positive); ("step_size", Positive); ("aux_step_size", Positive); ("comm_probability", Above0UpTo1); ("chi", AtLeastOne)]
  | FedAdagrad => opt_domains
  | FedAdam | FedYogi => (opt_domains ++ [("beta_2", From0Below1)])%list
  | FedAvg => [("iterations", Positive); ("step_size", Positive); ("num_local_steps", Positive)]
  | FedDyn => [("iterations", Positive); ("step_size", Positive); ("penalty", Positive); ("num_local_steps", Positive)]
  | FedLT => [("iterations", Positive); ("step_size", Positive); ("num_local_steps", Positive); ("penalty", Positive)]
  | FedNova => [("iterations", Positive); ("step_size", Positive); ("num_local_steps", Positive); ("momentum", From0Below1); ("penalty", NonNegative); ("server_momentum", From0Below1)]
  | FedPD => [("iterations", Positive); ("step_size", Positive); ("num_local_steps", Positive); ("penalty", Positive); ("skip_probability", Closed01)]
  | FedProx => [("iterations", Positive); ("step_size", Positive); ("num_local_steps", Positive); ("penalty", NonNegative)]
  | Scaffold => [("iterations", Positive); ("step_size", Positive); ("num_local_steps", Positive); ("server_step_size", Positive)]
  end.

(** [v] is the finite number [q] *)
Definition number (v : value) (q : Q) : Prop := (exists z, v = VInt z /\ q = inject_Z z) \/ v = VFloat (FFin q).
(** what a caller who names the keywords [kw] sets [k] to: the value given, or the default *)
Definition given (kw : list (string * value)) (k : string) (v : value) : Prop :=
  exists pre post, kw = (pre ++ (k, v) :: post)%list /\ ~ In k (map fst pre).
Definition setting (a : alg) (kw : list (string * value)) (k : string) (v : value) : Prop :=
  given kw k v \/ (~ In k (map fst kw) /\ In (k, v) (fields a)).
(** classes that only look at step sizes that are floats *)
Definition float_only (a : alg) (k : string) : Prop :=
  In a [DiNNO; GT_SAGA; GT_SARAH; GT_VR; KGT; LED; LT_ADMM; LT_ADMM_VR; ProxSkip] /\ In k ["step_size"; "aux_step_size"].
(** keyword arguments of the documented types: field names only; numeric
    parameters are finite numbers, step counts integers and step sizes floats *)
Definition typed (a : alg) (kw : list (string * value)) : Prop :=
  (forall k v, In (k, v) kw -> In k (map fst (fields a))) /\
  (forall k d v, In (k, d) (domains a) -> setting a kw k v -> exists q, number v q) /\
  (forall k v, float_only a k -> setting a kw k v -> exists q, v = VFloat (FFin q)) /\
  (forall v, setting a kw "num_local_steps" v -> exists z, v = VInt z).
(** every number lies in its documented domain *)
Definition within (a : alg) (kw : list (string * value)) : Prop :=
  forall k d v q, In (k, d) (domains a) -> setting a kw k v -> number v q -> inside d q.
Definition accepted (a : alg) (kw : list (string * value)) : Prop := exists o, construct a kw = Done o.

(** solver arguments of Fed-LT: the accepted names, their defaults and domains *)
Definition solver_table (s : string) : list (string * (value * domain)) :=
  if String.eqb s "adam" then [("beta1", (dec 9 10, From0Below1)); ("beta2", (dec 999 1000, From0Below1)); ("epsilon", (dec 1 100000000, Positive))]
  else if String.eqb s "nesterov" then [("momentum", (dec 9 10, From0Below1))]
  else [].
(** [u] names only arguments of solver [s], each a finite number in its domain *)
Definition solver_args_ok (s : string) (u : list (string * value)) : Prop :=
  (forall k v, In (k, v) u -> In k (map fst (solver_table s))) /\
  (forall k d D v q, In (k, (d, D)) (solver_table s) -> given u k v -> number v q -> inside D q).
(** Fed-LT's two further parameters: a string and a dict of finite numbers *)
Definition solver_typed (a : alg) (kw : list (string * value)) : Prop :=
  a = FedLT ->
  (forall v, setting a kw "local_solver" v -> exists s, v = VStr s) /\
  (forall v, setting a kw "solver_args" v -> exists u, v = VArgs u /\ forall k x, In (k, x) u -> exists q, number x q).
Definition solver_within (a : alg) (kw : list (string * value)) : Prop :=
  a = FedLT -> forall s u, setting a kw "local_solver" (VStr s) -> setting a kw "solver_args" (VArgs u) ->
  In s ["gd"; "nesterov"; "adam"] /\ solver_args_ok s u.
(** domains bounded on one side only *)
Definition one_sided (d : domain) : Prop := In d [Positive; NonNegative; AtLeastOne].
