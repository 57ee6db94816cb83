(** What runtime metrics may do to a run, and the values they report. *)
From Coq Require Import Reals List Arith ZArith Znumtheory.
From Verif.Model Require Import PyDict History Messages Network Counting Vec Metrics Runner Runtime.
From Verif.Spec Require Import AggregateSpec.
Local Open Scope R_scope.

(** Calls leave the private state of the cost as it is. *)
Definition stateless {Q} (c : rcost Q) : Prop := forall x q, snd (rc_fun c x q) = q /\ snd (rc_grad c x q) = q.

(** Iterations at which a metric reports: multiples of its interval (0 is one)
    and the last. *)
Definition due (interval : Z) (iters k : nat) : Prop := (interval | Z.of_nat k)%Z \/ (k + 1 = iters)%nat.
Definition due_dec (interval : Z) (iters k : nat) : {due interval iters k} + {~ due interval iters k}.
Proof.
  unfold due. destruct (Zdivide_dec interval (Z.of_nat k)) as [D|D]; [left; left; exact D|].
  destruct (Nat.eq_dec (k + 1) iters) as [N|N]; [left; right; exact N|right; tauto].
Defined.

(** Two situations that only differ in the private states of the costs, which
    are related by [E]; [no_count] blocks and counters agree. *)
Definition same_count (c c' : cstate) : Prop :=
  (forall a, c_depth c a = c_depth c' a) /\ forall a k, c_count c a k = c_count c' a k.
Definition same_up_to {Q P} (E : Q -> Q -> Prop) (w w' : world vec (@ostate Q P)) : Prop :=
  fst (fst w) = fst (fst w') /\ (forall a, E (o_state (snd (fst w)) a) (o_state (snd (fst w')) a)) /\
  same_count (o_count (snd (fst w))) (o_count (snd (fst w'))) /\ snd w = snd w'.
Definition same_call {Q P} (E : Q -> Q -> Prop) (c c' : call vec (@ostate Q P)) : Prop :=
  match c, c' with
  | CInit w, CInit w' => same_up_to E w w'
  | CStep k w, CStep k' w' => k = k' /\ same_up_to E w w'
  | CCallback k w, CCallback k' w' => k = k' /\ same_up_to E w w'
  | _, _ => False
  end.
Definition equivalence {Q} (E : Q -> Q -> Prop) : Prop :=
  (forall q, E q q) /\ (forall q r, E q r -> E r q) /\ (forall q r s, E q r -> E r s -> E q s).

(** No agent is in a "negative" [no_count] block. *)
Definition balanced {Q P} (w : world vec (@ostate Q P)) : Prop := forall a, (0 <= c_depth (o_count (snd (fst w))) a)%Z.
Definition keeps_balance {Q P} (A : alg vec (@ostate Q P)) : Prop :=
  (forall w, balanced w -> balanced (al_init A w)) /\ (forall k w, balanced w -> balanced (fst (al_step A k w))).
(** The algorithm does not depend on what [E] forgets. *)
Definition respects {Q P} (E : Q -> Q -> Prop) (A : alg vec (@ostate Q P)) : Prop :=
  (forall w w', same_up_to E w w' -> same_up_to E (al_init A w) (al_init A w')) /\
  (forall k w w', same_up_to E w w' -> same_up_to E (fst (al_step A k w)) (fst (al_step A k w')) /\ snd (al_step A k w) = snd (al_step A k w')).

(** The value a metric has: a function of the current variables of the agents
    and the iteration; [None] when it cannot be computed. *)
Definition value_fn : Type := list (option vec) -> nat -> option fval.
(** The metric has that value whatever it has cached in earlier updates ([I]
    holds of its cache) and whatever the state of the costs. *)
Definition reports_with {Q} (ags : list agent_id) (cost : agent_id -> rcost Q) (xopt : option vec) (I : option R -> Prop) (m : rmetric) (F : value_fn) : Prop :=
  I (rm_cache m) /\ forall c xs k o, length xs = length ags -> I c ->
    match fst (oexec cost ags (rm_compute m c xopt xs k) o) with
    | Some (v, c') => F xs k = Some v /\ I c'
    | None => F xs k = None
    end.
Definition reports {Q} (ags : list agent_id) (cost : agent_id -> rcost Q) (xopt : option vec) (m : rmetric) (F : value_fn) : Prop :=
  exists I, reports_with ags cost xopt I m F.
(** the current variables of the agents *)
Definition variables {V} (ags : list agent_id) (n : net V) : list (option V) := map (fun a => a_x (n_agents n a)) ags.
(** the point due at a call of the callback *)
Definition point_at {Q P} (ags : list agent_id) (interval : Z) (iters : nat) (F : value_fn) (c : call vec (@ostate Q P)) : list (nat * fval) :=
  match c with
  | CCallback k w =>
      if due_dec interval iters k
      then match F (variables ags (snd w)) k with Some v => cons (k, v) nil | None => nil end
      else nil
  | _ => nil
  end.
(** what the plotter receives from metric number [i] *)
Definition sent (i : nat) (ps : list point) : list (nat * fval) :=
  map (fun p => (snd (fst p), snd p)) (filter (fun p => Nat.eqb (fst (fst p)) i) ps).

(** Values of a list, when all are there. *)
Fixpoint all_some {A} (l : list (option A)) : option (list A) :=
  match l with
  | nil => Some nil
  | None :: _ => None
  | Some a :: l' => match all_some l' with Some r => Some (a :: r) | None => None end
  end%list.
(** mean of [f i x_i] over the agents, if there is one and all values exist *)
Definition agent_mean (f : nat -> vec -> option R) (xs : list (option vec)) : option R :=
  match all_some (map (fun p => match snd p with Some x => f (fst p) x | None => None end) (combine (seq 0 (length xs)) xs)) with
  | Some (cons v vs) => Some (mean (v :: vs)%list)
  | _ => None
  end.
(** [h] of the agent at a position *)
Definition at_agent {A} (ags : list agent_id) (h : agent_id -> vec -> option A) (i : nat) (x : vec) : option A :=
  match nth_error ags i with Some a => h a x | None => None end.
