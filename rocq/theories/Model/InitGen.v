(** Generators of initial states, /repo/decent_bench/algorithms/utils.py:85-193.

    The random generator of the framework is an unlimited sequence [z] of
    variates (standard normal, or uniform on [0,1)) and the position of the next
    one; sampling an array takes one variate per entry in order
    (utils/interoperability/_rng.py:285-299, 328-344). Simplifications: all agents
    use the same framework, hence the same generator; entries past the size of an
    array, which mean nothing, are 0; a cost is given by its shape and, if it is a
    [PyTorchCost], the flattened parameters of its model
    (costs/_empirical_risk/_pytorch_cost.py:259-262). *)
From Coq Require Import Reals List Bool Arith.
From Verif.Model Require Import PyDict Messages Network Vec InitStates.
Import ListNotations.
Local Open Scope R_scope.

(** number of entries of an array *)
Definition size (s : shape) : nat := fold_right Nat.mul 1%nat s.
Inductive gen_res (A : Type) := GOk (a : A) | GValueError | GTypeError | GStopIteration.
Arguments GOk {A} _. Arguments GValueError {A}. Arguments GTypeError {A}. Arguments GStopIteration {A}.

Section Gen.
  Variables (t : topo) (cost_shape : agent_id -> shape) (z : nat -> R).

  (** [iop.normal(shape, mean, std)] / [iop.uniform(low, high, shape)], with [f]
      the affine map applied to the variates *)
  Definition sample (f : R -> R) (s : shape) (p : nat) : arr * nat :=
    (mkArr s (fun i => if Nat.ltb i (size s) then f (z (p + i)) else 0), (p + size s)%nat).
  (** the dict comprehension over [network.graph] *)
  Fixpoint sample_all (f : R -> R) (l : list agent_id) (p : nat) : list (agent_id * arr) * nat :=
    match l with
    | [] => ([], p)
    | a :: l' =>
        let (x, p1) := sample f (cost_shape a) p in
        let (r, p2) := sample_all f l' p1 in
        ((a, x) :: r, p2)
    end.

  (** [normal_initialization], utils.py:105-108 *)
  Definition normal_initialization (mean std : R) (p : nat) : list (agent_id * arr) * nat :=
    sample_all (fun u => mean + std * u) (t_nodes t) p.

  (** [uniform_initialization], utils.py:134-140 *)
  Definition uniform_initialization (low high : R) (p : nat) : gen_res (list (agent_id * arr)) * nat :=
    if Rle_dec high low then (GValueError, p)
    else let (r, p') := sample_all (fun u => low + (high - low) * u) (t_nodes t) p in (GOk r, p').

  (** the parameters of an agent's model; [None]: its cost is no [PyTorchCost] *)
  Variable parameters : agent_id -> option arr.
  (** utils.py:183-193: the loop over [network.graph] *)
  Fixpoint torch_loop (l : list agent_id) : gen_res (list (agent_id * arr)) :=
    match l with
    | [] => GOk []
    | a :: l' =>
        match parameters a with
        | None => GTypeError
        | Some v => match torch_loop l' with GOk r => GOk ((a, v) :: r) | e => e end
        end
    end.
  (** [pytorch_initialization], utils.py:168-193; the result is what
      [initial_states] takes *)
  Definition pytorch_initialization (all_same : bool) : gen_res x0arg :=
    if all_same then
      match agents t with
      | [] => GStopIteration
      | a :: _ => match parameters a with None => GTypeError | Some v => GOk (X0Array v) end
      end
    else
      match torch_loop (t_nodes t) with
      | GOk r => GOk (X0Dict (map (fun e => (KeyAgent (fst e) (cost_shape (fst e)), snd e)) r))
      | GValueError => GValueError | GTypeError => GTypeError | GStopIteration => GStopIteration
      end.
End Gen.
