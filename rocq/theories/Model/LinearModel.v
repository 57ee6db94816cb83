(** Model of /repo/decent_bench/utils/pytorch_utils.py: [SimpleLinearModel]
    (32-89), [ArgmaxActivation] (92-113), [ArgminActivation] (116-137).

    Simplifications: PyTorch is installed; tensors have real entries; one sample at a
    time (a list of numbers), a batch being its list of rows; the [k]-th linear layer
    has the [k]-th weight and bias of a list of parameters, in the order of
    [parameters()]; [argmax] and [argmin] are taken along the last axis of a batch (the
    default [dim=1]) and give the first of equal entries, which PyTorch leaves open. *)
From Coq Require Import String List Reals Bool Arith.
Import ListNotations.

(** the modules appended to [layers], pytorch_utils.py:60-84 *)
Inductive layer := Linear (inputs outputs : nat) | ReLU | Tanh | Sigmoid.

(** pytorch_utils.py:66-71, 76-82: no layer for [None] nor for any other name *)
Definition activation_layers (activation : option string) : list layer :=
  match activation with
  | Some a =>
    if String.eqb a "relu" then [ReLU]
    else if String.eqb a "tanh" then [Tanh]
    else if String.eqb a "sigmoid" then [Sigmoid]
    else []
  | None => []
  end.
(** the loop over [hidden_sizes] with [prev_size], pytorch_utils.py:61-72 *)
Fixpoint hidden_layers (prev_size : nat) (hidden_sizes : list nat) (activation : option string) : list layer * nat :=
  match hidden_sizes with
  | [] => ([], prev_size)
  | h :: rest =>
    let (layers, last) := hidden_layers h rest activation in
    (Linear prev_size h :: activation_layers activation ++ layers, last)
  end.
(** [__init__], pytorch_utils.py:48-84 *)
Definition simple_linear_model (input_size : nat) (hidden_sizes : list nat) (output_size : nat) (activation output_activation : option string) : list layer :=
  let (layers, prev_size) := hidden_layers input_size hidden_sizes activation in
  layers ++ [Linear prev_size output_size] ++ activation_layers output_activation.

(** torch.nn.Linear: weight of shape (outputs, inputs), bias; the input must have
    [inputs] entries *)
Definition dot (a b : list R) : R := fold_right Rplus 0%R (map (fun p => fst p * snd p)%R (combine a b)).
Definition affine (w : list (list R) * list R) (x : list R) : list R :=
  map (fun p => (dot (fst p) x + snd p)%R) (combine (fst w) (snd w)).
(** torch.nn.ReLU, Tanh, Sigmoid *)
Definition relu (x : R) : R := Rmax 0 x.
Definition sigmoid (x : R) : R := (1 / (1 + exp (- x)))%R.

(** [forward] through torch.nn.Sequential, pytorch_utils.py:86-89; [None] when PyTorch
    refuses the sizes *)
Fixpoint forward (layers : list layer) (params : list (list (list R) * list R)) (x : list R) : option (list R) :=
  match layers with
  | [] => Some x
  | Linear i o :: rest =>
    match params with
    | w :: params => if Nat.eqb (List.length x) i then forward rest params (affine w x) else None
    | [] => None
    end
  | ReLU :: rest => forward rest params (map relu x)
  | Tanh :: rest => forward rest params (map tanh x)
  | Sigmoid :: rest => forward rest params (map sigmoid x)
  end.
(** the shapes of the parameters torch creates for the layers *)
Fixpoint parameter_shapes (layers : list layer) : list (nat * nat * nat) :=
  match layers with
  | [] => []
  | Linear i o :: rest => (o, i, o) :: parameter_shapes rest
  | _ :: rest => parameter_shapes rest
  end.

(** [torch.argmax] along a row: [best] at [k] so far, [i] the next index *)
Fixpoint arg_from (better : R -> R -> bool) (best : R) (k i : nat) (row : list R) : nat :=
  match row with
  | [] => k
  | y :: rest => if better y best then arg_from better y i (S i) rest else arg_from better best k (S i) rest
  end.
Definition arg_row (better : R -> R -> bool) (row : list R) : option nat :=
  match row with [] => None | y :: rest => Some (arg_from better y 0 1 rest) end.
(** [ArgmaxActivation.forward], pytorch_utils.py:111-113; an empty row is an error *)
Definition argmax_row := arg_row (fun y best => if Rlt_dec best y then true else false).
(** [ArgminActivation.forward], pytorch_utils.py:135-137 *)
Definition argmin_row := arg_row (fun y best => if Rlt_dec y best then true else false).
