(** Vocabulary for feedforward networks. *)
From Coq Require Import String List Reals Bool Arith.
Import ListNotations.
Local Open Scope R_scope.

(** The function an activation name stands for; anything else is the identity. *)
Definition is_relu (f : R -> R) : Prop := forall x, f x = (if Rle_dec 0 x then x else 0).
Definition is_sigmoid (f : R -> R) : Prop := forall x, f x = / (1 + exp (- x)).
Definition is_tanh (f : R -> R) : Prop := forall x, f x = (exp x - exp (- x)) / (exp x + exp (- x)).
Definition stands_for (name : option string) (f : R -> R) : Prop :=
  (name = Some "relu"%string /\ is_relu f) \/ (name = Some "tanh"%string /\ is_tanh f) \/ (name = Some "sigmoid"%string /\ is_sigmoid f)
  \/ (name = None /\ forall x, f x = x).

(** [W x + b]: entry [i] is the product of row [i] with [x] plus [b_i]. *)
Definition product (a x : list R) : R := fold_right Rplus 0 (map (fun p => fst p * snd p) (combine a x)).
Definition is_affine_image (W : list (list R)) (b x y : list R) : Prop :=
  List.length y = List.length W /\ forall i, (i < List.length W)%nat -> nth i y 0 = product (nth i W []) x + nth i b 0.

(** [y] is what the network with these weights makes of [x]: hidden layers with [f],
    the output layer with [g]. *)
Inductive network_output (f g : R -> R) : list (list (list R) * list R) -> list R -> list R -> Prop :=
| out_last W b x z : is_affine_image W b x z -> network_output f g [(W, b)] x (map g z)
| out_hidden W b w ws x z y : is_affine_image W b x z -> network_output f g (w :: ws) (map f z) y -> network_output f g ((W, b) :: w :: ws) x y.

(** Weights of layers of the given sizes. *)
Definition sized (i o : nat) (w : list (list R) * list R) : Prop :=
  List.length (fst w) = o /\ Forall (fun row => List.length row = i) (fst w) /\ List.length (snd w) = o.
Fixpoint fits (i : nat) (sizes : list nat) (ws : list (list (list R) * list R)) : Prop :=
  match sizes, ws with
  | [], [] => True
  | o :: sizes, w :: ws => sized i o w /\ fits o sizes ws
  | _, _ => False
  end.
(** number of weights and biases *)
Fixpoint parameter_count (i : nat) (sizes : list nat) : nat :=
  match sizes with [] => O | o :: sizes => ((i + 1) * o + parameter_count o sizes)%nat end.
Definition entries (w : list (list R) * list R) : nat := (List.length (concat (fst w)) + List.length (snd w))%nat.

Definition mix (t : R) (x y : list R) : list R := map (fun p => (1 - t) * fst p + t * snd p) (combine x y).
Definition largest_at (row : list R) (k : nat) : Prop := (k < List.length row)%nat /\ forall j, (j < List.length row)%nat -> nth j row 0 <= nth k row 0.
Definition smallest_at (row : list R) (k : nat) : Prop := (k < List.length row)%nat /\ forall j, (j < List.length row)%nat -> nth k row 0 <= nth j row 0.
