(** What conversions between frameworks and the decorator of cost methods should do. *)
From Coq Require Import List Bool String.
From Verif.Model Require Import Interop.
Import ListNotations.

Section Spec.
  Context {D C N O : Type}.
  Notation tensor := (tensor D C). Notation pyval := (pyval D C N O).
  (** arrays that exist: NumPy arrays are on the CPU, TensorFlow and JAX ones on
      CPU or GPU *)
  Definition exists_as (t : tensor) : Prop :=
    match t_fw t with
    | NumPy => t_dev t = CPU
    | PyTorch => True
    | TensorFlow | Jax => t_dev t <> MPS
    end.
  (** the device a framework can be asked for *)
  Definition offers (fw : framework) (dv : device) : Prop :=
    match fw with NumPy => dv = CPU | PyTorch => True | TensorFlow | Jax => dv <> MPS end.
  Definition same_entries (t t' : tensor) : Prop := t_data t' = t_data t /\ t_dtype t' = t_dtype t.

  (** the argument of a cost method as the caller gives it and as the method of a
      cost with framework [fw] gets it: arrays in the wrapper class arrive unwrapped
      in the cost's framework, anything else arrives as it is *)
  Inductive arrives (of_num : N -> D * C) (fw : framework) : pyval -> pyval -> Prop :=
  | arr_native r : arrives of_num fw (Native r) (Native r)
  | arr_wrapped t t' : t_fw t' = fw -> same_entries t t' -> arrives of_num fw (Wrapped (RTensor t)) (Native (RTensor t'))
  | arr_number n t' : t_fw t' = fw -> (t_dtype t', t_data t') = of_num n -> arrives of_num fw (Wrapped (RNum n)) (Native (RTensor t')).
  (** a wrapped array of another framework *)
  Definition foreign (fw : framework) (v : pyval) : bool :=
    match v with
    | Wrapped (RTensor t) => negb (framework_eqb (t_fw t) fw)
    | Wrapped (RNum _) => negb (framework_eqb NumPy fw)
    | _ => false
    end.
  (** wrapped values are arrays or numbers *)
  Definition proper (v : pyval) : Prop := match v with Wrapped (ROther _) => False | _ => True end.
End Spec.
