(** Conversions between array frameworks and the decorator of cost methods,
    /repo/decent_bench/utils/interoperability/_functions.py:53-263,
    _helpers.py:71-108 and _decorators.py:21-110.

    Simplifications: what the frameworks themselves do is taken to be faithful
    (a conversion keeps the entries; with a dtype given the entries are cast by
    [cast]); conversions of values that are no arrays (lists, [None]) are left to
    [of_other], which may fail; memory sharing between a tensor and the result is
    not modelled.  A tensor of a framework exists only if it is installed. *)
From Coq Require Import List Bool String.
Import ListNotations.

(** utils/types.py, [SupportedFrameworks] and [SupportedDevices] *)
Inductive framework := NumPy | PyTorch | TensorFlow | Jax.
Inductive device := CPU | GPU | MPS.
Definition framework_eqb (a b : framework) : bool :=
  match a, b with
  | NumPy, NumPy | PyTorch, PyTorch | TensorFlow, TensorFlow | Jax, Jax => true
  | _, _ => false
  end.

(** raised exceptions *)
Inductive exn := EValue | EType | EImport | EOther.
Inductive out (A : Type) := Ret (a : A) | Raise (e : exn).
Arguments Ret {A}. Arguments Raise {A}.
Definition obind {A B} (x : out A) (f : A -> out B) : out B :=
  match x with Ret a => f a | Raise e => Raise e end.

Section Interop.
  (** dtypes, entries, numbers, other Python values *)
  Context {D C N O : Type}.
  Variables f32 : D.
  (** [dtype == np.float64] *)
  Variable is_np_f64 : D -> bool.
  Variable cast : D -> C -> C.
  Variable of_num : N -> D * C.
  Variable of_other : O -> out (D * C).
  (** which of PyTorch, TensorFlow and JAX can be imported; NumPy always *)
  Variable installed : framework -> bool.

  Record tensor := mkTensor { t_fw : framework; t_dev : device; t_dtype : D; t_data : C }.
  (** what an [Array] can wrap, and what a caller can pass *)
  Inductive raw := RTensor (t : tensor) | RNum (n : N) | ROther (o : O).
  Inductive pyval := Native (r : raw) | Wrapped (r : raw).
  (** [array.value if isinstance(array, Array) else array] *)
  Definition value (v : pyval) : raw := match v with Native r | Wrapped r => r end.

  (** [framework_device_of_array], _helpers.py:71-108: numbers count as NumPy; the
      device of a TensorFlow or JAX array is "gpu" or else the CPU *)
  Definition framework_device (r : raw) : out (framework * device) :=
    match r with
    | RTensor t =>
      Ret (match t_fw t with
           | NumPy => (NumPy, CPU)
           | PyTorch => (PyTorch, t_dev t)
           | TensorFlow => (TensorFlow, match t_dev t with GPU => GPU | _ => CPU end)
           | Jax => (Jax, match t_dev t with GPU => GPU | _ => CPU end)
           end)
    | RNum _ => Ret (NumPy, CPU)
    | ROther _ => Raise EType
    end.

  (** a new array with the entries of another, cast if a dtype is asked for *)
  Definition made (fw : framework) (dv : device) (dtype : option D) (d : D) (c : C) : tensor :=
    match dtype with
    | Some d' => mkTensor fw dv d' (cast d' c)
    | None => mkTensor fw dv d c
    end.
  Definition made_from (fw : framework) (dv : device) (dtype : option D) (r : raw) : out tensor :=
    match r with
    | RTensor t => Ret (made fw dv dtype (t_dtype t) (t_data t))
    | RNum n => let (d, c) := of_num n in Ret (made fw dv dtype d c)
    | ROther o => obind (of_other o) (fun dc => Ret (made fw dv dtype (fst dc) (snd dc)))
    end.

  (** [to_numpy], _functions.py:53-90: a NumPy array is returned as it is *)
  Definition to_numpy (v : pyval) (dtype : option D) : out tensor :=
    match value v with
    | RTensor t => match t_fw t with NumPy => Ret t | _ => made_from NumPy CPU dtype (value v) end
    | _ => made_from NumPy CPU dtype (value v)
    end.
  (** [to_torch], _functions.py:93-127 *)
  Definition to_torch (v : pyval) (dv : device) (dtype : option D) : out tensor :=
    if installed PyTorch then
      made_from PyTorch dv (match dtype with Some d => Some (if is_np_f64 d then f32 else d) | None => None end) (value v)
    else Raise EImport.
  (** [device_to_framework_device], _helpers.py:11-37, for TensorFlow and JAX:
      TensorFlow takes any device name, JAX knows "cpu" and otherwise uses "gpu" *)
  Definition jax_device (dv : device) : device := match dv with CPU => CPU | _ => GPU end.
  (** [to_tensorflow], _functions.py:130-170: a TensorFlow tensor is returned as it is *)
  Definition to_tensorflow (v : pyval) (dv : device) (dtype : option D) : out tensor :=
    if installed TensorFlow then
      match value v with
      | RTensor t => match t_fw t with TensorFlow => Ret t | _ => made_from TensorFlow dv dtype (value v) end
      | _ => made_from TensorFlow dv dtype (value v)
      end
    else Raise EImport.
  (** [to_jax], _functions.py:173-204: a JAX array is moved to the device *)
  Definition to_jax (v : pyval) (dv : device) (dtype : option D) : out tensor :=
    if installed Jax then
      match value v with
      | RTensor t =>
        match t_fw t with
        | Jax => Ret (mkTensor Jax (jax_device dv) (t_dtype t) (t_data t))
        | _ => made_from Jax (jax_device dv) dtype (value v)
        end
      | _ => made_from Jax (jax_device dv) dtype (value v)
      end
    else Raise EImport.

  (** [to_array], _functions.py:207-242 ([_return_array] returns its argument at
      run time, _helpers.py:49-68) *)
  Definition to_array (v : pyval) (fw : framework) (dv : device) (dtype : option D) : out tensor :=
    match fw with
    | NumPy => to_numpy v dtype
    | PyTorch => if installed PyTorch then to_torch v dv dtype else Raise EType
    | TensorFlow => if installed TensorFlow then to_tensorflow v dv dtype else Raise EType
    | Jax => if installed Jax then to_jax v dv dtype else Raise EType
    end.
  (** [to_array_like], _functions.py:245-263; the dtype of a NumPy, TensorFlow or
      JAX array or of a tensor, and none for a number *)
  Definition to_array_like (v like : pyval) : out tensor :=
    obind (framework_device (value like)) (fun fd =>
      to_array v (fst fd) (snd fd) (match value like with RTensor t => Some (t_dtype t) | _ => None end)).

  (** [_get_converter], _decorators.py:21-31, applied with [self.device] *)
  Definition converter (fw : framework) (dv : device) (v : pyval) : out tensor :=
    match fw with
    | NumPy => to_numpy v None
    | PyTorch => to_torch v dv None
    | TensorFlow => to_tensorflow v dv None
    | Jax => to_jax v dv None
    end.

  (** the annotation of a method's return type: with
      [from __future__ import annotations] (costs/_base/_cost.py:1,
      costs/_empirical_risk/_empirical_risk_cost.py:1) it is a string, not the
      class *)
  Inductive annotation := AClassArray | AString (s : string) | ANone.
  (** [return_type_annotation is Array], _decorators.py:101 *)
  Definition is_array_class (a : annotation) : bool := match a with AClassArray => true | _ => false end.
  (** the annotations of [Cost] and [EmpiricalRiskCost], the only classes whose
      methods are given to the decorator: _cost.py:121-145,
      _empirical_risk_cost.py:75-202 *)
  Inductive method := Predict | Function | Gradient | Hessian | Proximal.
  Definition superclass_annotation (m : method) : annotation :=
    match m with
    | Function => AString "float"
    | Predict | Gradient | Hessian | Proximal => AString "Array"
    end.

  (** one argument, _decorators.py:74-84 and 87-97: what is passed on, and whether
      a warning is logged *)
  Definition convert_arg (fw : framework) (dv : device) (v : pyval) : out (pyval * bool) :=
    match v with
    | Wrapped r =>
      obind (framework_device r) (fun fd =>
      obind (converter fw dv v) (fun t =>
        Ret (Native (RTensor t), negb (framework_eqb (fst fd) fw))))
    | Native _ => Ret (v, false)
    end.
  Fixpoint convert_args (fw : framework) (dv : device) (l : list pyval) : out (list pyval * list bool) :=
    match l with
    | [] => Ret ([], [])
    | v :: l =>
      obind (convert_arg fw dv v) (fun a => obind (convert_args fw dv l) (fun r =>
        Ret (fst a :: fst r, snd a :: snd r)))
    end.
  (** keyword arguments: the same, under their names *)
  Fixpoint convert_kwargs (fw : framework) (dv : device) (l : list (string * pyval)) : out (list (string * pyval) * list bool) :=
    match l with
    | [] => Ret ([], [])
    | (k, v) :: l =>
      obind (convert_arg fw dv v) (fun a => obind (convert_kwargs fw dv l) (fun r =>
        Ret ((k, fst a) :: fst r, snd a :: snd r)))
    end.

  Fixpoint lookup (k : string) (l : list (string * pyval)) : option pyval :=
    match l with [] => None | (k', v) :: l => if String.eqb k k' then Some v else lookup k l end.

  (** the wrapper, _decorators.py:62-104: [func] is the decorated method; the
      number of warnings logged is also returned *)
  Definition wrapper (a : annotation) (fw : framework) (dv : device)
      (func : list pyval -> list (string * pyval) -> out pyval)
      (args : list pyval) (kwargs : list (string * pyval)) : out (pyval * nat) :=
    match match args with x :: _ => Some x | [] => lookup "x" kwargs end with
    | None => Raise EValue
    | Some x_like =>
      obind (convert_args fw dv args) (fun na =>
      obind (convert_kwargs fw dv kwargs) (fun nk =>
      obind (func (fst na) (fst nk)) (fun result =>
        let warnings := count_occ bool_dec (snd na ++ snd nk) true in
        if is_array_class a then obind (to_array_like result x_like) (fun t => Ret (Native (RTensor t), warnings))
        else Ret (result, warnings))))
    end.
  (** a decorated method of a cost with framework [fw] on device [dv] *)
  Definition decorated (m : method) := wrapper (superclass_annotation m).
End Interop.

Arguments tensor : clear implicits. Arguments raw : clear implicits. Arguments pyval : clear implicits.
