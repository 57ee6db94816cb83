(** The operators of [Array] and the functions behind them,
    /repo/decent_bench/utils/array.py:40-237 and
    utils/interoperability/_operators.py:19-577: which function is called, what it
    returns or raises, and which array objects are changed.

    Simplifications: the numbers in an array are an abstract [content]; what a
    framework computes from two contents is the parameter [sem] (broadcasting
    included; [None] if the shapes do not match), the same for all frameworks;
    dtypes are not modelled. NumPy's operator applied to an array of another
    framework is the parameter [mixed]. Objects live in a heap: a reference to a
    mutable array can be held by anybody. A tensor of a framework exists only if
    the framework is installed, so the guards [torch and ..] hold whenever the
    type test after them does. *)
From Coq Require Import List Bool Arith.
From Verif.Model Require Import Interop.
Import ListNotations.

(** types a value can have: [np.ndarray], [np.float64], other [np.generic],
    [torch.Tensor], [tf.Tensor], [jax.Array], Python [float]/[int] *)
Inductive kind := KNdarray | KNpFloat64 | KNpGeneric | KTorch | KTensorFlow | KJax | KNumber.
(** [isinstance(value, (float, int))]: [np.float64] is a subclass of [float] *)
Definition is_number (k : kind) : bool := match k with KNpFloat64 | KNumber => true | _ => false end.
Definition np_arrays (k : kind) : bool := match k with KNdarray | KNpFloat64 | KNpGeneric => true | _ => false end.
Definition is_torch (k : kind) : bool := match k with KTorch => true | _ => false end.
Definition is_tf (k : kind) : bool := match k with KTensorFlow => true | _ => false end.
Definition is_jax (k : kind) : bool := match k with KJax => true | _ => false end.
(** [isinstance(value, ..)] for the tuples of _imports_types.py:34-50 *)
Definition np_types (k : kind) : bool := np_arrays k || is_number k.
Definition torch_types (k : kind) : bool := is_torch k || is_number k.
Definition tf_types (k : kind) : bool := is_tf k || is_number k.
Definition jnp_types (k : kind) : bool := is_jax k || is_number k.
(** [_is_scalar], _operators.py:538-539: NumPy's scalars are registered as [Real] *)
Definition is_scalar (k : kind) : bool := match k with KNpFloat64 | KNpGeneric | KNumber => true | _ => false end.

Inductive bop := Add | Sub | Mul | Div.
Inductive uop := Power | Negative | Absolute | Sqrt | Sign.
Inductive pop := Matmul | Dot.

Section Operators.
  Context {content shape : Type}.
  Variable shape_of : content -> shape.
  Variable shape_eqb : shape -> shape -> bool.
  Variable sem : bop -> content -> content -> option content.
  Variable psem : pop -> content -> content -> option content.
  Variable max_sem : content -> content -> option content.
  Variable usem : uop -> content -> content.

  (** a heap of objects; [h_next] is the next free location *)
  Record heap := mkHeap { h_obj : nat -> kind * content; h_next : nat }.
  Definition loc := nat.
  Definition kind_at (h : heap) (l : loc) : kind := fst (h_obj h l).
  Definition content_at (h : heap) (l : loc) : content := snd (h_obj h l).
  Definition alloc (h : heap) (k : kind) (c : content) : loc * heap :=
    (h_next h, mkHeap (fun l => if Nat.eqb l (h_next h) then (k, c) else h_obj h l) (S (h_next h))).
  Definition write (h : heap) (l : loc) (c : content) : heap :=
    mkHeap (fun l' => if Nat.eqb l' l then (kind_at h l, c) else h_obj h l') (h_next h).

  (** what the operators see: a native value or an [Array] around one,
      array.py:25-39 *)
  Inductive pyobj := Bare (l : loc) | Boxed (l : loc).
  (** [array1.value if isinstance(array1, Array) else array1] *)
  Definition unbox (o : pyobj) : loc := match o with Bare l | Boxed l => l end.
  (** [_return_array], _helpers.py:49-68: at run time its argument *)
  Definition return_array (l : loc) : pyobj := Bare l.
  Definition result : Type := out (pyobj * heap).
  (** a new array object with the result of an operation *)
  Definition fresh (h : heap) (k : kind) (r : option content) : result :=
    match r with Some c => let (l, h') := alloc h k c in Ret (return_array l, h') | None => Raise EValue end.

  (** NumPy's [op] applied to an array of another framework *)
  Variable mixed : bop -> heap -> loc -> loc -> result.
  Variable pmixed : pop -> heap -> loc -> loc -> result.

  (** Python's [v1 op v2] for [v1] a NumPy array or scalar or a number: NumPy's
      own, or the reflected operator of the other framework. (A zero-dimensional
      array gives a NumPy scalar; here it stays an array.) *)
  Definition np_kind (k1 k2 : kind) : kind :=
    match k1, k2 with
    | KNumber, k | k, KNumber => k
    | KNdarray, _ | _, KNdarray => KNdarray
    | KNpFloat64, _ | _, KNpFloat64 => KNpFloat64
    | k, _ => k
    end.
  Definition native (o : bop) (h : heap) (l1 l2 : loc) : result :=
    let r := sem o (content_at h l1) (content_at h l2) in
    let k1 := kind_at h l1 in let k2 := kind_at h l2 in
    match k1 with
    | KNumber => fresh h k2 r
    | _ => if np_types k2 then fresh h (np_kind k1 k2) r else mixed o h l1 l2
    end.

  (** [add], [sub], [mul], [div], _operators.py:19-47, 85-113, 151-179, 217-245 *)
  Definition binop (o : bop) (h : heap) (a1 a2 : pyobj) : result :=
    let l1 := unbox a1 in let l2 := unbox a2 in
    let k1 := kind_at h l1 in let k2 := kind_at h l2 in
    let r := sem o (content_at h l1) (content_at h l2) in
    if np_types k1 then native o h l1 l2
    else if torch_types k1 && torch_types k2 then fresh h KTorch r
    else if tf_types k1 && tf_types k2 then fresh h KTensorFlow r
    else if jnp_types k1 && jnp_types k2 then fresh h KJax r
    else Raise EType.

  (** [value1 op= value2] for arrays that can be changed: the result must have the
      shape of the array *)
  Definition assign (o : bop) (h : heap) (l1 l2 : loc) : result :=
    match sem o (content_at h l1) (content_at h l2) with
    | Some c => if shape_eqb (shape_of c) (shape_of (content_at h l1)) then Ret (return_array l1, write h l1 c) else Raise EValue
    | None => Raise EValue
    end.
  (** [iadd], [isub], [imul], [idiv], _operators.py:50-82, 116-148, 182-214,
      248-280; NumPy scalars, TensorFlow and JAX arrays cannot be changed, so
      [value1 op= value2] makes a new one *)
  Definition ibinop (o : bop) (h : heap) (a1 a2 : pyobj) : result :=
    let l1 := unbox a1 in let l2 := unbox a2 in
    let k1 := kind_at h l1 in let k2 := kind_at h l2 in
    let r := sem o (content_at h l1) (content_at h l2) in
    if np_arrays k1 then
      match k1 with
      | KNdarray => if np_types k2 then assign o h l1 l2 else mixed o h l1 l2
      | _ => native o h l1 l2
      end
    else if is_torch k1 && torch_types k2 then assign o h l1 l2
    else if is_tf k1 && tf_types k2 then fresh h KTensorFlow r
    else if is_jax k1 && jnp_types k2 then fresh h KJax r
    else Raise EType.

  (** [matmul], _operators.py:283-311, and [dot], 314-342: a TensorFlow tensor has
      no method [dot] *)
  Definition product (o : pop) (h : heap) (a1 a2 : pyobj) : result :=
    let l1 := unbox a1 in let l2 := unbox a2 in
    let k1 := kind_at h l1 in let k2 := kind_at h l2 in
    let r := psem o (content_at h l1) (content_at h l2) in
    if np_arrays k1 then (if np_types k2 then fresh h KNdarray r else pmixed o h l1 l2)
    else if is_torch k1 && is_torch k2 then fresh h KTorch r
    else if is_tf k1 && is_tf k2 then match o with Matmul => fresh h KTensorFlow r | Dot => Raise EOther end
    else if is_jax k1 && is_jax k2 then fresh h KJax r
    else Raise EType.

  (** [power], [negative], [absolute], [sqrt], [sign], _operators.py:345-371,
      407-516; the exponent is part of [usem] *)
  Definition unop (o : uop) (h : heap) (a : pyobj) : result :=
    let l := unbox a in let k := kind_at h l in let r := Some (usem o (content_at h l)) in
    if np_arrays k then fresh h k r
    else if is_torch k then fresh h KTorch r
    else if is_tf k then fresh h KTensorFlow r
    else if is_jax k then fresh h KJax r
    else Raise EType.
  (** [ipow], _operators.py:374-404 *)
  Definition ipow (h : heap) (a : pyobj) : result :=
    let l := unbox a in let k := kind_at h l in let c := usem Power (content_at h l) in
    if np_arrays k then match k with KNdarray => Ret (return_array l, write h l c) | _ => fresh h k (Some c) end
    else if is_torch k then Ret (return_array l, write h l c)
    else if is_tf k then fresh h KTensorFlow (Some c)
    else if is_jax k then fresh h KJax (Some c)
    else Raise EType.

  (** [maximum], _operators.py:519-577; [np.maximum] of two numbers is a NumPy
      scalar *)
  Definition np_max_kind (k1 k2 : kind) : kind := match np_kind k1 k2 with KNumber => KNpFloat64 | k => k end.
  Definition maximum (h : heap) (a1 a2 : pyobj) : result :=
    let l1 := unbox a1 in let l2 := unbox a2 in
    let k1 := kind_at h l1 in let k2 := kind_at h l2 in
    let r := max_sem (content_at h l1) (content_at h l2) in
    let r' := max_sem (content_at h l2) (content_at h l1) in
    if (np_types k1 && (np_types k2 || is_scalar k2)) || (np_types k2 && is_scalar k1) then fresh h (np_max_kind k1 k2) r
    else if is_torch k1 || is_torch k2 then
      let other := if is_torch k1 then k2 else k1 in
      if is_torch other || is_scalar other then fresh h KTorch (if is_torch k1 then r else r') else Raise EType
    else if is_tf k1 || is_tf k2 then
      let other := if is_tf k1 then k2 else k1 in
      if tf_types other || is_scalar other then fresh h KTensorFlow (if is_tf k1 then r else r') else Raise EType
    else if jnp_types k1 || jnp_types k2 then
      let other := if is_scalar k1 then k1 else k2 in
      if jnp_types other || is_scalar other then fresh h KJax (if is_scalar k1 then r' else r) else Raise EType
    else Raise EType.

  (** [Array]'s operators, array.py:41-54, 56-67, 82-106 *)
  Definition array_op (o : bop) (h : heap) (self : loc) (other : pyobj) : result := binop o h (Boxed self) other.
  (** [other op self] for [other] a number, array.py:54, 69-80, 134-158:
      [__radd__] is [__add__] *)
  Definition array_rop (o : bop) (h : heap) (other self : loc) : result :=
    match o with Add => binop Add h (Boxed self) (Bare other) | _ => binop o h (Bare other) (Boxed self) end.
  (** [self op= other], array.py:173-223: the variable is bound to what is
      returned *)
  Definition array_iop (o : bop) (h : heap) (self : loc) (other : pyobj) : result := ibinop o h (Boxed self) other.
End Operators.
