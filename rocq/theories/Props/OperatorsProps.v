(** C94: operators on arrays; C95: in-place operators; C96: maximum. *)
From Coq Require Import List Bool Arith Lia.
From Verif.Model Require Import Interop Operators.
From Verif.Spec Require Import OperatorsSpec.
Import ListNotations.

Section Facts.
  Context {content : Type}.
  Notation heap := (@heap content).
  Lemma fresh_new (h : heap) k c f : framework_of k = Some f -> new_array f c h (fresh h k (Some c)).
  Proof.
    intro K. unfold fresh, alloc. eexists _, _. split; [reflexivity|]. cbn [return_array unbox]. unfold kind_at, content_at. cbn [h_obj].
    rewrite Nat.eqb_refl. cbn [fst snd]. repeat split; auto. intros l L. cbn [h_obj]. destruct (Nat.eqb l (h_next h)) eqn:E; auto. apply Nat.eqb_eq in E. lia.
  Qed.
  Lemma write_spec (h : heap) l c : kind_at (write h l c) l = kind_at h l /\ content_at (write h l c) l = c /\ unchanged_but l h (write h l c).
  Proof.
    unfold write. unfold kind_at at 1, content_at at 1. cbn [h_obj]. rewrite Nat.eqb_refl. cbn [fst snd]. repeat split; auto.
    intros l' L N. cbn [h_obj]. destruct (Nat.eqb l' l) eqn:E; auto. apply Nat.eqb_eq in E. contradiction.
  Qed.
End Facts.

Section C94.
  Context {content shape : Type}.
  Variable shape_of : content -> shape.
  Variable shape_eqb : shape -> shape -> bool.
  Hypothesis shape_eqb_spec : forall s s', shape_eqb s s' = true <-> s = s'.
  Variable sem : bop -> content -> content -> option content.
  Variable psem : pop -> content -> content -> option content.
  Variable max_sem : content -> content -> option content.
  Variable usem : uop -> content -> content.
  Notation heap := (@heap content).
  Variable mixed : bop -> heap -> loc -> loc -> result (content := content).
  Variable pmixed : pop -> heap -> loc -> loc -> result (content := content).
  Notation K h a := (kind_at h (unbox a)).
  Notation V h a := (content_at h (unbox a)).
  Notation binop := (binop sem mixed).
  Notation ibinop := (ibinop shape_of shape_eqb sem mixed).
  Notation array_op := (array_op sem mixed). Notation array_rop := (array_rop sem mixed).
  Notation array_iop := (array_iop shape_of shape_eqb sem mixed).
  Notation product := (product psem pmixed). Notation maximum := (maximum max_sem).

  (** Operands of one framework, wrapped or not: a new array of that framework. *)
  Theorem C94_same_framework o h a1 a2 f c : of_framework f (K h a1) (K h a2) -> sem o (V h a1) (V h a2) = Some c ->
    new_array f c h (binop o h a1 a2).
  Proof.
    intros OF SM. unfold Operators.binop, native. rewrite SM.
    destruct (K h a1) eqn:K1, (K h a2) eqn:K2; unfold of_framework in OF; cbn in OF |- *;
      destruct OF as [(A & [B|B])|(A & B)]; try discriminate; try (exfalso; congruence); first [injection A as <- | injection B as <-];
      apply fresh_new; reflexivity.
  Qed.
  (** Operands whose shapes do not match are refused. *)
  Theorem C94_shapes o h a1 a2 f : of_framework f (K h a1) (K h a2) -> sem o (V h a1) (V h a2) = None -> binop o h a1 a2 = Raise EValue.
  Proof.
    intros OF SM. unfold Operators.binop, native. rewrite SM.
    destruct (K h a1) eqn:K1, (K h a2) eqn:K2; unfold of_framework in OF; cbn in OF |- *; auto;
      destruct OF as [(A & [B|B])|(A & B)]; try discriminate; try (injection A as <-); discriminate.
  Qed.
  (** The operators of [Array], also with a number on the left. *)
  Theorem C94_array_operator o h self other f c : of_framework f (kind_at h self) (K h other) ->
    sem o (content_at h self) (V h other) = Some c -> new_array f c h (array_op o h self other).
  Proof. intros OF SM. apply (C94_same_framework o h (Boxed self) other f c OF SM). Qed.
  Theorem C94_reflected o h n self f c : (forall x y, sem Add x y = sem Add y x) -> kind_at h n = KNumber -> framework_of (kind_at h self) = Some f ->
    sem o (content_at h n) (content_at h self) = Some c -> new_array f c h (array_rop o h n self).
  Proof.
    intros CM KN KS SM. unfold Operators.array_rop. destruct o.
    - apply C94_same_framework; [left; cbn; auto|]. cbn [unbox]. now rewrite CM.
    - apply C94_same_framework; [right; cbn; auto|exact SM].
    - apply C94_same_framework; [right; cbn; auto|exact SM].
    - apply C94_same_framework; [right; cbn; auto|exact SM].
  Qed.
  (** Documented: arrays of different frameworks raise [TypeError].  True if the
      first one is not a NumPy array (and the second one is not an [np.float64],
      which is a [float]); a NumPy array or scalar is not checked. *)
  Theorem C94_mixed_partial o h a1 a2 : different_frameworks (K h a1) (K h a2) -> framework_of (K h a1) <> Some NumPy -> K h a2 <> KNpFloat64 ->
    binop o h a1 a2 = Raise EType.
  Proof.
    intros (f1 & f2 & A & B & N) NP NF. unfold Operators.binop.
    destruct (K h a1) eqn:K1, (K h a2) eqn:K2; cbn in *; auto; try congruence.
  Qed.
  Theorem C94_mixed_numpy o h a1 a2 : framework_of (K h a1) = Some NumPy -> different_frameworks (K h a1) (K h a2) ->
    binop o h a1 a2 = mixed o h (unbox a1) (unbox a2).
  Proof.
    intros A (f1 & f2 & B & C & N). unfold Operators.binop, native.
    destruct (K h a1) eqn:K1, (K h a2) eqn:K2; cbn in *; auto; try congruence.
  Qed.
  (** Functions of one array. *)
  Theorem C94_unary o h a f : framework_of (K h a) = Some f -> new_array f (usem o (V h a)) h (unop usem o h a).
  Proof. intro A. unfold unop. destruct (K h a) eqn:E; cbn in *; try discriminate; injection A as <-; apply fresh_new; reflexivity. Qed.
  (** Matrix products, and dot products except in TensorFlow. *)
  Theorem C94_product_partial o h a1 a2 f c : framework_of (K h a1) = Some f -> framework_of (K h a2) = Some f -> (o = Dot -> f <> TensorFlow) ->
    psem o (V h a1) (V h a2) = Some c -> new_array f c h (product o h a1 a2).
  Proof.
    intros A B D SM. unfold Operators.product. rewrite SM.
    destruct (K h a1) eqn:K1, (K h a2) eqn:K2; cbn in *; try congruence; injection A as <-;
      try (apply fresh_new; reflexivity). destruct o; [apply fresh_new; reflexivity|exfalso; now apply D].
  Qed.
  Theorem C94_tensorflow_dot_refuted h a1 a2 : K h a1 = KTensorFlow -> K h a2 = KTensorFlow -> product Dot h a1 a2 = Raise EOther.
  Proof. intros A B. unfold Operators.product. now rewrite A, B. Qed.

  (** ** C95: in-place operators *)
  (** On a NumPy array or a PyTorch tensor: the array itself is changed, so every
      holder of it sees the result, and no other object is touched. *)
  Theorem C95_mutable o h a1 a2 f c : of_framework f (K h a1) (K h a2) -> mutable (K h a1) -> sem o (V h a1) (V h a2) = Some c ->
    shape_of c = shape_of (V h a1) ->
    exists r h', ibinop o h a1 a2 = Ret (r, h') /\ unbox r = unbox a1 /\ K h' a1 = K h a1 /\ V h' a1 = c /\ unchanged_but (unbox a1) h h'.
  Proof.
    intros OF MU SM SH. assert (E : ibinop o h a1 a2 = Ret (return_array (unbox a1), write h (unbox a1) c)).
    { apply shape_eqb_spec in SH. unfold Operators.ibinop, assign. rewrite SM, SH.
      destruct MU as [M|M]; rewrite M in *; cbn in *; destruct (K h a2) eqn:K2; cbn in *; auto;
        destruct OF as [(A & [B|B])|(A & B)]; try discriminate; injection A as <-; discriminate. }
    eexists _, _. split; [exact E|]. split; [reflexivity|]. apply write_spec.
  Qed.
  (** On NumPy scalars, TensorFlow and JAX arrays: a new array; every other holder
      of the old one keeps the old value. *)
  Theorem C95_immutable o h a1 a2 f c : of_framework f (K h a1) (K h a2) -> ~ mutable (K h a1) -> K h a1 <> KNumber -> sem o (V h a1) (V h a2) = Some c ->
    new_array f c h (ibinop o h a1 a2).
  Proof.
    intros OF MU NN SM. unfold Operators.ibinop, native. rewrite SM. unfold mutable in MU.
    destruct (K h a1) eqn:K1; try (exfalso; now auto); try (exfalso; now apply MU; auto);
      destruct (K h a2) eqn:K2; unfold of_framework in OF; cbn in OF |- *;
      destruct OF as [(A & [B|B])|(A & B)]; try discriminate; try (injection A as <-); try discriminate;
      apply fresh_new; reflexivity.
  Qed.
  (** The variable holds afterwards what [a1 op a2] would have given. *)
  Theorem C95_same_value o h a1 a2 f r h' : of_framework f (K h a1) (K h a2) -> ibinop o h a1 a2 = Ret (r, h') ->
    exists r' h'', binop o h a1 a2 = Ret (r', h'') /\ V h' r = V h'' r' /\ framework_of (K h' r) = Some f /\ framework_of (K h'' r') = Some f.
  Proof.
    intros OF E. destruct (sem o (V h a1) (V h a2)) as [c|] eqn:SM.
    - destruct (C94_same_framework o h a1 a2 f c OF SM) as (r' & h'' & E' & F' & V' & _). exists r', h''. split; [exact E'|].
      assert (M : mutable (K h a1) \/ ~ mutable (K h a1)) by (unfold mutable; destruct (K h a1); intuition discriminate).
      destruct M as [M|M].
      + destruct (shape_eqb (shape_of c) (shape_of (V h a1))) eqn:SH.
        * apply shape_eqb_spec in SH. destruct (C95_mutable o h a1 a2 f c OF M SM SH) as (r2 & h2 & E2 & U & K2 & V2 & _).
          rewrite E2 in E. injection E as <- <-. rewrite U, V2, K2. repeat split; auto.
          destruct OF as [(A & _)|(A & _)]; auto. destruct M as [M|M]; rewrite M in A; discriminate.
        * exfalso. revert E. unfold Operators.ibinop, assign. rewrite SM, SH.
          destruct M as [M|M]; rewrite M in *; cbn in *; destruct (K h a2) eqn:K2; cbn in *; try discriminate;
            destruct OF as [(A & [B|B])|(A & B)]; try discriminate; injection A as <-; discriminate.
      + assert (NN : K h a1 <> KNumber) by (intro Z; revert E; unfold Operators.ibinop; rewrite Z; discriminate).
        destruct (C95_immutable o h a1 a2 f c OF M NN SM) as (r2 & h2 & E2 & F2 & V2 & _).
        rewrite E2 in E. injection E as <- <-. now rewrite V2, V'.
    - exfalso. revert E. unfold Operators.ibinop, assign, native. rewrite SM.
      destruct (K h a1) eqn:K1, (K h a2) eqn:K2; unfold of_framework in OF; cbn in OF |- *; try discriminate;
        destruct OF as [(A & [B|B])|(A & B)]; try discriminate; injection A as <-; discriminate.
  Qed.
  (** Nothing is changed but the first operand (for operands of one framework). *)
  Theorem C95_frame o h a1 a2 f r h' : of_framework f (K h a1) (K h a2) -> ibinop o h a1 a2 = Ret (r, h') -> unchanged_but (unbox a1) h h'.
  Proof.
    intros OF E.
    assert (FR : forall k x, fresh h k (sem o (V h a1) (V h a2)) = Ret x -> unchanged h (snd x)).
    { intros k x FE. destruct (sem o (V h a1) (V h a2)) as [c|]; [|discriminate]. unfold fresh, alloc in FE. injection FE as <-. cbn [snd].
      intros l L. cbn [h_obj]. destruct (Nat.eqb l (h_next h)) eqn:EL; auto. apply Nat.eqb_eq in EL. lia. }
    assert (AS : forall x, assign shape_of shape_eqb sem o h (unbox a1) (unbox a2) = Ret x -> unchanged_but (unbox a1) h (snd x)).
    { intros x AE. unfold assign in AE. destruct (sem o (V h a1) (V h a2)) as [c|]; [|discriminate].
      destruct (shape_eqb _ _); [|discriminate]. injection AE as <-. cbn [snd]. apply write_spec. }
    unfold Operators.ibinop, native in E.
    destruct (K h a1) eqn:K1, (K h a2) eqn:K2; unfold of_framework in OF; cbn in OF, E; try discriminate;
      (destruct OF as [(A & [B|B])|(A & B)]; try discriminate; try (injection A as <-); try discriminate);
      first [exact (AS _ E) | intros l L _; exact (FR _ _ E l L)].
  Qed.

  (** [a **= p] *)
  Theorem C95_power h a f : framework_of (K h a) = Some f ->
    (mutable (K h a) -> exists r h', ipow usem h a = Ret (r, h') /\ unbox r = unbox a /\ K h' a = K h a /\ V h' a = usem Power (V h a) /\ unchanged_but (unbox a) h h') /\
    (~ mutable (K h a) -> new_array f (usem Power (V h a)) h (ipow usem h a)).
  Proof.
    intro A. unfold ipow, mutable.
    destruct (K h a) eqn:E; cbn in *; try discriminate; injection A as <-; (split; intro M);
      first [exfalso; destruct M; discriminate | exfalso; now apply M; auto | apply fresh_new; reflexivity |
        eexists _, _; split; [reflexivity|]; split; [reflexivity|]; rewrite <- E; apply write_spec].
  Qed.

  (** ** C96: maximum *)
  Theorem C96_same_framework h a1 a2 f c : (forall x y, max_sem x y = max_sem y x) -> of_framework f (K h a1) (K h a2) -> max_sem (V h a1) (V h a2) = Some c ->
    new_array f c h (maximum h a1 a2).
  Proof.
    intros CM OF SM. pose proof SM as SM'. rewrite CM in SM'. unfold Operators.maximum. rewrite SM, SM'.
    destruct (K h a1) eqn:K1, (K h a2) eqn:K2; unfold of_framework in OF; cbn in OF |- *;
      destruct OF as [(A & [B|B])|(A & B)]; try discriminate; try (exfalso; congruence); first [injection A as <- | injection B as <-];
      apply fresh_new; reflexivity.
  Qed.
  (** Arrays of different frameworks are refused, except a NumPy array before a JAX
      array, and NumPy scalars, which count as numbers. *)
  Theorem C96_mixed_partial h a1 a2 : different_frameworks (K h a1) (K h a2) -> is_scalar (K h a1) = false -> is_scalar (K h a2) = false ->
    ~ (K h a1 = KNdarray /\ K h a2 = KJax) -> maximum h a1 a2 = Raise EType.
  Proof.
    intros (f1 & f2 & A & B & N) S1 S2 NJ. unfold Operators.maximum.
    destruct (K h a1) eqn:K1, (K h a2) eqn:K2; cbn in *; auto; try congruence. exfalso; auto.
  Qed.
  Theorem C96_mixed_refuted h a1 a2 c : K h a1 = KNdarray -> K h a2 = KJax -> max_sem (V h a1) (V h a2) = Some c ->
    new_array Jax c h (maximum h a1 a2) /\ maximum h a2 a1 = Raise EType.
  Proof.
    intros A B SM. unfold Operators.maximum. rewrite A, B, SM. cbn. split; [apply fresh_new; reflexivity|reflexivity].
  Qed.
End C94.

(** ** Cases *)
(** lists of numbers; a single number is repeated as often as needed *)
Definition ex_sem (o : bop) (x y : list nat) : option (list nat) :=
  let f := match o with Add => Nat.add | Sub => Nat.sub | Mul => Nat.mul | Div => Nat.div end in
  match x, y with
  | [a], _ => Some (map (f a) y)
  | _, [b] => Some (map (fun a => f a b) x)
  | _, _ => if Nat.eqb (length x) (length y) then Some (map (fun p => f (fst p) (snd p)) (combine x y)) else None
  end.
Definition ex_heap (k1 k2 : kind) : @heap (list nat) :=
  mkHeap (fun l => match l with 0 => (k1, [8; 9]) | 1 => (k2, [1; 2]) | 2 => (KNumber, [10]) | 3 => (k1, [7]) | _ => (k2, [3; 4; 5]) end) 5.
Definition ex_mixed (o : bop) (h : @heap (list nat)) (l1 l2 : loc) : result (content := list nat) := fresh h (kind_at h l2) (ex_sem o (content_at h l1) (content_at h l2)).
Example C94_case : of_framework PyTorch (kind_at (ex_heap KTorch KTorch) 0) (kind_at (ex_heap KTorch KTorch) 1) /\
  new_array PyTorch [7; 7] (ex_heap KTorch KTorch) (binop ex_sem ex_mixed Sub (ex_heap KTorch KTorch) (Boxed 0) (Bare 1)) /\
  new_array PyTorch [2; 1] (ex_heap KTorch KTorch) (array_rop ex_sem ex_mixed Sub (ex_heap KTorch KTorch) 2 0).
Proof.
  split; [left; split; [reflexivity|left; reflexivity]|]. split.
  - apply C94_same_framework; [left; split; [reflexivity|left; reflexivity]|reflexivity].
  - eexists _, _. split; [reflexivity|]. cbn. repeat split; auto. intros [|[|[|[|[|]]]]] L; cbn in L |- *; auto; lia.
Qed.
Example C94_shapes_case : binop ex_sem ex_mixed Add (ex_heap KJax KJax) (Bare 0) (Bare 4) = Raise EValue.
Proof. apply C94_shapes with (f := Jax); [left; split; [reflexivity|left; reflexivity]|reflexivity]. Qed.
Example C94_mixed_case : binop ex_sem ex_mixed Add (ex_heap KTorch KNdarray) (Bare 0) (Bare 1) = Raise EType.
Proof. apply C94_mixed_partial; try discriminate. exists PyTorch, NumPy. repeat split. discriminate. Qed.
(** Documented: [TypeError] if the arrays are not of the same framework. *)
Theorem C94_mixed_refuted : ~ (forall (mixed : bop -> heap (content := list nat) -> loc -> loc -> result (content := list nat)) o h a1 a2,
  different_frameworks (kind_at h (unbox a1)) (kind_at h (unbox a2)) -> binop ex_sem mixed o h a1 a2 = Raise EType).
Proof.
  intro H. specialize (H ex_mixed Add (ex_heap KNdarray KJax) (Bare 0) (Bare 1)). assert (D : different_frameworks KNdarray KJax) by (exists NumPy, Jax; repeat split; discriminate).
  specialize (H D). discriminate.
Qed.
(** Documented: the operators of [Array] return an [Array]. *)
Theorem C94_returns_array_refuted : ~ (forall o h self other r h', array_op ex_sem ex_mixed o h self other = Ret (r, h') -> exists l, r = Boxed l).
Proof.
  intro H. destruct (H Add (ex_heap KNdarray KNdarray) 0 (Boxed 1) _ _ eq_refl) as (l & E). discriminate.
Qed.
(** The documentation of the in-place operators says they return the modified
    object: not for TensorFlow and JAX arrays. *)
Definition ex_shape (x : list nat) : nat := length x.
Theorem C95_modified_object_refuted : ~ (forall o h a1 a2 f r h', of_framework f (kind_at h (unbox a1)) (kind_at h (unbox a2)) ->
  ibinop ex_shape Nat.eqb ex_sem ex_mixed o h a1 a2 = Ret (r, h') -> unbox r = unbox a1).
Proof.
  intro H. assert (OF : of_framework Jax KJax KJax) by (left; split; [reflexivity|now left]).
  specialize (H Add (ex_heap KJax KJax) (Bare 0) (Bare 1) Jax _ _ OF eq_refl). discriminate.
Qed.
(** The same program can work with TensorFlow or JAX arrays and fail with NumPy
    ones: a one-element array plus a longer one. *)
Theorem C95_portable_refuted :
  (exists h', ibinop ex_shape Nat.eqb ex_sem ex_mixed Add (ex_heap KJax KJax) (Bare 3) (Bare 0) = Ret (Bare 5, h') /\ content_at h' 5 = [15; 16]) /\
  ibinop ex_shape Nat.eqb ex_sem ex_mixed Add (ex_heap KNdarray KNdarray) (Bare 3) (Bare 0) = Raise EValue.
Proof. split; [eexists; split; reflexivity|reflexivity]. Qed.
(** [a + b] works for an [Array] around a number, [a += b] does not. *)
Theorem C95_number_refuted : (exists r, array_op ex_sem ex_mixed Add (ex_heap KJax KJax) 2 (Bare 0) = Ret r) /\
  array_iop ex_shape Nat.eqb ex_sem ex_mixed Add (ex_heap KJax KJax) 2 (Bare 0) = Raise EType.
Proof. split; [eexists; reflexivity|reflexivity]. Qed.
Example C95_mutable_case : exists r h', ibinop ex_shape Nat.eqb ex_sem ex_mixed Mul (ex_heap KTorch KTorch) (Bare 0) (Bare 1) = Ret (r, h') /\
  unbox r = 0 /\ kind_at h' 0 = KTorch /\ content_at h' 0 = [8; 18] /\ unchanged_but 0 (ex_heap KTorch KTorch) h'.
Proof.
  apply (C95_mutable ex_shape Nat.eqb Nat.eqb_eq ex_sem ex_mixed Mul (ex_heap KTorch KTorch) (Bare 0) (Bare 1) PyTorch); auto.
  - left; split; [reflexivity|now left].
  - now right.
Qed.
Example C95_immutable_case : new_array TensorFlow [80; 90] (ex_heap KTensorFlow KTensorFlow)
  (ibinop ex_shape Nat.eqb ex_sem ex_mixed Mul (ex_heap KTensorFlow KTensorFlow) (Bare 0) (Bare 2)).
Proof. apply C95_immutable; auto; try discriminate; [left; split; [reflexivity|now right]|intros [|]; discriminate]. Qed.
Definition ex_max (x y : list nat) : option (list nat) :=
  match x, y with [a], _ => Some (map (Nat.max a) y) | _, [b] => Some (map (fun a => Nat.max a b) x) | _, _ => Some [0] end.
Example C96_case : maximum ex_max (ex_heap KNdarray KJax) (Bare 0) (Bare 2) = Ret (Bare 5, snd (alloc (ex_heap KNdarray KJax) KNdarray [10; 10])) /\
  maximum ex_max (ex_heap KTensorFlow KTorch) (Bare 0) (Bare 1) = Raise EType /\ maximum ex_max (ex_heap KJax KNdarray) (Bare 0) (Bare 1) = Raise EType.
Proof. repeat split; reflexivity. Qed.

Print Assumptions C94_same_framework.
Print Assumptions C94_shapes.
Print Assumptions C94_array_operator.
Print Assumptions C94_reflected.
Print Assumptions C94_mixed_partial.
Print Assumptions C94_mixed_numpy.
Print Assumptions C94_mixed_refuted.
Print Assumptions C94_returns_array_refuted.
Print Assumptions C94_unary.
Print Assumptions C94_product_partial.
Print Assumptions C94_tensorflow_dot_refuted.
Print Assumptions C95_mutable.
Print Assumptions C95_immutable.
Print Assumptions C95_same_value.
Print Assumptions C95_frame.
Print Assumptions C95_power.
Print Assumptions C95_modified_object_refuted.
Print Assumptions C95_portable_refuted.
Print Assumptions C95_number_refuted.
Print Assumptions C96_same_framework.
Print Assumptions C96_mixed_partial.
Print Assumptions C96_mixed_refuted.
