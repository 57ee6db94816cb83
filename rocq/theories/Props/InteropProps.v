(** C88: conversions between frameworks; C89: the decorator of cost methods. *)
From Coq Require Import List Bool String Arith Lia.
From Verif.Model Require Import Interop.
From Verif.Spec Require Import InteropSpec.
Import ListNotations.

Section C88.
  Context {D C N O : Type}.
  Variables f32 : D.
  Variable is_np_f64 : D -> bool.
  Variable cast : D -> C -> C.
  Variable of_num : N -> D * C.
  Variable of_other : O -> out (D * C).
  Variable installed : framework -> bool.
  Notation to_array := (to_array (N := N) f32 is_np_f64 cast of_num of_other installed).
  Notation to_array_like := (to_array_like (N := N) f32 is_np_f64 cast of_num of_other installed).

  (** Converting an array (wrapped or not) to an installed framework keeps entries
      and dtype and gives an array of that framework. It is on the device asked for,
      except that a TensorFlow tensor stays where it is. *)
  Theorem C88_to_array t v fw dv : value v = RTensor t -> exists_as t -> installed fw = true -> offers fw dv ->
    exists t', to_array v fw dv None = Ret t' /\ t_fw t' = fw /\ same_entries t t' /\
      ((fw = TensorFlow -> t_fw t <> TensorFlow) -> t_dev t' = dv).
  Proof.
    intros Hv Hex Hi Hof. unfold Interop.to_array, to_numpy, to_torch, to_tensorflow, to_jax.
    destruct fw; rewrite ?Hi, Hv; cbn [made_from made].
    - destruct (t_fw t) eqn:Ef; (eexists; split; [reflexivity|]); cbn; repeat split; auto.
      intros _. unfold exists_as in Hex. rewrite Ef in Hex. cbn in Hof. congruence.
    - eexists; split; [reflexivity|]. cbn; repeat split; auto.
    - destruct (t_fw t) eqn:Ef; (eexists; split; [reflexivity|]); cbn; repeat split; auto.
      intros H. exfalso. now apply H.
    - assert (J : jax_device dv = dv) by (destruct dv; cbn in *; congruence).
      destruct (t_fw t) eqn:Ef; (eexists; split; [reflexivity|]); cbn; repeat split; auto.
  Qed.

  (** Converting to another framework and back gives the same entries and dtype in
      the original framework. *)
  Theorem C88_round_trip t v fw dv dv' : value v = RTensor t -> exists_as t -> installed fw = true -> installed (t_fw t) = true ->
    offers fw dv -> offers (t_fw t) dv' ->
    exists t1 t2, to_array v fw dv None = Ret t1 /\ to_array (Native (RTensor t1)) (t_fw t) dv' None = Ret t2 /\
      t_fw t2 = t_fw t /\ same_entries t t2.
  Proof.
    intros Hv Hex Hi Hi' Hof Hof'. destruct (C88_to_array t v fw dv Hv Hex Hi Hof) as (t1 & E1 & F1 & [S1 S1'] & Dv).
    assert (Hex1 : exists_as t1).
    { unfold exists_as. rewrite F1. destruct fw; cbn in *; auto.
      - rewrite Dv; auto. discriminate.
      - destruct (t_fw t) eqn:Ef; try (rewrite Dv; auto; congruence).
        unfold Interop.to_array, to_tensorflow in E1. rewrite Hi, Hv, Ef in E1. injection E1 as <-.
        unfold exists_as in Hex. now rewrite Ef in Hex.
      - rewrite Dv; auto. discriminate. }
    destruct (C88_to_array t1 (Native (RTensor t1)) (t_fw t) dv' eq_refl Hex1 Hi' Hof') as (t2 & E2 & F2 & [S2 S2'] & _).
    exists t1, t2. split; [exact E1|]. split; [exact E2|]. split; [exact F2|]. split; congruence.
  Qed.

  (** [to_array_like]: framework and device of the other array, and its dtype if
      the frameworks differ (for PyTorch also if not). *)
  Theorem C88_to_array_like t v u like : value v = RTensor t -> value like = RTensor u -> exists_as t -> exists_as u ->
    installed (t_fw u) = true -> (t_fw u = PyTorch -> is_np_f64 (t_dtype u) = false) ->
    exists t', to_array_like v like = Ret t' /\ t_fw t' = t_fw u /\
      ((t_fw u = TensorFlow -> t_fw t <> TensorFlow) -> t_dev t' = t_dev u) /\
      (t_fw t <> t_fw u \/ t_fw u = PyTorch -> t_dtype t' = t_dtype u /\ t_data t' = cast (t_dtype u) (t_data t)) /\
      (t_fw t = t_fw u -> t_fw u <> PyTorch -> same_entries t t').
  Proof.
    intros Hv Hl Hex Heu Hi Hnp. unfold Interop.to_array_like. rewrite Hl. cbn [framework_device obind].
    unfold exists_as in Hex, Heu. unfold Interop.to_array, to_numpy, to_torch, to_tensorflow, to_jax.
    assert (J : t_fw u = TensorFlow \/ t_fw u = Jax -> match t_dev u with GPU => GPU | _ => CPU end = t_dev u).
    { intros [E|E]; rewrite E in Heu; destruct (t_dev u); congruence. }
    assert (J' : t_fw u = Jax -> jax_device (match t_dev u with GPU => GPU | _ => CPU end) = t_dev u).
    { intros E. rewrite J by auto. rewrite E in Heu. destruct (t_dev u); cbn; congruence. }
    destruct (t_fw u) eqn:Eu; cbn [fst snd]; rewrite ?Hi, ?Hv.
    - destruct (t_fw t) eqn:Et; (eexists; split; [reflexivity|]); cbn; unfold same_entries;
        repeat match goal with |- _ /\ _ => split | |- _ -> _ => intro end; try congruence; cbn; try tauto;
        destruct H; congruence.
    - rewrite (Hnp eq_refl). cbn. eexists. split; [reflexivity|]. cbn. unfold same_entries.
      repeat match goal with |- _ /\ _ => split | |- _ -> _ => intro end; congruence.
    - destruct (t_fw t) eqn:Et; (eexists; split; [reflexivity|]); cbn; unfold same_entries;
        repeat match goal with |- _ /\ _ => split | |- _ -> _ => intro end; auto; try congruence; cbn; try tauto;
        try (destruct H; congruence).
    - destruct (t_fw t) eqn:Et; (eexists; split; [reflexivity|]); cbn [made t_fw t_dev t_dtype t_data]; unfold same_entries;
        repeat match goal with |- _ /\ _ => split | |- _ -> _ => intro end; auto; try congruence; cbn; try tauto;
        try (destruct H; congruence).
  Qed.

  (** A framework that is not installed is refused. *)
  Theorem C88_not_installed v fw dv d : fw <> NumPy -> installed fw = false -> to_array v fw dv d = Raise EType.
  Proof. intros Hn H. destruct fw; cbn; rewrite ?H; congruence. Qed.
End C88.

(** ** C88, concrete *)
Definition everything (_ : framework) : bool := true.
Definition only_numpy (f : framework) : bool := match f with NumPy => true | _ => false end.
(** dtypes: 32 and 64 bits; entries: one natural number *)
Definition convert := to_array (N := nat) (O := unit) 32 (fun d => Nat.eqb d 64) (fun _ (c : nat) => c) (fun n => (64, n)) (fun _ => Raise EOther).
Definition convert_like := to_array_like (N := nat) (O := unit) 32 (fun d => Nat.eqb d 64) (fun _ (c : nat) => c) (fun n => (64, n)) (fun _ => Raise EOther).
Example C88_to_array_case :
  convert everything (Wrapped (RTensor (mkTensor PyTorch GPU 32 7))) NumPy CPU None = Ret (mkTensor NumPy CPU 32 7)
  /\ convert everything (Native (RTensor (mkTensor NumPy CPU 64 7))) PyTorch MPS None = Ret (mkTensor PyTorch MPS 64 7).
Proof. split; reflexivity. Qed.
Example C88_round_trip_case : exists t1, convert everything (Native (RTensor (mkTensor Jax GPU 32 7))) PyTorch CPU None = Ret t1
  /\ convert everything (Native (RTensor t1)) Jax GPU None = Ret (mkTensor Jax GPU 32 7).
Proof. eexists. split; reflexivity. Qed.
Example C88_to_array_like_case :
  convert_like everything (Native (RTensor (mkTensor NumPy CPU 64 7))) (Wrapped (RTensor (mkTensor PyTorch GPU 32 1))) = Ret (mkTensor PyTorch GPU 32 7).
Proof. reflexivity. Qed.
Example C88_not_installed_case : convert only_numpy (Native (RTensor (mkTensor NumPy CPU 64 7))) PyTorch CPU None = Raise EType.
Proof. reflexivity. Qed.

(** A TensorFlow tensor is not moved to the device asked for. *)
Theorem C88_tensorflow_device_refuted :
  ~ (forall t v fw dv t', value v = RTensor t -> exists_as t -> offers fw dv ->
       convert everything v fw dv None = Ret t' -> t_dev t' = dv).
Proof.
  intros H. specialize (H (mkTensor TensorFlow CPU 32 7) (Native (RTensor (mkTensor TensorFlow CPU 32 7))) TensorFlow GPU (mkTensor TensorFlow CPU 32 7) eq_refl).
  discriminate H; cbn; try discriminate. reflexivity.
Qed.
(** The dtype asked for is ignored when the array already is of the framework
    (NumPy, TensorFlow, JAX). *)
Theorem C88_dtype_refuted :
  ~ (forall t v fw dv d t', value v = RTensor t -> exists_as t -> offers fw dv ->
       convert everything v fw dv (Some d) = Ret t' -> t_dtype t' = d).
Proof.
  intros H. specialize (H (mkTensor NumPy CPU 32 7) (Native (RTensor (mkTensor NumPy CPU 32 7))) NumPy CPU 64 (mkTensor NumPy CPU 32 7) eq_refl).
  discriminate H; cbn; reflexivity.
Qed.

(** ** C89 *)
Section C89.
  Context {D C N O : Type}.
  Variables f32 : D.
  Variable is_np_f64 : D -> bool.
  Variable cast : D -> C -> C.
  Variable of_num : N -> D * C.
  Variable of_other : O -> out (D * C).
  Variable installed : framework -> bool.
  Notation pyval := (pyval D C N O).
  Notation decorated := (decorated f32 is_np_f64 cast of_num of_other installed).
  Notation convert_arg := (convert_arg f32 is_np_f64 cast of_num of_other installed).
  Notation convert_args := (convert_args f32 is_np_f64 cast of_num of_other installed).
  Notation convert_kwargs := (convert_kwargs f32 is_np_f64 cast of_num of_other installed).

  Lemma arg_ok fw dv v : installed fw = true -> proper v ->
    exists v', convert_arg fw dv v = Ret (v', foreign fw v) /\ arrives of_num fw v v'.
  Proof.
    intros Hi Hp. destruct v as [r|r]; cbn [Interop.convert_arg].
    - exists (Native r). split; [reflexivity|constructor].
    - destruct r as [t|n|o]; [| |destruct Hp].
      + cbn [framework_device obind]. unfold converter, to_numpy, to_torch, to_tensorflow, to_jax.
        cbn [value]. destruct fw; rewrite ?Hi; cbn [made_from made obind];
          destruct t as [tf td tt tc]; cbn [t_fw t_dev t_dtype t_data]; destruct tf; cbn;
            (eexists; split; [reflexivity|]; apply arr_wrapped; cbn; [reflexivity|split; reflexivity]).
      + cbn [framework_device obind]. unfold converter, to_numpy, to_torch, to_tensorflow, to_jax.
        cbn [value]. destruct (of_num n) as [d c] eqn:En.
        destruct fw; rewrite ?Hi; cbn [made_from made obind]; rewrite En; cbn;
          (eexists; split; [reflexivity|]; apply arr_number; cbn; [reflexivity|congruence]).
  Qed.
  Lemma args_ok fw dv l : installed fw = true -> Forall proper l ->
    exists l', convert_args fw dv l = Ret (l', map (foreign fw) l) /\ Forall2 (arrives of_num fw) l l'.
  Proof.
    intros Hi. induction l as [|v l IH]; intros Hp; cbn [Interop.convert_args].
    - exists []. split; [reflexivity|constructor].
    - inversion Hp; subst. destruct (arg_ok fw dv v Hi) as (v' & E & A); auto. destruct IH as (l' & E' & A'); auto.
      exists (v' :: l'). rewrite E. cbn [obind]. rewrite E'. split; [reflexivity|now constructor].
  Qed.
  Lemma kwargs_ok fw dv l : installed fw = true -> Forall (fun kv => proper (snd kv)) l ->
    exists l', convert_kwargs fw dv l = Ret (l', map (fun kv => foreign fw (snd kv)) l)
      /\ Forall2 (fun kv kv' => fst kv' = fst kv /\ arrives of_num fw (snd kv) (snd kv')) l l'.
  Proof.
    intros Hi. induction l as [|[k v] l IH]; intros Hp; cbn [Interop.convert_kwargs].
    - exists []. split; [reflexivity|constructor].
    - inversion Hp; subst. destruct (arg_ok fw dv v Hi) as (v' & E & A); auto. destruct IH as (l' & E' & A'); auto.
      exists ((k, v') :: l'). rewrite E. cbn [obind]. rewrite E'. split; [reflexivity|]. constructor; auto.
  Qed.

  Lemma count_true (l : list bool) : count_occ bool_dec l true = List.length (filter (fun b => b) l).
  Proof.
    induction l as [|b l IH]; [reflexivity|]. cbn [count_occ filter].
    destruct (bool_dec b true) as [->|Hb]; cbn; [now rewrite IH|]. destruct b; [congruence|auto].
  Qed.
  Lemma filter_map {A} (f : A -> bool) l : List.length (filter (fun b => b) (map f l)) = List.length (filter f l).
  Proof. induction l as [|a l IH]; cbn; auto. destruct (f a); cbn; auto. Qed.

  Lemma lookup_None (x : string) (l : list (string * pyval)) : lookup x l = None <-> ~ In x (map fst l).
  Proof.
    induction l as [|[k v] l IH]; cbn [lookup map fst]; [split; auto; intros _ []|]. destruct (String.eqb x k) eqn:E.
    - apply String.eqb_eq in E. subst. split; [discriminate|]. intro H. exfalso. apply H. now left.
    - apply String.eqb_neq in E. rewrite IH. split; [intros H [->|I]; auto|intros H I; apply H; now right].
  Qed.
  (** A decorated method with its first argument given calls the user's method
      once, with every wrapped array converted to the cost's framework and
      everything else (in particular arrays that are not wrapped, whatever their
      framework) unchanged, keyword arguments under their names; it logs one warning
      per wrapped array of another framework, and returns what the method returns. *)
  Theorem C89_call m fw dv func args kwargs : installed fw = true ->
    Forall proper args -> Forall (fun kv => proper (snd kv)) kwargs -> args <> [] \/ In "x"%string (map fst kwargs) ->
    exists args' kwargs', Forall2 (arrives of_num fw) args args' /\
      Forall2 (fun kv kv' => fst kv' = fst kv /\ arrives of_num fw (snd kv) (snd kv')) kwargs kwargs' /\
      decorated m fw dv func args kwargs =
        match func args' kwargs' with
        | Ret r => Ret (r, List.length (filter (foreign fw) (args ++ map snd kwargs)))
        | Raise e => Raise e
        end.
  Proof.
    intros Hi Ha Hk Hx. destruct (args_ok fw dv args Hi Ha) as (a' & Ea & Fa). destruct (kwargs_ok fw dv kwargs Hi Hk) as (k' & Ek & Fk).
    exists a', k'. split; [exact Fa|]. split; [exact Fk|]. unfold Interop.decorated, wrapper.
    rewrite Ea. cbn [obind]. rewrite Ek. cbn [obind fst snd].
    destruct (match args with x :: _ => Some x | [] => lookup "x" kwargs end) as [x|] eqn:Exx.
    - destruct (func a' k') as [r|e]; cbn [obind]; [|reflexivity].
      replace (is_array_class (superclass_annotation m)) with false by (destruct m; reflexivity).
      rewrite count_true. rewrite !filter_app, !app_length. rewrite !filter_map.
      rewrite <- (filter_map (fun kv => foreign fw (snd kv)) kwargs), <- (filter_map (foreign fw) (map snd kwargs)), map_map.
      reflexivity.
    - destruct args; [|discriminate]. destruct Hx as [Hx|Hx]; [congruence|]. exfalso. now apply (lookup_None "x" kwargs).
  Qed.

  (** Without a first argument or a keyword [x] the method is not called. *)
  Theorem C89_missing_x m fw dv func kwargs : ~ In "x"%string (map fst kwargs) -> decorated m fw dv func [] kwargs = Raise EValue.
  Proof. intros H. apply lookup_None in H. unfold Interop.decorated, wrapper. now rewrite H. Qed.
End C89.

(** A NumPy cost with gradient [x + 1]. *)
Definition np_gradient (args : list (pyval nat nat nat unit)) (_ : list (string * pyval nat nat nat unit)) : out (pyval nat nat nat unit) :=
  match args with
  | [Native (RTensor t)] => Ret (Native (RTensor (mkTensor NumPy CPU (t_dtype t) (S (t_data t)))))
  | _ => Raise EOther
  end.
Definition call := decorated (N := nat) (O := unit) 32 (fun d => Nat.eqb d 64) (fun _ (c : nat) => c) (fun n => (64, n)) (fun _ => Raise EOther) everything Gradient NumPy CPU np_gradient.
Example C89_call_case : call [Wrapped (RTensor (mkTensor PyTorch GPU 32 7))] [] = Ret (Native (RTensor (mkTensor NumPy CPU 32 8)), 1).
Proof. reflexivity. Qed.
Example C89_missing_x_case : call [] [("y"%string, Native (RNum 3))] = Raise EValue.
Proof. reflexivity. Qed.

(** The docstring says the output is converted to the framework of x. It never is:
    the annotation compared with the class [Array] is the string "Array". *)
Theorem C89_result_like_x_refuted :
  ~ (forall t r n, call [Wrapped (RTensor t)] [] = Ret (r, n) -> exists u, r = Native (RTensor u) /\ t_fw u = t_fw t).
Proof.
  intros H. destruct (H (mkTensor PyTorch GPU 32 7) _ _ eq_refl) as (u & [= <-] & F). discriminate F.
Qed.

Print Assumptions C88_to_array.
Print Assumptions C88_round_trip.
Print Assumptions C88_to_array_like.
Print Assumptions C88_not_installed.
Print Assumptions C88_tensorflow_device_refuted.
Print Assumptions C88_dtype_refuted.
Print Assumptions C89_call.
Print Assumptions C89_missing_x.
Print Assumptions C89_result_like_x_refuted.
