(** C98: what the algorithm constructors accept. *)
From Coq Require Import QArith ZArith List String Bool Lia.
From Verif.Model Require Import Validate.
From Verif.Spec Require Import ValidateSpec.
From Verif.Proofs Require Import ValidateProofs ValidateMore.
Import ListNotations.
Local Open Scope string_scope.

(** Every algorithm, for every choice of keyword arguments of the documented
    types: the constructor succeeds exactly when every parameter lies in its
    documented domain (for Fed-LT also the solver and its arguments), and refuses
    with a ValueError otherwise. Missing from the full property: values that are numbers
    but not of the documented type, see the two refutations below. *)
Theorem C98_accepts_partial : forall a kw, typed a kw -> solver_typed a kw ->
  (accepted a kw <-> within a kw /\ solver_within a kw) /\ (~ accepted a kw -> construct a kw = Raises ValueError).
Proof. exact accepts. Qed.

(** The defaults of every algorithm satisfy its own checks. *)
Theorem C98_defaults : forall a, accepted a [].
Proof. intros []; eexists; reflexivity. Qed.

(** A keyword that is not a field of the class is a TypeError, whatever else is passed. *)
Theorem C98_unknown_keyword : forall a kw k v, In (k, v) kw -> ~ In k (map fst (fields a)) -> construct a kw = Raises TypeError.
Proof.
  intros a kw k v I NI. unfold construct. destruct (unknown_args kw (map fst (fields a))) eqn:E; [reflexivity|].
  exfalso. apply NI. eapply unknown_false; eauto.
Qed.

(** A non-positive number of iterations is refused by every algorithm, whatever
    the other parameters are. *)
Theorem C98_iterations : forall a kw z, (forall k v, In (k, v) kw -> In k (map fst (fields a))) ->
  setting a kw "iterations" (VInt z) -> (z <= 0)%Z -> construct a kw = Raises ValueError.
Proof.
  intros a kw z K S L. unfold construct. rewrite (proj2 (unknown_false _ _) K). unfold post_init.
  rewrite (setting_attr _ _ _ _ S). rewrite chk_pos by discriminate. rewrite <- int_steps. now rewrite (proj2 (Z.leb_le z 0) L).
Qed.

(** The classes that validate step sizes only when they are floats accept every
    integer, including the non-positive ones their documentation excludes. *)
Theorem C98_integer_step_refuted : forall a kw k z, typed a kw -> solver_typed a kw -> accepted a kw ->
  float_only a k -> In k (map fst (domains a)) -> accepted a ((k, VInt z) :: kw).
Proof.
  intros a kw k z T Ts A F I. apply in_map_iff in I as ([k' d] & <- & I). cbn [fst] in *.
  destruct (change_one a kw k' d (VInt z) T Ts A I) as [H _].
  - intros ->. destruct F as [_ [E|[E|[]]]]; discriminate.
  - left. now apply lenient_int.
  - apply H. now rewrite lenient_int.
Qed.

(** NaN and infinity pass every one-sided check (a NaN step size, penalty or
    number of iterations is accepted) ... *)
Theorem C98_nan_refuted : forall a kw k d f, typed a kw -> solver_typed a kw -> accepted a kw ->
  In (k, d) (domains a) -> one_sided d -> (k = "num_local_steps" -> a <> FedNova /\ a <> FedPD) ->
  f = FNaN \/ f = FPInf -> accepted a ((k, VFloat f) :: kw).
Proof.
  intros a kw k d f T Ts A I O S Hf. destruct (change_one a kw k d (VFloat f) T Ts A I S) as [H _].
  - right. discriminate.
  - apply H. apply orb_true_iff. right. destruct Hf as [-> | ->]; [now apply passb_nan|now apply passb_inf].
Qed.

(** ... while probabilities, momenta and relaxations refuse it. *)
Theorem C98_nan_two_sided : forall a kw k d, typed a kw -> solver_typed a kw -> accepted a kw ->
  In (k, d) (domains a) -> ~ one_sided d -> construct a ((k, VFloat FNaN) :: kw) = Raises ValueError.
Proof.
  intros a kw k d T Ts A I O. destruct (change_one a kw k d (VFloat FNaN) T Ts A I) as [_ H].
  - intros ->. exfalso. apply O. assert (In ("num_local_steps", Positive) (domains a)) as P.
    { destruct a; cbn in I |- *; intuition discriminate. }
    rewrite (domain_fun _ _ _ _ I P). now left.
  - right. discriminate.
  - apply H. now rewrite lenient_float, (passb_nan2 _ O).
Qed.

(** Fed-LT settles the solver arguments: the constructed object holds, for
    exactly the arguments of its solver, what the caller gave or the default. *)
Theorem C98_solver_args : forall kw s u o, typed FedLT kw -> solver_typed FedLT kw ->
  setting FedLT kw "local_solver" (VStr s) -> setting FedLT kw "solver_args" (VArgs u) -> construct FedLT kw = Done o ->
  exists m, o "solver_args" = VArgs m /\ map fst m = map fst (solver_table s) /\
    forall k d D v, In (k, (d, D)) (solver_table s) -> In (k, v) m -> given u k v \/ (~ In k (map fst u) /\ v = d).
Proof.
  intros kw s u o T Ts Ss Su E. rewrite (construct_passes _ _ (typed_x _ _ T)) in E.
  destruct (passes FedLT (attributes FedLT kw)); [|discriminate].
  destruct (Ts eq_refl) as [_ Tu]. destruct (Tu _ Su) as (u' & [= <-] & Nu).
  rewrite (tail_fedlt _ s u (setting_attr _ _ _ _ Ss) (setting_attr _ _ _ _ Su)) in E
    by (intros k x I; destruct (Nu k x I) as [q Nq]; eapply number_numeric; eauto).
  destruct (solverb s u); [|discriminate]. injection E as <-. exists (settled s u). split; [reflexivity|]. split.
  - unfold settled. rewrite map_map. reflexivity.
  - intros k d D v I I'. unfold settled in I'. apply in_map_iff in I' as ([k' [d' D']] & [= <- <-] & I'). cbn [fst snd].
    assert (d = d') as ->.
    { clear -I I'. revert I I'. unfold solver_table. destruct (String.eqb s "adam"); [|destruct (String.eqb s "nesterov")]; cbn; intros I I';
        repeat (destruct I as [I|I]; [injection I as <- <- <-; repeat (destruct I' as [I'|I']; [try discriminate; injection I'; congruence|]); destruct I'|]); destruct I. }
    destruct (given_or_absent u k') as [[v G]|NI].
    + left. now rewrite (args_get_given _ _ _ _ G).
    + right. split; [exact NI|]. now apply args_get_absent.
Qed.

(** FedNova and FedPD: an integer step count is as above; a dict of counts is
    accepted exactly when every value is a positive integer (the keys are not
    looked at); anything else is a TypeError. *)
Theorem C98_local_steps : forall a kw, a = FedNova \/ a = FedPD -> typed a kw -> accepted a kw ->
  (forall m, accepted a (("num_local_steps", VSteps m) :: kw) <-> forall c v, In (c, v) m -> exists z, v = VInt z /\ (0 < z)%Z) /\
  (forall f, construct a (("num_local_steps", VFloat f) :: kw) = Raises TypeError) /\
  construct a (("num_local_steps", VObj) :: kw) = Raises TypeError.
Proof.
  intros a kw Ha T A. split; [|split].
  - intro m. unfold accepted. rewrite (dict_construct _ _ _ Ha T A).
    destruct (steps_loop_spec (map snd m) (attributes a (("num_local_steps", VSteps m) :: kw))) as [S1 S2]. split.
    + intros [o E] c v I. rewrite (S2 _ E) in E. apply (proj1 S1 E). apply in_map_iff. exists (c, v). auto.
    + intro H. eexists. apply S1. intros v I. apply in_map_iff in I as ([c v'] & <- & I). eauto.
  - intro f. now rewrite (dict_construct _ _ _ Ha T A).
  - now rewrite (dict_construct _ _ _ Ha T A).
Qed.

(** At the start of a run an integer count goes to every client; a dict must
    name every client (its other keys are ignored), otherwise ValueError. *)
Theorem C98_settle : forall o clients,
  (forall z, o "num_local_steps" = VInt z -> settle_num_local_steps o clients = Done (map (fun c => (c, VInt z)) clients)) /\
  (forall m, o "num_local_steps" = VSteps m ->
    ((forall c, In c clients -> In c (map fst m)) ->
       exists r, settle_num_local_steps o clients = Done r /\ map fst r = clients /\
         forall c v, In (c, v) r -> In (c, v) m /\ forall pre v' post, m = (pre ++ (c, v') :: post)%list -> ~ In c (map fst pre) -> v' = v) /\
    ((exists c, In c clients /\ ~ In c (map fst m)) -> settle_num_local_steps o clients = Raises ValueError)).
Proof.
  intros o clients. split.
  - intros z E. unfold settle_num_local_steps. now rewrite E.
  - intros m E. destruct (settle_dict o m clients E) as [S1 S2]. split; [|exact S2].
    intro C. destruct (S1 C) as (r & Er & Fr & H). exists r. split; [exact Er|]. split; [exact Fr|].
    intros c v I. specialize (H c v I). split; [now apply steps_of_in|].
    intros pre v' post Em NI. rewrite (steps_of_first m c v') in H by eauto. congruence.
Qed.

(** ---- concrete cases ---- *)
Definition kw_lt : list (string * value) :=
  [("penalty", dec 2 1); ("local_solver", VStr "adam"); ("solver_args", VArgs [("beta2", dec 1 2)]); ("num_local_steps", VInt 3)].
Lemma kw_lt_typed : typed FedLT kw_lt.
Proof.
  split; [|split; [|split]].
  - intros k v H. cbn in H. repeat (destruct H as [H|H]; [injection H as <- <-; cbn; tauto|]). destruct H.
  - intros k d v H S. rewrite <- (setting_attr _ _ _ _ S). cbn in H.
    repeat (destruct H as [H|H]; [injection H as <- <-; eexists; first [right; reflexivity|left; eexists; split; reflexivity]|]). destruct H.
  - intros k v [H _]. cbn in H. intuition discriminate.
  - intros v S. rewrite <- (setting_attr _ _ _ _ S). eexists; reflexivity.
Qed.
Lemma kw_lt_solver : solver_typed FedLT kw_lt.
Proof.
  intros _. split.
  - intros v S. rewrite <- (setting_attr _ _ _ _ S). eexists; reflexivity.
  - intros v S. rewrite <- (setting_attr _ _ _ _ S). eexists. split; [reflexivity|].
    intros k x [[= <- <-]|[]]. eexists. right. reflexivity.
Qed.
Example C98_case_lt : typed FedLT kw_lt /\ solver_typed FedLT kw_lt /\
  exists o, construct FedLT kw_lt = Done o /\ o "solver_args" = VArgs [("beta1", dec 9 10); ("beta2", dec 1 2); ("epsilon", dec 1 100000000)].
Proof. split; [exact kw_lt_typed|]. split; [exact kw_lt_solver|]. eexists. split; reflexivity. Qed.
Example C98_case_boundaries :
  construct ADMM [("relaxation", dec 1 1)] = Raises ValueError /\ accepted GT_VR [("snapshot_prob", dec 1 1)] /\
  accepted FedPD [("skip_probability", VInt 1)] /\ construct FedNova [("momentum", VInt 1)] = Raises ValueError /\
  accepted FedProx [("penalty", VInt 0)] /\ construct FedDyn [("penalty", VInt 0)] = Raises ValueError /\
  construct ProxSkip [("chi", dec 99 100)] = Raises ValueError /\ construct FedLT [("solver_args", VArgs [("momentum", dec 1 2)])] = Raises ValueError /\
  construct FedAdam [("iterations", VInt 0); ("beta_2", VObj)] = Raises ValueError /\ construct DGD [("penalty", VInt 1)] = Raises TypeError.
Proof. repeat split; try reflexivity; eexists; reflexivity. Qed.
(** the refutations on concrete calls: [LED(step_size=-1)] is accepted while
    [LED(step_size=-1.0)] is not; [DGD(step_size=nan)] is accepted *)
Example C98_case_refuted : accepted LED [("step_size", VInt (-1))] /\ construct LED [("step_size", dec (-1) 1)] = Raises ValueError /\
  accepted DGD [("step_size", VFloat FNaN)] /\ construct ADMM [("relaxation", VFloat FNaN)] = Raises ValueError.
Proof. repeat split; try reflexivity; eexists; reflexivity. Qed.
Example C98_case_steps : accepted FedPD [("num_local_steps", VSteps [(0%nat, VInt 2); (7%nat, VInt 1)])] /\
  construct FedPD [("num_local_steps", VSteps [(0%nat, VInt 2); (7%nat, VInt 0)])] = Raises ValueError /\
  settle_num_local_steps (attributes FedPD [("num_local_steps", VSteps [(0%nat, VInt 2); (7%nat, VInt 1)])]) [0]%nat = Done [(0%nat, VInt 2)] /\
  settle_num_local_steps (attributes FedPD [("num_local_steps", VSteps [(0%nat, VInt 2); (7%nat, VInt 1)])]) [0; 1]%nat = Raises ValueError.
Proof. repeat split; try reflexivity. eexists; reflexivity. Qed.

Print Assumptions C98_accepts_partial.
Print Assumptions C98_defaults.
Print Assumptions C98_unknown_keyword.
Print Assumptions C98_iterations.
Print Assumptions C98_integer_step_refuted.
Print Assumptions C98_nan_refuted.
Print Assumptions C98_nan_two_sided.
Print Assumptions C98_solver_args.
Print Assumptions C98_local_steps.
Print Assumptions C98_settle.
