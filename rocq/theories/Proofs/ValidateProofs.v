From Coq Require Import QArith ZArith List String Bool Lia.
From Verif.Model Require Import Validate.
From Verif.Spec Require Import ValidateSpec.
Import ListNotations.
Local Open Scope string_scope.

(** what each comparison lets through, for every Python number *)
Definition passb (d : domain) (v : value) : bool :=
  match as_num v with
  | None => false
  | Some f =>
      match d with
      | Positive => negb (f_le f (FFin 0))
      | NonNegative => negb (f_lt f (FFin 0))
      | AtLeastOne => negb (f_lt f (FFin 1))
      | Open01 => f_lt (FFin 0) f && f_lt f (FFin 1)
      | Above0UpTo1 => f_lt (FFin 0) f && f_le f (FFin 1)
      | From0Below1 => f_le (FFin 0) f && f_lt f (FFin 1)
      | Closed01 => f_le (FFin 0) f && f_le f (FFin 1)
      end
  end.
Definition numeric (v : value) : Prop := as_num v <> None.

Lemma f_le_fin p q : f_le (FFin p) (FFin q) = true <-> (p <= q)%Q.
Proof. apply Qle_bool_iff. Qed.
Lemma f_lt_fin p q : f_lt (FFin p) (FFin q) = true <-> (p < q)%Q.
Proof.
  cbn. rewrite negb_true_iff. split; intro H.
  - apply Qnot_le_lt. intro L. apply Qle_bool_iff in L. congruence.
  - destruct (Qle_bool q p) eqn:E; [|reflexivity]. apply Qle_bool_iff in E. exfalso. apply (Qlt_not_le _ _ H E).
Qed.

Lemma as_num_number v q : number v q -> as_num v = Some (FFin q).
Proof. intros [(z & -> & ->)| ->]; reflexivity. Qed.

Lemma passb_inside d v q : number v q -> (passb d v = true <-> inside d q).
Proof.
  intro N. unfold passb. rewrite (as_num_number _ _ N). 
  assert (L0 : forall p r, negb (f_le (FFin p) (FFin r)) = true <-> (r < p)%Q).
  { intros. rewrite <- f_lt_fin. cbn. reflexivity. }
  assert (L1 : forall p r, negb (f_lt (FFin p) (FFin r)) = true <-> (r <= p)%Q).
  { intros. rewrite <- f_le_fin. cbn. rewrite negb_involutive. reflexivity. }
  destruct d; cbn [inside]; rewrite ?andb_true_iff, ?f_le_fin, ?f_lt_fin, ?L0, ?L1; reflexivity.
Qed.

Lemma num_cases v : numeric v -> exists f, as_num v = Some f.
Proof. unfold numeric. destruct (as_num v); [eauto|congruence]. Qed.

Section Checks.
  Variables (v : value).
  Hypothesis N : numeric v.
  Lemma chk_pos : py_le v zero = Some (negb (passb Positive v)).
  Proof. destruct (num_cases _ N) as [f E]. unfold py_le, passb. rewrite E. cbn [as_num zero]. now rewrite negb_involutive. Qed.
  Lemma chk_nonneg : py_lt v zero = Some (negb (passb NonNegative v)).
  Proof. destruct (num_cases _ N) as [f E]. unfold py_lt, passb. rewrite E. cbn [as_num zero]. now rewrite negb_involutive. Qed.
  Lemma chk_one : py_lt v one = Some (negb (passb AtLeastOne v)).
  Proof. destruct (num_cases _ N) as [f E]. unfold py_lt, passb. rewrite E. cbn [as_num one]. now rewrite negb_involutive. Qed.
  Lemma chk_oo : py_not (in_oo v) = Some (negb (passb Open01 v)).
  Proof. destruct (num_cases _ N) as [f E]. unfold in_oo, py_lt, passb. rewrite E. cbn [as_num zero one]. change (inject_Z 0) with 0%Q. change (inject_Z 1) with 1%Q. destruct (f_lt (FFin 0) f); reflexivity. Qed.
  Lemma chk_oc : py_not (in_oc v) = Some (negb (passb Above0UpTo1 v)).
  Proof. destruct (num_cases _ N) as [f E]. unfold in_oc, py_lt, py_le, passb. rewrite E. cbn [as_num zero one]. change (inject_Z 0) with 0%Q. change (inject_Z 1) with 1%Q. destruct (f_lt (FFin 0) f); reflexivity. Qed.
  Lemma chk_co : py_not (in_co v) = Some (negb (passb From0Below1 v)).
  Proof. destruct (num_cases _ N) as [f E]. unfold in_co, py_lt, py_le, passb. rewrite E. cbn [as_num zero one]. change (inject_Z 0) with 0%Q. change (inject_Z 1) with 1%Q. destruct (f_le (FFin 0) f); reflexivity. Qed.
  Lemma chk_cc : py_not (in_cc v) = Some (negb (passb Closed01 v)).
  Proof. destruct (num_cases _ N) as [f E]. unfold in_cc, py_lt, py_le, passb. rewrite E. cbn [as_num zero one]. change (inject_Z 0) with 0%Q. change (inject_Z 1) with 1%Q. destruct (f_le (FFin 0) f); reflexivity. Qed.
End Checks.

(** what the class looks at: a float-only step size that is not a float passes *)
Definition lenientb (a : alg) (k : string) (v : value) : bool :=
  match a with
  | DiNNO | GT_SAGA | GT_SARAH | GT_VR | KGT | LED | LT_ADMM | LT_ADMM_VR | ProxSkip =>
      if existsb (String.eqb k) ["step_size"; "aux_step_size"] then match v with VFloat _ => false | _ => true end else false
  | _ => false
  end.
Definition passes (a : alg) (o : obj) : bool :=
  forallb (fun kd => lenientb a (fst kd) (o (fst kd)) || passb (snd kd) (o (fst kd))) (domains a).

Lemma int_steps z : (z <=? 0)%Z = negb (passb Positive (VInt z)).
Proof.
  unfold passb. cbn. rewrite negb_involutive. unfold Qle_bool. cbn. now rewrite Z.mul_1_r.
Qed.

Definition dict_steps (a : alg) (o : obj) : Prop := (a = FedNova \/ a = FedPD) -> exists z, o "num_local_steps" = VInt z.
Definition tail (a : alg) (o : obj) : outcome obj :=
  match a with
  | FedLT => if known_solver (o "local_solver") then validate_solver_args o else Raises ValueError
  | _ => Done o
  end.

Lemma fed_adam_flat o : fed_adam_check o =
  reject_if (py_le (o "iterations") zero)
  (reject_if (py_le (o "step_size") zero) (reject_if (py_le (o "num_local_steps") zero)
  (reject_if (py_le (o "server_step_size") zero) (reject_if (py_not (in_co (o "beta_1")))
  (reject_if (py_le (o "epsilon") zero) (reject_if (py_not (in_co (o "beta_2"))) (Done o))))))).
Proof.
  unfold fed_adam_check, fed_opt_check, reject_if.
  destruct (py_le (o "iterations") zero) as [[]|]; try reflexivity.
  destruct (py_le (o "step_size") zero) as [[]|]; try reflexivity.
  destruct (py_le (o "num_local_steps") zero) as [[]|]; try reflexivity.
  destruct (py_le (o "server_step_size") zero) as [[]|]; try reflexivity.
  destruct (py_not (in_co (o "beta_1"))) as [[]|]; try reflexivity.
  destruct (py_le (o "epsilon") zero) as [[]|]; reflexivity.
Qed.

Lemma post_init_passes a o :
  (forall k d, In (k, d) (domains a) -> lenientb a k (o k) = true \/ numeric (o k)) -> dict_steps a o ->
  post_init a o = if passes a o then tail a o else Raises ValueError.
Proof.
  intros N D. unfold post_init, passes.
  assert (N' : forall k d, In (k, d) (domains a) -> lenientb a k (o k) = false -> numeric (o k)).
  { intros k d I E. destruct (N k d I); [congruence|assumption]. }
  clear N.
  assert (It : numeric (o "iterations")).
  { apply (N' "iterations" Positive); destruct a; cbn; auto. }
  rewrite (chk_pos _ It).
  destruct a; cbn [domains opt_domains forallb fst snd app tail own_check]; rewrite ?fed_adam_flat;
    unfold admm_check, plain_check, atg_check, dinno_check, dlm_check, gt_saga_check, gt_sarah_check, gt_vr_check, kgt_check, lt_admm_check, prox_skip_check,
      fed_avg_check, fed_dyn_check, fed_opt_check, fed_prox_check, scaffold_check, fed_nova_check, fed_pd_check, fed_lt_check;
    unfold validate_num_local_steps, reject_float_if;
    repeat match goal with
      | |- context [lenientb ?a ?k (o ?k)] =>
          first [ change (lenientb a k (o k)) with false; cbn [orb]
                | change (lenientb a k (o k)) with (match o k with VFloat _ => false | _ => true end);
                  let E := fresh "E" in destruct (o k) eqn:E; cbn [orb] ]
      end;
    repeat match goal with
      | |- context [py_le (VFloat ?f) zero] => rewrite (chk_pos (VFloat f)) by discriminate
      end;
    repeat match goal with
      | H : o ?k = VFloat ?f |- context [py_le (o ?k) zero] => rewrite H
      end;
    repeat match goal with
      | |- context [py_le (o ?k) zero] => rewrite (chk_pos (o k)) by (eapply (N' k); [cbn; tauto|reflexivity])
      | |- context [py_lt (o ?k) zero] => rewrite (chk_nonneg (o k)) by (eapply (N' k); [cbn; tauto|reflexivity])
      | |- context [py_lt (o ?k) one] => rewrite (chk_one (o k)) by (eapply (N' k); [cbn; tauto|reflexivity])
      | |- context [py_not (in_oo (o ?k))] => rewrite (chk_oo (o k)) by (eapply (N' k); [cbn; tauto|reflexivity])
      | |- context [py_not (in_oc (o ?k))] => rewrite (chk_oc (o k)) by (eapply (N' k); [cbn; tauto|reflexivity])
      | |- context [py_not (in_co (o ?k))] => rewrite (chk_co (o k)) by (eapply (N' k); [cbn; tauto|reflexivity])
      | |- context [py_not (in_cc (o ?k))] => rewrite (chk_cc (o k)) by (eapply (N' k); [cbn; tauto|reflexivity])
      end;
    try (destruct (D ltac:(tauto)) as [z Ez]; rewrite Ez, int_steps);
    unfold reject_if;
    repeat match goal with |- context [passb ?d ?v] => destruct (passb d v); cbn [negb andb] end; try reflexivity.
Qed.
