From Coq Require Import QArith ZArith List String Bool Lia.
From Verif.Model Require Import Validate.
From Verif.Spec Require Import ValidateSpec.
From Verif.Proofs Require Import ValidateProofs.
Import ListNotations.
Local Open Scope string_scope.

Lemma args_get_given kw k v d : given kw k v -> args_get kw k d = v.
Proof.
  intros (pre & post & -> & NI). induction pre as [|[k' v'] pre IH]; cbn [args_get app].
  - now rewrite String.eqb_refl.
  - cbn in NI. destruct (String.eqb k' k) eqn:E; [apply String.eqb_eq in E; subst; tauto|]. apply IH. tauto.
Qed.
Lemma args_get_absent kw k d : ~ In k (map fst kw) -> args_get kw k d = d.
Proof.
  induction kw as [|[k' v'] kw IH]; cbn; [auto|]. intro NI.
  destruct (String.eqb k' k) eqn:E; [apply String.eqb_eq in E; subst; tauto|]. apply IH. tauto.
Qed.
Lemma given_or_absent kw k : (exists v, given kw k v) \/ ~ In k (map fst kw).
Proof.
  induction kw as [|[k' v'] kw IH]; [right; intros []|].
  destruct (String.eqb k' k) eqn:E.
  - apply String.eqb_eq in E. subst. left. exists v', [], kw. cbn. auto.
  - destruct IH as [(v & pre & post & -> & NI)|NI].
    + left. exists v, ((k', v') :: pre)%list, post. split; [reflexivity|]. cbn. intros [->|I]; [|tauto]. rewrite String.eqb_refl in E. discriminate.
    + right. cbn. intros [->|I]; [|tauto]. rewrite String.eqb_refl in E. discriminate.
Qed.
Lemma given_in kw k v : given kw k v -> In (k, v) kw.
Proof. intros (pre & post & -> & _). apply in_app_iff. right. now left. Qed.
Lemma given_split kw k : In k (map fst kw) -> exists v, given kw k v.
Proof. intro I. destruct (given_or_absent kw k) as [G|NI]; [exact G|tauto]. Qed.

Lemma fields_nodup a : NoDup (map fst (fields a)).
Proof.
  destruct a; cbn; repeat (constructor; [cbn; intuition discriminate|]); constructor.
Qed.
Lemma nodup_given (l : list (string * value)) k v : NoDup (map fst l) -> In (k, v) l -> given l k v.
Proof.
  intros ND I. destruct (in_split _ _ I) as (pre & post & E). exists pre, post. split; [exact E|].
  rewrite E, map_app in ND. cbn in ND. apply NoDup_remove_2 in ND. rewrite in_app_iff in ND. tauto.
Qed.
Lemma setting_attr a kw k v : setting a kw k v -> attributes a kw k = v.
Proof.
  unfold attributes. intros [G|[NI I]].
  - now apply args_get_given.
  - rewrite args_get_absent by exact NI. apply args_get_given, nodup_given; [apply fields_nodup|exact I].
Qed.
Lemma attr_setting a kw k : In k (map fst (fields a)) -> setting a kw k (attributes a kw k).
Proof.
  intro I. destruct (given_or_absent kw k) as [[v G]|NI].
  - left. unfold attributes. now rewrite (args_get_given _ _ _ _ G).
  - right. split; [exact NI|]. unfold attributes. rewrite args_get_absent by exact NI.
    destruct (given_split _ _ I) as [v G]. rewrite (args_get_given _ _ _ _ G). now apply given_in.
Qed.
Lemma domain_field a k d : In (k, d) (domains a) -> In k (map fst (fields a)).
Proof.
  destruct a; cbn; intros H; repeat (destruct H as [H|H]; [injection H as <- <-; tauto|]); destruct H.
Qed.
Lemma unknown_false (m : list (string * value)) known : unknown_args m known = false <-> forall k v, In (k, v) m -> In k known.
Proof.
  unfold unknown_args. split.
  - intros E k v I. destruct (existsb (String.eqb k) known) eqn:F.
    + apply existsb_exists in F as (x & Ix & Ex). apply String.eqb_eq in Ex. now subst.
    + assert (H : existsb (fun p : string * value => negb (existsb (String.eqb (fst p)) known)) m = true).
      { apply existsb_exists. exists (k, v). cbn. now rewrite F. }
      congruence.
  - intro A. destruct (existsb _ m) eqn:F; [|reflexivity]. apply existsb_exists in F as ([k v] & I & E). cbn in E.
    apply negb_true_iff in E. assert (H : existsb (String.eqb k) known = true).
    { apply existsb_exists. exists k. split; [eauto|apply String.eqb_refl]. } congruence.
Qed.

Lemma number_numeric v q : number v q -> numeric v.
Proof. intro N. unfold numeric. rewrite (as_num_number _ _ N). discriminate. Qed.
Lemma number_fun v q r : number v q -> number v r -> q = r.
Proof. intros A B. apply as_num_number in A, B. congruence. Qed.

Lemma lenient_spec a k v : lenientb a k v = true -> float_only a k /\ forall f, v <> VFloat f.
Proof.
  unfold lenientb. intro H.
  assert (S : existsb (String.eqb k) ["step_size"; "aux_step_size"] = true /\ match v with VFloat _ => false | _ => true end = true).
  { destruct a; try discriminate; destruct (existsb (String.eqb k) ["step_size"; "aux_step_size"]); try discriminate; auto. }
  destruct S as [Sk Sv]. split.
  - split; [destruct a; try discriminate; cbn; tauto|].
    apply existsb_exists in Sk as (x & I & E). apply String.eqb_eq in E. now subst.
  - intros f ->. discriminate.
Qed.
Lemma lenient_float a k f : lenientb a k (VFloat f) = false.
Proof. destruct (lenientb a k (VFloat f)) eqn:E; [|reflexivity]. apply lenient_spec in E as [_ E]. exfalso. now apply (E f). Qed.
Lemma lenient_not a k v : ~ float_only a k -> lenientb a k v = false.
Proof. intro F. destruct (lenientb a k v) eqn:E; [|reflexivity]. apply lenient_spec in E as [E _]. tauto. Qed.
Lemma lenient_int a k z : float_only a k -> lenientb a k (VInt z) = true.
Proof.
  intros [Ia Ik]. cbn in Ia, Ik. unfold lenientb.
  assert (E : existsb (String.eqb k) ["step_size"; "aux_step_size"] = true).
  { destruct Ik as [<-|[<-|[]]]; reflexivity. }
  rewrite E. repeat (destruct Ia as [<-|Ia]; [reflexivity|]). destruct Ia.
Qed.
Lemma float_only_dec a k : float_only a k \/ ~ float_only a k.
Proof.
  destruct (lenientb a k (VInt 0)) eqn:E; [left; now apply lenient_spec in E|right].
  intro F. rewrite (lenient_int _ _ 0 F) in E. discriminate.
Qed.

(** Fed-LT's tail as a boolean *)
Definition solverb (s : string) (u : list (string * value)) : bool :=
  existsb (String.eqb s) ["gd"; "nesterov"; "adam"] &&
  negb (unknown_args u (map fst (solver_table s))) &&
  forallb (fun e => passb (snd (snd e)) (args_get u (fst e) (fst (snd e)))) (solver_table s).
Definition settled (s : string) (u : list (string * value)) : list (string * value) :=
  map (fun e => (fst e, args_get u (fst e) (fst (snd e)))) (solver_table s).

Lemma known_solver_cases s : known_solver (VStr s) = true -> s = "gd" \/ s = "nesterov" \/ s = "adam".
Proof.
  unfold known_solver. cbn [existsb]. rewrite !orb_true_iff, !String.eqb_eq. intuition discriminate.
Qed.
Lemma args_numeric u k q0 : (forall k x, In (k, x) u -> numeric x) -> numeric (args_get u k (VFloat (FFin q0))).
Proof.
  intro N. destruct (given_or_absent u k) as [[v G]|NI].
  - rewrite (args_get_given _ _ _ _ G). apply given_in in G. eauto.
  - rewrite args_get_absent by exact NI. discriminate.
Qed.
Lemma tail_fedlt o s u : o "local_solver" = VStr s -> o "solver_args" = VArgs u -> (forall k x, In (k, x) u -> numeric x) ->
  tail FedLT o = if solverb s u then Done (set_field o "solver_args" (VArgs (settled s u))) else Raises ValueError.
Proof.
  intros Es Eu N. cbn [tail]. rewrite Es. unfold solverb. change (existsb (String.eqb s) ["gd"; "nesterov"; "adam"]) with (known_solver (VStr s)).
  destruct (known_solver (VStr s)) eqn:K; [|reflexivity]. cbn [andb].
  unfold validate_solver_args. rewrite Es, Eu.
  destruct (known_solver_cases _ K) as [->|[->| ->]]; unfold solver_table, settled; cbn [String.eqb Ascii.eqb Bool.eqb map fst snd forallb].
  - destruct (unknown_args u []); reflexivity.
  - destruct (unknown_args u ["momentum"]); [reflexivity|]. cbn [negb andb].
    rewrite chk_co by (now apply args_numeric). unfold reject_if.
    destruct (passb From0Below1 (args_get u "momentum" (dec 9 10))); reflexivity.
  - destruct (unknown_args u ["beta1"; "beta2"; "epsilon"]); [reflexivity|]. cbn [negb andb].
    rewrite !chk_co by (now apply args_numeric). rewrite chk_pos by (now apply args_numeric). unfold reject_if.
    destruct (passb From0Below1 (args_get u "beta1" (dec 9 10))); [|reflexivity].
    destruct (passb From0Below1 (args_get u "beta2" (dec 999 1000))); [|reflexivity].
    destruct (passb Positive (args_get u "epsilon" (dec 1 100000000))); reflexivity.
Qed.
Lemma table_default_ok s k d D : In (k, (d, D)) (solver_table s) -> passb D d = true.
Proof.
  unfold solver_table. destruct (String.eqb s "adam"); [|destruct (String.eqb s "nesterov")]; cbn;
    intro H; repeat (destruct H as [H|H]; [injection H as <- <- <-; reflexivity|]); destruct H.
Qed.
Lemma solverb_ok s u : (forall k x, In (k, x) u -> exists q, number x q) ->
  (solverb s u = true <-> In s ["gd"; "nesterov"; "adam"] /\ solver_args_ok s u).
Proof.
  intro N. unfold solverb, solver_args_ok. rewrite !andb_true_iff, negb_true_iff, unknown_false, forallb_forall.
  assert (Hs : existsb (String.eqb s) ["gd"; "nesterov"; "adam"] = true <-> In s ["gd"; "nesterov"; "adam"]).
  { rewrite existsb_exists. split; [intros (x & I & E); apply String.eqb_eq in E; now subst|intro I; exists s; split; [exact I|apply String.eqb_refl]]. }
  rewrite Hs. rewrite and_assoc. apply and_iff_compat_l, and_iff_compat_l. split.
  - intros F k d D v q I G Nv. specialize (F _ I). cbn in F. rewrite (args_get_given _ _ _ _ G) in F. now apply (passb_inside _ _ _ Nv).
  - intros A [k [d D]] I. cbn [fst snd]. destruct (given_or_absent u k) as [[v G]|NI].
    + rewrite (args_get_given _ _ _ _ G). destruct (N k v (given_in _ _ _ G)) as [q Nv]. apply (passb_inside _ _ _ Nv). eapply A; eauto.
    + rewrite args_get_absent by exact NI. eapply table_default_ok; eauto.
Qed.

(** general form: every numeric parameter is a number, finite or not *)
Definition typedx (a : alg) (kw : list (string * value)) : Prop :=
  (forall k v, In (k, v) kw -> In k (map fst (fields a))) /\
  (forall k d, In (k, d) (domains a) -> lenientb a k (attributes a kw k) = true \/ numeric (attributes a kw k)) /\
  dict_steps a (attributes a kw).
Lemma construct_passes a kw : typedx a kw ->
  construct a kw = if passes a (attributes a kw) then tail a (attributes a kw) else Raises ValueError.
Proof.
  intros (K & N & D). unfold construct. rewrite (proj2 (unknown_false _ _) K). now apply post_init_passes.
Qed.
Lemma typed_x a kw : typed a kw -> typedx a kw.
Proof.
  intros (K & N & F & S). split; [exact K|]. split.
  - intros k d I. right. destruct (N k d _ I (attr_setting a kw k (domain_field _ _ _ I))) as [q Nq]. eapply number_numeric; eauto.
  - intros [-> | ->]; apply S, attr_setting; cbn; tauto.
Qed.
Lemma passes_within a kw : typed a kw -> (passes a (attributes a kw) = true <-> within a kw).
Proof.
  intros (K & N & F & S). unfold passes, within. rewrite forallb_forall. split.
  - intros A k d v q I Sv Nv. specialize (A _ I). cbn [fst snd] in A. rewrite (setting_attr _ _ _ _ Sv) in A.
    apply (passb_inside _ _ _ Nv). destruct (lenientb a k v) eqn:E; [|exact A].
    apply lenient_spec in E as [E NF]. destruct (F k v E Sv) as [r ->]. exfalso. now apply (NF (FFin r)).
  - intros W [k d] I. cbn [fst snd]. pose proof (attr_setting a kw k (domain_field _ _ _ I)) as Sv.
    destruct (N k d _ I Sv) as [q Nq]. apply orb_true_iff. right. apply (passb_inside _ _ _ Nq). eapply W; eauto.
Qed.

Lemma tail_ok a kw : solver_typed a kw ->
  (solver_within a kw -> exists o, tail a (attributes a kw) = Done o) /\
  (forall o, tail a (attributes a kw) = Done o -> solver_within a kw) /\
  (forall e, tail a (attributes a kw) = Raises e -> e = ValueError).
Proof.
  intro T. assert (C : a = FedLT \/ (a <> FedLT /\ tail a (attributes a kw) = Done (attributes a kw))).
  { destruct a; try (right; split; [discriminate|reflexivity]). now left. }
  destruct C as [-> |[NE E]].
  - destruct (T eq_refl) as [Ts Tu].
    pose proof (attr_setting FedLT kw "local_solver" ltac:(cbn; tauto)) as Ss.
    pose proof (attr_setting FedLT kw "solver_args" ltac:(cbn; tauto)) as Su.
    destruct (Ts _ Ss) as [s Es]. destruct (Tu _ Su) as (u & Eu & Nu). rewrite Es in Ss. rewrite Eu in Su.
    rewrite (tail_fedlt _ s u Es Eu) by (intros k x I; destruct (Nu k x I) as [q Nq]; eapply number_numeric; eauto).
    pose proof (solverb_ok s u Nu) as B. split; [|split].
    + intro W. pose proof (proj2 B (W eq_refl s u Ss Su)) as Eb. rewrite Eb. eauto.
    + destruct (solverb s u); [|discriminate]. intros o _ _ s' u' Ss' Su'.
      apply setting_attr in Ss', Su'. rewrite Es in Ss'. rewrite Eu in Su'. injection Ss' as <-. injection Su' as <-. now apply B.
    + destruct (solverb s u); [discriminate|]. now intros e [= <-].
  - rewrite E. split; [eauto|]. split; [intros o _ H; congruence|discriminate].
Qed.

Lemma accepts a kw : typed a kw -> solver_typed a kw ->
  (accepted a kw <-> within a kw /\ solver_within a kw) /\ (~ accepted a kw -> construct a kw = Raises ValueError).
Proof.
  intros T Ts. destruct (tail_ok a kw Ts) as (T1 & T2 & T3). unfold accepted.
  rewrite (construct_passes _ _ (typed_x _ _ T)), <- (passes_within _ _ T).
  destruct (passes a (attributes a kw)).
  - split.
    + split; [intros [o E]; split; eauto|intros [_ W]; auto].
    + intro NA. destruct (tail a (attributes a kw)) as [o|e] eqn:E; [exfalso; eauto|now rewrite (T3 e eq_refl)].
  - split; [split; [intros [o E]; discriminate|intros [E _]; discriminate]|reflexivity].
Qed.

(** ---- changing one parameter ---- *)
Lemma attr_cons a kw k v k' : attributes a ((k, v) :: kw) k' = if String.eqb k k' then v else attributes a kw k'.
Proof. reflexivity. Qed.
Definition is_solver_field (k : string) : Prop := k = "local_solver" \/ k = "solver_args".
Lemma domain_not_solver a k d : In (k, d) (domains a) -> k <> "local_solver" /\ k <> "solver_args".
Proof.
  destruct a; cbn; intros H; repeat (destruct H as [H|H]; [injection H as <- <-; split; discriminate|]); destruct H.
Qed.
Lemma domain_fun a k d d' : In (k, d) (domains a) -> In (k, d') (domains a) -> d = d'.
Proof.
  assert (ND : NoDup (map fst (domains a))) by (destruct a; cbn; repeat (constructor; [cbn; intuition discriminate|]); constructor).
  intros H H'. destruct (in_split _ _ H) as (pre & post & E). rewrite E, map_app in ND. cbn in ND. apply NoDup_remove_2 in ND.
  rewrite E, in_app_iff in H'. rewrite in_app_iff in ND. destruct H' as [I|[I|I]]; [|congruence|]; apply (in_map fst) in I; cbn in I; tauto.
Qed.
Lemma tail_other a o k v : k <> "local_solver" -> k <> "solver_args" ->
  (exists o', tail a o = Done o') -> exists o', tail a (fun k' => if String.eqb k k' then v else o k') = Done o'.
Proof.
  intros N1 N2 [o' E]. destruct a; try (eexists; reflexivity).
  cbn [tail] in E |- *. unfold validate_solver_args in *.
  assert (E1 : String.eqb k "local_solver" = false) by (now apply String.eqb_neq).
  assert (E2 : String.eqb k "solver_args" = false) by (now apply String.eqb_neq).
  cbn beta. rewrite E1, E2.
  destruct (o "local_solver"); try discriminate.
  destruct (known_solver (VStr s)) eqn:K; [|discriminate].
  destruct (known_solver_cases _ K) as [->|[->| ->]]; destruct (o "solver_args"); try discriminate.
  - destruct (unknown_args m []); [discriminate|eauto].
  - destruct (unknown_args m ["momentum"]); [discriminate|]. unfold reject_if in *.
    destruct (py_not (in_co (args_get m "momentum" (dec 9 10)))) as [[]|]; try discriminate. eauto.
  - destruct (unknown_args m ["beta1"; "beta2"; "epsilon"]); [discriminate|]. unfold reject_if in *.
    destruct (py_not (in_co (args_get m "beta1" (dec 9 10)))) as [[]|]; try discriminate.
    destruct (py_not (in_co (args_get m "beta2" (dec 999 1000)))) as [[]|]; try discriminate.
    destruct (py_le (args_get m "epsilon" (dec 1 100000000)) zero) as [[]|]; try discriminate. eauto.
Qed.

Lemma change_one a kw k d v : typed a kw -> solver_typed a kw -> accepted a kw -> In (k, d) (domains a) ->
  (k = "num_local_steps" -> a <> FedNova /\ a <> FedPD) -> lenientb a k v = true \/ numeric v ->
  (lenientb a k v || passb d v = true -> accepted a ((k, v) :: kw)) /\
  (lenientb a k v || passb d v = false -> construct a ((k, v) :: kw) = Raises ValueError).
Proof.
  intros T Ts A I Steps NV. pose proof (typed_x _ _ T) as (K & N & D).
  assert (Tx : typedx a ((k, v) :: kw)).
  { split; [|split].
    - intros k' v' [[= <- <-]|I']; [eapply domain_field; eauto|eauto].
    - intros k' d' I'. rewrite attr_cons. destruct (String.eqb k k') eqn:E; [|eauto]. apply String.eqb_eq in E. now subst.
    - intro Ha. specialize (D Ha). rewrite attr_cons. destruct (String.eqb k "num_local_steps") eqn:E; [|exact D].
      apply String.eqb_eq in E. destruct (Steps E). destruct Ha; congruence. }
  unfold accepted. rewrite (construct_passes _ _ Tx).
  assert (P : passes a (attributes a kw) = true).
  { apply (passes_within _ _ T). now apply (accepts a kw T Ts). }
  assert (Tl : exists o, tail a (attributes a kw) = Done o).
  { apply (tail_ok a kw Ts). now apply (accepts a kw T Ts). }
  assert (Q : passes a (attributes a ((k, v) :: kw)) = lenientb a k v || passb d v).
  { unfold passes in *. rewrite forallb_forall in P.
    destruct (lenientb a k v || passb d v) eqn:E.
    - apply forallb_forall. intros [k' d'] I'. specialize (P _ I'). cbn [fst snd] in *. rewrite attr_cons.
      destruct (String.eqb k k') eqn:Ek; [|exact P]. apply String.eqb_eq in Ek. subst. now rewrite (domain_fun _ _ _ _ I' I).
    - destruct (forallb _ (domains a)) eqn:F; [|reflexivity]. rewrite forallb_forall in F. specialize (F _ I). cbn [fst snd] in F.
      rewrite attr_cons, String.eqb_refl in F. congruence. }
  rewrite Q. split; intro E; rewrite E; [|reflexivity].
  destruct (domain_not_solver _ _ _ I). eapply tail_other; eauto.
Qed.

Lemma passb_nan d : one_sided d -> passb d (VFloat FNaN) = true.
Proof. intros [<-|[<-|[<-|[]]]]; reflexivity. Qed.
Lemma passb_nan2 d : ~ one_sided d -> passb d (VFloat FNaN) = false.
Proof. unfold one_sided. cbn. destruct d; intro H; try reflexivity; exfalso; tauto. Qed.
Lemma passb_inf d : one_sided d -> passb d (VFloat FPInf) = true.
Proof. intros [<-|[<-|[<-|[]]]]; reflexivity. Qed.

(** ---- per-client step counts ---- *)
Lemma steps_loop_spec vs o :
  (steps_loop vs o = Done o <-> forall v, In v vs -> exists z, v = VInt z /\ (0 < z)%Z) /\
  (forall o', steps_loop vs o = Done o' -> o' = o).
Proof.
  induction vs as [|v vs [IH1 IH2]]; cbn [steps_loop].
  - split; [split; [intros _ v []|reflexivity]|congruence].
  - destruct v; try (split; [split; [discriminate|intro H; destruct (H _ (or_introl eq_refl)) as (y & Ey & _); discriminate]|discriminate]).
    destruct (Z.leb_spec z 0) as [L|L].
    + split; [split; [discriminate|intro H; destruct (H _ (or_introl eq_refl)) as (y & [= <-] & P); lia]|discriminate].
    + split; [|exact IH2]. rewrite IH1. split; [intros H v [<-|I]; [eauto|auto]|intros H v I; apply H; now right].
Qed.
Lemma steps_of_first m c v : (exists pre post, m = (pre ++ (c, v) :: post)%list /\ ~ In c (map fst pre)) -> steps_of m c = Some v.
Proof.
  intros (pre & post & -> & NI). induction pre as [|[c' v'] pre IH]; cbn [steps_of app].
  - now rewrite Nat.eqb_refl.
  - cbn in NI. destruct (Nat.eqb c' c) eqn:E; [apply Nat.eqb_eq in E; subst; tauto|]. apply IH. tauto.
Qed.
Lemma steps_of_none m c : steps_of m c = None <-> ~ In c (map fst m).
Proof.
  induction m as [|[c' v'] m IH]; cbn; [tauto|]. destruct (Nat.eqb c' c) eqn:E.
  - apply Nat.eqb_eq in E. subst. split; [discriminate|tauto].
  - apply Nat.eqb_neq in E. rewrite IH. tauto.
Qed.
Lemma steps_of_in m c v : steps_of m c = Some v -> In (c, v) m.
Proof.
  induction m as [|[c' v'] m IH]; cbn; [discriminate|]. destruct (Nat.eqb c' c) eqn:E.
  - apply Nat.eqb_eq in E. intros [= <-]. subst. now left.
  - intro H. right. auto.
Qed.
Lemma settle_dict o m clients : o "num_local_steps" = VSteps m ->
  ((forall c, In c clients -> In c (map fst m)) ->
     exists r, settle_num_local_steps o clients = Done r /\ map fst r = clients /\ forall c v, In (c, v) r -> steps_of m c = Some v) /\
  ((exists c, In c clients /\ ~ In c (map fst m)) -> settle_num_local_steps o clients = Raises ValueError).
Proof.
  intro E. unfold settle_num_local_steps. rewrite E. split.
  - intro C. destruct (existsb _ clients) eqn:X.
    + apply existsb_exists in X as (c & I & Ec). destruct (steps_of m c) eqn:S; [discriminate|]. apply steps_of_none in S. exfalso. auto.
    + eexists. split; [reflexivity|]. split.
      * rewrite map_map. cbn. apply map_id.
      * intros c v I. apply in_map_iff in I as (c' & [= <- <-] & I). destruct (steps_of m c') eqn:S; [reflexivity|].
        apply steps_of_none in S. exfalso. auto.
  - intros (c & I & NI). apply steps_of_none in NI.
    destruct (existsb _ clients) eqn:X; [reflexivity|]. exfalso.
    assert (H : existsb (fun c => match steps_of m c with None => true | Some _ => false end) clients = true).
    { apply existsb_exists. exists c. now rewrite NI. }
    congruence.
Qed.
Lemma dict_construct a kw v : a = FedNova \/ a = FedPD -> typed a kw -> accepted a kw ->
  construct a (("num_local_steps", v) :: kw) =
    match v with
    | VInt z => if (z <=? 0)%Z then Raises ValueError else Done (attributes a (("num_local_steps", v) :: kw))
    | VSteps m => steps_loop (map snd m) (attributes a (("num_local_steps", v) :: kw))
    | VArgs m => steps_loop (map snd m) (attributes a (("num_local_steps", v) :: kw))
    | _ => Raises TypeError
    end.
Proof.
  intros Ha (K & _ & _ & S) [o A]. unfold construct in *.
  rewrite (proj2 (unknown_false _ _) K) in A.
  assert (K' : forall k x, In (k, x) (("num_local_steps", v) :: kw) -> In k (map fst (fields a))).
  { intros k x [[= <- <-]|I]; [destruct Ha as [-> | ->]; cbn; tauto|eauto]. }
  rewrite (proj2 (unknown_false _ _) K'). unfold post_init in *.
  set (o1 := attributes a kw) in *. set (o2 := attributes a (("num_local_steps", v) :: kw)).
  assert (E : forall k, String.eqb "num_local_steps" k = false -> o2 k = o1 k).
  { intros k Ek. unfold o2. now rewrite attr_cons, Ek. }
  assert (E2 : o2 "num_local_steps" = v) by reflexivity.
  clearbody o1 o2. rewrite (E "iterations" eq_refl).
  destruct Ha as [-> | ->]; cbn [own_check] in *; unfold fed_nova_check, fed_pd_check, reject_if in *;
    rewrite (E "step_size" eq_refl), (E "penalty" eq_refl); rewrite ?(E "momentum" eq_refl), ?(E "server_momentum" eq_refl), ?(E "skip_probability" eq_refl);
    unfold validate_num_local_steps; rewrite E2;
    repeat match type of A with match ?c with _ => _ end = _ => destruct c as [[]|] eqn:?; try discriminate end; reflexivity.
Qed.
