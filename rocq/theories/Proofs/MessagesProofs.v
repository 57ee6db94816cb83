From Coq Require Import String List Bool Arith Lia.
From Verif.Model Require Import PyDict History Messages.
From Verif.Spec Require Import MessagesSpec.
From Verif.Proofs Require Import PyDictProofs.
Import ListNotations.

Section P.
  Variable V : Type.
  Implicit Types (m : store V) (b : bucket V).

  (** flattened view *)
  Definition look m (c : channel) (s : agent_id) : option V :=
    match dget String.eqb m c with None => None | Some b => dget Nat.eqb b s end.

  Definition sinv m : Prop :=
    NoDup (dkeys m) /\ forall c b, dget String.eqb m c = Some b -> NoDup (dkeys b) /\ b <> [].

  Lemma sinv_empty : sinv [].
  Proof. split; [constructor|]. simpl. discriminate. Qed.

  Lemma s_get_look m s c : s_get m s c = match look m c s with Some v => Ok v | None => KeyError end.
  Proof. unfold s_get, look. destruct (dget String.eqb m c); auto. Qed.
  Lemma s_has_look m s c : s_has m s c = match look m c s with Some v => true | None => false end.
  Proof. unfold s_has, look, dmem. destruct (dget String.eqb m c); auto. Qed.
  Lemma s_by_channel_look m s c : dget Nat.eqb (s_by_channel m c) s = look m c s.
  Proof. unfold s_by_channel, look. destruct (dget String.eqb m c); auto. Qed.

  Lemma dset_not_nil {K W} (e : K -> K -> bool) (d : list (K * W)) k v : dset e d k v <> [].
  Proof. destruct d as [|[k' v'] d]; simpl; [discriminate|]. destruct (e k k'); discriminate. Qed.

  Lemma put_look m s v c : forall c' s',
    look (s_put m s v c) c' s' = if String.eqb c' c && Nat.eqb s' s then Some v else look m c' s'.
  Proof.
    intros c' s'. unfold s_put, look, dmem.
    destruct (dget String.eqb m c) as [b|] eqn:E.
    - rewrite E. rewrite (dget_dset _ _ _ String.eqb_spec).
      destruct (String.eqb_spec c' c); simpl; auto. subst. rewrite E.
      apply (dget_dset _ _ _ Nat.eqb_spec).
    - rewrite (dget_dset_eq _ _ _ String.eqb_spec).
      rewrite !(dget_dset _ _ _ String.eqb_spec).
      destruct (String.eqb_spec c' c); simpl; auto. subst. rewrite E. destruct (Nat.eqb s' s); auto.
  Qed.

  Lemma put_inv m s v c : sinv m -> sinv (s_put m s v c).
  Proof.
    intros (N & B). unfold s_put, dmem.
    destruct (dget String.eqb m c) as [b|] eqn:E.
    - rewrite E. split; [now apply (NoDup_dset _ _ _ String.eqb_spec)|].
      intros c' b'. rewrite (dget_dset _ _ _ String.eqb_spec). destruct (String.eqb c' c); [|apply B].
      intros [= <-]. split; [|apply dset_not_nil].
      apply (NoDup_dset _ _ _ Nat.eqb_spec). eapply B; eauto.
    - rewrite (dget_dset_eq _ _ _ String.eqb_spec). split.
      + repeat apply (NoDup_dset _ _ _ String.eqb_spec). auto.
      + intros c' b'. rewrite !(dget_dset _ _ _ String.eqb_spec). destruct (String.eqb c' c); [|apply B].
        intros [= <-]. simpl. split; [|discriminate]. constructor; [intros []|constructor].
  Qed.

  Lemma pop_all_spec ss : forall b, NoDup (dkeys b) -> NoDup (dkeys (pop_all b ss)) /\
    forall s, dget Nat.eqb (pop_all b ss) s = if in_dec Nat.eq_dec s ss then None else dget Nat.eqb b s.
  Proof.
    unfold pop_all. induction ss as [|a ss IH]; intros b N; simpl; [split; auto|].
    destruct (IH (dpop Nat.eqb b a)) as (I1 & I2); [now apply NoDup_dpop|].
    split; auto. intro s. rewrite I2. rewrite (dget_dpop _ _ _ Nat.eqb_spec) by auto.
    destruct (in_dec Nat.eq_dec s ss); destruct (Nat.eq_dec a s); auto;
      destruct (Nat.eqb_spec s a); congruence.
  Qed.

  Lemma map_dget m f c : dget String.eqb (map (fun cb => (fst cb, f (snd cb))) m) c =
    option_map (f : bucket V -> bucket V) (dget String.eqb m c).
  Proof. induction m as [|[c' b] m IH]; simpl; auto. destruct (String.eqb c c'); auto. Qed.
  Lemma map_dkeys m (f : bucket V -> bucket V) : dkeys (map (fun cb => (fst cb, f (snd cb))) m) = dkeys m.
  Proof. unfold dkeys. rewrite map_map. reflexivity. Qed.

  Lemma pops_spec cs : forall m, NoDup (dkeys m) ->
    NoDup (dkeys (fold_left (fun m c => dpop String.eqb m c) cs m)) /\
    forall c, dget String.eqb (fold_left (fun m c => dpop String.eqb m c) cs m) c =
      if in_dec string_dec c cs then None else dget String.eqb m c.
  Proof.
    induction cs as [|a cs IH]; intros m N; simpl; [split; auto|].
    destruct (IH (dpop String.eqb m a)) as (I1 & I2); [now apply NoDup_dpop|].
    split; auto. intro c. rewrite I2. rewrite (dget_dpop _ _ _ String.eqb_spec) by auto.
    destruct (in_dec string_dec c cs); destruct (string_dec a c); auto;
      destruct (String.eqb_spec c a); congruence.
  Qed.

  Lemma purge_dget m ss c : NoDup (dkeys m) ->
    NoDup (dkeys (purge_all m ss)) /\
    dget String.eqb (purge_all m ss) c =
    match dget String.eqb m c with
    | None => None
    | Some b => match pop_all b ss with [] => None | b' => Some b' end
    end.
  Proof.
    intro N. unfold purge_all.
    set (f := fun b : bucket V => pop_all b ss).
    set (m1 := map (fun cb => (fst cb, f (snd cb))) m).
    assert (N1 : NoDup (dkeys m1)) by (unfold m1; now rewrite map_dkeys).
    assert (G1 : forall c, dget String.eqb m1 c = option_map f (dget String.eqb m c)) by (intro; apply map_dget).
    set (em := map fst (filter (fun cb => Nat.eqb (length (snd cb)) 0) m1)).
    destruct (pops_spec em m1 N1) as (P1 & P2). split; auto.
    rewrite P2. destruct (in_dec string_dec c em) as [I|I].
    - unfold em in I. apply in_map_iff in I. destruct I as ([c' b'] & E & F). simpl in E. subst c'.
      apply filter_In in F. destruct F as (F & Z). apply Nat.eqb_eq in Z. simpl in Z.
      apply (dget_NoDup _ _ _ String.eqb_spec) in F; auto. rewrite G1 in F.
      destruct (dget String.eqb m c) as [b|]; auto. simpl in F. injection F as F.
      unfold f in F. rewrite F. destruct b'; auto. discriminate.
    - rewrite G1. destruct (dget String.eqb m c) as [b|] eqn:E; simpl; auto.
      unfold f. destruct (pop_all b ss) as [|p b'] eqn:E2; auto.
      exfalso. apply I. unfold em. apply in_map_iff. exists (c, []). split; auto.
      apply filter_In. split; auto. assert (X : dget String.eqb m1 c = Some []).
      { rewrite G1, E. simpl. unfold f. now rewrite E2. }
      now apply (dget_In _ _ _ String.eqb_spec) in X.
  Qed.

  Definition in_scope (ss : option (list agent_id)) (cc : option channel) (s : agent_id) (c : channel) : bool :=
    (match ss with None => true | Some l => if in_dec Nat.eq_dec s l then true else false end) &&
    (match cc with None => true | Some c' => String.eqb c c' end).

  Lemma clear_look m ss cc : sinv m -> forall c s,
    look (s_clear m ss cc) c s = if in_scope ss cc s c then None else look m c s.
  Proof.
    intros (N & B) c s. unfold s_clear, in_scope.
    destruct ss as [ss|]; destruct cc as [cc|]; simpl; auto.
    - destruct (dget String.eqb m cc) as [b|] eqn:E.
      + destruct (B _ _ E) as (Nb & _). destruct (pop_all_spec ss b Nb) as (P1 & P2).
        assert (G : forall b', pop_all b ss = b' ->
          look (dset String.eqb m cc b') c s = if String.eqb c cc then dget Nat.eqb b' s else look m c s).
        { intros b' _. unfold look. rewrite (dget_dset _ _ _ String.eqb_spec). destruct (String.eqb c cc); auto. }
        destruct (pop_all b ss) as [|p b'] eqn:E2.
        * unfold look at 1. rewrite (dget_dpop _ _ _ String.eqb_spec) by now apply (NoDup_dset _ _ _ String.eqb_spec).
          rewrite (dget_dset _ _ _ String.eqb_spec). destruct (String.eqb_spec c cc).
          -- subst. specialize (P2 s). simpl in P2. unfold look. rewrite E.
             destruct (in_dec Nat.eq_dec s ss); simpl; auto.
          -- unfold look. rewrite andb_false_r. reflexivity.
        * rewrite G by auto. destruct (String.eqb_spec c cc).
          -- subst. rewrite P2. unfold look. rewrite E. rewrite andb_true_r.
             destruct (in_dec Nat.eq_dec s ss); auto.
          -- now rewrite andb_false_r.
      + destruct (String.eqb_spec c cc).
        * subst. unfold look. rewrite E. destruct (_ && _); auto.
        * now rewrite andb_false_r.
    - unfold look. destruct (purge_dget m ss c N) as (_ & ->). rewrite andb_true_r.
      destruct (dget String.eqb m c) as [b|] eqn:E; [|destruct (in_dec Nat.eq_dec s ss); auto].
      destruct (B _ _ E) as (Nb & _). destruct (pop_all_spec ss b Nb) as (P1 & P2). specialize (P2 s).
      destruct (pop_all b ss) as [|p b'] eqn:E2.
      + simpl in P2. destruct (in_dec Nat.eq_dec s ss); auto.
      + rewrite P2. destruct (in_dec Nat.eq_dec s ss); auto.
    - unfold look. rewrite (dget_dpop _ _ _ String.eqb_spec) by auto.
      destruct (String.eqb c cc); auto.
  Qed.

  Lemma clear_inv m ss cc : sinv m -> sinv (s_clear m ss cc).
  Proof.
    intros (N & B). unfold s_clear. destruct ss as [ss|]; destruct cc as [cc|].
    - destruct (dget String.eqb m cc) as [b|] eqn:E; [|split; auto].
      destruct (B _ _ E) as (Nb & _). destruct (pop_all_spec ss b Nb) as (P1 & P2).
      assert (ND : forall b', NoDup (dkeys (dset String.eqb m cc b'))) by (intro; now apply (NoDup_dset _ _ _ String.eqb_spec)).
      destruct (pop_all b ss) as [|p b'] eqn:E2.
      + split; [now apply NoDup_dpop|]. intros c b'. rewrite (dget_dpop _ _ _ String.eqb_spec) by auto.
        rewrite (dget_dset _ _ _ String.eqb_spec). destruct (String.eqb c cc); [discriminate|apply B].
      + split; auto. intros c b''. rewrite (dget_dset _ _ _ String.eqb_spec). destruct (String.eqb c cc); [|apply B].
        intros [= <-]. split; auto. discriminate.
    - split; [now apply (purge_dget m ss ""%string)|]. intros c b'.
      destruct (purge_dget m ss c N) as (_ & ->).
      destruct (dget String.eqb m c) as [b|] eqn:E; [|discriminate].
      destruct (B _ _ E) as (Nb & _). destruct (pop_all_spec ss b Nb) as (P1 & _).
      destruct (pop_all b ss) as [|p b''] eqn:E2; [discriminate|]. intros [= <-]. split; auto. discriminate.
    - split; [now apply NoDup_dpop|]. intros c b'. rewrite (dget_dpop _ _ _ String.eqb_spec) by auto.
      destruct (String.eqb c cc); [discriminate|apply B].
    - apply sinv_empty.
  Qed.

  Lemma in_scope_touches ss cc s c : in_scope ss cc s c = true <-> touches s c (@OpClear V ss cc).
  Proof.
    unfold in_scope, touches. rewrite andb_true_iff.
    split; intros (A & B); split.
    - destruct ss as [l|]; auto. destruct (in_dec Nat.eq_dec s l); auto. discriminate.
    - destruct cc; auto. symmetry. now apply String.eqb_eq.
    - destruct ss as [l|]; auto. destruct (in_dec Nat.eq_dec s l); auto.
    - destruct cc; auto. apply String.eqb_eq. auto.
  Qed.

  Lemma run_spec ops : sinv (s_run ops) /\ forall s c v, look (s_run ops) c s = Some v <-> current ops s c v.
  Proof.
    unfold s_run.
    induction ops as [|o ops IH] using rev_ind.
    - split; [apply sinv_empty|]. intros s c v. split; [discriminate|].
      intros (l1 & l2 & E & _). destruct l1; discriminate.
    - rewrite fold_left_app. simpl. destruct IH as (I & L).
      assert (NT : forall s c v, ~ touches s c o -> (current (ops ++ [o]) s c v <-> current ops s c v)).
      { intros s c v T. split; intros (l1 & l2 & E & F).
        - destruct l2 as [|p l2'] using rev_ind.
          + apply app_inj_tail in E. destruct E as [_ ->]. exfalso. apply T. simpl. auto.
          + clear IHl2'. rewrite app_comm_cons, app_assoc in E. apply app_inj_tail in E.
            destruct E as [E _]. exists l1, l2'. split; auto. intros o' I'. apply F. apply in_app_iff; auto.
        - exists l1, (l2 ++ [o]). split; [rewrite E, <- app_assoc; auto|].
          intros o' I'. apply in_app_iff in I'. destruct I' as [I'|[<-|[]]]; auto. }
      assert (TC : forall s c v, touches s c o -> current (ops ++ [o]) s c v -> o = OpPut s v c).
      { intros s c v T (l1 & l2 & E & F). destruct l2 as [|p l2'] using rev_ind.
        - apply app_inj_tail in E. tauto.
        - clear IHl2'. rewrite app_comm_cons, app_assoc in E. apply app_inj_tail in E.
          destruct E as [_ <-]. exfalso. eapply F; eauto. apply in_app_iff; simpl; auto. }
      destruct o as [s0 v0 c0|ss cc]; simpl.
      + split; [now apply put_inv|]. intros s c v. rewrite put_look.
        destruct (String.eqb_spec c c0); destruct (Nat.eqb_spec s s0); simpl.
        * subst. split.
          -- intros [= <-]. exists ops, []. split; auto.
          -- intro C. apply TC in C; [|simpl; auto]. congruence.
        * rewrite NT; [apply L|]. simpl. intuition.
        * rewrite NT; [apply L|]. simpl. intuition.
        * rewrite NT; [apply L|]. simpl. intuition.
      + split; [now apply clear_inv|]. intros s c v. rewrite clear_look by auto.
        destruct (in_scope ss cc s c) eqn:E.
        * apply in_scope_touches in E. split; [discriminate|]. intro C. apply TC in C; auto. discriminate.
        * rewrite NT; [apply L|]. intro T. apply in_scope_touches in T. congruence.
  Qed.
End P.
