(** The active set is the one the activation schemes give for the current iteration. *)
From Coq Require Import String List Bool Arith ZArith QArith Qcanon Lia.
From Verif.Model Require Import PyDict History Messages Network.
From Verif.Spec Require Import NetworkSpec.
From Verif.Proofs Require Import PyDictProofs MessagesProofs NetworkProofs NetworkInv.
Import ListNotations.
Open Scope nat_scope.

Section P.
  Variable V : Type.
  Variables (t : topo) (e : env V).
  Implicit Types (st : net V).
  Definition ainv st : Prop := match n_cache st with None => True | Some l => exists d, l = fst (act_filter e (n_iter st) (agents t) d) end.

  Lemma ainv_active st : ainv st -> ainv (snd (active_agents t e st)).
  Proof.
    intro K. unfold active_agents. destruct (n_cache st) eqn:E; [exact K|].
    unfold ainv. destruct (act_filter e (n_iter st) (agents t) (n_draws st)) as [l d] eqn:Q. simpl.
    exists (n_draws st). now rewrite Q.
  Qed.
  Lemma iter_active st : n_iter (snd (active_agents t e st)) = n_iter st.
  Proof. unfold active_agents. destruct (n_cache st); auto. destruct (act_filter e _ _ _); auto. Qed.
  Lemma ainv_conn st a : ainv st -> ainv (snd (active_connected t e st a)).
  Proof.
    intro K. unfold active_connected. destruct (dget Nat.eqb (n_conn st) a); [exact K|].
    pose proof (ainv_active st K) as K'. destruct (active_agents t e st) as [act st1]. exact K'.
  Qed.
  Lemma iter_conn st a : n_iter (snd (active_connected t e st a)) = n_iter st.
  Proof. unfold active_connected. destruct (dget Nat.eqb (n_conn st) a); auto. pose proof (iter_active st). destruct (active_agents t e st); auto. Qed.
  Lemma ainv_allowed st a : ainv st -> ainv (snd (allowed t e st a)) /\ n_iter (snd (allowed t e st a)) = n_iter st.
  Proof.
    intro K. unfold allowed. destruct (t_server t) as [sv|]; [|split; [now apply ainv_conn|apply iter_conn]].
    destruct (Nat.eqb a sv); [split; [now apply ainv_conn|apply iter_conn]|]. split; auto.
  Qed.
  Lemma ainv_transmit st s rs m c : ainv st -> ainv (transmit t e st s rs m c) /\ n_iter (transmit t e st s rs m c) = n_iter st.
  Proof.
    intros K. destruct (transmit_caches V t e st s rs m c) as (E1 & E2 & _). unfold ainv. rewrite E1, E2. auto.
  Qed.
  Lemma ainv_send_base st s r m c : ainv st -> ainv (sstate (send_base t e st s r m c)) /\ n_iter (sstate (send_base t e st s r m c)) = n_iter st.
  Proof.
    intro K. unfold send_base. destruct m as [m|]; [|auto]. destruct (memb s (t_nodes t)); simpl; [|auto].
    assert (T : forall st1 rs, ainv st1 -> n_iter st1 = n_iter st -> let R := sstate (let '(al, st2) := allowed t e st1 s in
       if forallb (fun a => memb a al) rs then SOk (transmit t e st2 s rs m c) else SErr st2) in ainv R /\ n_iter R = n_iter st).
    { intros st1 rs K1 I1. pose proof (ainv_allowed st1 s K1) as (K2 & I2). destruct (allowed t e st1 s) as [al st2]. simpl in K2, I2.
      destruct (forallb _ rs); simpl; [|split; auto; congruence]. destruct (ainv_transmit st2 s rs m c K2). split; auto. congruence. }
    destruct r as [|a|l].
    - pose proof (ainv_conn st s K) as K1. pose proof (iter_conn st s). destruct (active_connected t e st s) as [l st1]. now apply T.
    - destruct (memb a (connected_agents t s)); [now apply T|auto].
    - now apply T.
  Qed.
  Lemma ainv_send st s r m c : ainv st -> ainv (sstate (send t e st s r m c)) /\ n_iter (sstate (send t e st s r m c)) = n_iter st.
  Proof.
    intro K. unfold send. destruct (t_server t) as [sv|]; [|now apply ainv_send_base].
    unfold send_fed. destruct r as [|a|l];
    repeat match goal with |- context [if ?b then _ else _] => destruct b end; try (split; [exact K|reflexivity]); now apply ainv_send_base.
  Qed.
  Definition iter_after (k0 : nat) (o : nop V) : nat := match o with NStep k => k | _ => k0 end.
  Lemma ainv_step o st : ainv st -> ainv (nstep t e st o) /\ n_iter (nstep t e st o) = iter_after (n_iter st) o.
  Proof.
    intro K. destruct o as [|a|s r m c|k|a v|a k v|a p it f|a]; simpl; try (split; [exact K|reflexivity]).
    - split; [now apply ainv_active|apply iter_active].
    - split; [now apply ainv_conn|apply iter_conn].
    - now apply ainv_send.
    - destruct (step_spec V t k st) as (A & B & _). unfold ainv. rewrite A, B. auto.
  Qed.
  Lemma ainv_run ops : forall st, ainv st -> ainv (nrun t e st ops) /\ n_iter (nrun t e st ops) = fold_left iter_after ops (n_iter st).
  Proof.
    unfold nrun. induction ops as [|o ops IH]; intros st K; simpl; auto.
    destruct (ainv_step o st K) as (A & <-). now apply IH.
  Qed.
  Lemma act_filter_mem it l : forall d, NoDup l -> forall i a, nth_error l i = Some a ->
    (In a (fst (act_filter e it l d)) <-> e_act e (d + i) a it = true).
  Proof.
    induction l as [|b l IH]; intros d ND i a H; [destruct i; discriminate|]. inversion ND; subst. simpl.
    specialize (IH (S d) H3). pose proof (act_filter_incl V e it l (S d)) as IN.
    destruct (act_filter e it l (S d)) as [r d']; simpl in *. destruct i as [|i]; simpl in H.
    - injection H as ->. rewrite Nat.add_0_r. assert (~ In a r) by (intro X; apply H2; now apply IN).
      destruct (e_act e d a it); simpl; intuition congruence.
    - assert (a <> b) by (intros ->; apply H2; eapply nth_error_In; eauto).
      rewrite Nat.add_succ_r. specialize (IH i a H). destruct (e_act e d b it); simpl; rewrite <- IH; intuition congruence.
  Qed.
End P.
