From Coq Require Import String List Bool Arith ZArith QArith Qcanon Lia.
From Verif.Model Require Import PyDict History Messages Network.
From Verif.Spec Require Import NetworkSpec.
From Verif.Proofs Require Import PyDictProofs MessagesProofs NetworkProofs NetworkInv.
Import ListNotations.
Open Scope nat_scope.

Section P.
  Variable V : Type.
  Variables (t : topo) (e : env V).
  Hypothesis W : wf_topo t.
  Notation net := (net V).
  Implicit Types (st : net).

  Definition accounted st : Prop := forall a,
    a_recv (n_agents st a) = volume t e (fun _ r => Nat.eqb r a) (n_log st) /\
    a_sent (n_agents st a) = (a_drop (n_agents st a) + volume t e (fun s _ => Nat.eqb s a) (n_log st))%Qc.

  Lemma volume_cons sel ev log : volume t e sel (ev :: log) =
    ((match ev with EvDeliver s r _ payload _ => if sel s r then Q2Qc (e_csize e s payload # t_size t) else 0 | _ => 0 end) + volume t e sel log)%Qc.
  Proof. reflexivity. Qed.

  Lemma deliver_account s c m m' nz l : forall i st a,
    let st' := deliver e s c m m' nz (counter_increment t e s m) i l st in
    (a_recv (n_agents st' a) - volume t e (fun _ r => Nat.eqb r a) (n_log st') =
     a_recv (n_agents st a) - volume t e (fun _ r => Nat.eqb r a) (n_log st))%Qc /\
    volume t e (fun s _ => Nat.eqb s a) (n_log st') =
      (volume t e (fun s _ => Nat.eqb s a) (n_log st) +
       (if Nat.eqb s a then counter_increment t e s m * qn (length l) else 0))%Qc.
  Proof.
    induction l as [|r l IH]; intros i st a st'.
    - subst st'. cbn [deliver length]. rewrite qn_0. split; auto. destruct (Nat.eqb s a); ring.
    - subst st'. cbn [deliver length].
      match goal with |- context [deliver e s c m m' nz _ (S i) l ?S'] => destruct (IH (S i) S' a) as (A & B) end.
      rewrite A, B. clear A B IH. cbn [logev n_log n_agents upd_agent]. rewrite !volume_cons.
      fold (counter_increment t e s m). unfold upd.
      rewrite (Nat.eqb_sym a r), qn_S. split.
      + destruct (Nat.eqb_spec r a); simpl.
        * ring.
        * ring.
      + destruct (Nat.eqb s a); ring.
  Qed.

  Lemma accounted_ext st st' : same_agents st st' ->
    (forall sel, volume t e sel (n_log st') = volume t e sel (n_log st)) -> accounted st -> accounted st'.
  Proof. intros F L A a. rewrite F, !L. apply A. Qed.

  Lemma volume_app_consults sel l log : volume t e sel (map EvConsult l ++ log) = volume t e sel log.
  Proof. induction l as [|b l IH]; simpl; auto. rewrite volume_cons, IH. ring. Qed.

  Lemma vol_active st sel : volume t e sel (n_log (snd (active_agents t e st))) = volume t e sel (n_log st).
  Proof.
    unfold active_agents. destruct (n_cache st); auto. destruct (act_filter e _ _ _); cbn [snd n_log].
    rewrite <- map_rev. apply volume_app_consults.
  Qed.
  Lemma vol_conn st a sel : volume t e sel (n_log (snd (active_connected t e st a))) = volume t e sel (n_log st).
  Proof.
    unfold active_connected. destruct (dget _ _ _); auto. pose proof (vol_active st sel) as H.
    destruct (active_agents t e st); exact H.
  Qed.
  Lemma vol_allowed st a sel : volume t e sel (n_log (snd (allowed t e st a))) = volume t e sel (n_log st).
  Proof.
    unfold allowed. destruct (t_server t); [|apply vol_conn]. destruct (Nat.eqb a _); [apply vol_conn|]. reflexivity.
  Qed.

  Lemma qc_sub_eq (a b : Qc) : (a - b = 0)%Qc -> a = b.
  Proof. intro H. replace a with (a - b + b)%Qc by ring. rewrite H. ring. Qed.

  Lemma accounted_transmit st s rs m c : accounted st -> accounted (transmit t e st s rs m c).
  Proof.
    intros A a. unfold transmit.
    match goal with |- context [drop_filter e s rs ?D] =>
      pose proof (drop_filter_length V e s rs D) as DL; destruct (drop_filter e s rs D) as [conf d] end.
    simpl in DL. set (inc := counter_increment t e s m).
    match goal with |- context [deliver e s c m ?M ?NZ inc 0 conf ?S'] =>
      destruct (deliver_account s c m M NZ conf 0 S' a) as (X & Y);
      destruct (deliver_private V e s c m M NZ inc conf 0 S' a) as (_ & Z1 & Z2) end.
    fold inc in X, Y. destruct (A a) as (A1 & A2). split.
    - apply qc_sub_eq. rewrite X. cbn [set_draws n_log n_agents upd_agent]. unfold upd.
      destruct (Nat.eqb a s); simpl; rewrite A1; ring.
    - rewrite Y, Z1, Z2. cbn [set_draws n_log n_agents upd_agent]. unfold upd.
      rewrite (Nat.eqb_sym a s). destruct (Nat.eqb_spec s a); cbn [add_sent add_drop a_sent a_drop].
      + rewrite A2. replace (length rs) with ((length rs - length conf) + length conf) at 1 by lia.
        fold (qn (length rs - length conf + length conf)). fold (qn (length rs - length conf)). rewrite qn_plus. ring.
      + rewrite A2. ring.
  Qed.

  Lemma accounted_send_base st s r m c : accounted st -> accounted (sstate (send_base t e st s r m c)).
  Proof.
    intro K. unfold send_base. destruct m as [m|]; [|exact K]. destruct (memb s (t_nodes t)); simpl; [|exact K].
    assert (T : forall st1 rs, accounted st1 -> accounted (sstate (let '(al, st2) := allowed t e st1 s in
       if forallb (fun a => memb a al) rs then SOk (transmit t e st2 s rs m c) else SErr st2))).
    { intros st1 rs K1. assert (K2 : accounted (snd (allowed t e st1 s))).
      { eapply accounted_ext; [apply (allowed_frame V t e st1 s)|apply vol_allowed|exact K1]. }
      destruct (allowed t e st1 s) as [al st2]. simpl in K2.
      destruct (forallb _ rs); simpl; auto. now apply accounted_transmit. }
    destruct r as [|a|l].
    - assert (K1 : accounted (snd (active_connected t e st s))).
      { eapply accounted_ext; [apply (active_connected_frame V t e st s)|apply vol_conn|exact K]. }
      destruct (active_connected t e st s) as [l st1]. now apply T.
    - destruct (memb a (connected_agents t s)); [now apply T|exact K].
    - now apply T.
  Qed.
  Lemma accounted_send st s r m c : accounted st -> accounted (sstate (send t e st s r m c)).
  Proof.
    intro K. unfold send. destruct (t_server t) as [sv|]; [|now apply accounted_send_base].
    unfold send_fed. destruct r as [|a|l];
    repeat match goal with |- context [if ?b then _ else _] => destruct b end; try exact K; now apply accounted_send_base.
  Qed.
  Lemma accounted_step o st : accounted st -> accounted (nstep t e st o).
  Proof.
    intro K. destruct o as [|a|s r m c|k|a v|a k v|a p it f|a]; simpl.
    - eapply accounted_ext; [apply (active_agents_frame V t e st)|apply vol_active|exact K].
    - eapply accounted_ext; [apply (active_connected_frame V t e st a)|apply vol_conn|exact K].
    - now apply accounted_send.
    - intro a. destruct (step_spec V t k st) as (_ & _ & _ & L & _ & D). rewrite L, D, !volume_cons.
      destruct (K a) as (A & B). destruct (memb a (t_nodes t)); simpl; rewrite A, B; split; ring.
    - intro b. simpl. unfold upd. destruct (Nat.eqb b a); simpl; apply K.
    - intro b. simpl. unfold upd. destruct (Nat.eqb b a); simpl; apply K.
    - intro b. simpl. unfold upd. destruct (Nat.eqb b a); [|apply K].
      destruct (snapshot_frame V p it f (n_agents st b)) as (_ & -> & -> & -> & _). apply K.
    - intro b. simpl. unfold upd. destruct (Nat.eqb b a); simpl; apply K.
  Qed.
  Lemma accounted_run ops st : fresh st -> accounted (nrun t e st ops).
  Proof.
    intro F. assert (K : accounted st).
    { destruct F as (_ & _ & B & F). intro a. destruct (F a) as (_ & A1 & A2 & A3). rewrite A1, A2, A3, B. split; [auto|]. unfold volume. simpl. ring. }
    clear F. revert st K. unfold nrun. induction ops as [|o ops IH]; intros st K; simpl; auto.
    apply IH. now apply accounted_step.
  Qed.

  (** ---- reliable ---- *)
  Lemma drop_filter_reliable s l : reliable e -> forall d, fst (drop_filter e s l d) = l.
  Proof.
    intros (R & _). induction l as [|a l IH]; intro d; simpl; auto.
    specialize (IH (S d)). destruct (drop_filter e s l (S d)); simpl in *. rewrite R. simpl. now rewrite IH.
  Qed.

  Lemma transmit_reliable st s rs m c r c' s' : reliable e ->
    look V (a_msgs (n_agents (transmit t e st s rs m c) r)) c' s' =
    if memb r rs && String.eqb c' c && Nat.eqb s' s then Some m else look V (a_msgs (n_agents st r)) c' s'.
  Proof.
    intro R. rewrite transmit_look. pose proof (drop_filter_reliable s rs R (n_draws st)) as E.
    destruct (drop_filter e s rs (n_draws st)) as [conf d]. simpl in *. subst conf.
    destruct R as (_ & R2 & R3).
    destruct (last_idx r rs 0) as [j|] eqn:L.
    - assert (I : memb r rs = true).
      { apply memb_In. destruct (in_dec Nat.eq_dec r rs); auto. apply (last_idx_None r rs 0) in n. congruence. }
      rewrite I. simpl. rewrite R2, R3. reflexivity.
    - assert (I : memb r rs = false).
      { apply last_idx_None in L. destruct (memb r rs) eqn:X; auto. apply memb_In in X. contradiction. }
      now rewrite I.
  Qed.

  (** active set seen by the rest of the iteration *)
  Lemma active_of_cache st act : n_cache st = Some act -> fst (active_agents t e st) = act.
  Proof. intro H. now rewrite (active_mono V t e st act H). Qed.

  Lemma active_in_agents st : cinv V t st -> incl (fst (active_agents t e st)) (agents t).
  Proof.
    intro C. pose proof (cinv_active V t e st C) as (A & _).
    pose proof (active_agents_frame V t e st) as (_ & _ & _ & E). now apply A.
  Qed.

  (** an accepted send does not consult beyond the cache: the active set before
      and after agree *)
  Lemma allowed_active st s : cinv V t st -> fst (active_agents t e (snd (allowed t e st s))) = fst (active_agents t e st) \/
     exists sv, t_server t = Some sv /\ s <> sv.
  Proof.
    intro C. unfold allowed. destruct (t_server t) as [sv|] eqn:E; [|left; now apply active_after_conn'].
    destruct (Nat.eqb_spec s sv); [left; now apply active_after_conn'|right; eauto].
  Qed.

  (** P2P acceptance *)
  Lemma p2p_send_many st s l m c : cinv V t st -> t_server t = None -> In s (t_nodes t) ->
    let act := fst (active_agents t e st) in
    (exists st', send t e st s (RMany l) (Some m) c = SOk st') <-> (forall a, In a l -> In a (t_adj t s) /\ In a act).
  Proof.
    intros C SV Hs act. unfold send. rewrite SV. unfold send_base. apply memb_In in Hs. rewrite Hs. cbn [negb].
    assert (AL : allowed t e st s = active_connected t e st s) by (unfold allowed; now rewrite SV).
    rewrite AL. pose proof (active_connected_val V t e st s C) as E.
    destruct (active_connected t e st s) as [al st2]. simpl in E. subst al. fold act.
    destruct (forallb _ l) eqn:F.
    - split; [intros _ a Ha|eauto]. rewrite forallb_forall in F. apply F in Ha. rewrite memb_In, filter_In, memb_In in Ha. auto.
    - split; [intros (x & X); discriminate|]. intro H. exfalso.
      assert (X : forallb (fun a => memb a (filter (fun b => memb b act) (t_adj t s))) l = true).
      { apply forallb_forall. intros a Ha. rewrite memb_In, filter_In, memb_In. auto. }
      congruence.
  Qed.

  Lemma p2p_send_one st s a m c : cinv V t st -> t_server t = None -> In s (t_nodes t) ->
    let act := fst (active_agents t e st) in
    (exists st', send t e st s (ROne a) (Some m) c = SOk st') <-> In a (t_adj t s) /\ In a act.
  Proof.
    intros C SV Hs act. pose proof (p2p_send_many st s [a] m c C SV Hs) as H. cbn zeta in H. fold act in H.
    unfold send in *. rewrite SV in *. unfold send_base in *. apply memb_In in Hs. rewrite Hs in *. cbn [negb] in *.
    unfold connected_agents. destruct (memb a (t_adj t s)) eqn:M.
    - destruct (allowed t e st s) as [al st2]. rewrite H. split; [intro X; apply X; left; auto|].
      intros X b [<-|[]]. auto.
    - split; [intros (x & X); discriminate|]. intros (X & _). apply memb_In in X. congruence.
  Qed.

  Lemma conn_idem st s : cinv V t st -> fst (active_connected t e (snd (active_connected t e st s)) s) = fst (active_connected t e st s).
  Proof.
    intro C. destruct (conn_cache V t e st s C) as (act & _ & _ & D).
    unfold active_connected at 1. rewrite D. reflexivity.
  Qed.

  Lemma p2p_broadcast st s m c : cinv V t st -> t_server t = None -> In s (t_nodes t) ->
    exists st', send t e st s RNone (Some m) c = SOk st'.
  Proof.
    intros C SV Hs. unfold send. rewrite SV. unfold send_base. apply memb_In in Hs. rewrite Hs. cbn [negb].
    pose proof (conn_idem st s C) as E. destruct (active_connected t e st s) as [l st1]. simpl in E.
    assert (AL : allowed t e st1 s = active_connected t e st1 s) by (unfold allowed; now rewrite SV).
    rewrite AL. destruct (active_connected t e st1 s) as [al st2]. simpl in E. subst al.
    replace (forallb (fun a => memb a l) l) with true; [eauto|]. symmetry. apply forallb_forall. intros x Hx. now apply memb_In.
  Qed.
End P.
