(** Lock-step semantics of the phases of peer-to-peer algorithms. *)
From Coq Require Import Reals String List Bool Arith Lia Lra FunctionalExtensionality Permutation.
From Verif.Model Require Import PyDict History Messages Network Runner Vec P2P.
From Verif.Spec Require Import NetworkSpec P2PSpec.
From Verif.Proofs Require Import PyDictProofs MessagesProofs NetworkProofs NetworkInv NetworkMore NetworkActive RunnerProofs EmpiricalProofs.
Import ListNotations.
Open Scope nat_scope.

Section Lock.
  Variables (t : topo) (e : env vec).
  Hypothesis WF : wf_topo t.
  Hypothesis SV : t_server t = None.
  Hypothesis FA : faithful e.
  Implicit Types (st : net vec) (act : list agent_id).

  Definition lk (st : net vec) (r : agent_id) (c : channel) (s : agent_id) : option vec := look vec (a_msgs (n_agents st r)) c s.
  Definition cfg act st : Prop :=
    n_cache st = Some act /\ cinv vec t st /\ (forall r, In r (t_nodes t) -> sinv vec (a_msgs (n_agents st r))).

  Lemma agents_nodes : agents t = t_nodes t.
  Proof.
    unfold agents, is_server. rewrite SV. induction (t_nodes t) as [|a l IH]; simpl; auto. now f_equal.
  Qed.
  Lemma cfg_incl act st : cfg act st -> incl act (t_nodes t).
  Proof. intros (C & (A & _) & _). rewrite <- agents_nodes. now apply A. Qed.
  Lemma cfg_active act st : cfg act st -> active_agents t e st = (act, st).
  Proof. intros (C & _). now apply active_mono. Qed.

  Lemma drop_filter_NoDup s l : NoDup l -> forall d, NoDup (fst (drop_filter e s l d)).
  Proof.
    induction 1 as [|a l Ha Hl IH]; intro d; simpl; [constructor|].
    specialize (IH (S d)). pose proof (drop_filter_incl vec e s l (S d)) as I.
    destruct (drop_filter e s l (S d)) as [r d']; simpl in *. destruct (e_dropd e d s); auto. constructor; auto.
  Qed.

  (** one transmission *)
  Lemma transmit_faithful st s rs m c r c' s' :
    (lk (transmit t e st s rs m c) r c' s' = lk st r c' s') \/
    (c' = c /\ s' = s /\ In r rs /\ lk (transmit t e st s rs m c) r c' s' = Some m).
  Proof.
    unfold lk. rewrite transmit_look. destruct (last_idx r (fst (drop_filter e s rs (n_draws st))) 0) as [j|] eqn:E; [|auto].
    destruct (String.eqb_spec c' c); simpl; [|auto]. destruct (Nat.eqb_spec s' s); simpl; [|auto].
    right. destruct FA as (F1 & F2). rewrite F1, F2. simpl. repeat split; auto.
    assert (In r (fst (drop_filter e s rs (n_draws st)))).
    { destruct (in_dec Nat.eq_dec r (fst (drop_filter e s rs (n_draws st)))); auto.
      apply (last_idx_None r _ 0) in n. congruence. }
    now apply (drop_filter_incl vec e s rs (n_draws st)).
  Qed.

  Lemma send_bcast act st i v c : cfg act st -> In i (t_nodes t) ->
    exists st2, send t e st i RNone (Some v) c = SOk (transmit t e st2 i (filter (fun b => memb b act) (t_adj t i)) v c) /\
      cfg act st2 /\ same_agents st st2.
  Proof.
    intros (C & I & S) Hi. destruct (p2p_broadcast vec t e st i v c I SV Hi) as (st' & E).
    destruct (send_inv vec t e st i RNone (Some v) c I WF) as [(x & X & _)|(st2 & rs & m & [= <-] & _ & I2 & S2 & _ & C2 & _ & R & _ & _ & _ & E2)]; [congruence|].
    exists st2. destruct (R eq_refl (or_introl SV)) as (act' & Ca & ->). rewrite (C2 _ C) in Ca. injection Ca as <-.
    split; auto. split; [|exact S2]. split; auto. split; [exact I2|]. intros r Hr. rewrite S2. now apply S.
  Qed.
  Lemma send_one act st i j v c : cfg act st -> In i (t_nodes t) -> In j (t_adj t i) -> In j act ->
    exists st2, send t e st i (ROne j) (Some v) c = SOk (transmit t e st2 i [j] v c) /\ cfg act st2 /\ same_agents st st2.
  Proof.
    intros (C & I & S) Hi Hj Ha.
    destruct (proj2 (p2p_send_one vec t e st i j v c I SV Hi)) as (st' & E).
    { split; auto. now rewrite (active_mono vec t e st act C). }
    destruct (send_inv vec t e st i (ROne j) (Some v) c I WF) as [(x & X & _)|(st2 & rs & m & [= <-] & _ & I2 & S2 & _ & C2 & _ & _ & _ & R & _ & E2)]; [congruence|].
    exists st2. rewrite (R j eq_refl) in E2. split; auto. split; [|exact S2]. split; auto. split; [exact I2|]. intros r Hr. rewrite S2. now apply S.
  Qed.
  Lemma deliver_sinv1 s c p m nz inc r l : forall i st, sinv vec (a_msgs (n_agents st r)) ->
    sinv vec (a_msgs (n_agents (deliver e s c p m nz inc i l st) r)).
  Proof.
    induction l as [|a l IH]; intros i st H; simpl; auto.
    apply IH. simpl. unfold upd. destruct (Nat.eqb r a); simpl; auto. now apply put_inv.
  Qed.
  Lemma transmit_sinv1 st s rs m c r : sinv vec (a_msgs (n_agents st r)) -> sinv vec (a_msgs (n_agents (transmit t e st s rs m c) r)).
  Proof.
    intro H. unfold transmit. destruct (drop_filter e s rs _) as [conf d].
    apply deliver_sinv1. simpl. unfold upd. destruct (Nat.eqb r s); simpl; auto.
  Qed.
  Lemma cfg_transmit act st s rs m c : cfg act st -> cfg act (transmit t e st s rs m c).
  Proof.
    intros (C & I & S). destruct (transmit_caches vec t e st s rs m c) as (A & B & D). split; [congruence|]. split.
    - destruct I as (I1 & I2). split; [rewrite B; auto|]. rewrite D, B. auto.
    - intros r Hr. now apply transmit_sinv1, S.
  Qed.


  (** [i] sends [v] to [r] on channel [c] by [o] *)
  Definition out_sends (o : out) (r : agent_id) (c : channel) (v : vec) : Prop :=
    match o with OBcast c' v' => c = c' /\ v = v' | OEach l => exists f, In (c, f) l /\ f r = Some v end.
  Definition outs_send (os : list out) (r : agent_id) (c : channel) (v : vec) : Prop := exists o, In o os /\ out_sends o r c v.
  (** every per-neighbour message can be computed *)
  Definition computable (i : agent_id) (o : out) : Prop :=
    match o with OBcast _ _ => True | OEach l => forall c f j, In (c, f) l -> In j (t_adj t i) -> f j <> None end.

  (** relation between inboxes before and after sends by [i], given what is sent *)
  Definition arrive act (i : agent_id) (snt : agent_id -> channel -> vec -> Prop) st st' : Prop :=
    (forall a, same_private (n_agents st a) (n_agents st' a)) /\
    (forall r c s, lk st' r c s = lk st r c s \/
      (s = i /\ In r (t_adj t i) /\ In r act /\ exists v, lk st' r c s = Some v /\ snt r c v)) /\
    (reliable e -> forall r c v, In r (t_adj t i) -> In r act -> snt r c v -> exists v', lk st' r c i = Some v' /\ snt r c v').

  Lemma arrive_nil act i st snt : (forall r c v, ~ snt r c v) -> arrive act i snt st st.
  Proof. intro H. split; [intro; apply same_private_refl|]. split; auto. intros _ r c v _ _ X. now apply H in X. Qed.
  Lemma arrive_app act i s1 s2 snt st st1 st2 : arrive act i s1 st st1 -> arrive act i s2 st1 st2 ->
    (forall r c v, snt r c v <-> s1 r c v \/ s2 r c v) -> arrive act i snt st st2.
  Proof.
    intros (P1 & A1 & R1) (P2 & A2 & R2) H. split; [|split].
    - intro a. eapply same_private_trans; eauto.
    - intros r c s. destruct (A2 r c s) as [E|(E & B1 & B2 & v & X & Y)].
      + rewrite E. destruct (A1 r c s) as [E1|(E1 & B1 & B2 & v & X & Y)]; auto.
        right. repeat split; auto. exists v. split; auto. apply H; auto.
      + right. repeat split; auto. exists v. split; auto. apply H; auto.
    - intros RE r c v Hr Ha Hs. apply H in Hs. destruct Hs as [Hs|Hs].
      + destruct (R1 RE r c v Hr Ha Hs) as (v1 & X1 & Y1). destruct (A2 r c i) as [E|(_ & _ & _ & v2 & X2 & Y2)].
        * exists v1. rewrite E. split; auto. apply H; auto.
        * exists v2. split; auto. apply H; auto.
      + destruct (R2 RE r c v Hr Ha Hs) as (v1 & X1 & Y1). exists v1. split; auto. apply H; auto.
  Qed.
  Lemma arrive_same act i st st2 st' snt : same_agents st st2 -> arrive act i snt st2 st' -> arrive act i snt st st'.
  Proof.
    intros S (P & A & R). split; [|split; auto].
    - intro a. rewrite <- S. apply P.
    - intros r c s. replace (lk st r c s) with (lk st2 r c s); [apply A|]. unfold lk. now rewrite S.
  Qed.
  Lemma arrive_transmit act i rs m c st : (forall r, In r rs -> In r (t_adj t i) /\ In r act) ->
    arrive act i (fun r c' v => In r rs /\ c' = c /\ v = m) st (transmit t e st i rs m c).
  Proof.
    intro H. split; [intro; apply transmit_private|]. split.
    - intros r c' s. destruct (transmit_faithful st i rs m c r c' s) as [T|(-> & -> & I & T)]; auto.
      right. destruct (H r I). repeat split; auto. exists m. auto.
    - intros RE r c' v _ _ (I & -> & ->). exists m. split; auto. unfold lk.
      rewrite transmit_reliable by auto. apply memb_In in I. now rewrite I, String.eqb_refl, Nat.eqb_refl.
  Qed.

  Definition item_ok act (i : agent_id) (it : receiver * channel * option vec) : Prop :=
    exists j c v, it = (ROne j, c, Some v) /\ In j (t_adj t i) /\ In j act.
  Lemma send_all_ones act i l : forall st, cfg act st -> In i (t_nodes t) -> Forall (item_ok act i) l ->
    exists st', send_all t e i l st = (st', false) /\ cfg act st' /\
      arrive act i (fun r c v => In (ROne r, c, Some v) l) st st'.
  Proof.
    induction l as [|it l IH]; intros st C Hi H.
    - exists st. split; auto. split; auto. apply arrive_nil. intros r c v [].
    - inversion H as [|x y (j & c & v & -> & Hj & Ha) Hl]; subst.
      destruct (send_one act st i j v c C Hi Hj Ha) as (st2 & E & C2 & S2).
      destruct (IH (transmit t e st2 i [j] v c)) as (st' & E' & C' & A'); auto; [now apply cfg_transmit|].
      exists st'. cbn [send_all]. rewrite E. split; auto. split; auto.
      eapply arrive_app; [eapply arrive_same; [exact S2|]; apply arrive_transmit|exact A'|].
      + intros r [<-|[]]; auto.
      + intros r c' w. cbn [In]. split; [intros [[= -> -> ->]|?]; auto|intros [([->|[]] & -> & ->)|?]; auto].
  Qed.

  Lemma do_out_ok act i o st : cfg act st -> In i (t_nodes t) -> computable i o ->
    exists st', do_out t e i o st = (st', false) /\ cfg act st' /\
      arrive act i (fun r c v => In r (t_adj t i) /\ In r act /\ out_sends o r c v) st st'.
  Proof.
    intros C Hi CO. destruct o as [c v|l]; cbn [do_out].
    - destruct (send_bcast act st i v c C Hi) as (st2 & E & C2 & S2).
      cbn [send_all]. rewrite E. eexists. split; [reflexivity|]. split; [now apply cfg_transmit|].
      eapply arrive_same; [exact S2|].
      assert (Q : forall r, In r (filter (fun b => memb b act) (t_adj t i)) <-> In r (t_adj t i) /\ In r act).
      { intro r. rewrite filter_In, memb_In. tauto. }
      pose proof (arrive_transmit act i (filter (fun b => memb b act) (t_adj t i)) v c st2 (fun r => proj1 (Q r))) as (P & A & R).
      split; auto. split.
      + intros r c' s. destruct (A r c' s) as [|(X1 & X2 & X3 & w & X4 & X5 & X6 & X7)]; auto. right. repeat split; auto.
        exists w. split; auto. cbn [out_sends]. auto.
      + intros RE r c' w Hr Ha (_ & _ & -> & ->). destruct (R RE r c v Hr Ha) as (w & X & Y & _ & ->).
        { split; [now apply Q|auto]. }
        exists v. split; auto. cbn [out_sends]. auto.
    - pose proof C as (Ca & Ci & Cs).
      pose proof (active_connected_val vec t e st i Ci) as EV. rewrite (cfg_active act st C) in EV. cbn [fst] in EV.
      pose proof (active_connected_frame vec t e st i) as (SF & _). pose proof (cinv_conn vec t e st i Ci) as CI2.
      pose proof (conn_mono vec t e st i act Ca) as CM.
      destruct (active_connected t e st i) as [js st2] eqn:EQ. cbn [fst snd] in *. subst js.
      assert (C2 : cfg act st2). { split; auto. split; auto. intros r Hr. rewrite SF. now apply Cs. }
      set (items := flat_map _ _). destruct (send_all_ones act i items st2) as (st' & E' & C' & A'); auto.
      { apply Forall_forall. intros it Hit. unfold items in Hit. apply in_flat_map in Hit. destruct Hit as (j & Hj & Hm).
        apply filter_In in Hj. destruct Hj as (Hj & Ha). apply memb_In in Ha. apply in_map_iff in Hm. destruct Hm as ((c & f) & <- & Hf).
        cbn [fst snd]. pose proof (CO c f j Hf Hj) as N. destruct (f j) as [v|] eqn:F; [|congruence]. exists j, c, v. auto. }
      exists st'. split; auto. split; auto. eapply arrive_same; [exact SF|].
      assert (Q : forall r c v, In (ROne r, c, Some v) items <-> (In r (t_adj t i) /\ In r act /\ out_sends (OEach l) r c v)).
      { intros r c v. unfold items. rewrite in_flat_map. split.
        - intros (j & Hj & Hm). apply filter_In in Hj. rewrite memb_In in Hj. apply in_map_iff in Hm. destruct Hm as ((c' & f) & [= <- <- X] & Hf).
          cbn [out_sends]. destruct Hj. repeat split; eauto.
        - intros (X1 & X2 & f & Hf & X3). exists r. rewrite filter_In, memb_In. split; auto. apply in_map_iff. exists (c, f). cbn [fst snd]. rewrite X3. auto. }
      destruct A' as (P & A & R). split; auto. split.
      + intros r c s. destruct (A r c s) as [|(X1 & X2 & X3 & w & X4 & X5)]; auto. right. repeat split; auto. exists w. split; auto. now apply Q.
      + intros RE r c w Hr Ha Hs. apply Q in Hs. destruct (R RE r c w Hr Ha Hs) as (v & X & Y). exists v. split; auto. now apply Q.
  Qed.

  Lemma do_outs_ok act i os : forall st, cfg act st -> In i (t_nodes t) -> Forall (computable i) os ->
    exists st', do_outs t e i os st = (st', false) /\ cfg act st' /\
      arrive act i (fun r c v => In r (t_adj t i) /\ In r act /\ outs_send os r c v) st st'.
  Proof.
    induction os as [|o os IH]; intros st C Hi H; cbn [do_outs].
    - exists st. split; auto. split; auto. apply arrive_nil. intros r c v (_ & _ & x & [] & _).
    - inversion H; subst. destruct (do_out_ok act i o st C Hi) as (st1 & -> & C1 & A1); auto.
      destruct (IH st1 C1 Hi) as (st' & -> & C' & A'); auto. exists st'. split; auto. split; auto.
      eapply arrive_app; [exact A1|exact A'|]. intros r c v. unfold outs_send. split.
      + intros (X1 & X2 & x & [<-|Hx] & X3); eauto 8.
      + intros [(X1 & X2 & X3)|(X1 & X2 & x & Hx & X3)]; repeat split; auto; [exists o|exists x]; cbn [In]; auto.
  Qed.

  (** ** Phases *)
  Lemma cfg_upd act st i p : cfg act st -> cfg act (upd_agent i (put_priv p) st).
  Proof.
    intros (C & (I1 & I2) & S). split; auto. split; [split; auto|].
    intros r Hr. cbn [upd_agent n_agents]. unfold upd. destruct (Nat.eqb r i); cbn; now apply S.
  Qed.
  Lemma priv_put p a : priv_of (put_priv p a) = p. Proof. destruct p; reflexivity. Qed.
  Lemma sp_priv (a b : agent vec) : same_private a b -> priv_of b = priv_of a.
  Proof. intros (X & _ & Y & Z & _). unfold priv_of. congruence. Qed.

  (** an update phase *)
  Lemma upd_phase act st d f Q : NoDup act -> cfg act st ->
    (forall i n, In i act -> exists p n', f i (inbox_of st i) (priv_of (n_agents st i), n) = Some (tt, (p, n')) /\ Q i p) ->
    exists d' st', do_phase t e (PUpd f) (d, st) = ((d', st'), false) /\ cfg act st' /\
      (forall i, In i act -> Q i (priv_of (n_agents st' i))) /\
      (forall i, ~ In i act -> n_agents st' i = n_agents st i) /\
      (forall i, a_msgs (n_agents st' i) = a_msgs (n_agents st i)) /\
      (forall i, a_hist (n_agents st' i) = a_hist (n_agents st i)).
  Proof.
    intros ND C H. unfold do_phase. cbn [snd]. rewrite (cfg_active act st C). cbn [fst snd].
    assert (G : forall l, NoDup l -> incl l act -> forall d st1, cfg act st1 ->
      (forall i, In i l -> n_agents st1 i = n_agents st i) ->
      exists d' st', for_each (do_body t e (PUpd f)) l (d, st1) = ((d', st'), false) /\ cfg act st' /\
      (forall i, In i l -> Q i (priv_of (n_agents st' i))) /\
      (forall i, ~ In i l -> n_agents st' i = n_agents st1 i) /\
      (forall i, a_msgs (n_agents st' i) = a_msgs (n_agents st1 i)) /\
      (forall i, a_hist (n_agents st' i) = a_hist (n_agents st1 i))).
    { clear d. induction l as [|i l IH]; intros NDl Hl d st1 C1 E1.
      - exists d, st1. cbn. split; [reflexivity|]. split; [exact C1|]. repeat split; auto. contradiction.
      - inversion NDl; subst. cbn [for_each do_body].
        unfold inbox_of. rewrite (E1 i (or_introl eq_refl)). fold (inbox_of st i).
        destruct (H i d (Hl i (or_introl eq_refl))) as (p & n' & E & HQ). rewrite E. 
        destruct (IH H3 (fun x hx => Hl x (or_intror hx)) n' (upd_agent i (put_priv p) st1)) as (d' & st' & X1 & X2 & X3 & X4 & X5 & X6).
        + now apply cfg_upd.
        + intros j Hj. cbn [upd_agent n_agents]. unfold upd. destruct (Nat.eqb_spec j i); [subst; contradiction|]. apply E1; now right.
        + exists d', st'. split; [exact X1|]. split; [exact X2|]. repeat split.
          * intros j [<-|Hj]; [|auto]. rewrite X4 by auto. cbn [upd_agent n_agents]. unfold upd. rewrite Nat.eqb_refl, priv_put. exact HQ.
          * intros j Hj. cbn [In] in Hj. rewrite X4 by tauto. cbn [upd_agent n_agents]. unfold upd. destruct (Nat.eqb_spec j i); [subst; tauto|auto].
          * intro j. rewrite X5. cbn [upd_agent n_agents]. unfold upd. destruct (Nat.eqb j i); reflexivity.
          * intro j. rewrite X6. cbn [upd_agent n_agents]. unfold upd. destruct (Nat.eqb j i); reflexivity. }
    apply (G act ND (incl_refl _) d st C). auto.
  Qed.

  (** a send phase *)
  Lemma send_phase act st d f Q (O : agent_id -> list out) : NoDup act -> cfg act st ->
    (forall i n, In i act -> Forall (computable i) (O i) /\ exists p n', f i (priv_of (n_agents st i), n) = Some (O i, (p, n')) /\ Q i p) ->
    exists d' st', do_phase t e (PSend f) (d, st) = ((d', st'), false) /\ cfg act st' /\
      (forall i, In i act -> Q i (priv_of (n_agents st' i))) /\
      (forall i, ~ In i act -> priv_of (n_agents st' i) = priv_of (n_agents st i)) /\
      (forall r c s, lk st' r c s = lk st r c s \/
         (In s act /\ In r (t_adj t s) /\ In r act /\ exists v, lk st' r c s = Some v /\ outs_send (O s) r c v)) /\
      (reliable e -> forall r c s v, In s act -> In r (t_adj t s) -> In r act -> outs_send (O s) r c v ->
         exists v', lk st' r c s = Some v' /\ outs_send (O s) r c v') /\
      (forall i, a_hist (n_agents st' i) = a_hist (n_agents st i)).
  Proof.
    intros ND C H. unfold do_phase. cbn [snd]. rewrite (cfg_active act st C). cbn [fst snd].
    assert (G : forall l, NoDup l -> incl l act -> forall d st1, cfg act st1 ->
      (forall i, In i l -> priv_of (n_agents st1 i) = priv_of (n_agents st i)) ->
      exists d' st', for_each (do_body t e (PSend f)) l (d, st1) = ((d', st'), false) /\ cfg act st' /\
      (forall i, In i l -> Q i (priv_of (n_agents st' i))) /\
      (forall i, ~ In i l -> priv_of (n_agents st' i) = priv_of (n_agents st1 i)) /\
      (forall r c s, lk st' r c s = lk st1 r c s \/
         (In s l /\ In r (t_adj t s) /\ In r act /\ exists v, lk st' r c s = Some v /\ outs_send (O s) r c v)) /\
      (reliable e -> forall r c s v, In s l -> In r (t_adj t s) -> In r act -> outs_send (O s) r c v ->
         exists v', lk st' r c s = Some v' /\ outs_send (O s) r c v') /\
      (forall i, a_hist (n_agents st' i) = a_hist (n_agents st1 i))).
    { clear d. induction l as [|i l IH]; intros NDl Hl d st1 C1 E1.
      - exists d, st1. cbn. split; [reflexivity|]. split; [exact C1|]. repeat split; auto; intros; contradiction.
      - inversion NDl; subst. cbn [for_each do_body]. rewrite (E1 i (or_introl eq_refl)).
        destruct (H i d (Hl i (or_introl eq_refl))) as (CO & p & n' & E & HQ). rewrite E.
        assert (Hi : In i (t_nodes t)) by (apply (cfg_incl act st C); apply Hl; now left).
        destruct (do_outs_ok act i (O i) (upd_agent i (put_priv p) st1)) as (st2 & -> & C2 & (P2 & A2 & R2)); auto.
        { now apply cfg_upd. }
        assert (LK : forall r c s, lk (upd_agent i (put_priv p) st1) r c s = lk st1 r c s).
        { intros r c s. unfold lk. cbn [upd_agent n_agents]. unfold upd. destruct (Nat.eqb r i); reflexivity. }
        destruct (IH H3 (fun x hx => Hl x (or_intror hx)) n' st2) as (d' & st' & X1 & X2 & X3 & X4 & X5 & X6 & X7); auto.
        { intros j Hj. rewrite (sp_priv _ _ (P2 j)). cbn [upd_agent n_agents]. unfold upd. destruct (Nat.eqb_spec j i); [subst; contradiction|]. apply E1; now right. }
        exists d', st'. split; [exact X1|]. split; [exact X2|]. split; [|split; [|split; [|split]]].
        + intros j [<-|Hj]; [|auto]. rewrite X4 by auto. rewrite (sp_priv _ _ (P2 i)). cbn [upd_agent n_agents]. unfold upd. rewrite Nat.eqb_refl, priv_put. exact HQ.
        + intros j Hj. cbn [In] in Hj. rewrite X4 by tauto. rewrite (sp_priv _ _ (P2 j)). cbn [upd_agent n_agents]. unfold upd. destruct (Nat.eqb_spec j i); [subst; tauto|auto].
        + intros r c s. destruct (X5 r c s) as [E5|(Y1 & Y2 & Y3 & v & Y4 & Y5)].
          * rewrite E5. destruct (A2 r c s) as [E6|(-> & Y2 & Y3 & v & Y4 & Y5 & Y6 & Y7)]; [rewrite E6, LK; auto|].
            right. repeat split; cbn [In]; auto. eauto.
          * right. repeat split; cbn [In]; auto. eauto.
        + intros RE r c s v [<-|Hs] Y1 Y2 Y3.
          * destruct (R2 RE r c v Y1 Y2 (conj Y1 (conj Y2 Y3))) as (v' & Z1 & _ & _ & Z2).
            destruct (X5 r c i) as [E5|(Y4 & _)]; [|contradiction]. exists v'. rewrite E5. auto.
          * eapply X6; eauto.
        + intro j. rewrite X7. destruct (P2 j) as (_ & Z & _). rewrite Z. cbn [upd_agent n_agents]. unfold upd. destruct (Nat.eqb j i); reflexivity. }
    destruct (G act ND (incl_refl _) d st C) as (d' & st' & X); auto. exists d', st'. tauto.
  Qed.

  (** ** Inboxes after a send phase on an unused channel *)
  Lemma inbox_lk st i c s : dget Nat.eqb (inbox_of st i c) s = lk st i c s.
  Proof. apply s_by_channel_look. Qed.
  Lemma inbox_NoDup act st i c : cfg act st -> In i (t_nodes t) -> NoDup (map fst (inbox_of st i c)).
  Proof.
    intros (_ & _ & S) Hi. unfold inbox_of, s_by_channel. destruct (S i Hi) as (_ & B).
    destruct (dget String.eqb (a_msgs (n_agents st i)) c) as [b|] eqn:E; [|constructor]. now destruct (B c b E).
  Qed.
  Lemma assoc_map (l : list (agent_id * vec)) (V : agent_id -> vec) : NoDup (map fst l) ->
    (forall s v, dget Nat.eqb l s = Some v -> v = V s) -> l = map (fun j => (j, V j)) (map fst l).
  Proof.
    induction l as [|[s v] l IH]; cbn [map fst]; intros ND H; auto. inversion ND; subst.
    assert (v = V s) as <-. { apply H. cbn. now rewrite Nat.eqb_refl. }
    f_equal. apply IH; auto. intros s' v' E. apply H. cbn. destruct (Nat.eqb_spec s' s); [|auto]. subst. exfalso.
    apply H2. apply (dget_In _ _ _ Nat.eqb_spec) in E. now apply (in_map fst) in E.
  Qed.

  (** the messages of a round in which [s] sends [V s r] to [r] on channel [c] *)
  Lemma round_inbox act st st' (O : agent_id -> list out) (V : agent_id -> agent_id -> vec) c :
    cfg act st -> cfg act st' ->
    (forall r s, In r (t_nodes t) -> lk st r c s = None) ->
    (forall r c s, lk st' r c s = lk st r c s \/
         (In s act /\ In r (t_adj t s) /\ In r act /\ exists v, lk st' r c s = Some v /\ outs_send (O s) r c v)) ->
    (reliable e -> forall r c s v, In s act -> In r (t_adj t s) -> In r act -> outs_send (O s) r c v ->
         exists v', lk st' r c s = Some v' /\ outs_send (O s) r c v') ->
    (forall s r v, In s act -> outs_send (O s) r c v -> v = V s r) ->
    (forall s r, In s act -> In r (t_adj t s) -> outs_send (O s) r c (V s r)) ->
    exists D, delivery t e act D /\ forall r, In r (t_nodes t) -> inbox_of st' r c = map (fun j => (j, V j r)) (D r).
  Proof.
    intros C C' E0 A R U S. exists (fun r => if in_dec Nat.eq_dec r (t_nodes t) then map fst (inbox_of st' r c) else []).
    destruct WF as (ND & AD & NA & _).
    assert (K : forall r s, In s (map fst (inbox_of st' r c)) <-> exists v, lk st' r c s = Some v).
    { intros r s. rewrite <- inbox_lk. destruct (dget Nat.eqb (inbox_of st' r c) s) eqn:E.
      - split; eauto. intros _. apply (dget_In _ _ _ Nat.eqb_spec) in E. now apply (in_map fst) in E.
      - split; [|intros (v & [=])]. intro I. exfalso. apply (dget_None_iff _ _ _ Nat.eqb_spec) in E. contradiction. }
    split.
    - intro r. destruct (in_dec Nat.eq_dec r (t_nodes t)) as [Hr|Hr].
      + split; [now apply (inbox_NoDup act)|]. split.
        * intros j Hj. apply K in Hj. destruct Hj as (v & Hv). destruct (A r c j) as [X|(X1 & X2 & X3 & _)]; [rewrite Hv, E0 in X by auto; discriminate|].
          split; auto. now apply AD.
        * intros RE Ha' j Hj Ha. apply K. destruct (AD r j Hj) as (_ & _ & Hs).
          destruct (R RE r c j (V j r) Ha Hs Ha' (S j r Ha Hs)) as (v' & X & _). eauto.
      + split; [constructor|]. split; [intros j []|]. intros _ _ j Hj _. exfalso. apply Hr. now destruct (AD r j Hj).
    - intros r Hr. destruct (in_dec Nat.eq_dec r (t_nodes t)); [|contradiction].
      apply (assoc_map _ (fun j => V j r)); [now apply (inbox_NoDup act)|]. intros s v E. rewrite inbox_lk in E.
      destruct (A r c s) as [X|(X1 & X2 & X3 & w & X4 & X5)]; [rewrite E, E0 in X by auto; discriminate|].
      rewrite E in X4. injection X4 as <-. now apply U in X5.
  Qed.
  Lemma other_inbox act st st' (O : agent_id -> list out) c :
    (forall r c s, lk st' r c s = lk st r c s \/
         (In s act /\ In r (t_adj t s) /\ In r act /\ exists v, lk st' r c s = Some v /\ outs_send (O s) r c v)) ->
    (forall s r v, In s act -> ~ outs_send (O s) r c v) -> forall r s, lk st' r c s = lk st r c s.
  Proof. intros A N r s. destruct (A r c s) as [|(X & _ & _ & v & _ & Y)]; auto. exfalso. eapply N; eauto. Qed.

  (** a round of broadcasts on an unused channel *)
  Lemma bcast_phase act st d f Q (V : agent_id -> vec) c : NoDup act -> cfg act st ->
    (forall r s, In r (t_nodes t) -> lk st r c s = None) ->
    (forall i n, In i act -> exists p n', f i (priv_of (n_agents st i), n) = Some ([OBcast c (V i)], (p, n')) /\ Q i p) ->
    exists d' st' D, do_phase t e (PSend f) (d, st) = ((d', st'), false) /\ cfg act st' /\
      (forall i, In i act -> Q i (priv_of (n_agents st' i))) /\
      (forall i, ~ In i act -> priv_of (n_agents st' i) = priv_of (n_agents st i)) /\
      delivery t e act D /\ (forall r, In r (t_nodes t) -> inbox_of st' r c = map (fun j => (j, V j)) (D r)) /\
      (forall r c' s, c' <> c -> lk st' r c' s = lk st r c' s) /\
      (forall i, a_hist (n_agents st' i) = a_hist (n_agents st i)).
  Proof.
    intros ND C E0 H.
    destruct (send_phase act st d f Q (fun i => [OBcast c (V i)]) ND C) as (d' & st' & X1 & X2 & X3 & X4 & X5 & X6 & X7).
    { intros i n Hi. split; [repeat constructor|]. auto. }
    destruct (round_inbox act st st' (fun i => [OBcast c (V i)]) (fun s _ => V s) c C X2 E0 X5 X6) as (D & D1 & D2).
    { intros s r v _ (o & [<-|[]] & _ & ->). reflexivity. }
    { intros s r _ _. eexists. split; [left; reflexivity|]. cbn. auto. }
    exists d', st', D. split; auto. split; auto. split; auto. split; auto. split; auto. split; auto. split; auto.
    intros r c' s N. refine (other_inbox act st st' _ c' X5 _ r s). intros s' r' v _ (o & [<-|[]] & -> & _). congruence.
  Qed.

  (** ** A whole step *)
  Lemma act_filter_NoDup it l : NoDup l -> forall d, NoDup (fst (act_filter e it l d)).
  Proof.
    induction 1 as [|a l Ha Hl IH]; intro d; simpl; [constructor|].
    specialize (IH (S d)). pose proof (act_filter_incl vec e it l (S d)) as I.
    destruct (act_filter e it l (S d)) as [r d']; simpl in *. destruct (e_act e d a it); auto. constructor; auto.
  Qed.
  Lemma do_phases_start phs w : phs <> [] ->
    do_phases t e phs w = do_phases t e phs (fst w, snd (active_agents t e (snd w))).
  Proof.
    destruct phs as [|ph phs]; [congruence|]. intros _. destruct w as [d st]. cbn [do_phases fst snd]. unfold do_phase. cbn [fst snd].
    pose proof (active_agents_frame vec t e st) as (_ & _ & _ & C). destruct (active_agents t e st) as [act st1] eqn:E.
    cbn [fst snd] in *. rewrite (active_mono vec t e st1 act C). reflexivity.
  Qed.
  (** the configuration at the beginning of a step *)
  Lemma step_cfg k st : exists st1, snd (active_agents t e (step t k st)) = st1 /\
    cfg (active_at t e k st) st1 /\ NoDup (active_at t e k st) /\
    (forall r c s, In r (t_nodes t) -> lk st1 r c s = None) /\
    (forall i, priv_of (n_agents st1 i) = priv_of (n_agents st i)) /\
    (forall i, a_hist (n_agents st1 i) = a_hist (n_agents st i)) /\
    (always_active e -> active_at t e k st = t_nodes t).
  Proof.
    destruct (step_spec vec t k st) as (S1 & S2 & S3 & S4 & S5 & S6). eexists. split; [reflexivity|].
    pose proof (active_agents_frame vec t e (step t k st)) as (A1 & _ & A3 & A4). unfold active_at.
    assert (CI : cinv vec t (step t k st)).
    { split; [rewrite S2; discriminate|]. rewrite S3. discriminate. }
    pose proof (cinv_active vec t e _ CI) as CI2.
    assert (NDa : NoDup (fst (active_agents t e (step t k st)))).
    { unfold active_agents. rewrite S2. pose proof (act_filter_NoDup (n_iter (step t k st)) (agents t)) as X.
      rewrite agents_nodes in *. destruct WF as (ND & _). specialize (X ND (n_draws (step t k st))).
      destruct (act_filter e _ _ _); exact X. }
    split; [|split; [exact NDa|split; [|split; [|split]]]].
    - split; auto. split; auto. intros r Hr. rewrite A1, S6. apply memb_In in Hr. rewrite Hr. apply sinv_empty.
    - intros r c s Hr. unfold lk. rewrite A1, S6. apply memb_In in Hr. rewrite Hr. reflexivity.
    - intro i. rewrite A1, S6. destruct (memb i (t_nodes t)); reflexivity.
    - intro i. rewrite A1, S6. destruct (memb i (t_nodes t)); reflexivity.
    - intro AA. unfold active_agents. rewrite S2, agents_nodes.
      assert (G : forall l it d, fst (act_filter e it l d) = l).
      { induction l as [|a l IH]; intros it d; simpl; auto. specialize (IH it (S d)). destruct (act_filter e it l (S d)); simpl in *.
        rewrite AA. now subst. }
      specialize (G (t_nodes t) (n_iter (step t k st)) (n_draws (step t k st))). destruct (act_filter e _ _ _); exact G.
  Qed.
End Lock.
