(** A round of a federated algorithm. *)
From Coq Require Import Reals String List Bool Arith Lia Lra FunctionalExtensionality Permutation.
From Verif.Model Require Import PyDict History Messages Network Runner Vec P2P Fed.
From Verif.Spec Require Import NetworkSpec P2PSpec FedSpec.
From Verif.Proofs Require Import PyDictProofs MessagesProofs NetworkProofs NetworkInv NetworkMore NetworkActive RunnerProofs EmpiricalProofs P2PLock.
Import ListNotations.
Open Scope nat_scope.

Section FedLock.
  Variables (t : topo) (e : env vec) (sv : agent_id).
  Hypothesis NET : fed_net t e sv.
  Implicit Types (st : net vec) (act : list agent_id).

  Lemma WF : wf_topo t. Proof. apply NET. Qed.
  Lemma SV : t_server t = Some sv. Proof. apply NET. Qed.
  Lemma agents_spec i : In i (agents t) <-> In i (t_nodes t) /\ i <> sv.
  Proof.
    unfold agents, is_server. rewrite SV, filter_In. destruct (Nat.eqb_spec i sv); simpl; intuition congruence.
  Qed.
  Lemma sv_node : In sv (t_nodes t).
  Proof. pose proof WF as (_ & _ & _ & H). rewrite SV in H. apply H. Qed.
  Lemma adj_star a b : In b (t_adj t a) <-> In a (t_nodes t) /\ In b (t_nodes t) /\ ((a = sv /\ b <> sv) \/ (a <> sv /\ b = sv)).
  Proof. pose proof WF as (_ & _ & _ & H). rewrite SV in H. apply H. Qed.
  Lemma cfg_clients act st : cfg t act st -> incl act (agents t).
  Proof. intros (C & (A & _) & _). now apply A. Qed.

  Lemma reliable_faithful : reliable e -> faithful e.
  Proof. intros (_ & A & B). split; auto. Qed.
  Lemma transmit_arr st s rs m c r c' s' :
    (lk (transmit t e st s rs m c) r c' s' = lk st r c' s') \/
    (c' = c /\ s' = s /\ In r rs /\ exists v, lk (transmit t e st s rs m c) r c' s' = Some v /\ (faithful e -> v = m)).
  Proof.
    unfold lk. rewrite transmit_look. destruct (last_idx r (fst (drop_filter e s rs (n_draws st))) 0) as [j|] eqn:E; [|auto].
    destruct (String.eqb_spec c' c); simpl; [|auto]. destruct (Nat.eqb_spec s' s); simpl; [|auto].
    right. repeat split; auto.
    - assert (In r (fst (drop_filter e s rs (n_draws st)))).
      { destruct (in_dec Nat.eq_dec r (fst (drop_filter e s rs (n_draws st)))); auto.
        apply (last_idx_None r _ 0) in n. congruence. }
      now apply (drop_filter_incl vec e s rs (n_draws st)).
    - eexists. split; [reflexivity|]. intros (F1 & F2). now rewrite F1, F2.
  Qed.

  Lemma send_srv act st S b c : cfg t act st -> incl S act ->
    exists st2, send t e st sv (RMany S) (Some b) c = SOk (transmit t e st2 sv S b c) /\ cfg t act st2 /\ same_agents st st2.
  Proof.
    intros C HS. pose proof C as (Ca & Ci & Cs). pose proof (cfg_clients act st C) as CC.
    unfold send. rewrite SV. unfold send_fed. rewrite Nat.eqb_refl. cbn [negb].
    replace (existsb (fun a => Nat.eqb a sv) S) with false.
    2:{ symmetry. apply not_true_iff_false. intro X. apply existsb_exists in X. destruct X as (x & Hx & E). apply Nat.eqb_eq in E. subst x.
        apply HS, CC, agents_spec in Hx. tauto. }
    unfold send_base. pose proof sv_node as SN. apply memb_In in SN. rewrite SN. cbn [negb].
    unfold allowed. rewrite SV, Nat.eqb_refl.
    pose proof (active_connected_val vec t e st sv Ci) as EV. rewrite (active_mono vec t e st act Ca) in EV. cbn [fst] in EV.
    pose proof (active_connected_frame vec t e st sv) as (SF & _). pose proof (cinv_conn vec t e st sv Ci) as CI2.
    pose proof (conn_mono vec t e st sv act Ca) as CM.
    destruct (active_connected t e st sv) as [js st2] eqn:EQ. cbn [fst snd] in *. subst js.
    replace (forallb _ S) with true.
    2:{ symmetry. apply forallb_forall. intros x Hx. apply memb_In. apply filter_In. split; [|apply memb_In; auto].
        apply adj_star. apply HS, CC, agents_spec in Hx. split; [apply sv_node|]. intuition. }
    exists st2. split; auto. split; auto. split; auto. split; auto. intros r Hr. rewrite SF. now apply Cs.
  Qed.
  Lemma send_cli act st i v c : cfg t act st -> In i (agents t) ->
    exists st2, send t e st i (ROne sv) (Some v) c = SOk (transmit t e st2 i [sv] v c) /\ cfg t act st2 /\ same_agents st st2.
  Proof.
    intros C Hi. pose proof C as (Ca & Ci & Cs). apply agents_spec in Hi. destruct Hi as (Hn & Hs).
    unfold send. rewrite SV. unfold send_fed. rewrite Nat.eqb_refl.
    destruct (Nat.eqb_spec i sv); [contradiction|]. cbn [andb negb].
    unfold send_base. apply memb_In in Hn. rewrite Hn. cbn [negb]. unfold connected_agents.
    replace (memb sv (t_adj t i)) with true.
    2:{ symmetry. apply memb_In, adj_star. apply memb_In in Hn. split; auto. split; [apply sv_node|]. auto. }
    unfold allowed. rewrite SV. destruct (Nat.eqb_spec i sv); [contradiction|]. destruct NET as (_ & _ & ACT). rewrite ACT.
    cbn [forallb memb existsb]. rewrite Nat.eqb_refl. cbn [orb andb].
    eexists. split; [reflexivity|]. split; [|intro; reflexivity]. split; auto.
  Qed.

  (** what the server has received from [i] when [i] uploads [us] *)
  Definition arrived st (i : agent_id) (us : list (channel * vec)) : Prop :=
    forall c, match lk st sv c i with
              | Some v' => exists v, In (c, v) us /\ (faithful e -> v' = v)
              | None => reliable e -> ~ In c (map fst us)
              end.
  Lemma transmit_rel st s rs m c r : reliable e -> In r rs -> lk (transmit t e st s rs m c) r c s = Some m.
  Proof.
    intros RE I. unfold lk. rewrite transmit_reliable by auto. apply memb_In in I. now rewrite I, String.eqb_refl, Nat.eqb_refl.
  Qed.
  Lemma uploads_ok act i us : forall d st, cfg t act st -> In i (agents t) -> NoDup (map fst us) ->
    exists st', uploads t e sv i us (d, st) = ((d, st'), Some tt) /\ cfg t act st' /\
      (forall a, same_private (n_agents st a) (n_agents st' a)) /\
      (forall r c s, r <> sv \/ s <> i \/ ~ In c (map fst us) -> lk st' r c s = lk st r c s) /\
      (forall c v, In (c, v) us -> lk st' sv c i = lk st sv c i \/ exists v', lk st' sv c i = Some v' /\ (faithful e -> v' = v)) /\
      (reliable e -> forall c v, In (c, v) us -> lk st' sv c i = Some v).
  Proof.
    induction us as [|[c v] us IH]; intros d st C Hi ND; cbn [uploads].
    - exists st. split; [reflexivity|]. split; auto. split; [intro; apply same_private_refl|]. split; auto. split; [|intros _]; intros c v [].
    - inversion ND as [|x y N1 N2]; subst. unfold fbind, sendf at 1. cbn [fst snd].
      destruct (send_cli act st i v c C Hi) as (st2 & -> & C2 & S2).
      destruct (IH d (transmit t e st2 i [sv] v c)) as (st' & E & C' & P' & L' & A' & R'); auto; [now apply cfg_transmit|].
      exists st'. cbn [fst snd]. split; [exact E|]. split; auto.
      assert (SP : forall r c' s, lk st2 r c' s = lk st r c' s) by (intros; unfold lk; now rewrite S2).
      assert (LK : lk st' sv c i = lk (transmit t e st2 i [sv] v c) sv c i) by (apply L'; auto).
      split; [|split; [|split]].
      + intro a. eapply same_private_trans; [|apply P']. rewrite <- S2. apply transmit_private.
      + intros r c' s H. rewrite L'; [|destruct H as [|[|H]]; auto; right; right; intro X; apply H; now right].
        destruct (transmit_arr st2 i [sv] v c r c' s) as [->|(-> & -> & [<-|[]] & _)]; [apply SP|].
        exfalso. destruct H as [?|[?|H]]; try congruence. apply H. now left.
      + intros c' v' [[= <- <-]|I]; [|].
        * rewrite LK. destruct (transmit_arr st2 i [sv] v c sv c i) as [T|(_ & _ & _ & T)]; [|auto]. left. now rewrite T, SP.
        * assert (c' <> c). { intros ->. apply N1. now apply (in_map fst) in I. }
          destruct (A' c' v' I) as [X|X]; [|auto]. left. rewrite X.
          destruct (transmit_arr st2 i [sv] v c sv c' i) as [->|(? & _)]; [apply SP|contradiction].
      + intros RE c' v' [[= <- <-]|I]; [|auto]. rewrite LK. apply transmit_rel; auto. now left.
  Qed.
  Lemma uploads_arrived act i us d st : cfg t act st -> In i (agents t) -> NoDup (map fst us) -> (forall c, lk st sv c i = None) ->
    exists st', uploads t e sv i us (d, st) = ((d, st'), Some tt) /\ cfg t act st' /\
      (forall a, same_private (n_agents st a) (n_agents st' a)) /\
      (forall r c s, r <> sv \/ s <> i -> lk st' r c s = lk st r c s) /\ arrived st' i us.
  Proof.
    intros C Hi ND N. destruct (uploads_ok act i us d st C Hi ND) as (st' & E & C' & P & L & A & R).
    exists st'. split; auto. split; auto. split; auto. split; [intros r c s [?|?]; apply L; auto|].
    intro c. destruct (lk st' sv c i) as [v'|] eqn:EQ.
    - destruct (in_dec String.string_dec c (map fst us)) as [I|I].
      + apply in_map_iff in I. destruct I as ([c0 v] & X & I). cbn [fst] in X. subst c0. exists v. split; auto.
        destruct (A c v I) as [X|(w & X & Y)]; rewrite EQ in X; [now rewrite N in X|]. injection X as <-. exact Y.
      + rewrite L in EQ by auto. now rewrite N in EQ.
    - intros RE I. apply in_map_iff in I. destruct I as ([c0 v] & X & I). cbn [fst] in X. subst c0. rewrite (R RE c v I) in EQ. discriminate.
  Qed.

  Lemma local_ok {A} act i (f : inbox -> L A) a p d' d st : cfg t act st ->
    f (inbox_of st i) (priv_of (n_agents st i), d) = Some (a, (p, d')) ->
    local i f (d, st) = ((d', upd_agent i (put_priv p) st), Some a) /\ cfg t act (upd_agent i (put_priv p) st).
  Proof. intros C E. unfold local. rewrite E. split; auto. now apply cfg_upd. Qed.
  Lemma lk_upd i p st r c s : lk (upd_agent i (put_priv p) st) r c s = lk st r c s.
  Proof. unfold lk. cbn [upd_agent n_agents]. unfold upd. destruct (Nat.eqb r i); reflexivity. Qed.
  Lemma priv_upd i p st j : priv_of (n_agents (upd_agent i (put_priv p) st) j) = if Nat.eqb j i then p else priv_of (n_agents st j).
  Proof. cbn [upd_agent n_agents]. unfold upd. destruct (Nat.eqb j i); [apply priv_put|reflexivity]. Qed.
  Lemma hist_upd i p st j : a_hist (n_agents (upd_agent i (put_priv p) st) j) = a_hist (n_agents st j).
  Proof. cbn [upd_agent n_agents]. unfold upd. destruct (Nat.eqb j i); reflexivity. Qed.

  (** the participating clients *)
  Lemma clients_ok (A : fedalg) (Q : agent_id -> vec -> list (channel * vec) -> priv -> Prop) (B : agent_id -> vec) act l st0 :
    NoDup l -> incl l (agents t) ->
    (forall i, In i l -> forall b n, exists us p n', f_client A i b (priv_of (n_agents st0 i), n) = Some (us, (p, n')) /\ NoDup (map fst us) /\ Q i b us p) ->
    forall d st, cfg t act st ->
    (forall i, In i l -> priv_of (n_agents st i) = priv_of (n_agents st0 i) /\ lk st i dflt sv = Some (B i) /\ forall c, lk st sv c i = None) ->
    exists d' st' (U : agent_id -> list (channel * vec)), fall l (client_round t e sv A) (d, st) = ((d', st'), Some tt) /\ cfg t act st' /\
      (forall i, In i l -> Q i (B i) (U i) (priv_of (n_agents st' i)) /\ arrived st' i (U i)) /\
      (forall i, ~ In i l -> priv_of (n_agents st' i) = priv_of (n_agents st i)) /\
      (forall r c s, r <> sv \/ ~ In s l -> lk st' r c s = lk st r c s) /\
      (forall i, a_hist (n_agents st' i) = a_hist (n_agents st i)).
  Proof.
    induction l as [|i l IH]; intros ND IL H d st C P0; cbn [fall].
    - exists d, st, (fun _ => []). split; [reflexivity|]. split; auto. split; [intros i []|]. auto.
    - inversion ND as [|x y N1 N2]; subst.
      destruct (P0 i (or_introl eq_refl)) as (E1 & E2 & E3). destruct (H i (or_introl eq_refl) (B i) d) as (us & p & n' & EC & NU & HQ).
      destruct (local_ok act i (fun inb => lbind (server_broadcast_of sv inb) (fun b => f_client A i b)) us p n' d st C) as (EL & C1).
      { unfold lbind, server_broadcast_of. rewrite inbox_lk, E2, E1. exact EC. }
      destruct (uploads_arrived act i us n' (upd_agent i (put_priv p) st) C1 (IL i (or_introl eq_refl)) NU) as (st2 & EU & C2 & P2 & L2 & A2).
      { intro c. rewrite lk_upd. apply E3. }
      destruct (IH N2 (fun x hx => IL x (or_intror hx)) (fun x hx => H x (or_intror hx)) n' st2 C2) as (d' & st' & U & EF & C' & X1 & X2 & X3 & X4).
      { intros j Hj. assert (j <> i) by (intros ->; contradiction). destruct (P0 j (or_intror Hj)) as (Y1 & Y2 & Y3).
        pose proof (IL j (or_intror Hj)) as Ij. apply agents_spec in Ij.
        rewrite (sp_priv _ _ (P2 j)), priv_upd. destruct (Nat.eqb_spec j i); [contradiction|].
        split; auto. split; [rewrite L2, lk_upd by tauto; auto|]. intro c. rewrite L2, lk_upd by tauto. auto. }
      exists d', st', (fun j => if Nat.eqb j i then us else U j).
      unfold fbind at 1. unfold client_round at 1, fbind at 1. rewrite EL, EU, EF. split; [reflexivity|]. split; [exact C'|].
      split; [|split; [|split]].
      + intros j [<-|Hj].
        * rewrite Nat.eqb_refl, X2 by auto. rewrite (sp_priv _ _ (P2 i)), priv_upd, Nat.eqb_refl. split; auto.
          intro c. specialize (A2 c). rewrite X3 by auto. exact A2.
        * destruct (Nat.eqb_spec j i); [subst; contradiction|]. auto.
      + intros j Hj. cbn [In] in Hj. rewrite X2 by tauto. rewrite (sp_priv _ _ (P2 j)), priv_upd. destruct (Nat.eqb_spec j i); [subst; tauto|auto].
      + intros r c s Hr. cbn [In] in Hr. rewrite X3 by tauto. rewrite L2, lk_upd; auto. destruct Hr; [auto|right; intros ->; tauto].
      + intro j. rewrite X4. destruct (P2 j) as (_ & Z & _). rewrite Z. apply hist_upd.
  Qed.

  (** selection *)
  Lemma record_frame sel : forall st, n_cache (record sel st) = n_cache st /\ n_conn (record sel st) = n_conn st /\
    forall i, a_nsel (n_agents (record sel st) i) = a_nsel (n_agents st i) + count_occ Nat.eq_dec sel i /\
      priv_of (n_agents (record sel st) i) = priv_of (n_agents st i) /\ a_msgs (n_agents (record sel st) i) = a_msgs (n_agents st i) /\
      a_hist (n_agents (record sel st) i) = a_hist (n_agents st i).
  Proof.
    unfold record. induction sel as [|j sel IH]; intro st; cbn [fold_left].
    - cbn [count_occ]. repeat split; auto.
    - destruct (IH (upd_agent j add_sel st)) as (A & B & C). rewrite A, B. split; auto. split; auto. intro i.
      destruct (C i) as (C1 & C2 & C3 & C4). rewrite C1, C2, C3, C4. cbn [upd_agent n_agents count_occ]. unfold upd.
      destruct (Nat.eqb_spec i j); destruct (Nat.eq_dec j i); try congruence; cbn; repeat split; auto; lia.
  Qed.
  Lemma cfg_record act st sel : cfg t act st -> cfg t act (record sel st).
  Proof.
    intros (C & (I1 & I2) & S). destruct (record_frame sel st) as (E1 & E2 & E3). split; [congruence|]. split.
    - split; [rewrite E1; auto|]. rewrite E1, E2. auto.
    - intros r Hr. destruct (E3 r) as (_ & _ & -> & _). auto.
  Qed.

  (** the configuration at the beginning of a step *)
  Lemma fed_step_cfg k st : let st1 := snd (active_agents t e (step t k st)) in
    cfg t (active_at t e k st) st1 /\ NoDup (active_at t e k st) /\
    (forall r c s, In r (t_nodes t) -> lk st1 r c s = None) /\
    (forall i, priv_of (n_agents st1 i) = priv_of (n_agents st i)) /\
    (forall i, a_hist (n_agents st1 i) = a_hist (n_agents st i)) /\ (forall i, a_nsel (n_agents st1 i) = a_nsel (n_agents st i)).
  Proof.
    destruct (step_spec vec t k st) as (S1 & S2 & S3 & S4 & S5 & S6). cbn zeta.
    pose proof (active_agents_frame vec t e (step t k st)) as (A1 & _ & A3 & A4). unfold active_at.
    assert (CI : cinv vec t (step t k st)).
    { split; [rewrite S2; discriminate|]. rewrite S3. discriminate. }
    pose proof (cinv_active vec t e _ CI) as CI2.
    assert (NDa : NoDup (fst (active_agents t e (step t k st)))).
    { unfold active_agents. rewrite S2. pose proof (act_filter_NoDup e (n_iter (step t k st)) (agents t)) as X.
      specialize (X (agents_NoDup t WF) (n_draws (step t k st))).
      destruct (act_filter e _ _ _); exact X. }
    split; [|split; [exact NDa|split; [|split; [|split]]]].
    - split; auto. split; auto. intros r Hr. rewrite A1, S6. apply memb_In in Hr. rewrite Hr. apply sinv_empty.
    - intros r c s Hr. unfold lk. rewrite A1, S6. apply memb_In in Hr. rewrite Hr. reflexivity.
    - intro i. rewrite A1, S6. destruct (memb i (t_nodes t)); reflexivity.
    - intro i. rewrite A1, S6. destruct (memb i (t_nodes t)); reflexivity.
    - intro i. rewrite A1, S6. destruct (memb i (t_nodes t)); reflexivity.
  Qed.

  Lemma active_upd i g st : active_agents t e (upd_agent i g st) =
    (fst (active_agents t e st), upd_agent i g (snd (active_agents t e st))).
  Proof. unfold active_agents. cbn [upd_agent n_cache n_iter n_draws]. destruct (n_cache st); [reflexivity|]. destruct (act_filter e _ _ _); reflexivity. Qed.
  Lemma sees_lk st r s c v : sees st r s c v <-> lk st r c s = Some v.
  Proof. unfold sees, lk. rewrite s_get_look. destruct (look _ _ _ _); split; congruence. Qed.
  Lemma chosen_ok sch d k act : proper sch -> NoDup act -> NoDup (chosen sch d k act) /\ incl (chosen sch d k act) act.
  Proof.
    intros P ND. unfold chosen. destruct act as [|a act]; [split; [constructor|apply incl_refl]|].
    destruct sch as [f|]; [|split; [auto|apply incl_refl]]. apply (P f); auto. discriminate.
  Qed.

  Definition part_result (A : fedalg) (P : list agent_id) (w : world vec nat) : world vec nat * option unit :=
    match P with [] => (w, Some tt) | _ => local sv (f_agg A P) w end.
  Lemma round_ok (A : fedalg) sch k d st (Qpre : priv -> Prop) (Qpay : priv -> vec -> Prop)
      (Qcli : agent_id -> vec -> list (channel * vec) -> priv -> Prop) :
    proper sch ->
    (exists p n', f_pre A (priv_of (n_agents st sv), d) = Some (tt, (p, n')) /\ Qpre p) ->
    (forall p n, Qpre p -> exists b n', f_payload A (p, n) = Some (b, (p, n')) /\ Qpay p b) ->
    (forall i, In i (agents t) -> forall b n, exists us p n', f_client A i b (priv_of (n_agents st i), n) = Some (us, (p, n')) /\ NoDup (map fst us) /\ Qcli i b us p) ->
    exists d1 p0 d' st' b p P B U, let act := active_at t e k st in let S := chosen sch d1 k act in
      fed_round t e sv A sch k (d, step t k st) = part_result A P (d', st') /\
      f_pre A (priv_of (n_agents st sv), d) = Some (tt, (p0, d1)) /\
      cfg t act st' /\ NoDup act /\ incl S act /\ NoDup S /\ priv_of (n_agents st' sv) = p /\ Qpre p /\ Qpay p b /\ took_part t e sv st' S P /\
      (forall i, In i P -> lk st' i dflt sv = Some (B i) /\ (faithful e -> B i = b) /\ Qcli i (B i) (U i) (priv_of (n_agents st' i)) /\ arrived st' i (U i)) /\
      (forall i, ~ In i P -> i <> sv -> priv_of (n_agents st' i) = priv_of (n_agents st i)) /\
      (forall i c, ~ In i P -> lk st' sv c i = None) /\
      (forall i, a_hist (n_agents st' i) = a_hist (n_agents st i)).
  Proof.
    intros PR HPRE HPAY HCLI. destruct (fed_step_cfg k st) as (C1 & NDa & N1 & P1 & H1 & _). cbn zeta in *.
    set (act := active_at t e k st) in *. set (st1 := snd (active_agents t e (step t k st))) in *.
    destruct HPRE as (p & d1 & EP & QP).
    assert (PS : forall i, priv_of (n_agents (step t k st) i) = priv_of (n_agents st i)).
    { intro i. rewrite <- P1. unfold st1. destruct (active_agents_frame vec t e (step t k st)) as (F & _). now rewrite F. }
    set (st2 := upd_agent sv (put_priv p) st1).
    assert (C2 : cfg t act st2) by now apply cfg_upd.
    set (S := chosen sch d1 k act). destruct (chosen_ok sch d1 k act PR NDa) as (NDS & IS). fold S in NDS, IS.
    assert (IA : incl S (agents t)). { intros x Hx. now apply (cfg_clients act st2 C2), IS. }
    assert (E0 : fed_round t e sv A sch k (d, step t k st) =
      match S with
      | [] => ((match act with [] => d1 | _ => match sch with None => d1 | Some _ => Datatypes.S d1 end end, record S st2), Some tt)
      | _ => fbind (local sv (fun _ => f_payload A)) (fun p => fbind (sendf t e sv (RMany S) dflt p) (fun _ =>
          fbind (with_broadcast sv S) (fun part => match part with [] => fret tt
            | _ => fbind (fall part (client_round t e sv A)) (fun _ => local sv (f_agg A part)) end)))
          (match sch with None => d1 | Some _ => Datatypes.S d1 end, record S st2)
      end).
    { unfold fed_round, fbind at 1, local at 1. rewrite PS, EP. unfold fbind at 1. unfold select_clients.
      rewrite active_upd. fold st1 st2. change (fst (active_agents t e (step t k st))) with act.
      unfold S, chosen. clearbody act. destruct act as [|a l]; [reflexivity|].
      destruct sch as [f|]; [|reflexivity]. destruct (f d1 (a :: l) k); reflexivity. }
    set (d2 := match act with [] => d1 | _ => _ end) in E0. set (d3 := match sch with None => d1 | _ => _ end) in E0.
    set (st3 := record S st2) in *. destruct (record_frame S st2) as (_ & _ & RF). fold st3 in RF.
    assert (C3 : cfg t act st3) by now apply cfg_record.
    assert (PV : forall i, priv_of (n_agents st3 i) = if Nat.eqb i sv then p else priv_of (n_agents st i)).
    { intro i. destruct (RF i) as (_ & -> & _). unfold st2. now rewrite priv_upd, P1. }
    assert (HI : forall i, a_hist (n_agents st3 i) = a_hist (n_agents st i)).
    { intro i. destruct (RF i) as (_ & _ & _ & ->). unfold st2. now rewrite hist_upd, H1. }
    assert (N3 : forall r c s, In r (t_nodes t) -> lk st3 r c s = None).
    { intros r c s Hr. unfold lk. destruct (RF r) as (_ & _ & -> & _). fold (lk st2 r c s). unfold st2. rewrite lk_upd. auto. }
    destruct (HPAY p d3 QP) as (b & d4 & EB & QB).
    assert (NOS : S = [] -> exists d1 p0 d' st' b p P B U, let act := active_at t e k st in let S := chosen sch d1 k act in
      fed_round t e sv A sch k (d, step t k st) = part_result A P (d', st') /\
      f_pre A (priv_of (n_agents st sv), d) = Some (tt, (p0, d1)) /\
      cfg t act st' /\ NoDup act /\ incl S act /\ NoDup S /\ priv_of (n_agents st' sv) = p /\ Qpre p /\ Qpay p b /\ took_part t e sv st' S P /\
      (forall i, In i P -> lk st' i dflt sv = Some (B i) /\ (faithful e -> B i = b) /\ Qcli i (B i) (U i) (priv_of (n_agents st' i)) /\ arrived st' i (U i)) /\
      (forall i, ~ In i P -> i <> sv -> priv_of (n_agents st' i) = priv_of (n_agents st i)) /\
      (forall i c, ~ In i P -> lk st' sv c i = None) /\
      (forall i, a_hist (n_agents st' i) = a_hist (n_agents st i))).
    { intro ES. exists d1, p, d2, st3, b, p, [], (fun _ => vzero), (fun _ => []). cbn zeta. fold act. fold S. rewrite E0, ES in *. cbn [part_result].
      split; [reflexivity|]. split; [exact EP|]. split; auto. split; auto. split; auto. split; auto. split; [now rewrite PV, Nat.eqb_refl|]. split; auto. split; auto.
      split; [|split; [intros i []|split; [|split]]]; auto.
      - split; [constructor|]. split; [apply incl_refl|]. split; auto. split; [intros i []|auto].
      - intros i _ Hi. rewrite PV. destruct (Nat.eqb_spec i sv); [contradiction|auto].
      - intros i c _. apply N3. apply sv_node. }
    destruct S as [|a0 S0] eqn:ES; [auto|]. rewrite <- ES in *. clear NOS.
    assert (E1 : fed_round t e sv A sch k (d, step t k st) = fbind (local sv (fun _ => f_payload A)) (fun p => fbind (sendf t e sv (RMany S) dflt p) (fun _ =>
          fbind (with_broadcast sv S) (fun part => match part with [] => fret tt
            | _ => fbind (fall part (client_round t e sv A)) (fun _ => local sv (f_agg A part)) end))) (d3, st3)).
    { exact E0. }
    clear E0.
    destruct (local_ok act sv (fun _ => f_payload A) b p d4 d3 st3 C3) as (EL & C4).
    { rewrite PV, Nat.eqb_refl. exact EB. }
    set (st4 := upd_agent sv (put_priv p) st3) in *.
    destruct (send_srv act st4 S b dflt C4 IS) as (st5 & ES5 & C5 & S5).
    set (st6 := transmit t e st5 sv S b dflt) in *.
    assert (C6 : cfg t act st6) by now apply cfg_transmit.
    set (P := filter (has_broadcast sv dflt st6) S).
    assert (HB : forall i, has_broadcast sv dflt st6 i = true <-> exists v, lk st6 i dflt sv = Some v).
    { intro i. unfold has_broadcast, dmem. rewrite inbox_lk. destruct (lk st6 i dflt sv); split; eauto; try discriminate. intros (v & [=]). }
    assert (L5 : forall r c s, lk st5 r c s = lk st3 r c s).
    { intros r c s. unfold lk. rewrite S5. apply (lk_upd sv p st3). }
    assert (PV6 : forall i, priv_of (n_agents st6 i) = if Nat.eqb i sv then p else priv_of (n_agents st i)).
    { intro i. pose proof (transmit_private vec t e st5 sv S b dflt i) as X. fold st6 in X. rewrite (sp_priv _ _ X), S5. unfold st4. rewrite priv_upd, PV. destruct (Nat.eqb i sv); auto. }
    assert (HI6 : forall i, a_hist (n_agents st6 i) = a_hist (n_agents st i)).
    { intro i. destruct (transmit_private vec t e st5 sv S b dflt i) as (_ & X & _). fold st6 in X. rewrite X, S5. unfold st4. now rewrite hist_upd, HI. }
    assert (L6 : forall c s, lk st6 sv c s = None).
    { intros c s. destruct (transmit_arr st5 sv S b dflt sv c s) as [X|(_ & _ & X & _)].
      - fold st6 in X. rewrite X, L5. apply N3, sv_node.
      - exfalso. apply IA, agents_spec in X. tauto. }
    set (B := fun i => match lk st6 i dflt sv with Some v => v | None => vzero end).
    assert (HBi : forall i, In i P -> lk st6 i dflt sv = Some (B i) /\ (faithful e -> B i = b)).
    { intros i Hi. unfold P in Hi. apply filter_In in Hi. destruct Hi as (Hi & X). apply HB in X. destruct X as (v & X).
      unfold B. rewrite X. split; auto. intro F.
      destruct (transmit_arr st5 sv S b dflt i dflt sv) as [Y|(_ & _ & _ & w & Y & Z)]; fold st6 in Y; rewrite X in Y.
      - rewrite L5, N3 in Y; [discriminate|]. apply agents_spec, IA, Hi.
      - injection Y as ->. auto. }
    assert (NDP : NoDup P) by now apply NoDup_filter.
    assert (IP : incl P S). { intros x Hx. unfold P in Hx. apply filter_In in Hx. tauto. }
    assert (RP : reliable e -> P = S).
    { intro RE. unfold P. assert (G : forall l, incl l S -> filter (has_broadcast sv dflt st6) l = l).
      { induction l as [|x l IH]; intro I; [reflexivity|]. cbn [filter]. replace (has_broadcast sv dflt st6 x) with true.
        - f_equal. apply IH. intros y Hy. apply I. now right.
        - symmetry. apply HB. exists b. apply transmit_rel; auto. apply I. now left. }
      apply G. apply incl_refl. }
    assert (TP : forall st', (forall i, In i S -> lk st' i dflt sv = lk st6 i dflt sv) -> took_part t e sv st' S P).
    { intros st' X. split; auto. split; auto. split; auto. split; auto. intros i Hi. unfold P. rewrite filter_In, HB.
      split; [intros (_ & v & Y); exists v; apply sees_lk; now rewrite X|]. intros (v & Y). apply sees_lk in Y. rewrite X in Y by auto. eauto. }
    assert (E2 : fed_round t e sv A sch k (d, step t k st) =
       match P with [] => ((d4, st6), Some tt) | _ => fbind (fall P (client_round t e sv A)) (fun _ => local sv (f_agg A P)) (d4, st6) end).
    { rewrite E1. unfold fbind at 1. rewrite EL. unfold fbind at 1, sendf at 1. cbn [fst snd]. rewrite ES5. fold st6.
      unfold fbind at 1, with_broadcast. cbn [snd]. fold P. destruct P; reflexivity. }
    clear E1.
    destruct (clients_ok A Qcli B act P st NDP (fun x hx => IA x (IP x hx)) (fun i hi => HCLI i (IA i (IP i hi))) d4 st6 C6) as (d' & st' & U & EF & C' & X1 & X2 & X3 & X4).
    { intros i Hi. pose proof (IA i (IP i Hi)) as Ia. apply agents_spec in Ia. rewrite PV6. destruct (Nat.eqb_spec i sv); [tauto|].
      split; auto. split; [apply HBi; auto|]. intro c. apply L6. }
    assert (SP : ~ In sv P). { intro X. apply IP, IA, agents_spec in X. tauto. }
    exists d1, p. destruct P as [|q P0] eqn:EP0.
    - exists d4, st6, b, p, [], B, U. cbn zeta. fold act. fold S. rewrite E2. split; [reflexivity|]. split; [exact EP|]. split; auto. split; auto. split; auto. split; auto.
      split; [now rewrite PV6, Nat.eqb_refl|]. split; auto. split; auto. split; [apply TP; auto|]. split; [intros i []|].
      split; [|split]; auto. intros i _ Hi. rewrite PV6. destruct (Nat.eqb_spec i sv); [contradiction|auto].
    - rewrite <- EP0 in *. exists d', st', b, p, P, B, U. cbn zeta. fold act. fold S.
      split. { rewrite E2. rewrite EP0 at 1. rewrite <- EP0. unfold fbind at 1. rewrite EF. rewrite EP0. reflexivity. }
      split; [exact EP|]. split; auto. split; auto. split; auto. split; auto. split; [now rewrite X2, PV6, Nat.eqb_refl by auto|]. split; auto. split; auto.
      split; [apply TP; intros i Hi; apply X3; left; intros ->; apply IA, agents_spec in Hi; tauto|].
      split; [|split; [|split]].
      + intros i Hi. destruct (HBi i Hi) as (Y1 & Y2). destruct (X1 i Hi). split; [|auto]. rewrite X3; [exact Y1|]. left. intros ->. auto.
      + intros i Hi Hs. rewrite X2, PV6 by auto. destruct (Nat.eqb_spec i sv); [contradiction|auto].
      + intros i c Hi. rewrite X3 by auto. apply L6.
      + intro i. now rewrite X4.
  Qed.

  (** ** Aggregation *)
  Definition mv st (c : channel) (i : agent_id) : vec := match lk st sv c i with Some v => v | None => vzero end.
  Lemma msgs_map st c got : (forall i, In i got -> lk st sv c i <> None) -> msgs_of (inbox_of st sv) c got = map (mv st c) got.
  Proof.
    induction got as [|i got IH]; intro H; [reflexivity|]. cbn [msgs_of flat_map map]. unfold mv at 1. rewrite inbox_lk.
    destruct (lk st sv c i) eqn:E; [|exfalso; apply (H i); [now left|auto]]. cbn [app]. f_equal. apply IH. intros j Hj. apply H. now right.
  Qed.
  Lemma dmem_lk st c i : dmem Nat.eqb (inbox_of st sv c) i = true <-> lk st sv c i <> None.
  Proof. unfold dmem. rewrite inbox_lk. destruct (lk st sv c i); split; congruence. Qed.
  Lemma received_In st c P i : In i (received (inbox_of st sv) c P) <-> In i P /\ lk st sv c i <> None.
  Proof. unfold received. now rewrite filter_In, dmem_lk. Qed.
  Lemma received_msgs st c P : msgs_of (inbox_of st sv) c (received (inbox_of st sv) c P) = map (mv st c) (received (inbox_of st sv) c P).
  Proof. apply msgs_map. intros i Hi. now apply received_In in Hi. Qed.
  Lemma received_uploaded st c P U : NoDup P -> (forall i, In i P -> arrived st i (U i) /\ In c (map fst (U i))) ->
    (forall i, ~ In i P -> lk st sv c i = None) -> uploaded e sv st P c (received (inbox_of st sv) c P).
  Proof.
    intros ND A N. split; [now apply NoDup_filter|]. split; [intros i Hi; now apply received_In in Hi|]. split.
    - intro i. rewrite received_In. split.
      + intros (_ & X). destruct (lk st sv c i) as [v|] eqn:E; [|congruence]. exists v. now apply sees_lk.
      + intros (v & X). apply sees_lk in X. split; [|congruence]. destruct (in_dec Nat.eq_dec i P); auto. rewrite N in X by auto. discriminate.
    - intro RE. unfold received. assert (G : forall l, incl l P -> filter (fun i => dmem Nat.eqb (inbox_of st sv c) i) l = l).
      { induction l as [|x l IH]; intro I; [reflexivity|]. cbn [filter]. destruct (A x (I x (or_introl eq_refl))) as (A1 & A2).
        replace (dmem Nat.eqb (inbox_of st sv c) x) with true.
        - f_equal. apply IH. intros y Hy. apply I. now right.
        - symmetry. apply dmem_lk. specialize (A1 c). destruct (lk st sv c x); [discriminate|]. exfalso. now apply A1. }
      apply G, incl_refl.
  Qed.
  Lemma arrived_val st i us c v v' : arrived st i us -> lk st sv c i = Some v' -> (forall w, In (c, w) us -> w = v) -> faithful e -> v' = v.
  Proof. intros A E U F. specialize (A c). rewrite E in A. destruct A as (w & X & Y). rewrite Y by auto. auto. Qed.

  Lemma finish (A : fedalg) P d' st' act p'' n'' : cfg t act st' -> (forall inb s, f_agg A [] inb s = Some (tt, s)) ->
    f_agg A P (inbox_of st' sv) (priv_of (n_agents st' sv), d') = Some (tt, (p'', n'')) ->
    exists st'', part_result A P (d', st') = ((n'', st''), Some tt) /\ cfg t act st'' /\
      (forall i, priv_of (n_agents st'' i) = if Nat.eqb i sv then p'' else priv_of (n_agents st' i)) /\
      (forall r c s, lk st'' r c s = lk st' r c s) /\ (forall i, a_hist (n_agents st'' i) = a_hist (n_agents st' i)).
  Proof.
    intros C E0 E. destruct P as [|i0 P].
    - rewrite E0 in E. injection E as <- <-. exists st'. split; [reflexivity|]. split; auto. split; auto.
      intro i. destruct (Nat.eqb_spec i sv); [now subst|auto].
    - exists (upd_agent sv (put_priv p'') st'). cbn [part_result]. destruct (local_ok act sv (f_agg A (i0 :: P)) tt p'' n'' d' st' C E) as (-> & C').
      split; [reflexivity|]. split; auto. split; [intro; apply priv_upd|]. split; [intros; apply lk_upd|]. intro; apply hist_upd.
  Qed.
End FedLock.
