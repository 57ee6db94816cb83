(** DLM and DiNNO with shared arrays compared with the programs without. *)
From Coq Require Import Reals String List Bool Arith ZArith Lia Lra FunctionalExtensionality.
From Verif.Model Require Import PyDict History Messages Network Runner Vec P2P P2PShared.
From Verif.Spec Require Import NetworkSpec P2PSpec P2PSharedSpec.
From Verif.Proofs Require Import PyDictProofs MessagesProofs NetworkProofs NetworkInv NetworkMore RunnerProofs NetMap.
Import ListNotations.
Open Scope nat_scope.

Lemma tag_eqb_spec a b : reflect (a = b) (tag_eqb a b).
Proof.
  destruct a as [s d r], b as [s' d' r']. unfold tag_eqb. cbn. destruct (Nat.eqb_spec s s'), (Nat.eqb_spec d d'), (Nat.eqb_spec r r'); cbn; constructor; congruence.
Qed.

Section S.
  Variables (t : topo) (e : env vec).
  Hypothesis WF : wf_topo t.
  Hypothesis SV : t_server t = None.
  Notation E := (shared_env e).
  Notation M := plain_net.
  Notation nodes := (t_nodes t).
  Implicit Types (st : net buf) (h : heap).

  Lemma Enz d s : e_noise e d s = option_map (fun g i => fst (g i)) (e_noise E d s).
  Proof. cbn. destruct (e_noise e d s); reflexivity. Qed.

  Lemma p_active st : active_agents t e (M st) = (fst (active_agents t E st), M (snd (active_agents t E st))).
  Proof. apply m_active. reflexivity. Qed.
  Lemma p_send st i m c : send t e (M st) i RNone (Some (fst m)) c =
    match send t E st i RNone (Some m) c with SOk st' => SOk (M st') | SErr st' => SErr (M st') end.
  Proof. apply (m_send_bcast fst E e); auto. apply Enz. Qed.
  Lemma p_step k st : step t k (M st) = M (step t k st). Proof. apply m_step. Qed.

  (** private variables *)
  Lemma p_priv a : priv_of (map_agent fst a) = spriv_of a. Proof. reflexivity. Qed.
  Lemma p_put p a : put_priv p (map_agent fst a) = map_agent fst (sput_priv p a).
  Proof.
    unfold put_priv, sput_priv, map_agent. cbn [a_x a_hist a_aux a_msgs a_nx a_sent a_recv a_drop a_nsel]. f_equal.
    - destruct (v_x p); reflexivity.
    - unfold map_aux. rewrite map_map. rewrite <- (map_id (v_aux p)) at 1. apply map_ext. intros [k v]. cbn. f_equal.
      destruct v as [v|m]; cbn; auto. f_equal. unfold map_vals. rewrite map_map. rewrite <- (map_id m) at 1. apply map_ext. intros [j x]. reflexivity.
  Qed.
  Lemma p_upd i p st : upd_agent i (put_priv p) (M st) = M (upd_agent i (sput_priv p) st).
  Proof. apply m_upd. apply p_put. Qed.
  Lemma p_inbox st i : inbox_of (M st) i dflt = map_vals fst (sinbox st i).
  Proof. unfold inbox_of, sinbox. cbn [plain_net map_net n_agents map_agent a_msgs]. apply ms_channel. Qed.

  Definition pw (w : sworld) : pworld := plain_world w.
  Definition pr (r : sworld * bool) : pworld * bool := (pw (fst r), snd r).

  (** ** Sends *)
  Lemma send_body f d h st i : do_body t e (PSend (fun i => lbind (f i) (fun v => lret [OBcast dflt v]))) i (d, M st) = pr (do_sbody t e (SSend f) i ((d, h), st)).
  Proof.
    cbn [do_body do_sbody]. unfold lbind, lret. change (priv_of (n_agents (M st) i)) with (spriv_of (n_agents st i)).
    destruct (f i (spriv_of (n_agents st i), d)) as [[v [p d']]|]; [|reflexivity].
    cbn [do_outs do_out send_all]. rewrite p_upd. change v with (fst (own v)) at 1. rewrite p_send.
    change (@Some (prod vec tag) (own v)) with (@Some buf (own v)).
    destruct (@send buf t (shared_env e) (upd_agent i (sput_priv p) st) i RNone (Some (own v)) dflt); reflexivity.
  Qed.

  (** ** Tags *)
  Definition lookb st r c s := look buf (a_msgs (n_agents st r)) c s.
  Definition tags_ok lo st : Prop := forall r c s b, In r nodes -> lookb st r c s = Some b ->
    In r (t_adj t s) /\ g_sender (snd b) = s /\ lo <= g_draw (snd b) < n_draws st.
  Definition private st : Prop := forall r r' c c' s s' b b', In r nodes -> In r' nodes -> r <> r' ->
    lookb st r c s = Some b -> lookb st r' c' s' = Some b' -> snd b <> snd b'.
  Definition inv lo st : Prop := cinv buf t st /\ (forall act, n_cache st = Some act -> NoDup act) /\
    (forall r, In r nodes -> sinv buf (a_msgs (n_agents st r))) /\ tags_ok lo st /\ (noisy_sends e -> private st) /\ lo <= n_draws st.

  Lemma inv_same lo st st' : inv lo st -> same_agents st st' -> cinv buf t st' -> (forall act, n_cache st' = Some act -> NoDup act) ->
    n_draws st <= n_draws st' -> inv lo st'.
  Proof.
    intros (_ & _ & S & T & P & Hl) SA C N D. split; auto. split; auto. split; [|split; [|split; [|lia]]].
    - intros r Hr. rewrite SA. auto.
    - intros r c s b Hr H. unfold lookb in H. rewrite SA in H. destruct (T r c s b Hr H) as (X & Y & Z). repeat split; auto; lia.
    - intros NS r r' c c' s s' b b' Hr Hr' Ne H H'. unfold lookb in *. rewrite SA in H, H'. exact (P NS r r' c c' s s' b b' Hr Hr' Ne H H').
  Qed.
  Lemma inv_upd lo st i p : inv lo st -> inv lo (upd_agent i (sput_priv p) st).
  Proof.
    assert (X : forall r, a_msgs (n_agents (upd_agent i (sput_priv p) st) r) = a_msgs (n_agents st r)).
    { intro r. cbn. unfold upd. destruct (Nat.eqb r i); reflexivity. }
    intros (C & N & S & T & P & Hl). split; [exact C|]. split; [exact N|]. split; [|split; [|split; [|exact Hl]]].
    - intros r Hr. rewrite X. auto.
    - intros r c s b Hr H. unfold lookb in H. rewrite X in H. exact (T r c s b Hr H).
    - intros NS r r' c c' s s' b b' Hr Hr' Ne H H'. unfold lookb in *. rewrite X in H, H'. exact (P NS r r' c c' s s' b b' Hr Hr' Ne H H').
  Qed.

  Lemma act_draws it l : forall d, d <= snd (act_filter E it l d).
  Proof.
    induction l as [|a l IH]; intro d; cbn [act_filter]; auto. specialize (IH (S d)). destruct (act_filter E it l (S d)); cbn [snd] in *. lia.
  Qed.
  Lemma act_nodup it l : NoDup l -> forall d, NoDup (fst (act_filter E it l d)).
  Proof.
    induction 1 as [|a l Ha Hl IH]; intro d; cbn [act_filter fst]; [constructor|].
    specialize (IH (S d)). pose proof (act_filter_incl buf E it l (S d)) as I.
    destruct (act_filter E it l (S d)) as [r d']; cbn [fst] in *. destruct (e_act E d a it); auto. constructor; auto.
  Qed.
  Lemma agents_n : agents t = nodes.
  Proof. unfold agents, is_server. rewrite SV. induction nodes as [|a l IH]; cbn; auto. now f_equal. Qed.
  Lemma inv_active lo st : inv lo st -> inv lo (snd (active_agents t E st)).
  Proof.
    intro I. pose proof (active_agents_frame buf t E st) as (SA & _). apply (inv_same lo st); auto.
    - apply cinv_active. apply I.
    - destruct I as (_ & N & _). unfold active_agents. destruct (n_cache st) eqn:C; [cbn [snd]; rewrite C in *; exact N|].
      pose proof (act_nodup (n_iter st) (agents t)) as X. rewrite agents_n in X. destruct WF as (ND & _). specialize (X ND (n_draws st)).
      rewrite agents_n. destruct (act_filter E (n_iter st) nodes (n_draws st)) as [l d]. cbn [snd n_cache fst] in *. now intros ? [= <-].
    - unfold active_agents. destruct (n_cache st); cbn [snd]; auto. pose proof (act_draws (n_iter st) (agents t) (n_draws st)) as X.
      destruct (act_filter E (n_iter st) (agents t) (n_draws st)); exact X.
  Qed.
  Lemma inv_conn lo st a : inv lo st -> inv lo (snd (active_connected t E st a)).
  Proof.
    intro I. pose proof (inv_active lo st I) as I2. unfold active_connected. destruct (dget Nat.eqb (n_conn st) a) eqn:G; auto.
    assert (C : cinv buf t (snd (active_connected t E st a))) by (apply cinv_conn, I). unfold active_connected in C. rewrite G in C.
    destruct (active_agents t E st) as [act st1]. cbn [snd] in *. apply (inv_same lo st1); auto; [intro; reflexivity|apply I2].
  Qed.

  Lemma drop_draws s l : forall d, d <= snd (drop_filter E s l d).
  Proof.
    induction l as [|a l IH]; intro d; cbn [drop_filter]; auto. specialize (IH (S d)). destruct (drop_filter E s l (S d)); cbn [snd] in *. lia.
  Qed.
  Lemma last_idx_nth r l : forall i j, last_idx r l i = Some j -> i <= j /\ nth_error l (j - i) = Some r.
  Proof.
    induction l as [|a l IH]; intros i j H; cbn [last_idx] in H; [discriminate|]. destruct (last_idx r l (S i)) as [k|] eqn:L.
    - injection H as <-. destruct (IH (S i) k L) as (X & Y). split; [lia|]. replace (k - i) with (S (k - S i)) by lia. exact Y.
    - destruct (Nat.eqb_spec r a); [|discriminate]. injection H as <-. subst. split; auto. rewrite Nat.sub_diag. reflexivity.
  Qed.
  Lemma deliver_sinv_b s c p m nz inc r l : forall i st, sinv buf (a_msgs (n_agents st r)) ->
    sinv buf (a_msgs (n_agents (deliver E s c p m nz inc i l st) r)).
  Proof.
    induction l as [|a l IH]; intros i st H; cbn [deliver]; auto. apply IH. cbn. unfold upd. destruct (Nat.eqb r a); cbn; auto. now apply put_inv.
  Qed.
  Lemma transmit_sinv_b st s rs m c r : sinv buf (a_msgs (n_agents st r)) -> sinv buf (a_msgs (n_agents (transmit t E st s rs m c) r)).
  Proof.
    intro H. unfold transmit. destruct (drop_filter E s rs _) as [conf d]. apply deliver_sinv_b. cbn. unfold upd. destruct (Nat.eqb r s); cbn; auto.
  Qed.
  Lemma transmit_draws st s rs m c : n_draws (transmit t E st s rs m c) = S (S (snd (drop_filter E s rs (n_draws st)))).
  Proof.
    unfold transmit. cbn [upd_agent n_draws]. destruct (drop_filter E s rs (n_draws st)) as [conf d]. cbn [snd].
    match goal with |- n_draws (deliver ?a ?b ?c ?d ?f ?g ?h ?i ?j ?k) = _ => destruct (deliver_caches buf a b c d f g h j i k) as (_ & _ & _ & ->) end. reflexivity.
  Qed.

  (** the messages after a transmission *)
  Lemma transmit_cases st s rs m c r c' s' b : lookb (transmit t E st s rs m c) r c' s' = Some b ->
    lookb st r c' s' = Some b \/
    (c' = c /\ s' = s /\ In r rs /\ n_draws st <= g_draw (snd b) < n_draws (transmit t E st s rs m c) /\ g_sender (snd b) = s /\
     (noisy_sends e -> exists j, g_row (snd b) = S j /\ nth_error (fst (drop_filter E s rs (n_draws st))) j = Some r)).
  Proof.
    intro H. unfold lookb in *. rewrite transmit_look in H. rewrite transmit_draws.
    pose proof (drop_draws s rs (n_draws st)) as DD. pose proof (drop_filter_incl buf E s rs (n_draws st)) as DI.
    destruct (drop_filter E s rs (n_draws st)) as [conf d]. cbn [fst snd] in *.
    destruct (last_idx r conf 0) as [j|] eqn:LI; [|auto].
    destruct (String.eqb_spec c' c); cbn in H; [|auto]. destruct (Nat.eqb_spec s' s); cbn in H; [|auto]. right.
    destruct (last_idx_nth r conf 0 j LI) as (_ & NE). rewrite Nat.sub_0_r in NE.
    assert (In r conf) by (eapply nth_error_In; eauto).
    split; auto. split; auto. split; [now apply DI|]. injection H as <-. unfold noisy.
    destruct (e_noise e (S d) s) as [g|] eqn:NZ; cbn.
    - split; [lia|]. split; auto. intros _. exists j. auto.
    - split; [lia|]. split; auto. intro NS. exfalso. exact (NS (S d) s NZ).
  Qed.
  Lemma inv_transmit lo st s rs m c : inv lo st -> (forall r, In r rs -> In r (t_adj t s)) -> inv lo (transmit t E st s rs m c).
  Proof.
    intros (C & N & S & T & P & Hl) R.
    pose proof (drop_draws s rs (n_draws st)) as DD.
    assert (D : n_draws st <= n_draws (transmit t E st s rs m c)) by (rewrite transmit_draws; lia).
    destruct (transmit_caches buf t E st s rs m c) as (C1 & C2 & C3).
    split; [|split; [|split; [|split; [|split; [|lia]]]]].
    - split; rewrite ?C2, ?C3; apply C.
    - rewrite C2. exact N.
    - intros r Hr. apply transmit_sinv_b. auto.
    - intros r c' s' b Hr H. destruct (transmit_cases _ _ _ _ _ _ _ _ _ H) as [H'|(-> & -> & Hin & Hd & Hs & _)].
      + destruct (T r c' s' b Hr H') as (X & Y & Z). repeat split; auto; lia.
      + repeat split; auto; lia.
    - intros NS r r' c1 c2 s1 s2 b b' Hr Hr' Ne H H' Eq.
      destruct (transmit_cases _ _ _ _ _ _ _ _ _ H) as [X|(-> & -> & Hin & Hd & Hs & X)];
      destruct (transmit_cases _ _ _ _ _ _ _ _ _ H') as [X'|(-> & -> & Hin' & Hd' & Hs' & X')].
      + exact (P NS r r' c1 c2 s1 s2 b b' Hr Hr' Ne X X' Eq).
      + destruct (T r c1 s1 b Hr X) as (_ & _ & Z). rewrite Eq in Z. lia.
      + destruct (T r' c2 s2 b' Hr' X') as (_ & _ & Z). rewrite <- Eq in Z. lia.
      + destruct (X NS) as (j & Rj & Nj), (X' NS) as (j' & Rj' & Nj'). rewrite Eq in Rj. assert (j = j') as <- by congruence. congruence.
  Qed.
  Lemma inv_send lo st i m c : inv lo st -> inv lo (sstate (send t E st i RNone m c)).
  Proof.
    intro I. unfold send. rewrite SV. unfold send_base. destruct m as [m|]; auto. destruct (negb (memb i nodes)); auto.
    pose proof (inv_conn lo st i I) as I1. pose proof (active_connected_val buf t E st i (proj1 I)) as AV.
    destruct (active_connected t E st i) as [l st1]. cbn [fst snd] in *. unfold allowed. rewrite SV.
    pose proof (inv_conn lo st1 i I1) as I2. destruct (active_connected t E st1 i) as [l2 st2]. cbn [fst snd] in *.
    destruct (forallb _ l); cbn [sstate]; auto. apply inv_transmit; auto. intros r Hr. rewrite AV in Hr. now apply filter_In in Hr.
  Qed.

  (** ** A loop of sends *)
  Lemma send_loop f lo l : forall d h st, inv lo st ->
    for_each (do_body t e (PSend (fun i => lbind (f i) (fun v => lret [OBcast dflt v])))) l (d, M st) = pr (sfor_each (do_sbody t e (SSend f)) l ((d, h), st)) /\
    inv lo (snd (fst (sfor_each (do_sbody t e (SSend f)) l ((d, h), st)))) /\
    snd (fst (fst (sfor_each (do_sbody t e (SSend f)) l ((d, h), st)))) = h.
  Proof.
    induction l as [|i l IH]; intros d h st I; cbn [for_each sfor_each]; [auto|]. rewrite (send_body f d h).
    cbn [do_sbody]. destruct (f i (spriv_of (n_agents st i), d)) as [[v [p d']]|]; [|cbn; auto].
    pose proof (inv_send lo (upd_agent i (sput_priv p) st) i (Some (own v)) dflt (inv_upd lo st i p I)) as I2.
    destruct (send t E (upd_agent i (sput_priv p) st) i RNone (Some (own v)) dflt) as [st'|st']; cbn [sstate] in I2; cbn [pr fst snd pw plain_world].
    - apply (IH d' h st' I2).
    - auto.
  Qed.

  (** ** A loop of updates *)
  Section Upd.
    Variables (f : agent_id -> list (agent_id * buf) -> heap -> L heap) (g : agent_id -> inbox -> L unit).
    Variable ok : list agent_id -> heap -> Prop.
    Variable st0 : net buf.
    Hypothesis BODY : forall i l h p d, ok (i :: l) h -> forall inb, inb dflt = map_vals fst (sinbox st0 i) ->
      match f i (sinbox st0 i) h (p, d) with
      | Some (h', s') => g i inb (p, d) = Some (tt, s') /\ ok l h'
      | None => g i inb (p, d) = None
      end.
    Lemma upd_loop lo l : forall d h st, inv lo st -> (forall i, a_msgs (n_agents st i) = a_msgs (n_agents st0 i)) -> ok l h ->
      let r := sfor_each (do_sbody t e (SUpd f)) l ((d, h), st) in
      for_each (do_body t e (PUpd g)) l (d, M st) = pr r /\ inv lo (snd (fst r)) /\ n_draws (snd (fst r)) = n_draws st /\
      (forall i, a_msgs (n_agents (snd (fst r)) i) = a_msgs (n_agents st0 i)) /\ (snd r = false -> ok [] (snd (fst (fst r)))).
    Proof.
      induction l as [|i l IH]; intros d h st I A O; cbn [for_each sfor_each].
      - cbn. auto.
      - cbn [do_body do_sbody]. change (priv_of (n_agents (M st) i)) with (spriv_of (n_agents st i)).
        assert (SI : sinbox st i = sinbox st0 i) by (unfold sinbox; now rewrite A).
        assert (IB : inbox_of (M st) i dflt = map_vals fst (sinbox st0 i)) by (rewrite p_inbox, SI; reflexivity).
        rewrite SI. pose proof (BODY i l h (spriv_of (n_agents st i)) d O (inbox_of (M st) i) IB) as B.
        destruct (f i (sinbox st0 i) h (spriv_of (n_agents st i), d)) as [[h' [p d']]|].
        + destruct B as (-> & O'). rewrite p_upd. apply (IH d' h' (upd_agent i (sput_priv p) st)); auto.
          * now apply inv_upd.
          * intro j. rewrite <- A. cbn. unfold upd. destruct (Nat.eqb j i); reflexivity.
        + rewrite B. cbn. split; [reflexivity|]. split; [exact I|]. split; [reflexivity|]. split; [exact A|]. intro X. discriminate X.
    Qed.
  End Upd.

  (** ** What is in an inbox *)
  Lemma inbox_look lo st i s b : inv lo st -> In i nodes -> In (s, b) (sinbox st i) -> lookb st i dflt s = Some b.
  Proof.
    intros (_ & _ & S & _) Hi H. unfold lookb. rewrite <- s_by_channel_look. fold (sinbox st i). apply (dget_NoDup _ _ Nat.eqb Nat.eqb_spec); auto. unfold dkeys.
    unfold sinbox, s_by_channel. destruct (S i Hi) as (_ & B). destruct (dget String.eqb (a_msgs (n_agents st i)) dflt) as [bb|] eqn:G; [|constructor].
    now destruct (B dflt bb G).
  Qed.
  Lemma inbox_nodup lo st i : inv lo st -> In i nodes -> NoDup (map fst (sinbox st i)).
  Proof.
    intros (_ & _ & S & _) Hi. unfold sinbox, s_by_channel. destruct (S i Hi) as (_ & B).
    destruct (dget String.eqb (a_msgs (n_agents st i)) dflt) as [bb|] eqn:G; [|constructor]. now destruct (B dflt bb G).
  Qed.
  Definition tags (l : list (agent_id * buf)) : list tag := map (fun m => snd (snd m)) l.
  Lemma inbox_tags lo st i : inv lo st -> In i nodes -> NoDup (tags (sinbox st i)).
  Proof.
    intros I Hi. pose proof (inbox_nodup lo st i I Hi) as ND.
    assert (H : forall s b, In (s, b) (sinbox st i) -> g_sender (snd b) = s).
    { intros s b H. apply (inbox_look lo) in H; auto. destruct I as (_ & _ & _ & T & _). now destruct (T i dflt s b Hi H) as (_ & X & _). }
    revert ND H. generalize (sinbox st i). clear. induction l as [|[s b] l IH]; cbn [map tags fst snd]; intros ND H; constructor; inversion ND; subst.
    - intro X. apply in_map_iff in X. destruct X as ((s', b') & Eq & X). cbn in Eq. apply H2.
      rewrite <- (H s b (or_introl eq_refl)), <- Eq, (H s' b' (or_intror X)). now apply (in_map fst) in X.
    - apply IH; auto. intros. apply H. now right.
  Qed.
  Lemma inbox_adj lo st i : inv lo st -> In i nodes -> incl (map fst (sinbox st i)) (t_adj t i).
  Proof.
    intros I Hi s H. apply in_map_iff in H. destruct H as ((s' & b) & <- & H). cbn.
    apply (inbox_look lo) in H; auto. destruct I as (_ & _ & _ & T & _). destruct (T i dflt s' b Hi H) as (X & _).
    now apply (proj1 (proj2 WF) s' i X).
  Qed.
  Lemma inbox_len lo st i : inv lo st -> In i nodes -> length (sinbox st i) <= length (t_adj t i).
  Proof. intros I Hi. rewrite <- (map_length fst). apply NoDup_incl_length; [eapply inbox_nodup; eauto|eapply inbox_adj; eauto]. Qed.

  (** the first message of [i] is shared with nobody *)
  Lemma first_private lo st i i' s b rest m : inv lo st -> In i nodes -> In i' nodes -> i <> i' ->
    sinbox st i = (s, b) :: rest -> In m (sinbox st i') -> (t_adj t s = [i] \/ noisy_sends e) -> snd (snd m) <> snd b.
  Proof.
    intros I Hi Hi' Ne Eb Hm Hc. destruct m as [s' b']. cbn.
    assert (Lb : lookb st i dflt s = Some b) by (apply (inbox_look lo); auto; rewrite Eb; now left).
    assert (Lb' : lookb st i' dflt s' = Some b') by (apply (inbox_look lo); auto).
    destruct I as (_ & _ & _ & T & P & _). destruct Hc as [Hc|Hc].
    - destruct (T i dflt s b Hi Lb) as (_ & X & _). destruct (T i' dflt s' b' Hi' Lb') as (A' & X' & _). intro Eq.
      rewrite Eq, X in X'. subst s'. rewrite Hc in A'. destruct A' as [A'|[]]. congruence.
    - intro Eq. eapply (P Hc i i' dflt dflt s s' b b'); eauto.
  Qed.

  (** ** Sums of messages *)
  Section Sum.
    Variable ip : bool.
    Lemma sum_ok msgs h : NoDup (tags msgs) -> (forall g, In g (tags msgs) -> h g = None) ->
      match sum_messages ip msgs h with
      | None => msgs = []
      | Some (s, h') => exists b0 rest, msgs = b0 :: rest /\ s = msg_sum (map_vals fst msgs) /\
          forall g, h' g = h g \/ (ip = true /\ rest <> [] /\ g = snd (snd b0))
      end.
    Proof.
      destruct msgs as [|[s0 b0] rest]; intros ND CL; cbn [sum_messages]; auto.
      assert (G : forall (l : list (agent_id * buf)) (acc : vec) (h1 : heap), (forall m, In m l -> snd (snd m) <> snd b0 /\ h1 (snd (snd m)) = None) -> 
        let r := fold_left (fun (sh : vec * heap) (m : agent_id * buf) => let s := vadd (fst sh) (content (snd sh) (snd m)) in (s, if ip then hwrite (snd sh) b0 s else snd sh)) l (acc, h1) in
        fst r = fold_left (fun s v => vadd s (snd v)) (map_vals fst l) acc /\
        forall g, snd r g = h1 g \/ (ip = true /\ l <> [] /\ g = snd b0)).
      { induction l as [|m l IH]; intros acc h1 H; cbn [fold_left map_vals map fst snd]; [auto|].
        assert (Cm : content h1 (snd m) = fst (snd m)) by (unfold content; now rewrite (proj2 (H m (or_introl eq_refl)))).
        rewrite Cm. destruct (IH (vadd acc (fst (snd m))) (if ip then hwrite h1 b0 (vadd acc (fst (snd m))) else h1)) as (A & B).
        - intros m' Hm'. destruct (H m' (or_intror Hm')) as (X & Y). split; auto. destruct ip; auto. unfold hwrite. destruct (tag_eqb_spec (snd (snd m')) (snd b0)); [contradiction|auto].
        - split; [exact A|]. intro g. destruct (B g) as [Bg|(X & _ & Y)]; [|right; repeat split; auto; discriminate].
          assert (Z : (if ip then hwrite h1 b0 (vadd acc (fst (snd m))) else h1) g = h1 g \/ (ip = true /\ g = snd b0)).
          { destruct ip; auto. unfold hwrite. destruct (tag_eqb_spec g (snd b0)); auto. }
          destruct Z as [Z|(Z1 & Z2)]; [left; exact (eq_trans Bg Z)|right; repeat split; auto; discriminate]. }
      cbn [tags map snd] in ND, CL. inversion ND; subst.
      assert (C0 : content h b0 = fst b0) by (unfold content; rewrite (CL (snd b0)); [reflexivity|now left]).
      rewrite C0. specialize (G rest (fst b0) h). destruct (fold_left _ rest (fst b0, h)) as [s h'] eqn:F. cbn [fst snd] in G.
      destruct G as (A & B).
      { intros m Hm. assert (In (snd (snd m)) (map (fun m => snd (snd m)) rest)) by (now apply (in_map (fun m => snd (snd m)))). split; [congruence|]. apply CL. now right. }
      exists (s0, b0), rest. split; auto.
    Qed.

    (** the loop that reads the messages *)
    Definition clean st l h : Prop := NoDup l /\ incl l nodes /\ (forall i, In i l -> forall g, In g (tags (sinbox st i)) -> h g = None) /\
      (forall g, h g <> None -> g_draw g < n_draws st).
    Lemma clean_next lo st i l h h' : inv lo st -> clean st (i :: l) h ->
      (forall g, h' g = h g \/ exists s b rest, sinbox st i = (s, b) :: rest /\ g = snd b /\ (t_adj t s = [i] \/ noisy_sends e)) ->
      clean st l h'.
    Proof.
      intros I (ND & IN & CL & DR) H. inversion ND; subst. split; auto. split; [intros x Hx; apply IN; now right|]. split.
      - intros i' Hi' g Hg. destruct (H g) as [->|(s & b & rest & Eb & -> & Hc)]; [apply (CL i'); auto; now right|]. exfalso.
        apply in_map_iff in Hg. destruct Hg as (m & Em & Hm).
        refine (first_private lo st i i' s b rest m I _ _ _ Eb Hm Hc Em); [apply IN; now left|apply IN; now right|congruence].
      - intros g Hg. destruct (H g) as [Eq|(s & b & rest & Eb & -> & Hc)]; [apply DR; congruence|].
        assert (Lb : lookb st i dflt s = Some b). { apply (inbox_look lo); auto; [apply IN; now left|]. rewrite Eb. now left. }
        destruct I as (_ & _ & _ & T & _). now destruct (T i dflt s b (IN i (or_introl eq_refl)) Lb) as (_ & _ & X).
    Qed.
    Lemma clean_sum lo st i l h : inv lo st -> clean st (i :: l) h ->
      match sum_messages ip (sinbox st i) h with
      | None => sinbox st i = []
      | Some (s, h') => exists b0 rest, sinbox st i = b0 :: rest /\ s = msg_sum (map_vals fst (sinbox st i)) /\
          forall g, h' g = h g \/ (ip = true /\ rest <> [] /\ g = snd (snd b0))
      end.
    Proof.
      intros I (ND & IN & CL & DR). apply sum_ok.
      - apply (inbox_tags lo); auto. apply IN. now left.
      - apply CL. now left.
    Qed.
    Lemma star_first lo st i s b rest : inv lo st -> In i nodes -> stars t -> sinbox st i = (s, b) :: rest -> rest <> [] -> t_adj t s = [i].
    Proof.
      intros I Hi ST Eb R. apply ST.
      - apply (inbox_adj lo st i I Hi). rewrite Eb. now left.
      - pose proof (inbox_len lo st i I Hi) as Ln. rewrite Eb in Ln. destruct rest; [congruence|]. cbn in Ln. lia.
    Qed.
    Lemma pair_first lo st i s b rest : inv lo st -> In i nodes -> pairs t -> sinbox st i = (s, b) :: rest -> rest = [] /\ t_adj t s = [i].
    Proof.
      intros I Hi PA Eb. pose proof (inbox_len lo st i I Hi) as Ln. pose proof (PA i) as P1. rewrite Eb in Ln. cbn in Ln.
      split; [destruct rest; auto; cbn in Ln; lia|].
      assert (A : In s (t_adj t i)) by (apply (inbox_adj lo st i I Hi); rewrite Eb; now left).
      destruct (proj1 (proj2 WF) i s A) as (_ & _ & B). pose proof (PA s) as P2. destruct (t_adj t s) as [|x [|]]; cbn in P2; try lia; [contradiction|]. destruct B as [->|[]]. reflexivity.
    Qed.
  End Sum.

  (** ** Phases *)
  Definition low lo h : Prop := forall g, h g <> None -> g_draw g < lo.
  Lemma low_clean lo st act h : inv lo st -> low lo h -> NoDup act -> incl act nodes -> clean st act h.
  Proof.
    intros I Lw ND IN. split; auto. split; auto. split.
    - intros i Hi g Hg. destruct (h g) eqn:Hgv; auto. exfalso. assert (g_draw g < lo) by (apply Lw; congruence).
      apply in_map_iff in Hg. destruct Hg as ((s, b) & Em & Hm). cbn in Em. apply (inbox_look lo) in Hm; auto.
      destruct I as (_ & _ & _ & T & _). destruct (T i dflt s b (IN i Hi) Hm) as (_ & _ & X). rewrite Em in X. lia.
    - intros g Hg. apply Lw in Hg. destruct I as (_ & _ & _ & _ & _ & X). lia.
  Qed.
  Lemma act_ok lo st : inv lo st -> NoDup (fst (active_agents t E st)) /\ incl (fst (active_agents t E st)) nodes.
  Proof.
    intro I. pose proof (inv_active lo st I) as (C & N & _). pose proof (active_agents_frame buf t E st) as (_ & _ & _ & X).
    split; [now apply N|]. rewrite <- agents_n. now apply C.
  Qed.
  Lemma send_phase_sim f lo d h st : inv lo st ->
    do_phase t e (PSend (fun i => lbind (f i) (fun v => lret [OBcast dflt v]))) (d, M st) = pr (do_sphase t e (SSend f) ((d, h), st)) /\
    inv lo (snd (fst (do_sphase t e (SSend f) ((d, h), st)))) /\ snd (fst (fst (do_sphase t e (SSend f) ((d, h), st)))) = h.
  Proof.
    intro I. unfold do_phase, do_sphase. cbn [fst snd]. rewrite p_active. pose proof (inv_active lo st I) as I2.
    destruct (active_agents t E st) as [act st1]. cbn [fst snd] in *. now apply send_loop.
  Qed.
  Lemma upd_phase_sim f g (ok : net buf -> list agent_id -> heap -> Prop) lo d h st : inv lo st ->
    (forall st1, inv lo st1 -> forall i l h p d, ok st1 (i :: l) h -> forall inb, inb dflt = map_vals fst (sinbox st1 i) ->
      match f i (sinbox st1 i) h (p, d) with
      | Some (h', s') => g i inb (p, d) = Some (tt, s') /\ ok st1 l h'
      | None => g i inb (p, d) = None
      end) ->
    (forall st1 act, inv lo st1 -> NoDup act -> incl act nodes -> n_draws st <= n_draws st1 -> ok st1 act h) ->
    let r := do_sphase t e (SUpd f) ((d, h), st) in
    do_phase t e (PUpd g) (d, M st) = pr r /\ inv lo (snd (fst r)) /\
    (snd r = false -> exists st1, n_draws st1 = n_draws (snd (fst r)) /\ ok st1 [] (snd (fst (fst r)))).
  Proof.
    intros I B O. unfold do_phase, do_sphase. cbn [fst snd]. rewrite p_active. pose proof (inv_active lo st I) as I2. destruct (act_ok lo st I) as (N & IN).
    assert (D : n_draws st <= n_draws (snd (active_agents t E st))).
    { unfold active_agents. destruct (n_cache st); cbn [snd]; auto. pose proof (act_draws (n_iter st) (agents t) (n_draws st)) as X.
      destruct (act_filter E (n_iter st) (agents t) (n_draws st)); exact X. }
    destruct (active_agents t E st) as [act st1]. cbn [fst snd] in *.
    destruct (upd_loop f g (ok st1) st1 (B st1 I2) lo act d h st1 I2 (fun i => eq_refl) (O st1 act I2 N IN D)) as (X1 & X2 & X3 & X4 & X5).
    split; auto. split; auto. intro F. exists st1. split; auto.
  Qed.

  (** a step as a whole: phases related one by one, each keeping [P] *)
  Definition phase_sim (P Q : nat -> heap -> net buf -> Prop) (ph : sphase) (ph' : phase) : Prop :=
    forall lo d h st, inv lo st -> P lo h st ->
      let r := do_sphase t e ph ((d, h), st) in
      do_phase t e ph' (d, M st) = pr r /\ (snd r = false -> inv lo (snd (fst r)) /\ Q lo (snd (fst (fst r))) (snd (fst r))).
  Inductive sims : (nat -> heap -> net buf -> Prop) -> (nat -> heap -> net buf -> Prop) -> list sphase -> list phase -> Prop :=
  | sims_nil P : sims P P [] []
  | sims_cons P Q R ph ph' l l' : phase_sim P Q ph ph' -> sims Q R l l' -> sims P R (ph :: l) (ph' :: l').
  Lemma sims_ok P Q l l' : sims P Q l l' -> forall lo d h st, inv lo st -> P lo h st ->
    let r := do_sphases t e l ((d, h), st) in
    do_phases t e l' (d, M st) = pr r /\ (snd r = false -> inv lo (snd (fst r)) /\ Q lo (snd (fst (fst r))) (snd (fst r))).
  Proof.
    induction 1 as [P|P Q R ph ph' l l' H _ IH]; intros lo d h st I HP; cbn [do_phases do_sphases].
    - cbn. auto.
    - destruct (H lo d h st I HP) as (E1 & H1). rewrite E1. destruct (do_sphase t e ph ((d, h), st)) as [[[d1 h1] st1] b]. cbn [fst snd pr pw plain_world] in *.
      destruct b; [cbn; split; [reflexivity|discriminate]|]. destruct (H1 eq_refl) as (I1 & Q1). apply (IH lo d1 h1 st1 I1 Q1).
  Qed.

  Definition before : nat -> heap -> net buf -> Prop := fun lo h _ => low lo h.
  Definition after : nat -> heap -> net buf -> Prop := fun _ h st => low (n_draws st) h.
  Lemma sim_send f : phase_sim before before (SSend f) (PSend (fun i => lbind (f i) (fun v => lret [OBcast dflt v]))).
  Proof.
    intros lo d h st I Lw. destruct (send_phase_sim f lo d h st I) as (A & B & C). split; [exact A|]. intros _. split; [exact B|].
    unfold before. rewrite C. exact Lw.
  Qed.
  (** an update that neither reads nor writes messages *)
  Lemma sim_own f g (P : nat -> heap -> net buf -> Prop) :
    (forall lo h st st', n_draws st <= n_draws st' -> P lo h st -> P lo h st') ->
    (forall i msgs h s inb, match f i msgs h s with Some (h', s') => h' = h /\ g i inb s = Some (tt, s') | None => g i inb s = None end) ->
    phase_sim P P (SUpd f) (PUpd g).
  Proof.
    intros MP H lo d h st I HP.
    destruct (upd_phase_sim f g (fun st1 _ h' => h' = h /\ n_draws st <= n_draws st1) lo d h st I) as (A & B & C).
    - intros st1 I1 i l h0 p d0 (-> & D0) inb _. specialize (H i (sinbox st1 i) h (p, d0) inb). destruct (f i (sinbox st1 i) h (p, d0)) as [[h' s']|]; auto. destruct H as (-> & H). auto.
    - intros. auto.
    - split; [exact A|]. intro F. split; [exact B|]. destruct (C F) as (st1 & D1 & -> & D2). apply (MP lo h st); auto. lia.
  Qed.
  Lemma mono_before lo h st st' : n_draws st <= n_draws st' -> before lo h st -> before lo h st'. Proof. auto. Qed.
  Lemma mono_after lo h st st' : n_draws st <= n_draws st' -> after lo h st -> after lo h st'.
  Proof. intros D H g Hg. specialize (H g Hg). lia. Qed.
  (** an update that reads the messages *)
  Lemma sim_read f g :
    (forall lo st i l h p d, inv lo st -> clean st (i :: l) h -> forall inb, inb dflt = map_vals fst (sinbox st i) ->
      match f i (sinbox st i) h (p, d) with
      | Some (h', s') => g i inb (p, d) = Some (tt, s') /\ clean st l h'
      | None => g i inb (p, d) = None
      end) -> phase_sim before after (SUpd f) (PUpd g).
  Proof.
    intros H lo d h st I HP. destruct (upd_phase_sim f g clean lo d h st I) as (A & B & C).
    - intros st1 I1 i l h0 p d0 CL inb Hi. exact (H lo st1 i l h0 p d0 I1 CL inb Hi).
    - intros st1 act I1 N IN _. apply (low_clean lo); auto.
    - split; [exact A|]. intro F. split; [exact B|]. destruct (C F) as (st1 & D1 & _ & _ & _ & D2). intros g0 Hg. rewrite <- D1. auto.
  Qed.
End S.
