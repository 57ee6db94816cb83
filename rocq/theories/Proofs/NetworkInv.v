From Coq Require Import String List Bool Arith ZArith QArith Qcanon Lia.
From Verif.Model Require Import PyDict History Messages Network.
From Verif.Spec Require Import NetworkSpec.
From Verif.Proofs Require Import PyDictProofs MessagesProofs NetworkProofs.
Import ListNotations.
Open Scope nat_scope.

Section P.
  Variable V : Type.
  Variables (t : topo) (e : env V).
  Hypothesis W : wf_topo t.
  Notation net := (net V).
  Implicit Types (st : net).

  Definition ninv st : Prop := cinv V t st /\ forall r, sinv V (a_msgs (n_agents st r)).

  Lemma fresh_ninv st : fresh st -> ninv st.
  Proof.
    intros (A & B & _ & C). split; [split|].
    - intros act H. congruence.
    - intros a l. rewrite B. discriminate.
    - intro r. destruct (C r) as (-> & _). apply sinv_empty.
  Qed.

  (** clear_received None None *)
  Lemma clear_all_spec l : forall st,
    let st' := fold_left (fun st r => upd_agent r (fun a => set_msgs (s_clear (a_msgs a) None None) a) st) l st in
    n_iter st' = n_iter st /\ n_cache st' = n_cache st /\ n_conn st' = n_conn st /\ n_log st' = n_log st /\ n_draws st' = n_draws st /\
    forall r, n_agents st' r = if memb r l then set_msgs [] (n_agents st r) else n_agents st r.
  Proof.
    induction l as [|a l IH]; intro st; simpl; [auto 10|].
    destruct (IH (upd_agent a (fun a => set_msgs (s_clear (a_msgs a) None None) a) st)) as (A & B & C & D & D' & E).
    repeat (split; auto). intro r. rewrite E. simpl. unfold upd. simpl.
    destruct (Nat.eqb r a); simpl; auto. destruct (memb r l); auto.
  Qed.

  Lemma step_spec k st :
    n_iter (step t k st) = k /\ n_cache (step t k st) = None /\ n_conn (step t k st) = [] /\
    n_log (step t k st) = EvStep k :: n_log st /\ n_draws (step t k st) = n_draws st /\
    forall r, n_agents (step t k st) r = if memb r (t_nodes t) then set_msgs [] (n_agents st r) else n_agents st r.
  Proof.
    unfold step, clear_received.
    apply (clear_all_spec (t_nodes t) (mkNet (n_agents st) k None [] (n_draws st) (EvStep k :: n_log st))).
  Qed.

  Lemma snapshot_frame p it f (a : agent V) : a_msgs (snapshot p it f a) = a_msgs a /\ a_sent (snapshot p it f a) = a_sent a /\
    a_recv (snapshot p it f a) = a_recv a /\ a_drop (snapshot p it f a) = a_drop a /\ a_x (snapshot p it f a) = a_x a /\
    a_aux (snapshot p it f a) = a_aux a.
  Proof. unfold snapshot. destruct (a_x a) eqn:E; auto 10. destruct (f || _); simpl; auto 10. Qed.

  Lemma ninv_step o st : ninv st -> ninv (nstep t e st o).
  Proof.
    intros (C & S). destruct o as [|a|s r m c|k|a v|a k v|a p it f|a]; simpl.
    - split; [now apply cinv_active|]. intro r. destruct (active_agents_frame V t e st) as (F & _). rewrite F. auto.
    - split; [now apply cinv_conn|]. intro r. destruct (active_connected_frame V t e st a) as (F & _). rewrite F. auto.
    - destruct (send_inv V t e st s r m c C W) as [(st' & -> & F & C' & _)|(st2 & rs & m0 & _ & _ & C2 & F & _ & _ & _ & _ & _ & _ & _ & ->)]; simpl.
      + split; auto. intro x. rewrite F. auto.
      + split.
        * destruct C2 as (A & B). destruct (transmit_caches V t e st2 s rs m0 c) as (_ & X & Y).
          split; [rewrite X; auto|]. intros a l. rewrite X, Y. auto.
        * apply transmit_sinv. intro x. rewrite F. auto.
    - destruct (step_spec k st) as (_ & A & B & _ & _ & D). split; [split|].
      + intros act H. congruence.
      + intros a l. rewrite B. discriminate.
      + intro r. rewrite D. destruct (memb r (t_nodes t)); simpl; [apply sinv_empty|auto].
    - split; auto. intro r. simpl. unfold upd. destruct (Nat.eqb r a); simpl; auto.
    - split; auto. intro r. simpl. unfold upd. destruct (Nat.eqb r a); simpl; auto.
    - split; auto. intro r. simpl. unfold upd. destruct (Nat.eqb r a); simpl; auto.
      destruct (snapshot_frame p it f (n_agents st r)) as (-> & _). auto.
    - split; auto. intro r. simpl. unfold upd. destruct (Nat.eqb r a); simpl; auto.
  Qed.

  Lemma ninv_run ops : forall st, ninv st -> ninv (nrun t e st ops).
  Proof. unfold nrun. induction ops as [|o ops IH]; intros st H; simpl; auto. apply IH. now apply ninv_step. Qed.

  (** ---- conservation ---- *)
  Definition qn (n : nat) : Qc := Q2Qc (inject_Z (Z.of_nat n)).
  Lemma qn_plus a b : qn (a + b) = (qn a + qn b)%Qc.
  Proof.
    unfold qn. rewrite Nat2Z.inj_add, inject_Z_plus. apply Qc_is_canon. unfold Qcplus.
    cbn [this Q2Qc]. rewrite ?Qred_correct. reflexivity.
  Qed.
  Lemma qn_0 : qn 0 = 0%Qc. Proof. reflexivity. Qed.
  Lemma qn_1 : qn 1 = 1%Qc. Proof. apply Qc_is_canon. reflexivity. Qed.
  Lemma qn_S n : qn (S n) = (1 + qn n)%Qc.
  Proof. change (S n) with (1 + n). now rewrite qn_plus, qn_1. Qed.

  Lemma total_ext f st st' : (forall a, f (n_agents st' a) = f (n_agents st a)) -> total t f st' = total t f st.
  Proof. intro H. unfold total. f_equal. apply map_ext. auto. Qed.

  Lemma total_upd_add f g q a st : (forall x, f (g x) = f x + q)%Qc -> In a (t_nodes t) ->
    total t f (upd_agent a g st) = (total t f st + q)%Qc.
  Proof.
    intros H I. unfold total. simpl. destruct W as (ND & _).
    induction (t_nodes t) as [|b l IH]; [destruct I|].
    inversion ND; subst. simpl. unfold upd at 1. destruct (Nat.eqb_spec b a).
    - subst. rewrite H.
      replace (map (fun a0 => f (upd (n_agents st) a g a0)) l) with (map (fun a0 => f (n_agents st a0)) l).
      + ring.
      + apply map_ext_in. intros x Hx. unfold upd. destruct (Nat.eqb_spec x a); auto. subst. contradiction.
    - destruct I as [I|I]; [congruence|]. rewrite (IH I H3). ring.
  Qed.
  Lemma total_upd_same f g a st : (forall x, f (g x) = f x) -> total t f (upd_agent a g st) = total t f st.
  Proof. intro H. apply total_ext. intro x. simpl. unfold upd. destruct (Nat.eqb x a); auto. Qed.

  Lemma deliver_total s c p m nz inc l : forall i st, incl l (t_nodes t) ->
    total t a_recv (deliver e s c p m nz inc i l st) = (total t a_recv st + inc * qn (length l))%Qc /\
    total t a_sent (deliver e s c p m nz inc i l st) = total t a_sent st /\
    total t a_drop (deliver e s c p m nz inc i l st) = total t a_drop st.
  Proof.
    induction l as [|r l IH]; intros i st I; cbn [deliver length].
    - rewrite qn_0. split; [ring|auto].
    - match goal with |- context [deliver e s c p m nz inc (S i) l ?S'] =>
        destruct (IH (S i) S' (fun x h => I x (or_intror h))) as (A & B & C) end.
      rewrite A, B, C, qn_S.
      match goal with |- context [logev ?E ?U] =>
        replace (total t a_recv (logev E U)) with (total t a_recv U) by (apply total_ext; reflexivity);
        replace (total t a_sent (logev E U)) with (total t a_sent U) by (apply total_ext; reflexivity);
        replace (total t a_drop (logev E U)) with (total t a_drop U) by (apply total_ext; reflexivity) end.
      rewrite (total_upd_add a_recv _ inc) by (auto; apply I; left; auto).
      rewrite !(total_upd_same) by reflexivity. split; [ring|auto].
  Qed.

  Lemma transmit_total st s rs m c : In s (t_nodes t) -> incl rs (t_nodes t) ->
    exists q, exists qd, exists qr, q = (qd + qr)%Qc /\
    total t a_sent (transmit t e st s rs m c) = (total t a_sent st + q)%Qc /\
    total t a_drop (transmit t e st s rs m c) = (total t a_drop st + qd)%Qc /\
    total t a_recv (transmit t e st s rs m c) = (total t a_recv st + qr)%Qc.
  Proof.
    intros Hs I. unfold transmit.
    match goal with |- context [drop_filter e s rs ?D] =>
      pose proof (drop_filter_incl V e s rs D) as DI; pose proof (drop_filter_length V e s rs D) as DL;
      destruct (drop_filter e s rs D) as [conf d] end.
    simpl in DI, DL.
    set (inc := counter_increment t e s m).
    match goal with |- context [deliver e s c m ?M ?NZ inc 0 conf ?S'] =>
      destruct (deliver_total s c m M NZ inc conf 0 S' (fun x h => I x (DI x h))) as (A & B & C); rewrite A, B, C end.
    match goal with |- context [set_draws ?D ?U] =>
        replace (total t a_recv (set_draws D U)) with (total t a_recv U) by (apply total_ext; reflexivity);
        replace (total t a_sent (set_draws D U)) with (total t a_sent U) by (apply total_ext; reflexivity);
        replace (total t a_drop (set_draws D U)) with (total t a_drop U) by (apply total_ext; reflexivity) end.
    exists (inc * qn (length rs))%Qc, (inc * qn (length rs - length conf))%Qc, (inc * qn (length conf))%Qc.
    split.
    { replace (length rs) with ((length rs - length conf) + length conf) at 1 by lia. rewrite qn_plus. ring. }
    split; [|split].
    - rewrite (total_upd_same a_sent (add_drop _)) by reflexivity.
      rewrite (total_upd_add a_sent _ (inc * qn (length rs))%Qc) by (auto; reflexivity). reflexivity.
    - rewrite (total_upd_add a_drop (add_drop _) (inc * qn (length rs - length conf))%Qc) by (auto; reflexivity).
      rewrite (total_upd_same a_drop (add_sent _)) by reflexivity. reflexivity.
    - rewrite !(total_upd_same a_recv) by reflexivity. reflexivity.
  Qed.

  Definition conserved st : Prop := (total t a_sent st = total t a_drop st + total t a_recv st)%Qc.

  Lemma adj_nodes s a : In a (t_adj t s) -> In a (t_nodes t).
  Proof. destruct W as (_ & A & _). intro H. now apply (A s a) in H. Qed.

  Lemma conserved_step o st : ninv st -> conserved st -> conserved (nstep t e st o).
  Proof.
    intros (C & S) H. unfold conserved in *.
    destruct o as [|a|s r m c|k|a v|a k v|a p it f|a]; simpl.
    - destruct (active_agents_frame V t e st) as (F & _).
      rewrite !(total_ext _ st (snd (active_agents t e st))); auto; intro; now rewrite F.
    - destruct (active_connected_frame V t e st a) as (F & _).
      rewrite !(total_ext _ st (snd (active_connected t e st a))); auto; intro; now rewrite F.
    - destruct (send_inv V t e st s r m c C W) as [(st' & -> & F & C' & _)|(st2 & rs & m0 & _ & Hs & C2 & F & _ & _ & R & _ & _ & _ & _ & ->)]; simpl.
      + rewrite !(total_ext _ st st'); auto; intro; now rewrite F.
      + assert (I : incl rs (t_nodes t)) by (intros x Hx; eapply adj_nodes; apply R; auto).
        destruct (transmit_total st2 s rs m0 c Hs I) as (q & qd & qr & E & A1 & A2 & A3).
        rewrite A1, A2, A3, E. rewrite !(total_ext _ st st2) by (intro; now rewrite F). rewrite H. ring.
    - destruct (step_spec k st) as (_ & _ & _ & _ & _ & D).
      rewrite !(total_ext _ st (step t k st)); auto; intro x; rewrite D; destruct (memb x (t_nodes t)); auto.
    - rewrite !total_upd_same; auto.
    - rewrite !total_upd_same; auto.
    - rewrite !total_upd_same; auto; intro x; apply (snapshot_frame p it f x).
    - rewrite !total_upd_same; auto.
  Qed.

  Lemma total_zero f st : (forall a, f (n_agents st a) = 0%Qc) -> total t f st = 0%Qc.
  Proof. intro H. unfold total. induction (t_nodes t); simpl; auto. rewrite IHl, H. ring. Qed.

  Lemma conserved_run st ops : fresh st -> conserved (nrun t e st ops).
  Proof.
    intro F. assert (I := fresh_ninv st F). assert (C : conserved st).
    { destruct F as (_ & _ & _ & F). unfold conserved. rewrite !total_zero; [ring| | |]; intro a; apply (F a). }
    clear F. revert st I C. unfold nrun. induction ops as [|o ops IH]; intros st I C; simpl; auto.
    apply IH; [now apply ninv_step|now apply conserved_step].
  Qed.

  (** ---- visibility ---- *)
  Definition vlook st r s c := look V (a_msgs (n_agents st r)) c s.
  Lemma sees_vlook st r s c v : sees st r s c v <-> vlook st r s c = Some v.
  Proof. unfold sees, vlook. rewrite s_get_look. destruct (look _ _ _ _); split; congruence. Qed.
  Lemma sees_nothing_vlook st r s c : sees_nothing st r s c <-> vlook st r s c = None.
  Proof. unfold sees_nothing, vlook. rewrite s_get_look. destruct (look _ _ _ _); split; congruence. Qed.

  (** Only a send by [s] on [c] or a step can change what [r] sees from [s] on [c]. *)
  Lemma vlook_step o st r s c : ninv st -> In r (t_nodes t) ->
    vlook (nstep t e st o) r s c = vlook st r s c \/
    (exists k, o = NStep k /\ vlook (nstep t e st o) r s c = None) \/
    (exists rc m st2 rs d1 d2 i, o = NSend s rc (Some m) c /\
       send t e st s rc (Some m) c = SOk (nstep t e st o) /\
       In r (t_adj t s) /\ ((exists act, n_cache st2 = Some act /\ In r act) \/ t_server t = Some r) /\
       (forall act, n_cache st = Some act -> n_cache st2 = Some act) /\
       In r rs /\ n_cache (nstep t e st o) = n_cache st2 /\
       vlook (nstep t e st o) r s c = Some (noisy e (e_comp e d1 s m) (e_noise e d2 s) i)).
  Proof.
    intros (C & S) Hr. destruct o as [|a|s' rc m c'|k|a v|a k v|a p it f|a]; cbn [nstep].
    - left. unfold vlook. destruct (active_agents_frame V t e st) as (F & _). now rewrite F.
    - left. unfold vlook. destruct (active_connected_frame V t e st a) as (F & _). now rewrite F.
    - destruct (send_inv V t e st s' rc m c' C W) as [(st' & -> & F & C' & _)|(st2 & rs & m0 & -> & Hs & C2 & F & _ & M & R & _ & _ & _ & _ & E)].
      + left. simpl. unfold vlook. now rewrite F.
      + rewrite E. simpl. unfold vlook. rewrite transmit_look.
        set (D := drop_filter e s' rs (n_draws st2)).
        destruct (last_idx r (fst D) 0) as [j|] eqn:LI; [|left; now rewrite F].
        destruct (String.eqb_spec c c'); simpl; [|left; now rewrite F].
        destruct (Nat.eqb_spec s s'); simpl; [|left; now rewrite F].
        subst s' c'. right. right.
        assert (In r (fst D)).
        { destruct (in_dec Nat.eq_dec r (fst D)); auto. apply (last_idx_None r (fst D) 0) in n. congruence. }
        assert (In r rs) by (eapply drop_filter_incl; eauto).
        destruct (R r H0) as (R1 & R2). destruct (transmit_caches V t e st2 s rs m0 c) as (_ & X & _).
        exists rc, m0, st2, rs, (snd D), (Datatypes.S (snd D)), j. auto 12.
    - right. left. exists k. split; auto. unfold vlook. destruct (step_spec k st) as (_ & _ & _ & _ & _ & X).
      rewrite X. apply memb_In in Hr. rewrite Hr. reflexivity.
    - left. unfold vlook. simpl. unfold upd. destruct (Nat.eqb r a); auto.
    - left. unfold vlook. simpl. unfold upd. destruct (Nat.eqb r a); auto.
    - left. unfold vlook. simpl. unfold upd. destruct (Nat.eqb r a); auto.
      destruct (snapshot_frame p it f (n_agents st r)) as (-> & _). auto.
    - left. unfold vlook. simpl. unfold upd. destruct (Nat.eqb r a); auto.
  Qed.

  Lemma nrun_app st o1 o2 : nrun t e st (o1 ++ o2) = nrun t e (nrun t e st o1) o2.
  Proof. unfold nrun. apply fold_left_app. Qed.

  Lemma cache_step_mono o st act : ninv st -> ~ is_nstep o -> n_cache st = Some act -> n_cache (nstep t e st o) = Some act.
  Proof.
    intros (C & S) N H. destruct o as [|a|s r m c|k|a v|a k v|a p it f|a]; simpl; auto.
    - rewrite (active_mono V t e st act H). auto.
    - now apply conn_mono.
    - destruct (send_inv V t e st s r m c C W) as [(st' & -> & F & C' & _ & M)|(st2 & rs & m0 & _ & _ & C2 & F & _ & M & _ & _ & _ & _ & _ & ->)]; simpl.
      + auto.
      + destruct (transmit_caches V t e st2 s rs m0 c) as (_ & X & _). rewrite X. auto.
    - exfalso. apply N. exact I.
  Qed.

  Lemma cache_run_mono ops : forall st act, ninv st -> (forall o, In o ops -> ~ is_nstep o) ->
    n_cache st = Some act -> n_cache (nrun t e st ops) = Some act.
  Proof.
    unfold nrun. induction ops as [|o ops IH]; intros st act I N H; simpl; auto.
    apply IH; [now apply ninv_step|intros; apply N; right; auto|]. apply cache_step_mono; auto. apply N. left; auto.
  Qed.

  Lemma visible_origin ops : forall st, fresh st -> forall r s c v, In r (t_nodes t) ->
    vlook (nrun t e st ops) r s c = Some v ->
    exists ops1 rc m ops2, ops = ops1 ++ NSend s rc (Some m) c :: ops2 /\
      (forall o, In o ops2 -> ~ is_nstep o) /\
      (exists st', send t e (nrun t e st ops1) s rc (Some m) c = SOk st') /\
      In r (t_adj t s) /\
      ((exists act, n_cache (nrun t e st ops) = Some act /\ In r act) \/ t_server t = Some r) /\
      (exists d1 d2 i, v = noisy e (e_comp e d1 s m) (e_noise e d2 s) i) /\
      (forall pre post, ops2 = pre ++ post -> vlook (nrun t e st (ops1 ++ NSend s rc (Some m) c :: pre)) r s c = Some v).
  Proof.
    induction ops as [|o ops IH] using rev_ind; intros st F r s c v Hr L.
    - exfalso. unfold vlook in L. simpl in L. destruct F as (_ & _ & _ & F). destruct (F r) as (E & _). rewrite E in L. discriminate.
    - rewrite nrun_app in *. simpl in *.
      assert (I : ninv (nrun t e st ops)) by (apply ninv_run; now apply fresh_ninv).
      destruct (vlook_step o (nrun t e st ops) r s c I Hr) as [E|[(k & -> & E)|(rc & m & st2 & rs & d1 & d2 & i & -> & SE & AD & AC & CM & Ir & NC & E)]].
      + rewrite E in L. destruct (IH st F r s c v Hr L) as (ops1 & rc & m & ops2 & -> & A & B & C & D & G & K).
        assert (N : ~ is_nstep o).
        { intro N. destruct o as [| | |k| | | |]; try contradiction. unfold vlook in L, E. cbn [nstep] in E.
            destruct (step_spec k (nrun t e st (ops1 ++ NSend s rc (Some m) c :: ops2))) as (_ & _ & _ & _ & _ & X).
            rewrite X in E. apply memb_In in Hr. rewrite Hr in E. simpl in E. rewrite <- E in L. discriminate. }
        exists ops1, rc, m, (ops2 ++ [o]).
        split; [now rewrite <- app_assoc|].
        split; [intros o' Ho; apply in_app_iff in Ho; destruct Ho as [Ho|[<-|[]]]; auto|].
        split; [auto|]. split; [auto|]. split.
        { destruct D as [(act & D1 & D2)|D]; [left; exists act; split; auto; apply cache_step_mono; auto|auto]. }
        split; [auto|].
        intros pre post EQ. destruct post as [|po post' _] using rev_ind.
        * rewrite app_nil_r in EQ. subst pre.
          change (NSend s rc (Some m) c :: ops2 ++ [o]) with ((NSend s rc (Some m) c :: ops2) ++ [o]).
          rewrite app_assoc, nrun_app. cbn [nrun fold_left]. change (vlook (nstep t e (nrun t e st (ops1 ++ NSend s rc (Some m) c :: ops2)) o) r s c = Some v).
          rewrite E. exact L.
        * rewrite app_assoc in EQ. apply app_inj_tail in EQ. destruct EQ as [EQ _]. eapply K. eauto.
      + congruence.
      + exists ops, rc, m, []. split; auto. split; [intros o []|]. split; [eauto|]. split; auto.
        split; [destruct AC as [(act & X & Y)|X]; [left; exists act; rewrite NC; auto|auto]|].
        split; [exists d1, d2, i; congruence|].
        intros pre post EQ. destruct pre; [|discriminate]. rewrite nrun_app. simpl. exact L.
  Qed.

  (** ---- consultations ---- *)
  Lemma consults_app_deliv s c p m nz inc l a : forall i st,
    consults a (n_log (deliver e s c p m nz inc i l st)) = consults a (n_log st).
  Proof. induction l as [|r l IH]; intros i st; simpl; auto. rewrite IH. reflexivity. Qed.
  Lemma consults_transmit st s rs m c a : consults a (n_log (transmit t e st s rs m c)) = consults a (n_log st).
  Proof. unfold transmit. destruct (drop_filter e s rs _). rewrite consults_app_deliv. reflexivity. Qed.

  Definition kinv st : Prop := forall a,
    consults a (n_log st) = match n_cache st with None => 0 | Some _ => count_occ Nat.eq_dec (agents t) a end.

  Lemma consults_map l a log : consults a (map EvConsult l ++ log) = count_occ Nat.eq_dec l a + consults (V:=V) a log.
  Proof.
    induction l as [|b l IH]; simpl; auto. rewrite IH.
    destruct (Nat.eqb_spec b a); destruct (Nat.eq_dec b a); try congruence; auto.
  Qed.
  Lemma count_rev l (a : nat) : count_occ Nat.eq_dec (rev l) a = count_occ Nat.eq_dec l a.
  Proof.
    induction l as [|b l IH]; simpl; auto. rewrite count_occ_app, IH. simpl.
    destruct (Nat.eq_dec b a); lia.
  Qed.

  Lemma kinv_active st : kinv st -> kinv (snd (active_agents t e st)).
  Proof.
    intro K. unfold active_agents. destruct (n_cache st) eqn:E; [exact K|].
    destruct (act_filter e (n_iter st) (agents t) (n_draws st)) as [l d]. intro a. simpl.
    rewrite <- map_rev, consults_map, count_rev. specialize (K a). rewrite E in K. lia.
  Qed.
  Lemma kinv_conn st a : kinv st -> kinv (snd (active_connected t e st a)).
  Proof.
    intro K. unfold active_connected. destruct (dget Nat.eqb (n_conn st) a); [exact K|].
    pose proof (kinv_active st K) as K'. destruct (active_agents t e st) as [act st1]. exact K'.
  Qed.
  Lemma kinv_allowed st a : kinv st -> kinv (snd (allowed t e st a)).
  Proof.
    intro K. unfold allowed. destruct (t_server t) as [sv|]; [|now apply kinv_conn].
    destruct (Nat.eqb a sv); [now apply kinv_conn|]. exact K.
  Qed.
  Lemma kinv_transmit st s rs m c : kinv st -> kinv (transmit t e st s rs m c).
  Proof.
    intros K a. rewrite consults_transmit. destruct (transmit_caches V t e st s rs m c) as (_ & -> & _). apply K.
  Qed.
  Lemma kinv_send_base st s r m c : kinv st -> kinv (sstate (send_base t e st s r m c)).
  Proof.
    intro K. unfold send_base. destruct m as [m|]; [|exact K]. destruct (memb s (t_nodes t)); simpl; [|exact K].
    assert (T : forall st1 rs, kinv st1 -> kinv (sstate (let '(al, st2) := allowed t e st1 s in
       if forallb (fun a => memb a al) rs then SOk (transmit t e st2 s rs m c) else SErr st2))).
    { intros st1 rs K1. pose proof (kinv_allowed st1 s K1) as K2. destruct (allowed t e st1 s) as [al st2]. simpl in K2.
      destruct (forallb _ rs); simpl; auto. now apply kinv_transmit. }
    destruct r as [|a|l].
    - pose proof (kinv_conn st s K) as K1. destruct (active_connected t e st s) as [l st1]. now apply T.
    - destruct (memb a (connected_agents t s)); [now apply T|exact K].
    - now apply T.
  Qed.
  Lemma kinv_send st s r m c : kinv st -> kinv (sstate (send t e st s r m c)).
  Proof.
    intro K. unfold send. destruct (t_server t) as [sv|]; [|now apply kinv_send_base].
    unfold send_fed. destruct r as [|a|l];
    repeat match goal with |- context [if ?b then _ else _] => destruct b end; try exact K; now apply kinv_send_base.
  Qed.
  Lemma kinv_step o st : kinv st -> kinv (nstep t e st o).
  Proof.
    intro K. destruct o as [|a|s r m c|k|a v|a k v|a p it f|a]; simpl; try exact K.
    - now apply kinv_active.
    - now apply kinv_conn.
    - now apply kinv_send.
    - intro a. destruct (step_spec k st) as (_ & -> & _ & -> & _). reflexivity.
  Qed.
  Lemma kinv_run ops st : fresh st -> kinv (nrun t e st ops).
  Proof.
    intro F. assert (K : kinv st). { destruct F as (A & _ & B & _). intro a. rewrite A, B. reflexivity. }
    clear F. revert st K. unfold nrun. induction ops as [|o ops IH]; intros st K; simpl; auto.
    apply IH. now apply kinv_step.
  Qed.
  Lemma agents_NoDup : NoDup (agents t).
  Proof. apply NoDup_filter. apply W. Qed.
  Lemma consults_le1 ops st a : fresh st -> consults a (n_log (nrun t e st ops)) <= 1.
  Proof.
    intro F. rewrite (kinv_run ops st F a). destruct (n_cache _); [|lia].
    apply (proj1 (NoDup_count_occ Nat.eq_dec (agents t))). apply agents_NoDup.
  Qed.
End P.
