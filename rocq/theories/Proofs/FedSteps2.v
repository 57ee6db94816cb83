(** One round of FedLT and of FedPD, on an arbitrary network. *)
From Coq Require Import Reals String List Bool Arith Lia Lra FunctionalExtensionality Permutation.
From Verif.Model Require Import PyDict History Messages Network Runner Vec P2P Fed.
From Verif.Spec Require Import NetworkSpec P2PSpec FedSpec.
From Verif.Proofs Require Import PyDictProofs MessagesProofs NetworkProofs NetworkInv NetworkMore NetworkActive RunnerProofs EmpiricalProofs P2PLock P2PSteps FedLock FedSteps.
Import ListNotations.
Open Scope R_scope.

Section Steps.
  Variables (t : topo) (e : env vec) (sv : agent_id).
  Hypothesis NET : fed_net t e sv.
  Variable grad : nat -> agent_id -> vec -> vec.
  Variable prox : nat -> agent_id -> vec -> R -> vec.

  Lemma nesterov_ok i a rho mom v n : forall p d u w, exists z d', nesterov_steps grad n i a rho mom v u w (p, d) = Some (z, (p, d')) /\ nesterov_path grad i a rho mom v n u w z.
  Proof.
    induction n as [|n IH]; intros p d u w; cbn [nesterov_steps].
    - exists w, d. split; [reflexivity|constructor].
    - unfold lbind, gradient. cbn [fst snd].
      match goal with |- context [nesterov_steps grad n i a rho mom v ?u1 ?w1 (p, S d)] => destruct (IH p (S d) u1 w1) as (z & d' & E & X) end.
      exists z, d'. split; [exact E|]. econstructor; [exists d; reflexivity|reflexivity|exact X].
  Qed.
  Lemma adam_ok i a rho b1 b2 eps v n : forall p d l m s w, exists z d', adam_steps grad n l i a rho b1 b2 eps v m s w (p, d) = Some (z, (p, d')) /\ adam_path grad i a rho b1 b2 eps v n l m s w z.
  Proof.
    induction n as [|n IH]; intros p d l m s w; cbn [adam_steps].
    - exists w, d. split; [reflexivity|constructor].
    - unfold lbind, gradient. cbn [fst snd].
      match goal with |- context [adam_steps grad n (S l) i a rho b1 b2 eps v ?m1 ?s1 ?w1 (p, S d)] => destruct (IH p (S d) (S l) m1 s1 w1) as (z & d' & E & X) end.
      exists z, d'. split; [exact E|]. econstructor; [eexists; split; [exists d; reflexivity|reflexivity]|reflexivity|reflexivity|].
      cbn beta. match type of X with adam_path _ _ _ _ _ _ _ _ _ _ _ _ ?w1 _ => match goal with |- adam_path _ _ _ _ _ _ _ _ _ _ _ _ ?w2 _ =>
        replace w2 with w1; [exact X|] end end.
      apply functional_extensionality. intro c. unfold vsub, vdiv, vscal, vadd, vsqrt, vconst, vmul, vsub, Rdiv. 
      rewrite (Rmult_comm (/ (1 - b1 ^ l))). rewrite (Rmult_comm (/ (1 - b2 ^ l))). reflexivity.
  Qed.
  Lemma fedlt_solve_ok sol K a rho i v w p d : exists z d', fedlt_solve grad sol K a rho i v w (p, d) = Some (z, (p, d')) /\ fedlt_local grad sol K a rho i v w z.
  Proof.
    destruct sol as [|mom|b1 b2 eps]; cbn [fedlt_solve fedlt_local].
    - destruct (ltimes_steps grad i (fun w g => vsub w (vscal a (vadd g (vscal (/ rho) (vsub w v))))) K p d w) as (z & d' & E & L). eauto.
    - apply nesterov_ok.
    - apply adam_ok.
  Qed.

  Lemma fedlt_agg_ok st' l p n : NoDup (agents t) -> forall zs, incl l (agents t) -> dget String.eqb (v_aux p) "z_by_client"%string = Some (AMap (client_rows t zs)) ->
    exists p', fedlt_agg l (inbox_of st' sv) (p, n) = Some (tt, (p', n)) /\ v_x p' = v_x p /\
      dget String.eqb (v_aux p') "z_by_client"%string = Some (AMap (client_rows t (replaced (recv (lk st' sv) dflt l) (mvl (lk st' sv) dflt) zs))).
  Proof.
    intro ND. revert p. unfold fedlt_agg. induction l as [|i l IH]; intros p zs I E; cbn [lfor].
    - exists p. split; [reflexivity|]. split; [reflexivity|]. exact E.
    - unfold lbind at 1. rewrite inbox_lk. unfold recv. cbn [filter]. destruct (lk st' sv dflt i) as [v|] eqn:EL; cbn [some].
      + unfold lbind at 1, auxm at 1, putm at 1. cbn [fst snd]. rewrite E.
        unfold client_rows. rewrite rows_dset; [|exact ND|apply I; now left]. cbn [fst snd].
        match goal with |- context [lfor l _ (?q, n)] => destruct (IH q (fun j => if Nat.eqb j i then v else zs j)) as (p' & X1 & X2 & X3) end.
        { intros x Hx. apply I. now right. }
        { cbn [v_aux]. rewrite dg_same. unfold client_rows. reflexivity. }
        exists p'. split; [exact X1|]. split; [exact X2|]. rewrite X3. do 2 f_equal. unfold client_rows. apply map_ext. intro j. f_equal.
        unfold replaced, recv. cbn [memb existsb]. fold (memb j (filter (fun i => some (lk st' sv dflt i)) l)).
        destruct (Nat.eqb_spec j i) as [->|]; cbn [orb]; [|reflexivity].
        unfold mvl. rewrite EL. now destruct (memb i _).
      + destruct (IH p zs) as (p' & X1 & X2 & X3); auto. { intros x Hx. apply I. now right. }
        exists p'. split; [exact X1|]. split; [exact X2|]. exact X3.
  Qed.

  Lemma fedlt_round sch sol K a rho k d st (zs x z : agent_id -> vec) : proper sch ->
    auxmap_is st sv "z_by_client" (client_rows t zs) ->
    (forall i, In i (agents t) -> state_is st i (x i) /\ aux_is st i "z" (z i)) ->
    let xs := prox d sv (mean_over (agents t) zs) (rho / INR (length (agents t))) in
    exists st' P R B Y M, round_result t e sv (fedlt_alg t sv grad prox sol K a rho) sch k (S d) d st st' P /\ uploaded e sv st' P dflt R /\
      state_is st' sv xs /\
      (forall i, In i P -> got e sv st' i (B i) xs /\
         fedlt_local grad sol K a rho i (fun c => 2 * B i c - z i c) (x i) (Y i) /\
         state_is st' i (Y i) /\ aux_is st' i "z" (fun c => z i c + 2 * (Y i c - B i c))) /\
      (forall i, In i R -> delivered e sv st' dflt i (M i) (fun c => z i c + 2 * (Y i c - B i c))) /\
      auxmap_is st' sv "z_by_client" (client_rows t (replaced R M zs)).
  Proof.
    intros PR Hzs Hxz xs. set (A := fedlt_alg t sv grad prox sol K a rho).
    assert (NDA : NoDup (agents t)) by (apply agents_NoDup, NET).
    destruct (gen_round t e sv NET grad A sch k d st
      (fun p => v_x p = Some xs /\ dget String.eqb (v_aux p) "z_by_client"%string = Some (AMap (client_rows t zs)))
      (fun p b => b = xs)
      (fun i b us p => exists y, us = [(dflt, (fun c => z i c + 2 * (y c - b c)))] /\ v_x p = Some y /\
          dget String.eqb (v_aux p) "z"%string = Some (AArr (fun c => z i c + 2 * (y c - b c))) /\
          fedlt_local grad sol K a rho i (fun c => 2 * b c - z i c) (x i) y)
      (fun L P p p'' => v_x p'' = Some xs /\ dget String.eqb (v_aux p'') "z_by_client"%string = Some (AMap (client_rows t (replaced (recv L dflt P) (mvl L dflt) zs)))) PR) as
      (d1 & p0 & st' & b & p & P & B & U & RR & EP & Qp & Qb & QA & HP & HL).
    { do 2 eexists. cbn [A f_pre fedlt_alg]. unfold fedlt_pre, lbind, auxm, setx. cbn [fst snd v_aux v_x v_nx priv_of]. rewrite Hzs.
      cbn [fst snd v_aux v_x v_nx]. split; [reflexivity|]. cbn [v_x v_aux]. split; [|exact Hzs]. f_equal. unfold xs. f_equal.
      unfold client_rows. rewrite map_map, map_length. cbn [snd]. rewrite vsum_over. reflexivity. }
    { intros q n (Q1 & Q2). cbn [A f_payload fedlt_alg]. unfold getx. cbn [fst]. rewrite Q1. do 2 eexists. split; reflexivity. }
    { intros i Hi b n. destruct (Hxz i Hi) as (Hx & Hz). unfold state_is, aux_is in *.
      destruct (fedlt_solve_ok sol K a rho i (vsub (vscal 2 b) (z i)) (x i) (priv_of (n_agents st i)) n) as (y & d' & E & L).
      do 3 eexists. cbn [A f_client fedlt_alg]. unfold fedlt_client, lbind at 1, aux at 1. cbn [fst snd v_aux priv_of]. rewrite Hz.
      unfold lbind at 1, getx. cbn [fst v_x priv_of]. rewrite Hx. unfold lbind at 1. rewrite E. unfold lbind, put, setx, lret. cbn [fst snd v_x v_aux v_nx]. split; [reflexivity|].
      split; [repeat constructor; cbn; intuition discriminate|]. exists y. split; [reflexivity|]. split; [reflexivity|]. cbn [fst snd v_aux].
      rewrite dg_same. split; [reflexivity|]. exact L. }
    { intros inb s. reflexivity. }
    { intros st' P U S TP HU p n (Q1 & Q2). cbn [A f_agg fedlt_alg].
      destruct (fedlt_agg_ok st' P p n NDA zs) as (p' & X1 & X2 & X3); auto.
      { intros i Hi. destruct TP as (_ & I1 & I2 & _). auto. }
      exists p', n. split; auto. rewrite X2, Q1. auto. }
    assert (D1 : d1 = S d).
    { cbn [A f_pre fedlt_alg] in EP. unfold fedlt_pre, lbind, auxm, setx in EP. cbn [fst snd v_aux v_x v_nx priv_of] in EP. rewrite Hzs in EP. now injection EP as _ <-. }
    subst d1 b. destruct QA as (Q1 & Q2).
    assert (H : forall i, In i P -> exists y, (U i = [(dflt, (fun c => z i c + 2 * (y c - B i c)))] /\ v_x (priv_of (n_agents st' i)) = Some y /\
          dget String.eqb (v_aux (priv_of (n_agents st' i))) "z"%string = Some (AArr (fun c => z i c + 2 * (y c - B i c))) /\
          fedlt_local grad sol K a rho i (fun c => 2 * B i c - z i c) (x i) y)).
    { intros i Hi. destruct (HP i Hi) as (_ & X & _). exact X. }
    apply (choice_list _ vzero) in H. destruct H as (Y & HY).
    exists st', P, (recv (lk st' sv) dflt P), B, Y, (mvl (lk st' sv) dflt).
    split; [exact RR|]. split; [|split; [|split; [|split]]].
    - eapply recv_uploaded; [apply RR| |exact HL]. intros i Hi. split; [apply HP; auto|]. destruct (HY i Hi) as (EU & _). rewrite EU. now left.
    - exact Q1.
    - intros i Hi. destruct (HP i Hi) as (X1 & _). destruct (HY i Hi) as (_ & Y2 & Y3 & Y4). auto.
    - intros i Hi. apply recv_In in Hi. destruct Hi as (Hi & NL). destruct (HP i Hi) as (_ & _ & X). destruct (HY i Hi) as (Y1 & _).
      eapply deliv; eauto. rewrite Y1. intros w [[= <-]|[]]. reflexivity.
    - exact Q2.
  Qed.

  (** ** FedPD *)
  Lemma inbox_upd i p st j : inbox_of (upd_agent i (put_priv p) st) j = inbox_of st j.
  Proof. unfold inbox_of. cbn [upd_agent n_agents]. unfold upd. destruct (Nat.eqb j i); reflexivity. Qed.
  Lemma fall_local act (f : agent_id -> inbox -> L unit) (Q : agent_id -> priv -> Prop) l : NoDup l -> forall d st, cfg t act st ->
    (forall i, In i l -> forall n, exists p n', f i (inbox_of st i) (priv_of (n_agents st i), n) = Some (tt, (p, n')) /\ Q i p) ->
    exists d' st', fall l (fun i => local i (f i)) (d, st) = ((d', st'), Some tt) /\ cfg t act st' /\
      (forall i, In i l -> Q i (priv_of (n_agents st' i))) /\
      (forall i, ~ In i l -> priv_of (n_agents st' i) = priv_of (n_agents st i)) /\
      (forall r c s, lk st' r c s = lk st r c s).
  Proof.
    induction l as [|i l IH]; intros ND d st C H; cbn [fall].
    - exists d, st. split; [reflexivity|]. split; auto. split; [intros i []|]. auto.
    - inversion ND as [|x y N1 N2]; subst. destruct (H i (or_introl eq_refl) d) as (p & n' & E & HQ).
      destruct (local_ok t act i (f i) tt p n' d st C E) as (EL & C1).
      destruct (IH N2 n' (upd_agent i (put_priv p) st) C1) as (d' & st' & EF & C' & X1 & X2 & X3).
      { intros j Hj n. assert (j <> i) by (intros ->; contradiction). rewrite inbox_upd, priv_upd. destruct (Nat.eqb_spec j i); [contradiction|].
        apply H. now right. }
      exists d', st'. unfold fbind at 1. rewrite EL, EF. split; [reflexivity|]. split; auto. split; [|split].
      + intros j [<-|Hj]; [|auto]. rewrite X2, priv_upd, Nat.eqb_refl by auto. exact HQ.
      + intros j Hj. cbn [In] in Hj. rewrite X2, priv_upd by tauto. destruct (Nat.eqb_spec j i); [subst; tauto|auto].
      + intros r c s. rewrite X3. apply lk_upd.
  Qed.
  Lemma put_priv_id (a : agent vec) : put_priv (priv_of a) a = a.
  Proof. destruct a; reflexivity. Qed.
  Lemma fall_upload act (C : agent_id -> vec) c l : NoDup l -> incl l (agents t) -> forall d st, cfg t act st ->
    (forall i, In i l -> dget String.eqb (v_aux (priv_of (n_agents st i))) "center"%string = Some (AArr (C i)) /\ forall c, lk st sv c i = None) ->
    exists st', fall l (fun i => fbind (local i (fun _ => aux "center")) (fun v => sendf t e i (ROne sv) c v)) (d, st) = ((d, st'), Some tt) /\ cfg t act st' /\
      (forall i, priv_of (n_agents st' i) = priv_of (n_agents st i)) /\
      (forall i, In i l -> arrived e sv st' i [(c, C i)]) /\
      (forall r c s, r <> sv \/ ~ In s l -> lk st' r c s = lk st r c s).
  Proof.
    induction l as [|i l IH]; intros ND IL d st CF H; cbn [fall].
    - exists st. split; [reflexivity|]. split; auto. split; auto. split; [intros i []|]. auto.
    - inversion ND as [|x y N1 N2]; subst. destruct (H i (or_introl eq_refl)) as (E1 & E2).
      destruct (local_ok t act i (fun _ => aux "center") (C i) (priv_of (n_agents st i)) d d st CF) as (EL & C1).
      { unfold aux. cbn [fst]. now rewrite E1. }
      destruct (uploads_arrived t e sv NET act i [(c, C i)] d (upd_agent i (put_priv (priv_of (n_agents st i))) st) C1 (IL i (or_introl eq_refl))) as (st2 & EU & C2 & P2 & L2 & A2).
      { repeat constructor. cbn. tauto. }
      { intro c'. rewrite lk_upd. apply E2. }
      assert (PP : forall j, priv_of (n_agents st2 j) = priv_of (n_agents st j)).
      { intro j. rewrite (sp_priv _ _ (P2 j)), priv_upd. destruct (Nat.eqb_spec j i); [now subst|auto]. }
      destruct (IH N2 (fun x hx => IL x (or_intror hx)) d st2 C2) as (st' & EF & C' & X1 & X2 & X3).
      { intros j Hj. assert (j <> i) by (intros ->; contradiction). destruct (H j (or_intror Hj)) as (Y1 & Y2). rewrite PP. split; auto.
        intro c'. rewrite L2, lk_upd by tauto. auto. }
      exists st'. cbn [uploads] in EU. unfold fbind at 1 in EU. unfold fbind at 1, fbind at 1. rewrite EL.
      destruct (sendf t e i (ROne sv) c (C i) _) as [w' [[]|]] eqn:ES; [|discriminate]. unfold fret in EU. injection EU as ->.
      rewrite EF. split; [reflexivity|]. split; auto. split; [|split].
      + intro j. now rewrite X1, PP.
      + intros j [<-|Hj]; [|auto]. intro c'. specialize (A2 c'). rewrite X3 by auto. exact A2.
      + intros r c' s Hr. cbn [In] in Hr. rewrite X3 by tauto. rewrite L2, lk_upd; auto. destruct Hr; [auto|right; intros ->; tauto].
  Qed.

  Lemma fedpd_client_ok steps a eta i x l c p n : v_x p = Some x -> dget String.eqb (v_aux p) "lambda"%string = Some (AArr l) -> dget String.eqb (v_aux p) "center"%string = Some (AArr c) ->
    exists p' n', fedpd_client grad steps a eta i (p, n) = Some (tt, (p', n')) /\ exists y, let l' := vadd l (vscal (/ eta) (vsub y c)) in
      fedpd_local grad steps a eta i x l c y /\ v_x p' = Some y /\ dget String.eqb (v_aux p') "lambda"%string = Some (AArr l') /\
      dget String.eqb (v_aux p') "center"%string = Some (AArr (vadd y (vscal eta l'))).
  Proof.
    intros E1 E2 E3.
    destruct (ltimes_steps grad i (fun y g => vsub y (vscal a (vadd (vadd g l) (vscal (/ eta) (vsub y c))))) (steps i) p n x) as (y & n' & EL & LS).
    do 2 eexists. unfold fedpd_client. unfold lbind at 1, aux at 1. cbn [fst]. rewrite E3.
    unfold lbind at 1, aux at 1. cbn [fst]. rewrite E2. unfold lbind at 1, getx. cbn [fst]. rewrite E1.
    unfold lbind at 1. rewrite EL. unfold lbind, put, setx. cbn [fst snd v_x v_aux v_nx]. split; [reflexivity|].
    exists y. cbn zeta. split; [exact LS|]. cbn [v_x v_aux]. split; [reflexivity|].
    rewrite dg_same. rewrite dg_other by discriminate. now rewrite dg_same.
  Qed.

  Lemma fedpd_round_ok steps a eta coin k d st (x l c : agent_id -> vec) :
    (forall i, In i (agents t) -> state_is st i (x i) /\ aux_is st i "lambda" (l i) /\ aux_is st i "center" (c i)) ->
    exists st' Y, let P := active_at t e k st in
      let l' := fun i => vadd (l i) (vscal (/ eta) (vsub (Y i) (c i))) in
      let C := fun i => vadd (Y i) (vscal eta (l' i)) in
      (exists d', fstep (fedpd_round t e sv grad steps a eta coin k) (d, step t k st) = ((d', st'), false)) /\
      (forall i, In i (agents t) -> ~ In i P -> untouched st st' i) /\
      (forall i, In i P -> fedpd_local grad steps a eta i (x i) (l i) (c i) (Y i) /\ state_is st' i (Y i) /\ aux_is st' i "lambda" (l' i)) /\
      (coin k = false -> untouched st st' sv /\ forall i, In i P -> aux_is st' i "center" (C i)) /\
      (coin k = true -> exists R M, uploaded e sv st' P cand R /\ (forall i, In i R -> delivered e sv st' cand i (M i) (C i)) /\
         (R = [] -> untouched st st' sv /\ forall i, In i P -> aux_is st' i "center" (C i)) /\
         (R <> [] -> state_is st' sv (mean_over R M) /\
            forall i, In i P -> (exists b, sees st' i sv cupd b /\ aux_is st' i "center" b /\ (faithful e -> b = mean_over R M)) \/
              ((forall b, ~ sees st' i sv cupd b) /\ aux_is st' i "center" (C i) /\ ~ reliable e))).
  Proof.
    intro HS. destruct (fed_step_cfg t e sv NET k st) as (C1 & NDa & N1 & P1 & H1 & _). cbn zeta in *.
    set (act := active_at t e k st) in *. set (st1 := snd (active_agents t e (step t k st))) in *.
    assert (IA : incl act (agents t)). { intros j Hj. now apply (cfg_clients t act st1 C1). }
    set (st2 := record act st1). destruct (record_frame act st1) as (_ & _ & RF). fold st2 in RF.
    assert (C2 : cfg t act st2) by now apply cfg_record.
    assert (PV : forall i, priv_of (n_agents st2 i) = priv_of (n_agents st i)).
    { intro i. destruct (RF i) as (_ & -> & _). apply P1. }
    assert (N2 : forall r c s, In r (t_nodes t) -> lk st2 r c s = None).
    { intros r c' s Hr. unfold lk. destruct (RF r) as (_ & _ & -> & _). now apply N1. }
    assert (SA : ~ In sv act). { intro X. apply IA, (agents_spec t e sv NET) in X. tauto. }
    destruct (fall_local act (fun i _ => fedpd_client grad steps a eta i)
      (fun i p' => exists y, let l' := vadd (l i) (vscal (/ eta) (vsub y (c i))) in
          fedpd_local grad steps a eta i (x i) (l i) (c i) y /\ v_x p' = Some y /\ dget String.eqb (v_aux p') "lambda"%string = Some (AArr l') /\
          dget String.eqb (v_aux p') "center"%string = Some (AArr (vadd y (vscal eta l')))) act NDa d st2 C2) as (d3 & st3 & E3 & C3 & Q3 & F3 & L3).
    { intros i Hi n. destruct (HS i (IA i Hi)) as (X1 & X2 & X3). rewrite PV. apply fedpd_client_ok; auto. }
    cbn zeta in Q3. apply (choice_list _ vzero) in Q3. destruct Q3 as (Y & HY).
    set (l' := fun i => vadd (l i) (vscal (/ eta) (vsub (Y i) (c i)))).
    set (C := fun i => vadd (Y i) (vscal eta (l' i))).
    assert (E0 : fedpd_round t e sv grad steps a eta coin k (d, step t k st) =
      match act with [] => ((d, st1), Some tt) | _ =>
        if coin k then fbind (fall act (fun i => fbind (local i (fun _ => aux "center")) (fun c => sendf t e i (ROne sv) cand c)))
              (fun _ => fedpd_aggregate t e sv act) (d3, st3)
        else ((d3, st3), Some tt) end).
    { unfold fedpd_round, fbind at 1, select_clients. rewrite (surjective_pairing (active_agents t e (step t k st))). fold st1. change (fst (active_agents t e (step t k st))) with act.
      assert (R2 : record act st1 = st2) by reflexivity. clearbody st2 act. destruct act as [|q act0] eqn:EA; [reflexivity|]. rewrite <- EA in *. rewrite R2. unfold fbind at 1. rewrite E3. destruct (coin k); reflexivity. }
    destruct (list_eq_dec Nat.eq_dec act []) as [EA|NA].
    { exists st1, Y. cbn zeta. fold act. rewrite EA in *. split; [|split; [|split; [|split]]].
      - exists d. unfold fstep. now rewrite E0.
      - intros i Hi _. now apply priv_untouched.
      - intros i [].
      - intros _. split; [now apply priv_untouched|intros i []].
      - intros _. exists [], (fun _ => vzero). split; [|split; [intros i []|split; [|congruence]]].
        + split; [constructor|]. split; [apply incl_refl|]. split; [|auto]. intro i. split; [intros []|]. intros (m & X). apply sees_lk in X.
          rewrite N1 in X; [discriminate|]. apply (sv_node t e sv NET).
        + intros _. split; [now apply priv_untouched|intros i []]. }
    assert (E1 : fedpd_round t e sv grad steps a eta coin k (d, step t k st) =
        if coin k then fbind (fall act (fun i => fbind (local i (fun _ => aux "center")) (fun c => sendf t e i (ROne sv) cand c)))
              (fun _ => fedpd_aggregate t e sv act) (d3, st3)
        else ((d3, st3), Some tt)).
    { rewrite E0. clear - NA. clearbody act. destruct act; [now destruct NA|reflexivity]. }
    clear E0. destruct (coin k) eqn:EK.
    2:{ exists st3, Y. cbn zeta. fold act. split; [|split; [|split; [|split]]].
      - exists d3. unfold fstep. now rewrite E1.
      - intros i Hi Ni. apply priv_untouched. now rewrite F3, PV.
      - intros i Hi. destruct (HY i Hi) as (X1 & X2 & X3 & X4). auto.
      - intros _. split; [apply priv_untouched; now rewrite F3, PV|]. intros i Hi. apply HY, Hi.
      - discriminate. }
    destruct (fall_upload act C cand act NDa IA d3 st3 C3) as (st4 & E4 & C4 & P4 & A4 & L4).
    { intros i Hi. destruct (HY i Hi) as (X1 & X2 & X3 & X4). split; [exact X4|]. intro c'. rewrite L3. apply N2, (sv_node t e sv NET). }
    set (R := received (inbox_of st4 sv) cand act). set (M := mv sv st4 cand).
    assert (UP : uploaded e sv st4 act cand R).
    { apply (received_uploaded e sv) with (U := fun i => [(cand, C i)]); auto.
      - intros i Hi. split; auto. now left.
      - intros i Hi. rewrite L4, L3 by auto. apply N2, (sv_node t e sv NET). }
    assert (DL : forall st', (forall c s, lk st' sv c s = lk st4 sv c s) -> forall i, In i R -> delivered e sv st' cand i (M i) (C i)).
    { intros st' LL i Hi. apply (received_In sv) in Hi. destruct Hi as (Hi & NL). unfold M, mv, delivered. destruct (lk st4 sv cand i) as [v|] eqn:EL; [|congruence].
      split; [apply sees_lk; now rewrite LL|]. intro FA. apply (arrived_val e sv st4 i [(cand, C i)] cand (C i) v); auto. intros w [[= <-]|[]]. reflexivity. }
    assert (UPL : forall st', (forall c s, lk st' sv c s = lk st4 sv c s) -> uploaded e sv st' act cand R).
    { intros st' LL. destruct UP as (U1 & U2 & U3 & U4). split; auto. split; auto. split; auto. intro i. rewrite U3.
      split; intros (b & X); exists b; apply sees_lk; apply sees_lk in X; congruence. }
    assert (AG : fedpd_aggregate t e sv act (d3, st4) = match R with
      | [] => ((d3, upd_agent sv (put_priv (priv_of (n_agents st4 sv))) st4), Some tt)
      | _ => let b := mean_over R M in let st5 := upd_agent sv (put_priv (mkPriv (Some b) (v_aux (priv_of (n_agents st4 sv))) (S (v_nx (priv_of (n_agents st4 sv)))))) st4 in
          fbind (sendf t e sv (RMany act) cupd b) (fun _ => fall act (fun i => local i (fun inb =>
             match dget Nat.eqb (inb cupd) sv with Some v => put "center" v | None => lret tt end))) (d3, st5) end).
    { unfold fedpd_aggregate, fbind at 1, local at 1. fold R. pose proof (received_msgs sv st4 cand act) as RM. fold R M in RM.
      destruct R as [|q R0] eqn:ER; [reflexivity|]. rewrite <- ER in *. rewrite RM, uniform_mean. unfold lbind, setx, getx. cbn [fst snd v_x]. reflexivity. }
    destruct (list_eq_dec Nat.eq_dec R []) as [ER|NR].
    { rewrite ER in AG. set (st5 := upd_agent sv _ st4) in AG.
      assert (P5 : forall i, priv_of (n_agents st5 i) = priv_of (n_agents st3 i)).
      { intro i. unfold st5. rewrite priv_upd. destruct (Nat.eqb_spec i sv); [subst|]; auto. }
      assert (L5 : forall c s, lk st5 sv c s = lk st4 sv c s) by (intros; apply lk_upd).
      exists st5, Y. cbn zeta. fold act. split; [|split; [|split; [|split]]].
      - exists d3. unfold fstep. rewrite E1. unfold fbind at 1. now rewrite E4, AG.
      - intros i Hi Ni. apply priv_untouched. now rewrite P5, F3, PV.
      - intros i Hi. destruct (HY i Hi) as (X1 & X2 & X3 & X4). unfold state_is, aux_is. split; auto.
        pose proof (P5 i) as PI. pose proof (f_equal v_x PI) as PI1. pose proof (f_equal v_aux PI) as PI2. cbn [v_x v_aux priv_of] in PI1, PI2. rewrite PI1, PI2. auto.
      - discriminate.
      - intros _. exists R, M. split; [now apply UPL|]. split; [now apply DL|]. split; [|intro X; destruct (X ER)].
        intros _. split; [apply priv_untouched; now rewrite P5, F3, PV|]. intros i Hi. destruct (HY i Hi) as (X1 & X2 & X3 & X4). unfold aux_is.
        pose proof (f_equal v_aux (P5 i)) as PI2. cbn [v_aux priv_of] in PI2. rewrite PI2. exact X4. }
    assert (AG' : fedpd_aggregate t e sv act (d3, st4) = let b := mean_over R M in let st5 := upd_agent sv (put_priv (mkPriv (Some b) (v_aux (priv_of (n_agents st4 sv))) (S (v_nx (priv_of (n_agents st4 sv)))))) st4 in
          fbind (sendf t e sv (RMany act) cupd b) (fun _ => fall act (fun i => local i (fun inb =>
             match dget Nat.eqb (inb cupd) sv with Some v => put "center" v | None => lret tt end))) (d3, st5)).
    { rewrite AG. clear - NR. clearbody R. destruct R; [now destruct NR|reflexivity]. }
    clear AG. cbn zeta in AG'. set (b := mean_over R M) in *. set (p5 := mkPriv _ _ _) in AG'. set (st5 := upd_agent sv (put_priv p5) st4) in AG'.
    assert (C5 : cfg t act st5) by now apply cfg_upd.
    destruct (send_srv t e sv NET act st5 act b cupd C5 (incl_refl _)) as (st6 & ES6 & C6 & S6).
    set (st7 := transmit t e st6 sv act b cupd) in *.
    assert (C7 : cfg t act st7) by now apply cfg_transmit.
    assert (L6 : forall r c s, lk st6 r c s = lk st4 r c s). { intros. unfold lk. rewrite S6. apply lk_upd. }
    assert (P7 : forall i, priv_of (n_agents st7 i) = if Nat.eqb i sv then p5 else priv_of (n_agents st3 i)).
    { intro i. pose proof (transmit_private vec t e st6 sv act b cupd i) as X. fold st7 in X. rewrite (sp_priv _ _ X), S6. unfold st5. now rewrite priv_upd, P4. }
    assert (L7 : forall c s, lk st7 sv c s = lk st4 sv c s).
    { intros c' s. destruct (transmit_arr t e st6 sv act b cupd sv c' s) as [X|(_ & _ & X & _)]; [fold st7 in X; now rewrite X, L6|contradiction]. }
    destruct (fall_local act (fun i inb => match dget Nat.eqb (inb cupd) sv with Some v => put "center" v | None => lret tt end)
      (fun i p' => v_x p' = Some (Y i) /\ dget String.eqb (v_aux p') "lambda"%string = Some (AArr (l' i)) /\
         match lk st7 i cupd sv with
         | Some v => dget String.eqb (v_aux p') "center"%string = Some (AArr v)
         | None => dget String.eqb (v_aux p') "center"%string = Some (AArr (C i)) end) act NDa d3 st7 C7) as (d8 & st8 & E8 & C8 & Q8 & F8 & L8).
    { intros i Hi n. destruct (HY i Hi) as (X1 & X2 & X3 & X4). rewrite inbox_lk. rewrite P7. destruct (Nat.eqb_spec i sv); [subst; contradiction|].
      destruct (lk st7 i cupd sv) as [v|].
      - do 2 eexists. split; [reflexivity|]. cbn [fst snd v_x v_aux]. rewrite dg_same. rewrite dg_other by discriminate. auto.
      - do 2 eexists. split; [reflexivity|]. auto. }
    exists st8, Y. cbn zeta. fold act. split; [|split; [|split; [|split]]].
    - exists d8. unfold fstep. rewrite E1. unfold fbind at 1. rewrite E4, AG'. unfold fbind at 1, sendf at 1. cbn [fst snd]. rewrite ES6. fold st7. now rewrite E8.
    - intros i Hi Ni. apply priv_untouched. rewrite F8, P7 by auto. apply (agents_spec t e sv NET) in Hi. destruct (Nat.eqb_spec i sv); [tauto|]. now rewrite F3, PV.
    - intros i Hi. destruct (HY i Hi) as (X1 & X2 & X3 & X4). destruct (Q8 i Hi) as (Z1 & Z2 & _). auto.
    - discriminate.
    - intros _. assert (L84 : forall c s, lk st8 sv c s = lk st4 sv c s) by (intros; now rewrite L8, L7).
      exists R, M. split; [now apply UPL|]. split; [now apply DL|]. split; [intro X; destruct (NR X)|]. intros _.
      split. { unfold state_is. pose proof (F8 sv SA) as X. rewrite P7, Nat.eqb_refl in X. now apply (f_equal v_x) in X. }
      intros i Hi. destruct (Q8 i Hi) as (_ & _ & Z). destruct (lk st7 i cupd sv) as [v|] eqn:EV.
      + left. exists v. split; [apply sees_lk; now rewrite L8|]. split; [exact Z|]. intro FA.
        destruct (transmit_arr t e st6 sv act b cupd i cupd sv) as [X|(_ & _ & _ & w & X & W)]; fold st7 in X; rewrite EV in X.
        * exfalso. rewrite L6, L4, L3, N2 in X; [discriminate| |]. { apply (agents_spec t e sv NET), IA, Hi. } { left. intros ->. contradiction. }
        * injection X as ->. auto.
      + right. split; [|split; [exact Z|]].
        * intros w X. apply sees_lk in X. rewrite L8, EV in X. discriminate.
        * intro RE. unfold st7 in EV. rewrite transmit_rel in EV by auto. discriminate.
  Qed.
End Steps.
