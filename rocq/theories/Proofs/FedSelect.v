(** Selection bookkeeping. *)
From Coq Require Import Reals String List Bool Arith ZArith Lia Lra FunctionalExtensionality.
From Verif.Model Require Import PyDict History Messages Network Runner Vec P2P Fed.
From Verif.Spec Require Import HistorySpec NetworkSpec P2PSpec FedSpec RunnerSpec AlgSpec.
From Verif.Proofs Require Import PyDictProofs HistoryProofs NetworkProofs NetworkInv RunnerProofs AlgClient P2PLock FedLock.
Import ListNotations.
Open Scope nat_scope.

Section Sel.
  Variables (t : topo) (e : env vec).
  Notation nsel st i := (a_nsel (n_agents st i)).
  Definition keeps (st st' : net vec) : Prop := forall i, nsel st' i = nsel st i.
  Lemma keeps_active st : keeps st (snd (active_agents t e st)).
  Proof. unfold active_agents. destruct (n_cache st); [intro; reflexivity|]. destruct (act_filter _ _ _ _). intro; reflexivity. Qed.
  Lemma keeps_conn st a : keeps st (snd (active_connected t e st a)).
  Proof.
    unfold active_connected. destruct (dget _ _ _); [intro; reflexivity|]. pose proof (keeps_active st) as X.
    destruct (active_agents t e st). cbn in *. exact X.
  Qed.
  Lemma keeps_allowed st a : keeps st (snd (allowed t e st a)).
  Proof. unfold allowed. destruct (t_server t); [|apply keeps_conn]. destruct (Nat.eqb a _); [apply keeps_conn|]. intro; reflexivity. Qed.
  Lemma keeps_trans a b c : keeps a b -> keeps b c -> keeps a c. Proof. intros H K i. now rewrite K, H. Qed.
  Lemma keeps_send_base st s r m c : keeps st (sstate (send_base t e st s r m c)).
  Proof.
    unfold send_base. destruct m as [m|]; [|intro; reflexivity]. destruct (negb _); [intro; reflexivity|].
    assert (G : forall st1 rs, keeps st st1 -> keeps st (sstate (let '(al, st2) := allowed t e st1 s in if forallb (fun a => memb a al) rs then SOk (transmit t e st2 s rs m c) else SErr st2))).
    { intros st1 rs K. pose proof (keeps_allowed st1 s) as X. destruct (allowed t e st1 s) as (al, st2). cbn [snd] in X.
      destruct (forallb _ _); cbn [sstate]; [|eapply keeps_trans; eauto]. intro i. destruct (transmit_private vec t e st2 s rs m c i) as (_ & _ & _ & _ & Y).
      rewrite Y, X. apply K. }
    destruct r as [|a|l].
    - pose proof (keeps_conn st s) as X. destruct (active_connected t e st s). now apply G.
    - destruct (memb _ _); [|intro; reflexivity]. apply G. intro; reflexivity.
    - apply G. intro; reflexivity.
  Qed.
  Lemma keeps_send st s r m c : keeps st (sstate (send t e st s r m c)).
  Proof.
    unfold send. destruct (t_server t); [|apply keeps_send_base]. unfold send_fed.
    destruct r; repeat match goal with |- context [if ?b then _ else _] => destruct b end; try apply keeps_send_base; intro; reflexivity.
  Qed.
  Variable sv : agent_id.
  (** a computation that does not select *)
  Definition Fkeep {A} (m : F A) : Prop := forall w, keeps (snd w) (snd (fst (m w))).
  Lemma Fkeep_ret {A} (a : A) : Fkeep (fret a). Proof. intros w i. reflexivity. Qed.
  Lemma Fkeep_bind {A B} (m : F A) (f : A -> F B) : Fkeep m -> (forall a, Fkeep (f a)) -> Fkeep (fbind m f).
  Proof. intros H K w. unfold fbind. specialize (H w). destruct (m w) as (w', [a|]); auto. eapply keeps_trans; [exact H|]. apply K. Qed.
  Lemma Fkeep_local {A} i (f : inbox -> L A) : Fkeep (local i f).
  Proof.
    intros (d, st) j. unfold local. destruct (f _ _) as [(a, (p, d'))|]; [|reflexivity]. cbn. unfold upd. destruct (Nat.eqb j i); reflexivity.
  Qed.
  Lemma Fkeep_sendf s r c v : Fkeep (sendf t e s r c v).
  Proof. intro w. unfold sendf. pose proof (keeps_send (snd w) s r (Some v) c) as X. destruct (send _ _ _ _ _ _ _); exact X. Qed.
  Lemma Fkeep_uploads i l : Fkeep (uploads t e sv i l).
  Proof. induction l as [|(c, v) l IH]; cbn [uploads]; [apply Fkeep_ret|]. apply Fkeep_bind; [apply Fkeep_sendf|auto]. Qed.
  Lemma Fkeep_fall l body : (forall i, Fkeep (body i)) -> Fkeep (fall l body).
  Proof. intro H. induction l as [|i l IH]; cbn [fall]; [apply Fkeep_ret|]. apply Fkeep_bind; auto. Qed.
  Lemma Fkeep_with sel : Fkeep (with_broadcast sv sel). Proof. intros w i. reflexivity. Qed.

  Lemma record_count sel : forall (st : net vec) i, nsel (record sel st) i = nsel st i + count_occ Nat.eq_dec sel i.
  Proof.
    unfold record. induction sel as [|a sel IH]; intros st i; cbn [fold_left]; [cbn; lia|]. rewrite IH. cbn. unfold upd.
    destruct (Nat.eqb_spec i a) as [->|NE]; cbn.
    - destruct (Nat.eq_dec a a); [lia|congruence].
    - destruct (Nat.eq_dec a i); [congruence|]. lia.
  Qed.
  (** the clients selected by a computation *)
  Definition Fsel (sch : option scheme) (k : nat) (m : F unit) : Prop := forall w w2, m w = (w2, Some tt) ->
    exists sel, selects t e sch k w sel /\ forall i, nsel (snd w2) i = nsel (snd w) i + count_occ Nat.eq_dec sel i.
  Lemma select_sel sch k (f : list agent_id -> F unit) : (forall l, Fkeep (f l)) -> Fsel sch k (fbind (select_clients t e sch k) f).
  Proof.
    intros H (d, st) w2 E. unfold fbind, select_clients in E. cbn [snd]. pose proof (keeps_active st) as X. unfold selects. cbn [snd].
    destruct (active_agents t e st) as (act, st1) eqn:EA. cbn [fst snd] in *. destruct act as [|a act].
    - exists []. split; [exists d; reflexivity|]. intro i. specialize (H [] (d, st1) i). rewrite E in H. cbn [fst snd] in H. rewrite H, X. cbn. lia.
    - eexists. split; [exists d; reflexivity|]. intro i. cbn [chosen].
      set (sel := match sch with None => a :: act | Some f => f d (a :: act) k end) in *.
      specialize (H sel (match sch with None => d | Some _ => S d end, record sel st1) i). rewrite E in H. cbn [fst snd] in H.
      rewrite H, record_count, X. reflexivity.
  Qed.
  Lemma active_put i p (st : net vec) : fst (active_agents t e (upd_agent i (put_priv p) st)) = fst (active_agents t e st).
  Proof. unfold active_agents. cbn. destruct (n_cache st); [reflexivity|]. now destruct (act_filter _ _ _ _). Qed.
  Lemma round_sel A sch k : Fsel sch k (fed_round t e sv A sch k).
  Proof.
    intros (d, st) w2 E. unfold fed_round in E. unfold fbind at 1 in E. unfold local at 1 in E. cbn [snd].
    destruct (f_pre A (priv_of (n_agents st sv), d)) as [(u, (p, d'))|]; [|discriminate].
    apply select_sel in E.
    - destruct E as (sel & (d1 & S1) & S2). exists sel. split.
      + exists d1. cbn [snd] in *. now rewrite active_put in S1.
      + intro i. rewrite S2. cbn. unfold upd. destruct (Nat.eqb i sv); reflexivity.
    - intro l. destruct l; [apply Fkeep_ret|]. apply Fkeep_bind; [apply Fkeep_local|]. intro p'. apply Fkeep_bind; [apply Fkeep_sendf|]. intros _.
      apply Fkeep_bind; [apply Fkeep_with|]. intro part. destruct part; [apply Fkeep_ret|]. apply Fkeep_bind; [|intro; apply Fkeep_local].
      apply Fkeep_fall. intro i. unfold client_round. apply Fkeep_bind; [apply Fkeep_local|]. intro. apply Fkeep_uploads.
  Qed.
  Lemma fedpd_sel grad steps a eta coin k : Fsel None k (fedpd_round t e sv grad steps a eta coin k).
  Proof.
    apply select_sel. intro l. destruct l; [apply Fkeep_ret|]. apply Fkeep_bind; [apply Fkeep_fall; intro; apply Fkeep_local|]. intros _.
    destruct (coin k); [|apply Fkeep_ret]. apply Fkeep_bind.
    { apply Fkeep_fall. intro. apply Fkeep_bind; [apply Fkeep_local|]. intro. apply Fkeep_sendf. }
    intros _. unfold fedpd_aggregate. apply Fkeep_bind; [apply Fkeep_local|]. intros [x|]; [|apply Fkeep_ret].
    apply Fkeep_bind; [apply Fkeep_sendf|]. intros _. apply Fkeep_fall. intro. apply Fkeep_local.
  Qed.

  Variable period : agent_id -> nat.
  Fixpoint tally (Sel : nat -> list agent_id) (i : agent_id) (n k : nat) : nat :=
    match n with 0 => 0 | S n' => count_occ Nat.eq_dec (Sel k) i + tally Sel i n' (S k) end.
  Lemma tally_ext Sel Sel' i n : forall k, (forall j, k <= j -> Sel j = Sel' j) -> tally Sel i n k = tally Sel' i n k.
  Proof. induction n as [|n IH]; intros k H; cbn [tally]; auto. rewrite H by lia. rewrite (IH (S k)); auto. intros; apply H; lia. Qed.
  Lemma snapshot_keeps A it st : NoDup (t_nodes t) -> keeps st (@snapshot_all vec nat t period A it st).
  Proof.
    intros ND i. unfold snapshot_all. rewrite snapshot_fold by auto. destruct (memb i (t_nodes t)); auto.
    unfold snapshot. destruct (a_x _); auto. destruct (_ || _)%bool; reflexivity.
  Qed.
  Lemma step_keeps k st : keeps st (step t k st).
  Proof. intro i. destruct (step_spec vec t k st) as (_ & _ & _ & _ & _ & ->). now destruct (memb i (t_nodes t)). Qed.
  Lemma loop_sel sch round N init : NoDup (t_nodes t) -> (forall k, Fsel sch k (round k)) ->
    let A := fed N init round in forall n k w, r_out (loop t period A n k w) = Finished ->
    exists Sel, (forall j w', In (CStep j w') (r_calls (loop t period A n k w)) -> k <= j /\ selects t e sch j w' (Sel j)) /\
      (forall j, k <= j < k + n -> exists w', n_cache (snd w') = None /\ selects t e sch j w' (Sel j)) /\
      forall i, nsel (snd (r_world (loop t period A n k w))) i = nsel (snd w) i + tally Sel i n k.
  Proof.
    intros ND HS A. induction n as [|n IH]; intros k w O.
    - exists (fun _ => []). split; [intros j w' []|]. split; [intros; lia|]. intro i. cbn. lia.
    - cbn [loop] in *. set (w1 := (fst w, step t k (snd w))) in *. destruct (al_step A k w1) as (w2, raised) eqn:E. destruct raised; [discriminate|].
      cbn [r_out] in O. set (w3 := (fst w2, snapshot_all t period A (k + 1) (snd w2))) in *.
      destruct (IH (k + 1) w3 O) as (Sel & S1 & S3 & S2).
      assert (E' : round k w1 = (w2, Some tt)).
      { unfold A in E. cbn [fed al_step] in E. unfold fstep in E. destruct (round k w1) as (w2', [[]|]); injection E as ->; auto; discriminate. }
      destruct (HS k w1 w2 E') as (sel & X1 & X2).
      exists (fun j => if Nat.eqb j k then sel else Sel j). split; [|split].
      + intros j w' [I|[I|I]]; [|discriminate|].
        * injection I as <- <-. rewrite Nat.eqb_refl. auto.
        * destruct (S1 j w' I) as (J & Y). split; [lia|]. destruct (Nat.eqb_spec j k); [lia|auto].
      + intros j J. destruct (Nat.eqb_spec j k) as [->|]; [|apply S3; lia]. exists w1. split; auto. now destruct (step_spec vec t k (snd w)) as (_ & ? & _).
      + intro i. cbn [r_world]. rewrite S2. unfold w3. cbn [snd tally]. rewrite (snapshot_keeps A (k + 1) (snd w2) ND i), X2.
        unfold w1. cbn [snd]. rewrite (step_keeps k (snd w) i), Nat.eqb_refl. replace (k + 1) with (S k) by lia.
        rewrite (tally_ext (fun j => if Nat.eqb j k then sel else Sel j) Sel i n (S k)); [lia|]. intros j J. destruct (Nat.eqb_spec j k); [lia|auto].
  Qed.
  Lemma tally_filter Sel i n : forall k, (forall j, k <= j < k + n -> NoDup (Sel j)) -> tally Sel i n k = length (filter (fun j => memb i (Sel j)) (seq k n)).
  Proof.
    induction n as [|n IH]; intros k ND; cbn [tally seq filter]; [auto|]. rewrite IH by (intros; apply ND; lia).
    destruct (memb i (Sel k)) eqn:E.
    - apply memb_In in E. cbn [length].
      assert (C : count_occ Nat.eq_dec (Sel k) i = 1) by (apply NoDup_count_occ'; auto; apply ND; lia). lia.
    - assert (C : count_occ Nat.eq_dec (Sel k) i = 0).
      { apply count_occ_not_In. intro I. apply memb_In in I. congruence. } lia.
  Qed.
End Sel.

Section Rounds.
  Variables (t : topo) (e : env vec) (period : agent_id -> nat).
  Lemma run_max (A : alg vec nat) w a x0 : NoDup (t_nodes t) -> In a (t_nodes t) -> client_code t e A -> initialised (snd (al_init A w)) a x0 ->
    let r := run t period A 0 w in r_out r = Finished -> h_max (a_hist (n_agents (snd (r_world r)) a)) = Ok (Z.of_nat (al_iters A)).
  Proof.
    intros ND Ha CC (X0 & H0) r O. set (w0 := al_init A w) in *. set (L := loop t period A (al_iters A) 0 w0).
    assert (RE : r = mkRes (r_out L) (CInit w :: r_calls L) (r_world L)).
    { unfold r, run. replace (Z.of_nat (al_iters A) <? 0)%Z with false by (symmetry; apply Z.ltb_ge; lia).
      cbn [Z.ltb Z.eqb orb Z.compare Z.to_nat]. rewrite Nat.sub_0_r. reflexivity. }
    clearbody r. subst r. cbn [r_out r_calls r_world] in *.
    destruct (loop_hist vec nat t e period A ND CC a Ha (al_iters A) 0 w0 [(0%Z, x0)]) as (HI & XS); auto.
    { rewrite H0. apply hinv_run. } { congruence. }
    fold L in HI, XS. apply (h_max_spec vec _ _ HI).
    pose proof (loop_indices vec nat t period A (al_iters A) 0 w0) as (LI & _). fold L in LI. rewrite O in LI. destruct LI as (_ & CI).
    assert (CB : forall n, In n (callback_indices (r_calls L)) <-> exists w', In (CCallback n w') (r_calls L)).
    { intro n. unfold callback_indices. rewrite in_flat_map. split.
      - intros ([u|j u|j u] & I & H); cbn in H; try tauto. destruct H as [<-|[]]. eauto.
      - intros (u & I). exists (CCallback n u). cbn. auto. }
    split.
    - split; [lia|]. destruct (al_iters A) as [|m] eqn:EN.
      + exists x0. left. reflexivity.
      + assert (I : In m (callback_indices (r_calls L))) by (rewrite CI; apply in_seq; lia). apply CB in I. destruct I as (w' & I).
        destruct (a_x (n_agents (snd w') a)) as [v|] eqn:E; [|now apply XS in I]. exists v. right. unfold writes. apply in_flat_map.
        exists (CCallback m w'). split; auto. cbn. rewrite E. unfold duebk. rewrite EN. replace (m + 1 =? S m) with true by (symmetry; apply Nat.eqb_eq; lia).
        cbn. left. f_equal. lia.
    - intros k (P & v & I). cbn in I. destruct I as [[= <- _]|I]; [lia|]. unfold writes in I. apply in_flat_map in I.
      destruct I as ([u|j u|j u] & I & H); cbn in H; try tauto. destruct (a_x (n_agents (snd u) a)); [|destruct H]. destruct (duebk vec nat A (period a) (j + 1)); [|destruct H].
      destruct H as [[= <- _]|[]]. assert (J : In j (callback_indices (r_calls L))) by (apply CB; eauto). rewrite CI in J. apply in_seq in J. lia.
  Qed.
  Lemma observed_const (st : net vec) n l : l <> [] -> (0 <= n)%Z -> (forall i, In i l -> h_max (a_hist (n_agents st i)) = Ok n) -> observed_rounds st l = Ok n.
  Proof.
    intros NE Hn. induction l as [|i l IH]; [congruence|]. intro H. cbn [observed_rounds]. rewrite (H i) by now left.
    destruct l as [|j l]; [cbn; f_equal; lia|]. rewrite IH; [f_equal; lia|discriminate|]. intros; apply H; now right.
  Qed.
End Rounds.

Section Class.
  Variables (t : topo) (e : env vec) (sv : agent_id) (period : agent_id -> nat).
  Variables (grad : nat -> agent_id -> vec -> vec) (prox : nat -> agent_id -> vec -> R -> vec).

  Lemma fed_class_form sch N A : fed_class t e grad prox sv sch N A ->
    exists x0 saux caux round, A = fed N (fed_init t sv (x0 sv) saux x0 caux) round /\ forall k, Fsel t e sch k (round k).
  Proof.
    intros []; do 4 eexists; (split; [reflexivity|]); intro k; try apply round_sel. subst sch. apply fedpd_sel.
  Qed.
  Lemma selects_NoDup sch k w sel : wf_topo t -> proper sch -> n_cache (snd w) = None -> selects t e sch k w sel -> NoDup sel /\ incl sel (agents t).
  Proof.
    intros WF PR NC (d & ->). unfold chosen, active_agents. rewrite NC.
    pose proof (act_filter_NoDup e (n_iter (snd w)) (agents t)) as X. pose proof (act_filter_incl vec e (n_iter (snd w)) (agents t)) as Y.
    destruct (act_filter e (n_iter (snd w)) (agents t) (n_draws (snd w))) as (l, d') eqn:E. cbn [fst].
    assert (ND : NoDup l). { specialize (X (agents_NoDup t WF) (n_draws (snd w))). now rewrite E in X. }
    assert (IN : incl l (agents t)). { specialize (Y (n_draws (snd w))). now rewrite E in Y. }
    destruct l as [|q l]; [split; [constructor|intros x []]|]. destruct sch as [f|]; [|auto].
    destruct (PR f d (q :: l) k eq_refl ND ltac:(discriminate)) as (A & B). split; auto. eapply incl_tran; eauto.
  Qed.
  Lemma fold_init cx caux l : NoDup l -> forall (st : net vec) i,
    n_agents (fold_left (fun st j => upd_agent j (initialize (Some (cx j)) (caux j)) st) l st) i =
    if memb i l then initialize (Some (cx i)) (caux i) (n_agents st i) else n_agents st i.
  Proof.
    induction 1 as [|q l Hq Hl IH]; intros st i; cbn [fold_left]; [reflexivity|]. rewrite IH. cbn [upd_agent n_agents memb existsb].
    unfold memb in *. cbn [existsb]. destruct (Nat.eqb_spec i q) as [->|NQ]; cbn [orb].
    - destruct (existsb (Nat.eqb q) l) eqn:E; [exfalso; apply Hq, memb_In, E|]. unfold upd. now rewrite Nat.eqb_refl.
    - unfold upd. apply Nat.eqb_neq in NQ. now rewrite ?NQ, ?(Nat.eqb_sym q i), ?NQ.
  Qed.
  Lemma init_client sx saux cx caux (w : world vec nat) i : wf_topo t -> In i (agents t) ->
    initialised (snd (fed_init t sv sx saux cx caux w)) i (cx i) /\ a_nsel (n_agents (snd (fed_init t sv sx saux cx caux w)) i) = 0.
  Proof.
    intros WF Hi. unfold initialised, fed_init. cbn [snd]. rewrite fold_init by (apply agents_NoDup, WF). apply memb_In in Hi. rewrite Hi. repeat split.
  Qed.
  Lemma run_loop (A : alg vec nat) w : let r := run t period A 0 w in let L := loop t period A (al_iters A) 0 (al_init A w) in
    r = mkRes (r_out L) (CInit w :: r_calls L) (r_world L).
  Proof.
    cbn zeta. unfold run. replace (Z.of_nat (al_iters A) <? 0)%Z with false by (symmetry; apply Z.ltb_ge; lia).
    cbn [Z.ltb Z.eqb orb Z.compare Z.to_nat]. rewrite Nat.sub_0_r. reflexivity.
  Qed.
  Lemma class_counts sch N A w : wf_topo t -> proper sch -> fed_class t e grad prox sv sch N A ->
    let r := run t period A 0 w in r_out r = Finished ->
    exists Sel, (forall k w', In (CStep k w') (r_calls r) -> selects t e sch k w' (Sel k)) /\
      (forall k, k < N -> NoDup (Sel k) /\ incl (Sel k) (agents t)) /\
      forall i, In i (agents t) -> a_nsel (n_agents (snd (r_world r)) i) = length (filter (fun k => memb i (Sel k)) (seq 0 N)).
  Proof.
    intros WF PR CL r. unfold r. rewrite run_loop. cbn [r_out r_calls r_world]. intro O.
    destruct (fed_class_form sch N A CL) as (x0 & saux & caux & round & -> & FS).
    destruct (loop_sel t e period sch round N (fed_init t sv (x0 sv) saux x0 caux) (proj1 WF) FS N 0 _ O) as (Sel & S1 & S2 & S3).
    exists Sel. split; [|split].
    - intros k w' [H|H]; [discriminate|]. now apply S1.
    - intros k Hk. destruct (S2 k ltac:(lia)) as (w' & NC & SE). eapply selects_NoDup; eauto.
    - intros i Hi. cbn [fed al_iters] in *. rewrite S3. destruct (init_client (x0 sv) saux x0 caux w i WF Hi) as (_ & Z). cbn [fed al_init]. rewrite Z. cbn [Nat.add].
      apply tally_filter. intros j Hj. destruct (S2 j ltac:(lia)) as (w' & NC & SE). now apply (selects_NoDup sch j w' (Sel j)).
  Qed.
  Lemma filter_len {X} (f : X -> bool) l : length (filter f l) <= length l.
  Proof. induction l as [|x l IH]; cbn; [lia|]. destruct (f x); cbn; lia. Qed.
  Lemma sum_le (f : agent_id -> nat) N l : (forall i, In i l -> f i <= N) -> fold_left Nat.add (map f l) 0 <= N * length l.
  Proof.
    rewrite fold_symmetric by (intros; lia). induction l as [|q l IH]; intro H; cbn; [lia|]. specialize (IH (fun i Hi => H i (or_intror Hi))). specialize (H q (or_introl eq_refl)). nia.
  Qed.
  Lemma class_fraction sch N A w : wf_topo t -> proper sch -> fed_class t e grad prox sv sch N A -> 1 <= N -> agents t <> [] ->
    let r := run t period A 0 w in r_out r = Finished ->
    exists q, fraction_selected t (snd (r_world r)) = Ok (Some q) /\ (0 <= q <= 1)%R /\
      (q * (INR N * INR (length (agents t))) = INR (fold_left Nat.add (map (fun i => a_nsel (n_agents (snd (r_world r)) i)) (agents t)) O))%R.
  Proof.
    intros WF PR CL HN NE r O. destruct (class_counts sch N A w WF PR CL O) as (Sel & _ & _ & HC). fold r in HC.
    assert (OB : observed_rounds (snd (r_world r)) (agents t) = Ok (Z.of_nat N)).
    { apply observed_const; auto; [lia|]. intros i Hi. destruct (fed_class_form sch N A CL) as (x0 & saux & caux & round & EA & _).
      assert (AI : al_iters A = N) by now rewrite EA. rewrite <- AI. apply (run_max t e period A w i (x0 i)).
      - apply WF.
      - unfold agents in Hi. now apply filter_In in Hi.
      - apply (fed_class_ok t e sv grad prox sch N A CL).
      - rewrite EA. now apply init_client.
      - exact O. }
    unfold fraction_selected. rewrite OB. replace (Z.of_nat N =? 0)%Z with false by (symmetry; apply Z.eqb_neq; lia).
    destruct (agents t) as [|q0 l0] eqn:EA; [congruence|]. cbn [orb]. rewrite <- EA in *. eexists. split; [reflexivity|].
    rewrite <- INR_IZR_INZ. set (s := fold_left Nat.add _ 0).
    assert (SL : s <= N * length (agents t)).
    { apply sum_le. intros i Hi. rewrite HC by auto. etransitivity; [apply filter_len|]. now rewrite seq_length. }
    apply le_INR in SL. rewrite mult_INR in SL.
    assert (LP : (0 < INR N * INR (length (agents t)))%R).
    { apply Rmult_lt_0_compat; apply lt_0_INR; [lia|]. rewrite EA. cbn. lia. }
    pose proof (pos_INR s). split; [|field; nra].
    split.
    - apply Rmult_le_pos; [auto|]. left. now apply Rinv_0_lt_compat.
    - apply (Rmult_le_reg_r (INR N * INR (length (agents t)))); auto. unfold Rdiv. rewrite Rmult_assoc, Rinv_l by lra. lra.
  Qed.
End Class.
