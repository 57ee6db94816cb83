(** One round of each federated algorithm, on an arbitrary network. *)
From Coq Require Import Reals String List Bool Arith Lia Lra FunctionalExtensionality Permutation.
From Verif.Model Require Import PyDict History Messages Network Runner Vec P2P Fed.
From Verif.Spec Require Import NetworkSpec P2PSpec FedSpec.
From Verif.Proofs Require Import PyDictProofs MessagesProofs NetworkProofs NetworkInv NetworkMore NetworkActive RunnerProofs EmpiricalProofs P2PLock P2PSteps FedLock.
Import ListNotations.
Open Scope R_scope.

Lemma wavg_fold (vs : list vec) ws : forall acc,
  fold_left (fun a (p : vec * R) => vadd a (vscal (snd p) (fst p))) (combine vs ws) acc =
  fun c => acc c + rsum (map (fun p : vec * R => snd p * fst p c) (combine vs ws)).
Proof.
  revert ws. induction vs as [|v vs IH]; intros [|w ws] acc; cbn [combine fold_left map];
    try (apply functional_extensionality; intro c; rewrite rsum_nil; lra).
  rewrite IH. apply functional_extensionality. intro c. rewrite rsum_cons. unfold vadd, vscal. cbn [fst snd]. ring.
Qed.
Lemma uniform_mean M l : uniform_average (map M l) = mean_over l M.
Proof.
  unfold uniform_average, weighted_average. rewrite wavg_fold. rewrite map_length. apply functional_extensionality. intro c.
  unfold vscal, mean_over. f_equal. replace (vzero c) with 0 by reflexivity. rewrite Rplus_0_l. induction l as [|i l IH]; [reflexivity|].
  cbn [map combine]. rewrite !rsum_cons. cbn [fst snd]. rewrite IH. ring.
Qed.
Lemma vsum_fold (vs : list vec) : forall acc, fold_left vadd vs acc = fun c => acc c + rsum (map (fun v : vec => v c) vs).
Proof.
  induction vs as [|v vs IH]; intro acc; cbn [fold_left map].
  - apply functional_extensionality. intro c. rewrite rsum_nil. lra.
  - rewrite IH. apply functional_extensionality. intro c. rewrite rsum_cons. unfold vadd. ring.
Qed.
Lemma vsum_over M l : fold_left vadd (map M l) vzero = sum_over l M.
Proof.
  rewrite vsum_fold. apply functional_extensionality. intro c. unfold sum_over. rewrite map_map. unfold vzero. ring.
Qed.

Section Steps.
  Variables (t : topo) (e : env vec) (sv : agent_id).
  Hypothesis NET : fed_net t e sv.
  Variable grad : nat -> agent_id -> vec -> vec.

  Lemma fstep_ok A sch k w d' st' : fed_round t e sv A sch k w = ((d', st'), Some tt) -> fstep (fed_round t e sv A sch k) w = ((d', st'), false).
  Proof. intro E. unfold fstep. now rewrite E. Qed.
  Lemma priv_untouched (st st' : net vec) i : priv_of (n_agents st' i) = priv_of (n_agents st i) -> untouched st st' i.
  Proof. intro E. unfold untouched. split; [now apply (f_equal v_x) in E|now apply (f_equal v_aux) in E]. Qed.
  Lemma took_part_lk st' st'' S P : (forall r c s, lk st'' r c s = lk st' r c s) -> took_part t e sv st' S P -> took_part t e sv st'' S P.
  Proof.
    intros L (A & B & C & D & E). split; auto. split; auto. split; auto. split; auto. intros i Hi. rewrite D by auto.
    split; intros (b & X); exists b; apply sees_lk; apply sees_lk in X; congruence.
  Qed.
  Lemma uploaded_lk st' st'' P c R : (forall r c s, lk st'' r c s = lk st' r c s) -> uploaded e sv st' P c R -> uploaded e sv st'' P c R.
  Proof.
    intros L (A & B & C & D). split; auto. split; auto. split; auto. intro i. rewrite C.
    split; intros (b & X); exists b; apply sees_lk; apply sees_lk in X; congruence.
  Qed.
  Lemma untouched_rest st st' st'' P p'' :
    (forall i, priv_of (n_agents st'' i) = if Nat.eqb i sv then p'' else priv_of (n_agents st' i)) ->
    (forall i, ~ In i P -> i <> sv -> priv_of (n_agents st' i) = priv_of (n_agents st i)) ->
    forall i, In i (agents t) -> ~ In i P -> untouched st st'' i.
  Proof.
    intros E N i Hi Hp. apply (agents_spec t e sv NET) in Hi. destruct Hi as (_ & Hs). apply priv_untouched. rewrite E.
    destruct (Nat.eqb_spec i sv); [contradiction|auto].
  Qed.
  Lemma cl_not_sv P S st' i : took_part t e sv st' S P -> In i P -> Nat.eqb i sv = false.
  Proof. intros (_ & A & B & _) Hi. apply A, B, (agents_spec t e sv NET) in Hi. apply Nat.eqb_neq. tauto. Qed.
  Lemma got_lk st' st'' i Bi b : (forall r c s, lk st'' r c s = lk st' r c s) -> lk st' i dflt sv = Some Bi -> (faithful e -> Bi = b) -> got e sv st'' i Bi b.
  Proof. intros L X Y. split; auto. apply sees_lk. now rewrite L. Qed.
  Lemma delivered_mv st' st'' c i us m : (forall r c s, lk st'' r c s = lk st' r c s) -> arrived e sv st' i us ->
    (forall w, In (c, w) us -> w = m) -> lk st' sv c i <> None -> delivered e sv st'' c i (mv sv st' c i) m.
  Proof.
    intros L A U N. unfold mv, delivered. destruct (lk st' sv c i) as [v|] eqn:E; [|congruence].
    split; [apply sees_lk; congruence|]. intro F. eapply (arrived_val e sv); eauto.
  Qed.

  (** algorithms whose clients upload their models and whose server averages *)
  Lemma average_round (A : fedalg) (Cl : agent_id -> vec -> vec -> Prop) sch k d st x :
    f_pre A = lret tt -> f_payload A = getx -> f_agg A = agg_average ->
    (forall i p b n, exists y nx n', f_client A i b (p, n) = Some ([(dflt, y)], (mkPriv (Some y) (v_aux p) nx, n')) /\ Cl i b y) ->
    proper sch -> state_is st sv x ->
    exists st' P R B Y M, round_result t e sv A sch k d d st st' P /\ uploaded e sv st' P dflt R /\
      (forall i, In i P -> got e sv st' i (B i) x /\ Cl i (B i) (Y i) /\ state_is st' i (Y i)) /\
      (forall i, In i R -> delivered e sv st' dflt i (M i) (Y i)) /\
      (R = [] -> state_is st' sv x) /\ (R <> [] -> state_is st' sv (mean_over R M)).
  Proof.
    intros E1 E2 E3 HC PR HX.
    destruct (round_ok t e sv NET A sch k d st (fun p => p = priv_of (n_agents st sv)) (fun p b => v_x p = Some b)
      (fun i b us p => exists y, us = [(dflt, y)] /\ v_x p = Some y /\ Cl i b y) PR) as
      (d1 & p0 & d' & st' & b & p & P & B & U & ER & EP & C & _ & _ & _ & Psv & Qp & Qb & TP & HP & HN & HL & HH).
    { rewrite E1. do 2 eexists. split; reflexivity. }
    { intros q n ->. rewrite E2. unfold getx. cbn [fst v_x priv_of]. rewrite HX. do 2 eexists. split; reflexivity. }
    { intros i Hi b n. destruct (HC i (priv_of (n_agents st i)) b n) as (y & nx & n' & X & Y). do 3 eexists. split; [exact X|].
      split; [repeat constructor; auto|]. exists y. auto. }
    rewrite E1 in EP. injection EP as _ <-. rewrite Qp in Psv, Qb. clear Qp p p0. cbn [v_x priv_of] in Qb. unfold state_is in HX. rewrite HX in Qb. injection Qb as <-.
    assert (H : forall i, In i P -> exists y, (U i = [(dflt, y)] /\ v_x (priv_of (n_agents st' i)) = Some y /\ Cl i (B i) y)).
    { intros i Hi. destruct (HP i Hi) as (_ & _ & (y & Hy) & _). eauto. }
    apply (choice_list _ vzero) in H. destruct H as (Y & HY).
    set (R := received (inbox_of st' sv) dflt P).
    assert (UP : uploaded e sv st' P dflt R).
    { apply (received_uploaded e sv) with (U := U); [apply TP| |auto]. intros i Hi. split; [apply HP; auto|].
      destruct (HY i Hi) as (-> & _). now left. }
    assert (AG : exists p'' n'', f_agg A P (inbox_of st' sv) (priv_of (n_agents st' sv), d') = Some (tt, (p'', n'')) /\
      (R = [] -> v_x p'' = Some x) /\ (R <> [] -> v_x p'' = Some (mean_over R (mv sv st' dflt)))).
    { rewrite E3. unfold agg_average. fold R. pose proof (received_msgs sv st' dflt P) as RM. fold R in RM.
      destruct R as [|i0 R0] eqn:ER0.
      - do 2 eexists. split; [reflexivity|]. split; [intros _|congruence]. rewrite Psv. exact HX.
      - rewrite <- ER0 in *. rewrite RM, uniform_mean. do 2 eexists. split; [reflexivity|]. split; [congruence|]. intros _. reflexivity. }
    destruct AG as (p'' & n'' & AG & A1 & A2).
    destruct (finish t sv A P d' st' _ p'' n'' C) as (st'' & F1 & F2 & F3 & F4 & F5); auto.
    { intros inb s. rewrite E3. reflexivity. }
    rewrite F1 in ER. exists st'', P, R, B, Y, (mv sv st' dflt).
    split; [|split; [|split; [|split; [|split]]]].
    - split; [exists n''; now apply fstep_ok|]. split; [eapply took_part_lk; eauto|]. eapply untouched_rest; eauto.
    - eapply uploaded_lk; eauto.
    - intros i Hi. destruct (HP i Hi) as (X1 & X2 & _ & _). destruct (HY i Hi) as (Y1 & Y2 & Y3).
      split; [eapply got_lk; eauto|]. split; auto. unfold state_is. specialize (F3 i). rewrite (cl_not_sv P _ st' i TP Hi) in F3.
      apply (f_equal v_x) in F3. cbn [v_x priv_of] in F3. rewrite F3. exact Y2.
    - intros i Hi. apply (received_In sv) in Hi. destruct Hi as (Hi & NL). destruct (HP i Hi) as (_ & _ & _ & X). destruct (HY i Hi) as (Y1 & _).
      eapply delivered_mv; eauto. rewrite Y1. intros w [[= <-]|[]]. reflexivity.
    - intro E. specialize (F3 sv). rewrite Nat.eqb_refl in F3. apply (f_equal v_x) in F3. unfold state_is. cbn [v_x priv_of] in F3. rewrite F3. auto.
    - intro E. specialize (F3 sv). rewrite Nat.eqb_refl in F3. apply (f_equal v_x) in F3. unfold state_is. cbn [v_x priv_of] in F3. rewrite F3. auto.
  Qed.

  Lemma fedavg_round sch K a k d st x : proper sch -> state_is st sv x ->
    exists st' P R B Y M, round_result t e sv (fedavg_alg grad K a) sch k d d st st' P /\ uploaded e sv st' P dflt R /\
      (forall i, In i P -> got e sv st' i (B i) x /\ (exists s, local_steps grad i (fun y g => vsub y (vscal a g)) K (B i) (Y i) s) /\ state_is st' i (Y i)) /\
      (forall i, In i R -> delivered e sv st' dflt i (M i) (Y i)) /\
      (R = [] -> state_is st' sv x) /\ (R <> [] -> state_is st' sv (mean_over R M)).
  Proof.
    intros PR HX.
    apply (average_round (fedavg_alg grad K a) (fun i b y => exists s, local_steps grad i (fun y g => vsub y (vscal a g)) K b y s)); auto.
    intros i p b n. destruct (ltimes_steps grad i (fun y g => vsub y (vscal a g)) K p n b) as (z & d' & E & L).
    exists z. do 2 eexists. cbn [f_client fedavg_alg]. unfold lbind at 1. rewrite E. split; [reflexivity|exact L].
  Qed.
  Lemma fedprox_round sch K a mu k d st x : proper sch -> state_is st sv x ->
    exists st' P R B Y M, round_result t e sv (fedprox_alg grad K a mu) sch k d d st st' P /\ uploaded e sv st' P dflt R /\
      (forall i, In i P -> got e sv st' i (B i) x /\
         (exists s, local_steps grad i (fun y g => vsub y (vscal a (vadd g (vscal mu (vsub y (B i)))))) K (B i) (Y i) s) /\ state_is st' i (Y i)) /\
      (forall i, In i R -> delivered e sv st' dflt i (M i) (Y i)) /\
      (R = [] -> state_is st' sv x) /\ (R <> [] -> state_is st' sv (mean_over R M)).
  Proof.
    intros PR HX.
    apply (average_round (fedprox_alg grad K a mu) (fun i b y => exists s, local_steps grad i (fun y g => vsub y (vscal a (vadd g (vscal mu (vsub y b))))) K b y s)); auto.
    intros i p b n. destruct (ltimes_steps grad i (fun y g => vsub y (vscal a (vadd g (vscal mu (vsub y b))))) K p n b) as (z & d' & E & L).
    exists z. do 2 eexists. cbn [f_client fedprox_alg]. unfold lbind at 1. rewrite E. split; [reflexivity|exact L].
  Qed.

  (** ** Any algorithm *)
  Definition some {A} (o : option A) : bool := match o with Some _ => true | None => false end.
  Definition recv (L : channel -> agent_id -> option vec) c P := filter (fun i => some (L c i)) P.
  Definition recv2 (L : channel -> agent_id -> option vec) c1 c2 P := filter (fun i => some (L c1 i) && some (L c2 i)) P.
  Definition mvl (L : channel -> agent_id -> option vec) c i : vec := match L c i with Some v => v | None => vzero end.
  Lemma dmem_some st c i : dmem Nat.eqb (inbox_of st sv c) i = some (lk st sv c i).
  Proof. unfold dmem. rewrite inbox_lk. destruct (lk st sv c i); reflexivity. Qed.
  Lemma received_recv st c P : received (inbox_of st sv) c P = recv (lk st sv) c P.
  Proof. unfold received, recv. apply filter_ext. intro i. apply dmem_some. Qed.
  Lemma msgs_recv st c P : (forall i, In i P -> lk st sv c i <> None) -> msgs_of (inbox_of st sv) c P = map (mvl (lk st sv) c) P.
  Proof. apply msgs_map. Qed.
  Lemma recv_In L c P i : In i (recv L c P) <-> In i P /\ L c i <> None.
  Proof using. clear. unfold recv. rewrite filter_In. destruct (L c i); cbn; intuition congruence. Qed.
  Lemma recv2_In L c1 c2 P i : In i (recv2 L c1 c2 P) <-> In i P /\ L c1 i <> None /\ L c2 i <> None.
  Proof using. clear. unfold recv2. rewrite filter_In. destruct (L c1 i), (L c2 i); cbn; intuition congruence. Qed.

  Lemma gen_round (A : fedalg) sch k d st (Qpre : priv -> Prop) (Qpay : priv -> vec -> Prop)
      (Qcli : agent_id -> vec -> list (channel * vec) -> priv -> Prop) (Qagg : (channel -> agent_id -> option vec) -> list agent_id -> priv -> priv -> Prop) :
    proper sch ->
    (exists p n', f_pre A (priv_of (n_agents st sv), d) = Some (tt, (p, n')) /\ Qpre p) ->
    (forall p n, Qpre p -> exists b n', f_payload A (p, n) = Some (b, (p, n')) /\ Qpay p b) ->
    (forall i, In i (agents t) -> forall b n, exists us p n', f_client A i b (priv_of (n_agents st i), n) = Some (us, (p, n')) /\ NoDup (map fst us) /\ Qcli i b us p) ->
    (forall inb s, f_agg A [] inb s = Some (tt, s)) ->
    (forall st' P U S, took_part t e sv st' S P -> (forall i, In i P -> arrived e sv st' i (U i) /\ exists b p, Qcli i b (U i) p) ->
       forall p n, Qpre p -> exists p'' n'', f_agg A P (inbox_of st' sv) (p, n) = Some (tt, (p'', n'')) /\ Qagg (lk st' sv) P p p'') ->
    exists d1 p0 st' b p P B U, 
      round_result t e sv A sch k d1 d st st' P /\
      f_pre A (priv_of (n_agents st sv), d) = Some (tt, (p0, d1)) /\
      Qpre p /\ Qpay p b /\ Qagg (lk st' sv) P p (priv_of (n_agents st' sv)) /\
      (forall i, In i P -> got e sv st' i (B i) b /\ Qcli i (B i) (U i) (priv_of (n_agents st' i)) /\ arrived e sv st' i (U i)) /\
      (forall i c, ~ In i P -> lk st' sv c i = None).
  Proof.
    intros PR H1 H2 H3 H4 H5.
    destruct (round_ok t e sv NET A sch k d st Qpre Qpay Qcli PR H1 H2 H3) as
      (d1 & p0 & d' & st' & b & p & P & B & U & ER & EP & C & _ & _ & _ & Psv & Qp & Qb & TP & HP & HN & HL & HH).
    destruct (H5 st' P U _ TP) with (p := p) (n := d') as (p'' & n'' & AG & QA); auto.
    { intros i Hi. destruct (HP i Hi) as (_ & _ & X & Y). eauto. }
    rewrite <- Psv in AG.
    destruct (finish t sv A P d' st' _ p'' n'' C) as (st'' & F1 & F2 & F3 & F4 & F5); auto.
    assert (LE : lk st'' sv = lk st' sv). { apply functional_extensionality. intro c. apply functional_extensionality. intro i. apply F4. }
    rewrite F1 in ER. exists d1, p0, st'', b, p, P, B, U. split; [|split; [exact EP|split; [exact Qp|split; [exact Qb|split; [|split]]]]].
    - split; [exists n''; now apply fstep_ok|]. split; [eapply took_part_lk; eauto|]. eapply untouched_rest; eauto.
    - rewrite LE. rewrite (F3 sv), Nat.eqb_refl. exact QA.
    - intros i Hi. destruct (HP i Hi) as (X1 & X2 & X3 & X4). split; [eapply got_lk; eauto|].
      rewrite (F3 i), (cl_not_sv P _ st' i TP Hi). split; auto. intro c. rewrite F4. apply X4.
    - intros i c Hi. rewrite F4. auto.
  Qed.
  Lemma recv_uploaded st c P U S : took_part t e sv st S P -> (forall i, In i P -> arrived e sv st i (U i) /\ In c (map fst (U i))) ->
    (forall i c, ~ In i P -> lk st sv c i = None) -> uploaded e sv st P c (recv (lk st sv) c P).
  Proof. intros TP A N. rewrite <- received_recv. apply (received_uploaded e sv) with (U := U); auto. apply TP. Qed.
  Lemma recv2_uploaded st c1 c2 P U S : took_part t e sv st S P ->
    (forall i, In i P -> arrived e sv st i (U i) /\ In c1 (map fst (U i)) /\ In c2 (map fst (U i))) ->
    (forall i c, ~ In i P -> lk st sv c i = None) -> uploaded2 e sv st P c1 c2 (recv2 (lk st sv) c1 c2 P).
  Proof.
    intros TP A N. assert (U1 := recv_uploaded st c1 P U S TP (fun i hi => conj (proj1 (A i hi)) (proj1 (proj2 (A i hi)))) N).
    assert (U2 := recv_uploaded st c2 P U S TP (fun i hi => conj (proj1 (A i hi)) (proj2 (proj2 (A i hi)))) N).
    destruct U1 as (X1 & X2 & X3 & X4), U2 as (Y1 & Y2 & Y3 & Y4).
    split; [apply NoDup_filter, TP|]. split; [intros i Hi; now apply recv2_In in Hi|]. split.
    - intro i. rewrite recv2_In, <- X3, <- Y3, !recv_In. tauto.
    - intro RE. assert (G : forall l, incl l P -> recv2 (lk st sv) c1 c2 l = l).
      { induction l as [|j l IH]; intro I; [reflexivity|]. unfold recv2 in *. cbn [filter].
        assert (j1 : In j (recv (lk st sv) c1 P)) by (rewrite X4 by auto; apply I; now left).
        assert (j2 : In j (recv (lk st sv) c2 P)) by (rewrite Y4 by auto; apply I; now left).
        apply recv_In in j1, j2. destruct (lk st sv c1 j); [|tauto]. destruct (lk st sv c2 j); [|tauto]. cbn [some andb]. f_equal.
        apply IH. intros y Hy. apply I. now right. }
      apply G, incl_refl.
  Qed.
  Lemma deliv st c i us m : arrived e sv st i us -> (forall w, In (c, w) us -> w = m) -> lk st sv c i <> None -> delivered e sv st c i (mvl (lk st sv) c i) m.
  Proof. intros. eapply (delivered_mv st st); eauto. Qed.
  Lemma priv_state st i x : v_x (priv_of (n_agents st i)) = Some x -> state_is st i x. Proof. auto. Qed.

  Lemma fedopt_round sch K a b1 eps eta Phi k d st x m v : proper sch -> state_is st sv x -> aux_is st sv "m" m -> aux_is st sv "v" v ->
    exists st' P R B Y M, round_result t e sv (fedopt_alg grad K a b1 eps eta Phi) sch k d d st st' P /\ uploaded e sv st' P dflt R /\
      (forall i, In i P -> got e sv st' i (B i) x /\ (exists s, local_steps grad i (fun y g => vsub y (vscal a g)) K (B i) (Y i) s) /\ state_is st' i (Y i)) /\
      (forall i, In i R -> delivered e sv st' dflt i (M i) (vsub (Y i) (B i))) /\
      (R = [] -> state_is st' sv x /\ aux_is st' sv "m" m /\ aux_is st' sv "v" v) /\
      (R <> [] -> let D := mean_over R M in let m' := vadd (vscal b1 m) (vscal (1 - b1) D) in let v' := Phi v D in
         aux_is st' sv "m" m' /\ aux_is st' sv "v" v' /\
         state_is st' sv (fun c => x c + eta * m' c / (sqrt (v' c) + eps))).
  Proof.
    intros PR HX Hm Hv. set (A := fedopt_alg grad K a b1 eps eta Phi).
    destruct (gen_round A sch k d st (fun p => p = priv_of (n_agents st sv)) (fun p b => v_x p = Some b)
      (fun i b us p => exists y, us = [(dflt, vsub y b)] /\ v_x p = Some y /\ exists s, local_steps grad i (fun y g => vsub y (vscal a g)) K b y s)
      (fun L P p p'' => let R := recv L dflt P in (R = [] -> p'' = p) /\
         (R <> [] -> let D := mean_over R (mvl L dflt) in let m' := vadd (vscal b1 m) (vscal (1 - b1) D) in let v' := Phi v D in
            dget String.eqb (v_aux p'') "m"%string = Some (AArr m') /\ dget String.eqb (v_aux p'') "v"%string = Some (AArr v') /\
            v_x p'' = Some (fun c => x c + eta * m' c / (sqrt (v' c) + eps)))) PR) as
      (d1 & p0 & st' & b & p & P & B & U & RR & EP & Qp & Qb & QA & HP & HL).
    { do 2 eexists. split; reflexivity. }
    { intros q n ->. cbn [A f_payload fedopt_alg]. unfold getx. cbn [fst v_x priv_of]. rewrite HX. do 2 eexists. split; reflexivity. }
    { intros i Hi b n. destruct (ltimes_steps grad i (fun y g => vsub y (vscal a g)) K (priv_of (n_agents st i)) n b) as (z & d' & E & L).
      do 3 eexists. cbn [A f_client fedopt_alg]. unfold lbind at 1. rewrite E. split; [reflexivity|]. split; [repeat constructor; auto|]. exists z. auto. }
    { intros inb s. reflexivity. }
    { intros st' P U S TP HU p n ->. cbn [A f_agg fedopt_alg]. unfold fedopt_agg. rewrite received_recv. set (R := recv (lk st' sv) dflt P). cbn zeta.
      assert (EM : msgs_of (inbox_of st' sv) dflt R = map (mvl (lk st' sv) dflt) R).
      { apply msgs_recv. intros i Hi. apply recv_In in Hi. tauto. }
      rewrite EM, uniform_mean. destruct R as [|i0 R0] eqn:ER0.
      - do 2 eexists. split; [reflexivity|]. split; [auto|congruence].
      - rewrite <- ER0 in *. unfold state_is, aux_is in *. do 2 eexists.
        unfold lbind, getx, aux, put, setx, priv_of. cbn [fst snd v_x v_aux v_nx]. rewrite HX. cbn [fst snd v_x v_aux v_nx]. repeat lstep. split; [reflexivity|].
        split; [congruence|]. intros _. cbn [v_aux v_x]. rewrite ?dg_same, ?dg_other by discriminate. rewrite dg_same. auto. }
    cbn [A f_pre fedopt_alg] in EP. injection EP as _ <-. subst p. cbn [v_x priv_of] in Qb. unfold state_is in HX. rewrite HX in Qb. injection Qb as <-.
    assert (H : forall i, In i P -> exists y, (U i = [(dflt, vsub y (B i))] /\ v_x (priv_of (n_agents st' i)) = Some y /\ exists s, local_steps grad i (fun y g => vsub y (vscal a g)) K (B i) y s)).
    { intros i Hi. destruct (HP i Hi) as (_ & X & _). exact X. }
    apply (choice_list _ vzero) in H. destruct H as (Y & HY).
    exists st', P, (recv (lk st' sv) dflt P), B, Y, (mvl (lk st' sv) dflt). cbn zeta in QA. destruct QA as (Q1 & Q2).
    split; [exact RR|]. split; [|split; [|split; [|split]]].
    - eapply recv_uploaded; [apply RR| |exact HL]. intros i Hi. split; [apply HP; auto|]. destruct (HY i Hi) as (-> & _). now left.
    - intros i Hi. destruct (HP i Hi) as (X1 & _). destruct (HY i Hi) as (_ & Y2 & Y3). auto.
    - intros i Hi. apply recv_In in Hi. destruct Hi as (Hi & NL). destruct (HP i Hi) as (_ & _ & X). destruct (HY i Hi) as (Y1 & _).
      eapply deliv; eauto. rewrite Y1. intros w [[= <-]|[]]. reflexivity.
    - intro E. specialize (Q1 E). unfold state_is, aux_is. 
      split; [now rewrite <- HX; apply (f_equal v_x) in Q1|]. split; [rewrite <- Hm|rewrite <- Hv]; apply (f_equal v_aux) in Q1; cbn [v_aux priv_of] in Q1; now rewrite Q1.
    - intro E. destruct (Q2 E) as (Z1 & Z2 & Z3). unfold state_is, aux_is. auto.
  Qed.

  Lemma vrow0_stack u v : vrow0 (vstack u v) = u.
  Proof.
    apply functional_extensionality. intro n. unfold vrow0, vstack. replace (Nat.even (2 * n)) with true.
    - now rewrite Nat.div2_double.
    - symmetry. apply Nat.even_spec. now exists n.
  Qed.
  Lemma vrow1_stack u v : vrow1 (vstack u v) = v.
  Proof.
    apply functional_extensionality. intro n. unfold vrow1, vstack. rewrite Nat.even_succ.
    replace (Nat.odd (2 * n)) with false.
    - now rewrite Nat.div2_succ_double.
    - symmetry. unfold Nat.odd. replace (Nat.even (2 * n)) with true; [reflexivity|]. symmetry. apply Nat.even_spec. now exists n.
  Qed.

  Lemma scaffold_round sch K a eta k d st x c (ci : agent_id -> vec) : proper sch ->
    state_is st sv x -> aux_is st sv "c" c -> (forall i, In i (agents t) -> aux_is st i "c_i" (ci i)) ->
    exists st' P R B Y MD MC, round_result t e sv (scaffold_alg t grad K a eta) sch k d d st st' P /\ uploaded2 e sv st' P cm cc R /\
      (let cn := fun i => vadd (vsub (ci i) (vrow1 (B i))) (vscal (/ (INR K * a)) (vsub (vrow0 (B i)) (Y i))) in
       (forall i, In i P -> got e sv st' i (B i) (vstack x c) /\
          (exists s, local_steps grad i (fun y g => vsub y (vscal a (vadd (vsub g (ci i)) (vrow1 (B i))))) K (vrow0 (B i)) (Y i) s) /\
          state_is st' i (Y i) /\ aux_is st' i "c_i" (cn i)) /\
       (forall i, In i R -> delivered e sv st' cm i (MD i) (vsub (Y i) (vrow0 (B i))) /\ delivered e sv st' cc i (MC i) (vsub (cn i) (ci i)))) /\
      (R = [] -> state_is st' sv x /\ aux_is st' sv "c" c) /\
      (R <> [] -> state_is st' sv (vadd x (vscal eta (mean_over R MD))) /\
                  aux_is st' sv "c" (vadd c (vscal (INR (length R) / INR (length (agents t))) (mean_over R MC)))).
  Proof.
    intros PR HX Hc Hi0. set (A := scaffold_alg t grad K a eta).
    set (cnf := fun (i : agent_id) (b y : vec) => vadd (vsub (ci i) (vrow1 b)) (vscal (/ (INR K * a)) (vsub (vrow0 b) y))).
    destruct (gen_round A sch k d st (fun p => p = priv_of (n_agents st sv)) (fun p b => b = vstack x c)
      (fun i b us p => exists y, us = [(cm, vsub y (vrow0 b)); (cc, vsub (cnf i b y) (ci i))] /\ v_x p = Some y /\
          dget String.eqb (v_aux p) "c_i"%string = Some (AArr (cnf i b y)) /\
          exists s, local_steps grad i (fun y g => vsub y (vscal a (vadd (vsub g (ci i)) (vrow1 b)))) K (vrow0 b) y s)
      (fun L P p p'' => let R := recv2 L cm cc P in (R = [] -> p'' = p) /\
         (R <> [] -> v_x p'' = Some (vadd x (vscal eta (mean_over R (mvl L cm)))) /\
            dget String.eqb (v_aux p'') "c"%string = Some (AArr (vadd c (vscal (INR (length R) / INR (length (agents t))) (mean_over R (mvl L cc))))))) PR) as
      (d1 & p0 & st' & b & p & P & B & U & RR & EP & Qp & Qb & QA & HP & HL).
    { do 2 eexists. split; reflexivity. }
    { intros q n ->. cbn [A f_payload scaffold_alg]. unfold state_is, aux_is in *. unfold lbind, getx, aux, lret. cbn [fst snd v_x v_aux priv_of].
      rewrite HX. cbn [fst snd v_x v_aux priv_of]. rewrite Hc. do 2 eexists. split; reflexivity. }
    { intros i Hi b n. specialize (Hi0 i Hi). unfold aux_is in Hi0.
      destruct (ltimes_steps grad i (fun y g => vsub y (vscal a (vadd (vsub g (ci i)) (vrow1 b)))) K (priv_of (n_agents st i)) n (vrow0 b)) as (z & d' & E & L).
      do 3 eexists. cbn [A f_client scaffold_alg]. unfold scaffold_client, lbind at 1, aux at 1. cbn [fst snd v_aux priv_of]. rewrite Hi0.
      unfold lbind at 1. change (priv_of (n_agents st i)) with (mkPriv (a_x (n_agents st i)) (a_aux (n_agents st i)) (a_nx (n_agents st i))) in E.
      unfold priv_of. rewrite E. unfold lbind, put, setx, lret. cbn [fst snd v_x v_aux v_nx]. split; [reflexivity|].
      split; [repeat constructor; cbn; intuition discriminate|]. exists z. split; [reflexivity|]. split; [reflexivity|]. cbn [v_aux].
      rewrite dg_other by discriminate. rewrite dg_same. split; [reflexivity|]. exact L. }
    { intros inb s. reflexivity. }
    { intros st' P U S TP HU p n ->. cbn [A f_agg scaffold_alg]. unfold scaffold_agg.
      replace (filter (fun i => dmem Nat.eqb (inbox_of st' sv cm) i && dmem Nat.eqb (inbox_of st' sv cc) i) P) with (recv2 (lk st' sv) cm cc P).
      2:{ unfold recv2. apply filter_ext. intro i. now rewrite !dmem_some. }
      set (R := recv2 (lk st' sv) cm cc P). cbn zeta.
      assert (EM : msgs_of (inbox_of st' sv) cm R = map (mvl (lk st' sv) cm) R).
      { apply msgs_recv. intros i Hi. apply recv2_In in Hi. tauto. }
      assert (EC : msgs_of (inbox_of st' sv) cc R = map (mvl (lk st' sv) cc) R).
      { apply msgs_recv. intros i Hi. apply recv2_In in Hi. tauto. }
      rewrite EM, EC, !uniform_mean. destruct R as [|i0 R0] eqn:ER0.
      - do 2 eexists. split; [reflexivity|]. split; [auto|congruence].
      - rewrite <- ER0 in *. unfold state_is, aux_is in *. do 2 eexists.
        unfold lbind, getx, aux, put, setx, priv_of. cbn [fst snd v_x v_aux v_nx]. rewrite HX. cbn [fst snd v_x v_aux v_nx]. repeat lstep. split; [reflexivity|].
        split; [congruence|]. intros _. cbn [v_aux v_x]. rewrite dg_same. auto. }
    cbn [A f_pre scaffold_alg] in EP. injection EP as _ <-. subst p b.
    assert (H : forall i, In i P -> exists y, (U i = [(cm, vsub y (vrow0 (B i))); (cc, vsub (cnf i (B i) y) (ci i))] /\ v_x (priv_of (n_agents st' i)) = Some y /\
          dget String.eqb (v_aux (priv_of (n_agents st' i))) "c_i"%string = Some (AArr (cnf i (B i) y)) /\
          exists s, local_steps grad i (fun y g => vsub y (vscal a (vadd (vsub g (ci i)) (vrow1 (B i))))) K (vrow0 (B i)) y s)).
    { intros i Hi. destruct (HP i Hi) as (_ & X & _). exact X. }
    apply (choice_list _ vzero) in H. destruct H as (Y & HY).
    exists st', P, (recv2 (lk st' sv) cm cc P), B, Y, (mvl (lk st' sv) cm), (mvl (lk st' sv) cc). cbn zeta in QA. destruct QA as (Q1 & Q2).
    split; [exact RR|]. split; [|split; [split|split]].
    - eapply recv2_uploaded; [apply RR| |exact HL]. intros i Hi. split; [apply HP; auto|]. destruct (HY i Hi) as (-> & _). cbn; auto.
    - intros i Hi. destruct (HP i Hi) as (X1 & _). destruct (HY i Hi) as (_ & Y2 & Y3 & Y4). auto.
    - intros i Hi. apply recv2_In in Hi. destruct Hi as (Hi & NL & NL2). destruct (HP i Hi) as (_ & _ & X). destruct (HY i Hi) as (Y1 & _).
      split; eapply deliv; eauto; rewrite Y1; intros w [E|[E|[]]]; try discriminate E; injection E as <-; reflexivity.
    - intro E. specialize (Q1 E). unfold state_is, aux_is in *.
      split; [now rewrite <- HX; apply (f_equal v_x) in Q1|]. rewrite <- Hc; apply (f_equal v_aux) in Q1; cbn [v_aux priv_of] in Q1; now rewrite Q1.
    - intro E. destruct (Q2 E) as (Z1 & Z2). unfold state_is, aux_is. auto.
  Qed.

  Lemma dsum_fold (x : vec) (ms : list vec) : forall acc, fold_left (fun s m => vadd s (vsub m x)) ms acc = fun c => acc c + rsum (map (fun m : vec => m c - x c) ms).
  Proof.
    induction ms as [|v vs IH]; intro acc; cbn [fold_left map].
    - apply functional_extensionality. intro c. rewrite rsum_nil. lra.
    - rewrite IH. apply functional_extensionality. intro c. rewrite rsum_cons. unfold vadd, vsub. ring.
  Qed.
  Lemma feddyn_round sch K a al k d st x h (g0 : agent_id -> vec) : proper sch ->
    state_is st sv x -> aux_is st sv "h" h -> (forall i, In i (agents t) -> aux_is st i "g" (g0 i)) ->
    exists st' P R B Y M, round_result t e sv (feddyn_alg t grad K a al) sch k d d st st' P /\ uploaded e sv st' P dflt R /\
      (forall i, In i P -> got e sv st' i (B i) x /\
          (exists s, local_steps grad i (fun y g => vsub y (vscal a (vadd (vsub g (g0 i)) (vscal al (vsub y (B i)))))) K (B i) (Y i) s) /\
          state_is st' i (Y i) /\ aux_is st' i "g" (vsub (g0 i) (vscal al (vsub (Y i) (B i))))) /\
      (forall i, In i R -> delivered e sv st' dflt i (M i) (Y i)) /\
      (R = [] -> state_is st' sv x /\ aux_is st' sv "h" h) /\
      (R <> [] -> let h' := vsub h (vscal (al / INR (length (agents t))) (sum_over R (fun i => vsub (M i) x))) in
                  aux_is st' sv "h" h' /\ state_is st' sv (vsub (mean_over R M) (vscal (/ al) h'))).
  Proof.
    intros PR HX Hh Hg. set (A := feddyn_alg t grad K a al).
    destruct (gen_round A sch k d st (fun p => p = priv_of (n_agents st sv)) (fun p b => v_x p = Some b)
      (fun i b us p => exists y, us = [(dflt, y)] /\ v_x p = Some y /\
          dget String.eqb (v_aux p) "g"%string = Some (AArr (vsub (g0 i) (vscal al (vsub y b)))) /\
          exists s, local_steps grad i (fun y g => vsub y (vscal a (vadd (vsub g (g0 i)) (vscal al (vsub y b))))) K b y s)
      (fun L P p p'' => let R := recv L dflt P in (R = [] -> p'' = p) /\
         (R <> [] -> let h' := vsub h (vscal (al / INR (length (agents t))) (sum_over R (fun i => vsub (mvl L dflt i) x))) in
            dget String.eqb (v_aux p'') "h"%string = Some (AArr h') /\ v_x p'' = Some (vsub (mean_over R (mvl L dflt)) (vscal (/ al) h')))) PR) as
      (d1 & p0 & st' & b & p & P & B & U & RR & EP & Qp & Qb & QA & HP & HL).
    { do 2 eexists. split; reflexivity. }
    { intros q n ->. cbn [A f_payload feddyn_alg]. unfold getx. cbn [fst v_x priv_of]. rewrite HX. do 2 eexists. split; reflexivity. }
    { intros i Hi b n. specialize (Hg i Hi). unfold aux_is in Hg.
      destruct (ltimes_steps grad i (fun y g => vsub y (vscal a (vadd (vsub g (g0 i)) (vscal al (vsub y b))))) K (priv_of (n_agents st i)) n b) as (z & d' & E & L).
      do 3 eexists. cbn [A f_client feddyn_alg]. unfold feddyn_client, lbind at 1, aux at 1. cbn [fst snd v_aux priv_of]. rewrite Hg.
      unfold lbind at 1. change (priv_of (n_agents st i)) with (mkPriv (a_x (n_agents st i)) (a_aux (n_agents st i)) (a_nx (n_agents st i))) in E.
      unfold priv_of. rewrite E. unfold lbind, aux, put, setx, lret. cbn [fst snd v_x v_aux v_nx]. rewrite Hg. split; [reflexivity|].
      split; [repeat constructor; cbn; intuition discriminate|]. exists z. split; [reflexivity|]. split; [reflexivity|]. cbn [fst snd v_aux].
      rewrite dg_same. split; [reflexivity|]. exact L. }
    { intros inb s. reflexivity. }
    { intros st' P U S TP HU p n ->. cbn [A f_agg feddyn_alg]. unfold feddyn_agg. rewrite received_recv. set (R := recv (lk st' sv) dflt P). cbn zeta.
      assert (EM : msgs_of (inbox_of st' sv) dflt R = map (mvl (lk st' sv) dflt) R).
      { apply msgs_recv. intros i Hi. apply recv_In in Hi. tauto. }
      rewrite EM, uniform_mean. destruct R as [|i0 R0] eqn:ER0.
      - do 2 eexists. split; [reflexivity|]. split; [auto|congruence].
      - rewrite <- ER0 in *. unfold state_is, aux_is in *. do 2 eexists.
        unfold lbind, getx, aux, put, setx, priv_of. cbn [fst snd v_x v_aux v_nx]. rewrite HX. cbn [fst snd v_x v_aux v_nx]. repeat lstep. split; [reflexivity|].
        split; [congruence|]. intros _. cbn [v_aux v_x]. rewrite dg_same.
        assert (EH : vsub h (vscal (/ INR (length (agents t))) (vscal al (fold_left (fun s m => vadd s (vsub m x)) (map (mvl (lk st' sv) dflt) R) vzero))) =
                     vsub h (vscal (al / INR (length (agents t))) (sum_over R (fun i => vsub (mvl (lk st' sv) dflt i) x)))).
        { rewrite dsum_fold. apply functional_extensionality. intro n0. unfold vsub, vscal, sum_over. rewrite map_map. unfold vzero, Rdiv. ring. }
        rewrite <- EH. auto. }
    cbn [A f_pre feddyn_alg] in EP. injection EP as _ <-. subst p. cbn [v_x priv_of] in Qb. unfold state_is in HX. rewrite HX in Qb. injection Qb as <-.
    assert (H : forall i, In i P -> exists y, (U i = [(dflt, y)] /\ v_x (priv_of (n_agents st' i)) = Some y /\
          dget String.eqb (v_aux (priv_of (n_agents st' i))) "g"%string = Some (AArr (vsub (g0 i) (vscal al (vsub y (B i))))) /\
          exists s, local_steps grad i (fun y g => vsub y (vscal a (vadd (vsub g (g0 i)) (vscal al (vsub y (B i)))))) K (B i) y s)).
    { intros i Hi. destruct (HP i Hi) as (_ & X & _). exact X. }
    apply (choice_list _ vzero) in H. destruct H as (Y & HY).
    exists st', P, (recv (lk st' sv) dflt P), B, Y, (mvl (lk st' sv) dflt). cbn zeta in QA. destruct QA as (Q1 & Q2).
    split; [exact RR|]. split; [|split; [|split; [|split]]].
    - eapply recv_uploaded; [apply RR| |exact HL]. intros i Hi. split; [apply HP; auto|]. destruct (HY i Hi) as (-> & _). now left.
    - intros i Hi. destruct (HP i Hi) as (X1 & _). destruct (HY i Hi) as (_ & Y2 & Y3 & Y4). auto.
    - intros i Hi. apply recv_In in Hi. destruct Hi as (Hi & NL). destruct (HP i Hi) as (_ & _ & X). destruct (HY i Hi) as (Y1 & _).
      eapply deliv; eauto. rewrite Y1. intros w [[= <-]|[]]. reflexivity.
    - intro E. specialize (Q1 E). unfold state_is, aux_is in *.
      split; [now rewrite <- HX; apply (f_equal v_x) in Q1|]. rewrite <- Hh; apply (f_equal v_aux) in Q1; cbn [v_aux priv_of] in Q1; now rewrite Q1.
    - intro E. destruct (Q2 E) as (Z1 & Z2). unfold state_is, aux_is. auto.
  Qed.

  (** ** FedNova *)
  Lemma nova_steps_ok i a beta mu ref n : forall p d s, exists s' d', nova_steps grad n a beta mu i ref s (p, d) = Some (s', (p, d')) /\
    nova_path grad i a beta mu ref n (nv_x s) (nv_mom s) (nv_x s') /\
    (forall c, nv_cum s' c = nv_cum s c + nv_x s c - nv_x s' c) /\
    forall m, (nv_a s, nv_s s) = nova_coeff a beta mu m -> (nv_a s', nv_s s') = nova_coeff a beta mu (n + m)%nat.
  Proof.
    induction n as [|n IH]; intros p d s.
    - exists s, d. split; [reflexivity|]. split; [constructor|]. split; [intro; ring|]. auto.
    - cbn [nova_steps]. unfold lbind at 1, nova_step, lbind at 1, gradient, lret. cbn [fst snd].
      match goal with |- context [nova_steps grad n a beta mu i ref ?s1 (p, S d)] => destruct (IH p (S d) s1) as (s' & d' & E & X1 & X2 & X3) end.
      exists s', d'. split; [exact E|]. cbn [nv_x nv_mom nv_cum nv_a nv_s] in *. split; [|split].
      + eapply np_cons; [exists d; reflexivity|reflexivity|]. cbn zeta. destruct beta as [be|]; [exact X1|].
        clear - X1. revert X1. set (g := match mu with Some mu => _ | None => _ end). clearbody g. 
        (* without momentum the momentum argument is irrelevant *)
        intro X1. remember (vsub (nv_x s) (vscal a g)) as y eqn:Ey. clear Ey.
        assert (G : forall n x m1 m2 z, nova_path grad i a None mu ref n x m1 z -> nova_path grad i a None mu ref n x m2 z).
        { clear. induction n as [|n IHn]; intros x m1 m2 z H; inversion H; subst; [constructor|]. econstructor; [eassumption|reflexivity|].
          assumption. }
        eapply G. exact X1.
      + intro c. rewrite X2. unfold vadd, vsub. ring.
      + intros m Em. replace (S n + m)%nat with (n + S m)%nat by lia. apply X3. cbn [nova_coeff]. rewrite <- Em. destruct beta, mu; reflexivity.
  Qed.
  Lemma combine_map {A B C} (f : A -> B) (g : A -> C) l : combine (map f l) (map g l) = map (fun x => (f x, g x)) l.
  Proof. induction l as [|a l IH]; [reflexivity|]. cbn [map combine]. now rewrite IH. Qed.
  Lemma nova_agg_eq (count : agent_id -> R) (mn mg : agent_id -> vec) l :
    let counts := map count l in let total := rsum counts in let ws := map (fun n => n / total) counts in
    let avals := map (fun m : nat -> R => m O) (map mn l) in
    let tau := rsum (map (fun p => fst p * snd p) (combine ws avals)) in
    let terms := map (fun p : vec * R * R => vscal (snd p * (tau / snd (fst p))) (fst (fst p))) (combine (combine (map mg l) avals) ws) in
    fold_left vadd terms vzero = nova_aggregate count (fun i => mn i O) mg l.
  Proof.
    cbn zeta. rewrite !map_map, !combine_map, !map_map. cbn [fst snd]. rewrite vsum_over.
    apply functional_extensionality. intro c. unfold sum_over, nova_aggregate, vscal. reflexivity.
  Qed.
  Lemma nova_aggregate_ext count A A' c c' R : (forall i, In i R -> A i = A' i /\ c i = c' i) -> nova_aggregate count A c R = nova_aggregate count A' c' R.
  Proof.
    intro H. unfold nova_aggregate. apply functional_extensionality. intro n.
    assert (E : map (fun i => count i / rsum (map count R) * A i) R = map (fun i => count i / rsum (map count R) * A' i) R).
    { apply map_ext_in. intros i Hi. destruct (H i Hi) as (-> & _). reflexivity. }
    rewrite E. f_equal. apply map_ext_in. intros i Hi. destruct (H i Hi) as (-> & ->). reflexivity.
  Qed.

  Lemma fednova_round sch steps count a beta mu smom k d st x : proper sch -> faithful e ->
    (forall i, In i (agents t) -> 0 < fst (nova_coeff a beta mu (steps i))) ->
    state_is st sv x -> 
    (forall ga, smom = Some ga -> exists m, aux_is st sv "m" m) ->
    exists st' P R Y, round_result t e sv (fednova_alg grad steps count a beta mu smom) sch k d d st st' P /\ uploaded2 e sv st' P cn cg R /\
      (forall i, In i P -> got e sv st' i x x /\ nova_path grad i a beta mu x (steps i) x vzero (Y i) /\ state_is st' i (Y i)) /\
      (forall i, In i R -> sees st' sv i cg (vsub x (Y i))) /\
      (R = [] -> state_is st' sv x /\ forall m, aux_is st sv "m" m -> aux_is st' sv "m" m) /\
      (R <> [] -> let G := nova_aggregate count (fun i => fst (nova_coeff a beta mu (steps i))) (fun i => vsub x (Y i)) R in
         match smom with
         | None => state_is st' sv (vsub x G)
         | Some ga => forall m, aux_is st sv "m" m -> aux_is st' sv "m" (vadd (vscal ga m) G) /\ state_is st' sv (vsub x (vadd (vscal ga m) G))
         end).
  Proof.
    intros PR FA POS HX Hm. set (A := fednova_alg grad steps count a beta mu smom).
    destruct (gen_round A sch k d st (fun p => p = priv_of (n_agents st sv)) (fun p b => v_x p = Some b)
      (fun i b us p => exists y, us = [(cn, one_entry (fst (nova_coeff a beta mu (steps i)))); (cg, vsub b y)] /\ v_x p = Some y /\
          nova_path grad i a beta mu b (steps i) b vzero y)
      (fun L P p p'' => let R := recv2 L cn cg P in (R = [] -> p'' = p) /\
         (R <> [] -> let G := nova_aggregate count (fun i => fst (nova_coeff a beta mu (steps i))) (mvl L cg) R in
            match smom with
            | None => v_x p'' = Some (vsub x G)
            | Some ga => forall m, aux_is st sv "m" m -> dget String.eqb (v_aux p'') "m"%string = Some (AArr (vadd (vscal ga m) G)) /\ v_x p'' = Some (vsub x (vadd (vscal ga m) G))
            end)) PR) as
      (d1 & p0 & st' & b & p & P & B & U & RR & EP & Qp & Qb & QA & HP & HL).
    { do 2 eexists. split; reflexivity. }
    { intros q n ->. cbn [A f_payload fednova_alg]. unfold getx. cbn [fst v_x priv_of]. rewrite HX. do 2 eexists. split; reflexivity. }
    { intros i Hi b n. destruct (nova_steps_ok i a beta mu b (steps i) (priv_of (n_agents st i)) n (mkNova b vzero vzero 0 0)) as (s' & d' & E & X1 & X2 & X3).
      do 3 eexists. cbn [A f_client fednova_alg]. unfold fednova_client, lbind at 1. rewrite E. split; [reflexivity|].
      split; [repeat constructor; cbn; intuition discriminate|]. exists (nv_x s'). cbn [nv_x nv_mom nv_cum nv_a nv_s] in *. specialize (X3 O eq_refl). rewrite Nat.add_0_r in X3.
      split; [|split; [reflexivity|exact X1]]. rewrite <- X3. cbn [fst]. replace (nv_cum s') with (vsub b (nv_x s')); [reflexivity|].
      apply functional_extensionality. intro c. rewrite X2. unfold vsub, vzero. ring. }
    { intros inb s. reflexivity. }
    { intros st' P U S TP HU p n ->. cbn [A f_agg fednova_alg]. unfold fednova_agg.
      replace (filter (fun i => dmem Nat.eqb (inbox_of st' sv cn) i && dmem Nat.eqb (inbox_of st' sv cg) i) P) with (recv2 (lk st' sv) cn cg P).
      2:{ unfold recv2. apply filter_ext. intro i. now rewrite !dmem_some. }
      set (R := recv2 (lk st' sv) cn cg P). cbn zeta.
      assert (EN : msgs_of (inbox_of st' sv) cn R = map (mvl (lk st' sv) cn) R).
      { apply msgs_recv. intros i Hi. apply recv2_In in Hi. tauto. }
      assert (EC : msgs_of (inbox_of st' sv) cg R = map (mvl (lk st' sv) cg) R).
      { apply msgs_recv. intros i Hi. apply recv2_In in Hi. tauto. }
      assert (VN : forall i, In i R -> mvl (lk st' sv) cn i O = fst (nova_coeff a beta mu (steps i)) /\ 0 < fst (nova_coeff a beta mu (steps i))).
      { intros i Hi. apply recv2_In in Hi. destruct Hi as (Hi & N1 & _). split.
        - destruct (HU i Hi) as (AR & b & p & y & EU & _). unfold mvl. destruct (lk st' sv cn i) as [v|] eqn:EL; [|congruence].
          rewrite (arrived_val e sv st' i (U i) cn (one_entry (fst (nova_coeff a beta mu (steps i)))) v); auto.
          rewrite EU. intros w [E|[E|[]]]; [now injection E as <-|discriminate].
        - apply POS. destruct TP as (_ & I1 & I2 & _). auto. }
      rewrite EN, EC. destruct R as [|i0 R0] eqn:ER0.
      - do 2 eexists. split; [reflexivity|]. split; [auto|congruence].
      - rewrite <- ER0 in *. pose proof (nova_agg_eq count (mvl (lk st' sv) cn) (mvl (lk st' sv) cg) R) as NA. cbn zeta in NA.
        unfold lbind at 1, getx at 1. cbn [fst v_x priv_of]. unfold state_is in HX. rewrite HX.
        replace (existsb _ _) with false.
        2:{ symmetry. apply not_true_iff_false. intro EX. apply existsb_exists in EX. destruct EX as (r & I & Q). rewrite map_map in I. apply in_map_iff in I.
            destruct I as (i & <- & Hi). destruct (VN i Hi) as (V1 & V2). rewrite V1 in Q. destruct (Rle_dec _ 0); [lra|discriminate]. }
        rewrite NA. rewrite (nova_aggregate_ext count _ (fun i => fst (nova_coeff a beta mu (steps i))) _ (mvl (lk st' sv) cg)) by (intros i Hi; split; [apply VN; auto|auto]).
        destruct smom as [ga|].
        + destruct (Hm ga eq_refl) as (m & Hm'). unfold aux_is in *. do 2 eexists.
          unfold lbind, getx, aux, put, setx, priv_of. cbn [fst snd v_x v_aux v_nx]. repeat lstep. split; [reflexivity|].
          split; [congruence|]. intros _ m0 Em0.
          injection Em0 as <-. cbn [v_aux v_x]. rewrite dg_same. auto.
        + do 2 eexists. split; [reflexivity|]. split; [congruence|]. intros _. reflexivity. }
    cbn [A f_pre fednova_alg] in EP. injection EP as _ <-. subst p. cbn [v_x priv_of] in Qb. unfold state_is in HX. rewrite HX in Qb. injection Qb as <-.
    assert (H : forall i, In i P -> exists y, (U i = [(cn, one_entry (fst (nova_coeff a beta mu (steps i)))); (cg, vsub x y)] /\ v_x (priv_of (n_agents st' i)) = Some y /\
          nova_path grad i a beta mu x (steps i) x vzero y)).
    { intros i Hi. destruct (HP i Hi) as ((_ & G) & X & _). rewrite (G FA) in X. exact X. }
    apply (choice_list _ vzero) in H. destruct H as (Y & HY).
    exists st', P, (recv2 (lk st' sv) cn cg P), Y. cbn zeta in QA. destruct QA as (Q1 & Q2).
    assert (VG : forall i, In i (recv2 (lk st' sv) cn cg P) -> lk st' sv cg i = Some (vsub x (Y i))).
    { intros i Hi. apply recv2_In in Hi. destruct Hi as (Hi & NL & NL2). destruct (HP i Hi) as (_ & _ & X). destruct (HY i Hi) as (Y1 & _).
      destruct (lk st' sv cg i) as [v|] eqn:EL; [|congruence]. f_equal. apply (arrived_val e sv st' i (U i) cg _ v); auto.
      rewrite Y1. intros w [E|[E|[]]]; [discriminate|now injection E as <-]. }
    split; [exact RR|]. split; [|split; [|split; [|split]]].
    - eapply recv2_uploaded; [apply RR| |exact HL]. intros i Hi. split; [apply HP; auto|]. destruct (HY i Hi) as (-> & _). cbn; auto.
    - intros i Hi. destruct (HP i Hi) as ((X0 & X1) & _). destruct (HY i Hi) as (_ & Y2 & Y3). rewrite (X1 FA) in X0. split; [split; auto|]. auto.
    - intros i Hi. apply sees_lk. auto.
    - intro E. specialize (Q1 E). unfold state_is, aux_is in *.
      split; [now rewrite <- HX; apply (f_equal v_x) in Q1|]. intros m <-. apply (f_equal v_aux) in Q1; cbn [v_aux priv_of] in Q1; now rewrite Q1.
    - intro E. specialize (Q2 E).
      rewrite (nova_aggregate_ext count _ (fun i => fst (nova_coeff a beta mu (steps i))) _ (fun i => vsub x (Y i))) in Q2.
      2:{ intros i Hi. split; auto. unfold mvl. now rewrite (VG i Hi). }
      destruct smom as [ga|]; [|exact Q2]. intros G m Em. subst G. destruct (Q2 m Em). split; auto.
  Qed.
End Steps.
